(** The simplifications of SpecSimpler. *)
From Coq Require Import Lia.
From Verif Require Import SpecSimpler SpecSame SpecVerdict SpecTyping ParserModule ValidatorModule TypingProof ModuleValidProof DialectValidProof ValidityClaims
  ReplaceProof ExecProof InstProof LoopProof.
From Verif Require SameProof InlineExecProof.
Open Scope N_scope.

Lemma last_eq {A} (a b : list A) x y : a ++ [x] = b ++ [y] -> a = b /\ x = y.
Proof. apply app_inj_tail. Qed.
Ltac peel H := apply seq_cons_inv in H as (? & ? & ? & ? & ? & H).
Lemma simpler_types al C e1 e2 ts ts' : simpler e1 e2 -> seq_type al C e1 ts ts' -> seq_type al C e2 ts ts'.
Proof.
  intros H K. destruct H.
  1-5: peel K; peel K; apply seq_nil_inv in K; subst;
    repeat match goal with E : instr_type _ _ ?i _ _ |- _ => inversion E; subst; try discriminate; clear E end;
    match goal with E : _ ++ [_] = _ ++ [_] |- _ => apply last_eq in E as [-> E]; subst end; rewrite ?app_nil_r.
  - apply S_nil.
  - apply S_nil.
  - rewrite <- (app_nil_r x3) at 2. eapply seq_cons; [apply T_local_set; eassumption|]. apply S_nil.
  - rewrite <- (app_nil_r x3) at 2. eapply seq_cons; [apply T_local_set; eassumption|]. apply S_nil.
  - eapply seq_cons; [apply T_local_tee; eassumption|]. apply S_nil.
  - peel K. apply seq_nil_inv in K. subst. match goal with E : instr_type _ _ ?i _ _ |- _ => inversion E; subst; try discriminate end.
    eapply seq_cons; [apply T_drop|]. eapply seq_cons; [apply T_block; eassumption|]. apply S_nil.
  - peel K. apply seq_nil_inv in K. subst. match goal with E : instr_type _ _ ?i _ _ |- _ => inversion E; subst; try discriminate end.
    eapply seq_cons; [apply T_drop|]. apply S_nil.
  - peel K. subst. match goal with E : instr_type _ _ ?i _ _ |- _ => inversion E; subst; try discriminate end.
    eapply seq_cons; [|exact K]. match goal with F : Forall _ (_ ++ _) |- _ => apply Forall_app in F as [F _] end. apply T_br_table; assumption.
  - peel K. apply seq_nil_inv in K. subst. match goal with E : instr_type _ _ ?i _ _ |- _ => inversion E; subst; try discriminate end.
    rewrite !app_assoc. eapply seq_cons; [apply T_drop|]. rewrite app_nil_r, <- app_assoc.
    eapply seq_cons; [apply T_br; eassumption|]. apply S_nil.
  - peel K. apply seq_nil_inv in K. subst. match goal with E : instr_type _ _ ?i _ _ |- _ => inversion E; subst; try discriminate end. apply S_nil.
  - peel K. apply seq_nil_inv in K. subst. match goal with E : instr_type _ _ ?i _ _ |- _ => inversion E; subst; try discriminate end. apply S_nil.
Qed.
Theorem simpler_official m fs ty L p e1 e2 gs : simpler e1 e2 ->
  valid_module wasm10_validity (with_body m fs ty L (put p e1) gs) -> valid_module wasm10_validity (with_body m fs ty L (put p e2) gs).
Proof. intros S. apply put_valid; [reflexivity|]. intros C ts ts'. apply simpler_types, S. Qed.
Lemma simpler_pseudo e1 e2 : simpler e1 e2 -> no_pseudo e1 -> no_pseudo e2.
Proof.
  intros H [A B]. assert (K : forall j, j = I_End \/ j = I_Else -> occurs j e2 -> occurs j e1); [|split; intros O; [apply A|apply B]; (apply K; [tauto|exact O])].
  intros j J O. destruct H; inversion O as [? I|x0 sub ? I C O']; subst;
    repeat match goal with E : In _ (_ :: _) |- _ => destruct E as [E|E] | E : In _ [] |- _ => destruct E end; subst; try (destruct J; discriminate);
    try match goal with C : In _ (children _) |- _ => cbn in C; destruct C as [C|C]; [|destruct C] end; try contradiction.
  subst. eapply occurs_inside; [left; reflexivity| |exact O']. left. reflexivity.
Qed.
Theorem simpler_accepted m fs ty L p e1 e2 gs : let before := with_body m fs ty L (put p e1) gs in
  (forall f, In f (m_funcs before) -> no_pseudo (fn_body f)) -> simpler e1 e2 -> accepted before -> accepted (with_body m fs ty L (put p e2) gs).
Proof.
  intros before NF S. unfold before in *.
  assert (NP : no_pseudo (put p e1)) by (apply (NF (mkFunc ty L (put p e1))); cbn [with_body with_funcs m_funcs]; apply in_or_app; right; left; reflexivity).
  assert (NQ : no_pseudo (put p e2)) by (eapply no_pseudo_put; [exact NP|eapply simpler_pseudo; [exact S|]; eapply no_pseudo_in; exact NP]).
  rewrite (c40_iff _ NF), c40_iff.
  - apply put_valid; [reflexivity|]. intros C ts ts'. apply simpler_types, S.
  - intros f I. cbn [with_body with_funcs m_funcs] in *. apply in_app_or in I as [I|[<-|I]]; [apply NF, in_or_app; left; exact I|exact NQ|apply NF, in_or_app; right; right; exact I].
Qed.

(** ** What the code does *)
Lemma set_twice {A} (v w : A) : forall n xs, set_nth n v (set_nth n w xs) = set_nth n v xs.
Proof. induction n as [|n IH]; intros [|x xs]; cbn [set_nth]; try reflexivity. f_equal. apply IH. Qed.
Lemma at_set {A} (v w : A) : forall n xs, nth_error xs n = Some w -> nth_error (set_nth n v xs) n = Some v.
Proof. induction n as [|n IH]; intros [|x xs] H; try discriminate; [reflexivity|]. exact (IH xs H). Qed.
Lemma take_top v rest : SpecExec.take [type_of v] (v :: rest) = Some ([v], rest).
Proof. apply (take_ok [v] rest). Qed.
Ltac stuck := intros NS; exfalso; apply NS; reflexivity.
Theorem simpler_exec M types fs n labels ret e1 e2 c : simpler e1 e2 -> run_seq M (exec M types fs (S n) labels ret) e1 c <> R_Stuck ->
  run_seq M (exec M types fs (S n) labels ret) e2 c = run_seq M (exec M types fs (S n) labels ret) e1 c.
Proof.
  intros H. destruct c as [stk vars st]. destruct H; cbn [run_seq exec plain_type load_type store_type c_vars c_store c_stack].
  - destruct (at_N vars x) as [v|]; [|stuck]. reflexivity.
  - destruct (at_N (s_globals st) x) as [v|]; [|stuck]. reflexivity.
  - destruct (at_N vars x) as [old|]; [|stuck]. cbn [found]. unfold pop1, pop. cbn [c_stack].
    destruct (SpecExec.take _ _) as [[[|v [|]] rest]|]; try stuck. reflexivity.
  - destruct (at_N vars x) as [old|] eqn:E; [|stuck]. cbn [found]. unfold pop1, pop. cbn [c_stack].
    destruct (SpecExec.take _ _) as [[[|v [|]] rest]|]; try stuck. unfold push, with_vars, with_stack. cbn [c_vars c_stack c_store rev app].
    unfold at_N in *. rewrite (at_set v old _ _ E). cbn [found]. rewrite take_top, set_twice. reflexivity.
  - destruct (at_N vars x) as [old|] eqn:E; [|stuck]. cbn [found]. unfold pop1, pop. cbn [c_stack].
    destruct (SpecExec.take _ _) as [[[|v [|]] rest]|]; try stuck. unfold push, with_vars, with_stack. cbn [c_vars c_stack c_store rev app].
    unfold at_N in *. rewrite (at_set v old _ _ E). cbn [found]. rewrite take_top, set_twice. reflexivity.
  - destruct stk as [|v rest]; [stuck|]. unfold pop1, pop. cbn [c_stack]. destruct (SpecExec.take _ _) as [[us rest']|] eqn:T; [|stuck].
    destruct us as [|u [|]]; try stuck. apply InlineExecProof.take_inv in T as [T Q]. cbn [rev app] in Q. injection Q as <- <-. intros _.
    unfold with_stack. cbn [c_vars c_stack c_store]. destruct (is_zero v); reflexivity.
  - destruct stk as [|v rest]; [stuck|]. unfold pop1, pop. cbn [c_stack]. destruct (SpecExec.take _ _) as [[us rest']|] eqn:T; [|stuck].
    destruct us as [|u [|]]; try stuck. apply InlineExecProof.take_inv in T as [T Q]. cbn [rev app] in Q. injection Q as <- <-. intros _.
    destruct (is_zero v); reflexivity.
  - unfold pop1, pop. cbn [c_stack]. destruct (SpecExec.take _ _) as [[[|u [|]] rest']|]; try stuck. intros _.
    replace (nth (N.to_nat (bits_of u)) (ls ++ [l]) l) with (nth (N.to_nat (bits_of u)) ls l); [reflexivity|].
    destruct (Nat.lt_ge_cases (N.to_nat (bits_of u)) (length ls)) as [L|L]; [rewrite app_nth1 by exact L; reflexivity|].
    rewrite app_nth2, nth_overflow by exact L. destruct (N.to_nat (bits_of u) - length ls)%nat as [|[|]]; reflexivity.
  - destruct stk as [|v rest]; [stuck|]. unfold pop1, pop. cbn [c_stack]. destruct (SpecExec.take _ _) as [[us rest']|] eqn:T; [|stuck].
    destruct us as [|u [|]]; try stuck. apply InlineExecProof.take_inv in T as [T Q]. cbn [rev app] in Q. injection Q as <- <-. intros _.
    destruct (N.to_nat (bits_of v)); reflexivity.
  - reflexivity.
  - reflexivity.
Qed.
Theorem simpler_does M types e1 e2 : simpler e1 e2 -> does_as M types e1 e2.
Proof. intros H. apply SameProof.as_later. intros fs n labels ret c. apply simpler_exec, H. Qed.
Theorem simpler_runs m fs ty locals p gs M fts (imported others : list (finst M)) e1 e2 a args st r : simpler e1 e2 ->
  gives (fun fuel => invoke M (m_types m) (instance_funcs (with_body m fs ty locals (put p e1) gs) fts imported others) fuel a args st) r ->
  gives (fun fuel => invoke M (m_types m) (instance_funcs (with_body m fs ty locals (put p e2) gs) fts imported others) fuel a args st) r.
Proof. intros H. apply SameProof.same_runs, simpler_does, H. Qed.
