(** A loop to which no branch goes is a block. *)
From Coq Require Import Lia Bool.
From Verif Require Import SpecDissolve SpecSame SpecVerdict SpecTyping ParserModule ValidatorModule TypingProof ModuleValidProof DialectValidProof ValidityClaims InlineProof
  ReplaceProof ExecProof InstProof.
From Verif Require InlineExecProof SameProof.
Open Scope N_scope.

(** ** Labels that agree except for one *)
Definition agree {A} (k : N) (ls ls' : list A) : Prop := forall l, l <> k -> nth_error ls (N.to_nat l) = nth_error ls' (N.to_nat l).
Lemma agree_deeper {A} k (ls ls' : list A) x : agree k ls ls' -> agree (k + 1) (x :: ls) (x :: ls').
Proof.
  intros H l NE. destruct (N.to_nat l) as [|j] eqn:E; [reflexivity|]. cbn [nth_error]. specialize (H (l - 1)). replace (N.to_nat (l - 1)) with j in H by lia. apply H. lia.
Qed.
Lemma agree_here {A} (ls : list A) x y : agree 0 (x :: ls) (y :: ls).
Proof. intros l NE. destruct (N.to_nat l) as [|j] eqn:E; [lia|reflexivity]. Qed.
Lemma agree_sym {A} k (ls ls' : list A) : agree k ls ls' -> agree k ls' ls.
Proof. intros H l NE. symmetry. apply H, NE. Qed.
Lemma not_in k ls : existsb (fun x => x =? k) ls = false -> forall l, In l ls -> l <> k.
Proof.
  intros H l I E. subst l. assert (T : existsb (fun x => x =? k) ls = true) by (apply existsb_exists; exists k; split; [exact I|apply N.eqb_refl]). congruence.
Qed.

(** ** Types *)
Lemma blind_typed al :
  (forall C i t t', instr_type al C i t t' -> forall k ls, goes_to k i = false -> agree k (te_labels C) ls -> instr_type al (relabel C ls) i t t') /\
  (forall C e t t', seq_type al C e t t' -> forall k ls, existsb (goes_to k) e = false -> agree k (te_labels C) ls -> seq_type al (relabel C ls) e t t').
Proof.
  apply typing_m; intros.
  24: { apply S_nil. }
  24: { match goal with Q : existsb _ (_ ++ _) = false |- _ => rewrite existsb_app in Q; apply orb_false_iff in Q as [Q1 Q2]; cbn [existsb] in Q2; rewrite orb_false_r in Q2 end.
        eapply S_snoc; eauto. }
  all: match goal with Q : goes_to _ _ = false, G : agree _ _ _ |- _ => rename Q into GT; rename G into AG end; cbn [goes_to] in GT.
  - apply T_plain. assumption.
  - apply T_drop.
  - apply T_select.
  - apply T_local_get. assumption.
  - apply T_local_set. assumption.
  - apply T_local_tee. assumption.
  - apply T_global_get. assumption.
  - apply T_global_set; assumption.
  - eapply T_load; eassumption.
  - eapply T_store; eassumption.
  - eapply T_mem_size. eassumption.
  - eapply T_mem_grow. eassumption.
  - apply T_nop.
  - apply T_unreachable.
  - apply T_block. apply (H (k + 1) (rt :: ls) GT). apply agree_deeper, AG.
  - apply T_loop. apply (H (k + 1) ([] :: ls) GT). apply agree_deeper, AG.
  - apply orb_false_iff in GT as [G1 G2]. apply T_if; [apply (H (k + 1) (rt :: ls) G1)|apply (H0 (k + 1) (rt :: ls) G2)]; apply agree_deeper, AG.
  - apply T_br. apply N.eqb_neq in GT. unfold at_index in *. cbn [relabel te_labels]. rewrite <- (AG _ GT). assumption.
  - apply T_br_if. apply N.eqb_neq in GT. unfold at_index in *. cbn [relabel te_labels]. rewrite <- (AG _ GT). assumption.
  - apply orb_false_iff in GT as [G1 G2]. apply N.eqb_neq in G2. unfold at_index in *. apply T_br_table; unfold at_index; cbn [relabel te_labels].
    + apply Forall_forall. intros x I. rewrite <- (AG x (not_in _ _ G1 x I)). match goal with F : Forall _ ls |- _ => exact (proj1 (Forall_forall _ _) F x I) | F : Forall _ _ |- _ => exact (proj1 (Forall_forall _ _) F x I) end.
    + rewrite <- (AG _ G2). assumption.
  - apply T_return. assumption.
  - apply T_call. assumption.
  - eapply T_call_indirect; eassumption.
Qed.
Lemma relabel_added rt rt' C : relabel (add_label rt C) (rt' :: te_labels C) = add_label rt' C.
Proof. reflexivity. Qed.
Lemma other_label al C rt rt' b t t' : never_left b -> seq_type al (add_label rt C) b t t' -> seq_type al (add_label rt' C) b t t'.
Proof. intros NL H. rewrite <- (relabel_added rt rt'). apply (proj2 (blind_typed al) _ _ _ _ H 0); [exact NL|]. apply agree_here. Qed.
Lemma loop_types al C rt b ts ts' : never_left b -> seq_type al C [I_Loop rt b] ts ts' <-> seq_type al C [I_Block rt b] ts ts'.
Proof.
  intros NL. split; intros H; apply seq_cons_inv in H as (t0 & u & u' & -> & E & H); inversion E; subst; try discriminate; (eapply seq_cons; [|exact H]).
  - apply T_block. eapply other_label; eassumption.
  - apply T_loop. eapply other_label; eassumption.
Qed.
Lemma put_typed al e1 e2 p : forall C t t',
  (forall C ts ts', seq_type al C e1 ts ts' -> seq_type al C e2 ts ts') -> seq_type al C (put p e1) t t' -> seq_type al C (put p e2) t t'.
Proof.
  induction p as [a b|a rt p IH b|a rt p IH b|a rt p IH o b|a rt o p IH b]; intros C t t' K H; cbn [put] in *.
  - apply seq_app_inv in H as (t2 & A & H). apply seq_app_inv in H as (t3 & E & B).
    eapply seq_app; [exact A|]. eapply seq_app; [apply K, E|exact B].
  - apply seq_app_inv in H as (t2 & A & H). apply seq_cons_inv in H as (t0 & u & u' & -> & E & B). eapply seq_app; [exact A|].
    eapply seq_cons; [|exact B]. inversion E; subst; try discriminate. apply T_block. apply IH; assumption.
  - apply seq_app_inv in H as (t2 & A & H). apply seq_cons_inv in H as (t0 & u & u' & -> & E & B). eapply seq_app; [exact A|].
    eapply seq_cons; [|exact B]. inversion E; subst; try discriminate. apply T_loop. apply IH; assumption.
  - apply seq_app_inv in H as (t2 & A & H). apply seq_cons_inv in H as (t0 & u & u' & -> & E & B). eapply seq_app; [exact A|].
    eapply seq_cons; [|exact B]. inversion E; subst; try discriminate. apply T_if; [|assumption]. apply IH; assumption.
  - apply seq_app_inv in H as (t2 & A & H). apply seq_cons_inv in H as (t0 & u & u' & -> & E & B). eapply seq_app; [exact A|].
    eapply seq_cons; [|exact B]. inversion E; subst; try discriminate. apply T_if; [assumption|]. apply IH; assumption.
Qed.
Lemma put_valid d m fs ty L p e1 e2 gs : (forall fs fs', vd_init_globals d (with_funcs m fs) = vd_init_globals d (with_funcs m fs')) ->
  (forall C ts ts', seq_type (vd_align d) C e1 ts ts' -> seq_type (vd_align d) C e2 ts ts') ->
  valid_module d (with_body m fs ty L (put p e1) gs) -> valid_module d (with_body m fs ty L (put p e2) gs).
Proof.
  intros DG K (fts & ims & exs & [F T C TB ME GL EL DA ST IM EX OT OM NM]). unfold with_body in *. cbn [with_funcs m_funcs] in *.
  exists fts, ims, exs. constructor; try assumption.
  - unfold func_space, func_index in *. cbn [with_funcs m_funcs m_imports m_types] in *. rewrite map_app in *. exact F.
  - cbn [with_funcs m_funcs]. apply Forall_app in C as [C1 C2]. apply Forall_app. split; [exact C1|]. inversion C2 as [|? ? (ft & I & B) C3]; subst.
    constructor; [|exact C3]. exists ft. split; [exact I|]. cbn [fn_body fn_locals fn_ty] in *. unfold expr_type in *. eapply put_typed; [exact K|exact B].
  - rewrite (DG _ (fs ++ mkFunc ty L (put p e1) :: gs)). exact GL.
Qed.
Theorem loop_official m fs ty L p rt b gs : never_left b ->
  valid_module wasm10_validity (with_body m fs ty L (put p [I_Loop rt b]) gs) <-> valid_module wasm10_validity (with_body m fs ty L (put p [I_Block rt b]) gs).
Proof. intros NL. split; (apply put_valid; [reflexivity|]); intros C ts ts'; apply loop_types, NL. Qed.
Theorem loop_accepted m fs ty L p rt b gs : (forall f, In f (fs ++ gs) -> no_pseudo (fn_body f)) -> no_pseudo (put p [I_Block rt b]) -> never_left b ->
  accepted (with_body m fs ty L (put p [I_Loop rt b]) gs) <-> accepted (with_body m fs ty L (put p [I_Block rt b]) gs).
Proof.
  intros NF NP NL.
  assert (NQ : no_pseudo (put p [I_Loop rt b])).
  { eapply no_pseudo_put; [exact NP|]. apply no_pseudo_in in NP as [A B]. split; intros O; [apply A|apply B];
      inversion O as [? I|x sub ? I C O']; subst; destruct I as [E|[]]; try discriminate E; subst x; (eapply occurs_inside; [left; reflexivity| |exact O']); exact C. }
  assert (K : forall e, no_pseudo (put p e) -> forall f, In f (m_funcs (with_body m fs ty L (put p e) gs)) -> no_pseudo (fn_body f)).
  { intros e N f I. cbn [with_body with_funcs m_funcs] in I. apply in_app_or in I as [I|[<-|I]]; [apply NF, in_or_app; left; exact I|exact N|apply NF, in_or_app; right; exact I]. }
  rewrite (c40_iff _ (K _ NQ)), (c40_iff _ (K _ NP)). split; (apply put_valid; [reflexivity|]); intros C ts ts'; apply loop_types, NL.
Qed.

(** ** What code does *)
Section Run.
Variable M : machine.
Variable types : list functy.
Variable fs : list (finst M).
Definition not_to (k : N) (r : result M) : Prop := match r with R_Branch l _ _ => N.of_nat l <> k | _ => True end.
Definition both k (r r' : result M) : Prop := r = r' /\ not_to k r.
Lemma both_self k r : match r with R_Branch _ _ _ => False | _ => True end -> both k r r.
Proof. intros H. split; [reflexivity|]. destruct r; try exact I. contradiction. Qed.
Lemma both_pop k ts c f f' : (forall vs d, both k (f vs d) (f' vs d)) -> both k (pop M ts c f) (pop M ts c f').
Proof. intros H. unfold pop. destruct (SpecExec.take _ _) as [[vs rest]|]; [apply H|split; [reflexivity|exact I]]. Qed.
Lemma both_pop1 k t c f f' : (forall v d, both k (f v d) (f' v d)) -> both k (pop1 M t c f) (pop1 M t c f').
Proof. intros H. apply both_pop. intros [|v [|]] d; [split; [reflexivity|exact I]|apply H|split; [reflexivity|exact I]]. Qed.
Lemma both_found {A} k (o : option A) f f' : (forall a, both k (f a) (f' a)) -> both k (found M o f) (found M o f').
Proof. intros H. destruct o; [apply H|split; [reflexivity|exact I]]. Qed.
Lemma both_trap {A} k (o : option A) f f' : (forall a, both k (f a) (f' a)) -> both k (or_trap M o f) (or_trap M o f').
Proof. intros H. destruct o; [apply H|split; [reflexivity|exact I]]. Qed.
Lemma both_block k rt outer ob ob' r r' : both (k + 1) r r' -> (forall vs d, both k (ob vs d) (ob' vs d)) ->
  both k (run_block M rt outer ob r) (run_block M rt outer ob' r').
Proof.
  intros [<- R] H. destruct r as [d|[|l] vs d|vs st| | |]; cbn [run_block]; try (split; [reflexivity|exact I]).
  - unfold leave. destruct (valtys_same _ _); split; try reflexivity; exact I.
  - apply H.
  - split; [reflexivity|]. cbn [not_to] in *. lia.
Qed.
Lemma both_leave k rt outer vs d : both k (leave M rt outer vs d) (leave M rt outer vs d).
Proof. unfold leave. destruct (valtys_same _ _); split; try reflexivity; exact I. Qed.
Lemma both_branch k ls ls' l c : l <> k -> agree k ls ls' -> both k (branch M ls l c) (branch M ls' l c).
Proof.
  intros NE H. unfold branch, at_N. rewrite (H l NE). apply both_found. intros ts. apply both_pop. intros vs d. split; [reflexivity|]. cbn [not_to]. lia.
Qed.
Lemma both_call k n f c : both k (InlineExecProof.call_at M types fs n f c) (InlineExecProof.call_at M types fs n f c).
Proof.
  apply both_self. unfold InlineExecProof.call_at, pop. destruct (SpecExec.take _ _) as [[vs rest]|]; [|exact I]. destruct f as [u h|u h].
  - unfold finish. destruct (run_seq _ _ _ _) as [d|[|l] us d|us s| | |]; try exact I; destruct (valtys_same _ _); exact I.
  - unfold or_trap. destruct (h _ _) as [[s r]|]; [|exact I]. destruct (valtys_same _ _); exact I.
Qed.
Lemma both_seq k run run' : forall e c, (forall i c, In i e -> both k (run i c) (run' i c)) -> both k (run_seq M run e c) (run_seq M run' e c).
Proof.
  induction e as [|i e IH]; intros c H; [split; [reflexivity|exact I]|]. rewrite !SameProof.seq_cons.
  destruct (H i c (or_introl eq_refl)) as [<- R]. destruct (run i c) as [d|l vs d|vs st| | |]; cbn [SameProof.andthen]; try (split; [reflexivity|exact R]).
  apply IH. intros j d' J. apply H. right. exact J.
Qed.
Lemma none_goes k e : existsb (goes_to k) e = false -> forall i, In i e -> goes_to k i = false.
Proof.
  intros H i I. destruct (goes_to k i) eqn:E; [|reflexivity]. assert (T : existsb (goes_to k) e = true) by (apply existsb_exists; exists i; split; assumption). congruence.
Qed.
Lemma blind n : forall k ls ls' ret i c, goes_to k i = false -> agree k ls ls' -> both k (exec M types fs n ls ret i c) (exec M types fs n ls' ret i c).
Proof.
  induction n as [|n IH]; intros k ls ls' ret i c GT AG; [split; [reflexivity|exact I]|].
  assert (SQ : forall rt b d, existsb (goes_to (k + 1)) b = false ->
    both (k + 1) (run_seq M (exec M types fs n (rt :: ls) ret) b d) (run_seq M (exec M types fs n (rt :: ls') ret) b d)).
  { intros rt b d G. apply both_seq. intros j d' J. apply IH; [apply (none_goes _ _ G j J)|apply agree_deeper, AG]. }
  destruct i; cbn [goes_to] in GT.
  all: try (apply orb_false_iff in GT as [G1 G2]).
  all: cbn [exec plain_type load_type store_type].
  all: try (apply both_branch; [apply N.eqb_neq, GT|exact AG]).
  all: try (apply both_block; [apply SQ, GT|]; intros vs d; first [apply both_leave|destruct vs; [apply IH; [cbn [goes_to]; exact GT|exact AG]|split; [reflexivity|exact I]]]).
  all: try (apply both_found; intros f; apply (both_call k n f c)).
  all: try (apply both_pop1; intros z d; destruct (is_zero z); [split; [reflexivity|exact I]|apply both_branch; [apply N.eqb_neq, GT|exact AG]]).
  all: try (apply both_pop1; intros z d; apply both_block; [apply SQ; destruct (is_zero z); assumption|intros vs d'; apply both_leave]).
  all: try (apply both_self; exact I).
  all: repeat first [apply both_pop1; intros|apply both_pop; intros|apply both_found; intros|apply both_trap; intros].
  all: try (apply both_self; exact I).
  all: try (match goal with |- context [c_stack ?d] => destruct (c_stack d) as [|? [|? ?]] end; try destruct (valtys_same _ _); apply both_self; exact I).
  - apply both_branch; [|exact AG]. match goal with |- nth ?j ?a ?b <> _ => destruct (nth_in_or_default j a b) as [J|J] end;
      [apply (not_in _ _ G1 _ J)|rewrite J; apply N.eqb_neq, G2].
  - match goal with |- context [functy_same ?a ?b] => destruct (functy_same a b); [|apply both_self; exact I] end. apply (both_call k n).
Qed.
Theorem loop_exec n labels ret rt b c : never_left b -> exec M types fs n labels ret (I_Loop rt b) c = exec M types fs n labels ret (I_Block rt b) c.
Proof.
  intros NL. destruct n as [|n]; [reflexivity|]. cbn [exec plain_type load_type store_type].
  assert (B : both 0 (run_seq M (exec M types fs n ([] :: labels) ret) b (with_stack M c [])) (run_seq M (exec M types fs n (rt :: labels) ret) b (with_stack M c []))).
  { apply both_seq. intros j d J. apply blind; [apply (none_goes _ _ NL j J)|apply agree_here]. }
  destruct B as [<- B]. destruct (run_seq _ _ b _) as [d|[|l] vs d|vs st| | |]; try reflexivity. exfalso. apply B. reflexivity.
Qed.
End Run.
Theorem loop_same M types rt b : never_left b -> does_same M types [I_Loop rt b] [I_Block rt b].
Proof.
  intros NL. split; intros fs labels ret c r (A & B & least & H); (split; [exact A|]; split; [exact B|]; exists least; intros fuel L); rewrite <- (H fuel L); cbn [run_seq].
  - rewrite (loop_exec M types fs fuel labels ret rt b c NL). reflexivity.
  - rewrite (loop_exec M types fs fuel labels ret rt b c NL). reflexivity.
Qed.
Theorem loop_runs m fs ty locals p gs M fts (imported others : list (finst M)) rt b a args st r : never_left b ->
  gives (fun fuel => invoke M (m_types m) (instance_funcs (with_body m fs ty locals (put p [I_Loop rt b]) gs) fts imported others) fuel a args st) r <->
  gives (fun fuel => invoke M (m_types m) (instance_funcs (with_body m fs ty locals (put p [I_Block rt b]) gs) fts imported others) fuel a args st) r.
Proof. intros NL. apply SameProof.same_both, loop_same, NL. Qed.
