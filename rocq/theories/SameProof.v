(** Code that does the same can be exchanged. *)
From Coq Require Import Lia.
From Verif Require Import SpecSame SpecVerdict ExecProof InstProof InlineExecProof.
Open Scope N_scope.

Section Sim.
Variable M : machine.
Variable types : list functy.
Variables funcs funcs' : list (finst M).
(** what may be in the place of what *)
Variable spot : list instr -> list instr -> Prop.

Inductive alike : instr -> instr -> Prop :=
| A_same i : alike i i
| A_block rt b b' : alikes b b' -> alike (I_Block rt b) (I_Block rt b')
| A_loop rt b b' : alikes b b' -> alike (I_Loop rt b) (I_Loop rt b')
| A_if rt b b' d d' : alikes b b' -> alikes d d' -> alike (I_If rt b d) (I_If rt b' d')
with alikes : list instr -> list instr -> Prop :=
| A_nil : alikes [] []
| A_cons i i' e e' : alike i i' -> alikes e e' -> alikes (i :: e) (i' :: e')
| A_spot e1 e2 e e' : spot e1 e2 -> alikes e e' -> alikes (e1 ++ e) (e2 ++ e').
Lemma alikes_self e : alikes e e.
Proof. induction e; [apply A_nil|apply A_cons; [apply A_same|assumption]]. Qed.
Lemma alikes_app a a' b b' : alikes a a' -> alikes b b' -> alikes (a ++ b) (a' ++ b').
Proof.
  intros H B. induction H as [|i i' e e' H L IH|e1 e2 e e' H L IH]; [exact B|apply A_cons; [exact H|exact IH]|]. rewrite <- !app_assoc. apply A_spot; assumption.
Qed.
Lemma alikes_put e1 e2 p : spot e1 e2 -> alikes (put p e1) (put p e2).
Proof.
  intros S. induction p as [a b|a rt p IH b|a rt p IH b|a rt p IH o b|a rt o p IH b]; cbn [put]; (apply alikes_app; [apply alikes_self|]).
  - apply A_spot; [exact S|apply alikes_self].
  - apply A_cons; [apply A_block, IH|apply alikes_self].
  - apply A_cons; [apply A_loop, IH|apply alikes_self].
  - apply A_cons; [apply A_if; [exact IH|apply alikes_self]|apply alikes_self].
  - apply A_cons; [apply A_if; [apply alikes_self|exact IH]|apply alikes_self].
Qed.
Definition falike (f f' : finst M) : Prop :=
  f' = f \/ exists u h h', f = F_Wasm u h /\ f' = F_Wasm u h' /\ fn_locals h' = fn_locals h /\ alikes (fn_body h) (fn_body h').
Hypothesis funs : forall a f, nth_error funcs a = Some f -> exists f', nth_error funcs' a = Some f' /\ falike f f'.
Hypothesis spots : forall e1 e2, spot e1 e2 -> forall labels ret c r,
  gives (fun n => run_seq M (exec M types funcs' n labels ret) e1 c) r -> gives (fun n => run_seq M (exec M types funcs' n labels ret) e2 c) r.

(** Unless [r] tells nothing, it is what is given in the end *)
Definition fin (r : result M) (run : nat -> result M) : Prop := r <> R_Fuel -> r <> R_Stuck -> exists n, forall m, (n <= m)%nat -> run m = r.
Lemma fin_const r : fin r (fun _ => r).
Proof. intros _ _. exists 0%nat. reflexivity. Qed.
Lemma fin_stuck run : fin R_Stuck run.
Proof. intros _ H. congruence. Qed.
Lemma fin_next r run : fin r (fun m => run (S m)) -> fin r run.
Proof. intros H A B. destruct (H A B) as [n N]. exists (S n). intros [|m] L; [lia|]. apply N. lia. Qed.
Lemma fin_pop ts c k k' : (forall vs d, fin (k vs d) (fun m => k' m vs d)) -> fin (pop M ts c k) (fun m => pop M ts c (k' m)).
Proof. intros K. unfold pop. destruct (take ts (c_stack c)) as [[vs rest]|]; [apply K|apply fin_stuck]. Qed.
Lemma fin_pop1 u c k k' : (forall v d, fin (k v d) (fun m => k' m v d)) -> fin (pop1 M u c k) (fun m => pop1 M u c (k' m)).
Proof.
  intros K. unfold pop1. apply (fin_pop [u] c _ (fun m vs d => match vs with [v] => k' m v d | _ => R_Stuck end)).
  intros [|v [|]] d; [apply fin_stuck|apply K|apply fin_stuck].
Qed.
Lemma fin_found {A} (o : option A) k k' : (forall a, fin (k a) (fun m => k' m a)) -> fin (found M o k) (fun m => found M o (k' m)).
Proof. intros K. destruct o; [apply K|apply fin_stuck]. Qed.
Lemma fin_trap {A} (o : option A) k k' : (forall a, fin (k a) (fun m => k' m a)) -> fin (or_trap M o k) (fun m => or_trap M o (k' m)).
Proof. intros K. destruct o; [apply K|apply fin_const]. Qed.
(** continuing after a result *)
Lemma fin_bind r run (k : result M -> result M) (k' : nat -> result M -> result M) :
  fin r run -> (r <> R_Fuel -> r <> R_Stuck -> fin (k r) (fun m => k' m r)) -> k R_Fuel = R_Fuel -> k R_Stuck = R_Stuck -> fin (k r) (fun m => k' m (run m)).
Proof.
  intros R K KF KS A B. assert (A' : r <> R_Fuel) by congruence. assert (B' : r <> R_Stuck) by congruence.
  destruct (R A' B') as [n1 N1]. destruct (K A' B' A B) as [n2 N2]. exists (max n1 n2). intros m L. rewrite N1 by lia. apply N2. lia.
Qed.
Definition sim_i (n : nat) : Prop := forall labels ret i i' c, alike i i' ->
  fin (exec M types funcs n labels ret i c) (fun m => exec M types funcs' m labels ret i' c).
Definition sim_e (n : nat) : Prop := forall labels ret e e' c, alikes e e' ->
  fin (run_seq M (exec M types funcs n labels ret) e c) (fun m => run_seq M (exec M types funcs' m labels ret) e' c).
Definition andthen (k : conf M -> result M) (r : result M) : result M := match r with R_Normal c => k c | r => r end.
Lemma seq_cons run i e c : run_seq M run (i :: e) c = andthen (run_seq M run e) (run i c).
Proof. cbn [run_seq]. destruct (run i c); reflexivity. Qed.
Lemma seq_app run e1 e2 c : run_seq M run (e1 ++ e2) c = andthen (run_seq M run e2) (run_seq M run e1 c).
Proof. rewrite run_app. destruct (run_seq M run e1 c); reflexivity. Qed.
Lemma fin_andthen r run k k' : fin r run -> (forall c, fin (k c) (fun m => k' m c)) -> fin (andthen k r) (fun m => andthen (k' m) (run m)).
Proof.
  intros R K. apply (fin_bind r run (andthen k) (fun m => andthen (k' m))); try reflexivity; [exact R|].
  intros _ _. destruct r; cbn [andthen]; [apply K|apply fin_const..].
Qed.
Lemma fin_ext r run run' : (forall m, run m = run' m) -> fin r run -> fin r run'.
Proof. intros E H A B. destruct (H A B) as [n N]. exists n. intros m L. rewrite <- E. apply N, L. Qed.
Lemma sim_self n : sim_i n -> forall labels ret e c,
  fin (run_seq M (exec M types funcs n labels ret) e c) (fun m => run_seq M (exec M types funcs' m labels ret) e c).
Proof.
  intros S labels ret e. induction e as [|i e IH]; intros c; [apply fin_const|]. rewrite seq_cons. eapply fin_ext; [intros m; symmetry; apply seq_cons|].
  apply (fin_andthen _ (fun m => exec M types funcs' m labels ret i c) _ (fun m => run_seq M (exec M types funcs' m labels ret) e)); [apply S, A_same|exact IH].
Qed.
Lemma sim_seq n : sim_i n -> sim_e n.
Proof.
  intros S labels ret e e' c L. revert c. induction L as [|i i' e e' H L IH|e1 e2 e e' H L IH]; intros c; [apply fin_const| |].
  - rewrite seq_cons. eapply fin_ext; [intros m; symmetry; apply seq_cons|].
    apply (fin_andthen _ (fun m => exec M types funcs' m labels ret i' c) _ (fun m => run_seq M (exec M types funcs' m labels ret) e')); [apply S, H|exact IH].
  - rewrite seq_app. eapply fin_ext; [intros m; symmetry; apply seq_app|].
    apply (fin_andthen _ (fun m => run_seq M (exec M types funcs' m labels ret) e2 c) _ (fun m => run_seq M (exec M types funcs' m labels ret) e')); [|exact IH].
    intros A B. destruct (spots e1 e2 H labels ret c (run_seq M (exec M types funcs n labels ret) e1 c)) as (_ & _ & K); [|exact K].
    split; [exact A|]. split; [exact B|]. apply (sim_self n S labels ret e1 c A B).
Qed.
Lemma fin_block rt outer ob ob' r run : fin r run -> (forall vs d, fin (ob vs d) (fun m => ob' m vs d)) ->
  fin (run_block M rt outer ob r) (fun m => run_block M rt outer (ob' m) (run m)).
Proof.
  intros R K. apply (fin_bind r run (run_block M rt outer ob) (fun m => run_block M rt outer (ob' m))); try reflexivity; [exact R|].
  intros _ _. destruct r as [d|[|l] vs d|vs st| | |]; cbn [run_block]; [apply fin_const|apply K|apply fin_const..].
Qed.
Lemma fin_finish u c r run : fin r run -> fin (finish M u c r) (fun m => finish M u c (run m)).
Proof. intros R. apply (fin_bind r run (finish M u c) (fun m => finish M u c)); try reflexivity; [exact R|]. intros _ _. apply fin_const. Qed.
Lemma falike_type f f' : falike f f' -> finst_type f' = finst_type f.
Proof. intros [->|(u & h & h' & -> & -> & _)]; reflexivity. Qed.
Lemma sim_call n f f' c : sim_e n -> falike f f' -> fin (call_at M types funcs n f c) (fun m => call_at M types funcs' m f' c).
Proof.
  intros S F. unfold call_at. rewrite (falike_type _ _ F).
  apply (fin_pop _ _ _ (fun m args c => match f' with
    | F_Host u h => or_trap M (h (c_store c) args) (fun sr =>
        if valtys_same (map type_of (snd sr)) (ft_results u) then push M (snd sr) (c_stack c) (with_store M c (fst sr)) else R_Stuck)
    | F_Wasm u fn => finish M u c (run_seq M (exec M types funcs' m [ft_results u] (ft_results u)) (fn_body fn)
                    (mkConf [] (args ++ map zero (fn_locals fn)) (c_store c)))
    end)).
  intros args d. destruct F as [->|(u & h & h' & -> & -> & L & B)].
  - destruct f as [u h|u h]; [|apply fin_const].
    apply (fin_finish u d _ (fun m => run_seq M (exec M types funcs' m [ft_results u] (ft_results u)) (fn_body h) _)). apply S, alikes_self.
  - rewrite L. apply (fin_finish u d _ (fun m => run_seq M (exec M types funcs' m [ft_results u] (ft_results u)) (fn_body h') _)). apply S, B.
Qed.
Lemma sim_next n : sim_i n -> sim_i (S n).
Proof.
  intros SI labels ret i i' c A. pose proof (sim_seq n SI) as SE. apply fin_next.
  assert (BL : forall rt b b' d, alikes b b' -> fin (run_block M rt (c_stack d) (leave M rt (c_stack d)) (run_seq M (exec M types funcs n (rt :: labels) ret) b (with_stack M d [])))
    (fun m => run_block M rt (c_stack d) (leave M rt (c_stack d)) (run_seq M (exec M types funcs' m (rt :: labels) ret) b' (with_stack M d [])))).
  { intros rt b b' d B. apply (fin_block rt (c_stack d) _ (fun _ => leave M rt (c_stack d)) _ (fun m => run_seq M (exec M types funcs' m (rt :: labels) ret) b' _));
      [apply SE, B|intros; apply fin_const]. }
  assert (LO : forall rt b b', alike (I_Loop rt b) (I_Loop rt b') -> alikes b b' -> fin (exec M types funcs (S n) labels ret (I_Loop rt b) c) (fun m => exec M types funcs' (S m) labels ret (I_Loop rt b') c)).
  { intros rt b b' L B. cbn [exec plain_type load_type store_type].
    apply (fin_block rt (c_stack c) _ (fun m vs c' => match vs with [] => exec M types funcs' m labels ret (I_Loop rt b') (with_stack M c' (c_stack c)) | _ => R_Stuck end)
             _ (fun m => run_seq M (exec M types funcs' m ([] :: labels) ret) b' _)); [apply SE, B|].
    intros [|v vs] d; [apply SI, L|apply fin_stuck]. }
  assert (IF : forall rt b b' d d', alikes b b' -> alikes d d' -> fin (exec M types funcs (S n) labels ret (I_If rt b d) c) (fun m => exec M types funcs' (S m) labels ret (I_If rt b' d') c)).
  { intros rt b b' d d' B D. cbn [exec plain_type load_type store_type].
    apply (fin_pop1 T_I32 c _ (fun m z c => run_block M rt (c_stack c) (leave M rt (c_stack c))
                    (run_seq M (exec M types funcs' m (rt :: labels) ret) (if is_zero z then d' else b') (with_stack M c [])))).
    intros z e. destruct (is_zero z); apply BL; assumption. }
  destruct A as [i|rt b b' B|rt b b' B|rt b b' d d' B D].
  - destruct i; try (apply IF; apply alikes_self); try (apply LO; [apply A_same|apply alikes_self]); try (apply BL, alikes_self); try apply fin_const.
    + (* call *)
      cbn [exec plain_type load_type store_type]. match goal with |- context [at_N funcs ?y] => destruct (at_N funcs y) as [f|] eqn:H; [|apply fin_stuck] end.
      destruct (funs _ _ H) as (f' & H' & FL). unfold at_N. rewrite H'. cbn [found]. apply (sim_call n f f' c SE FL).
    + (* call_indirect *)
      cbn [exec plain_type load_type store_type].
      apply (fin_found _ _ (fun m tb => found M (at_N types _) (fun ft => pop1 M T_I32 c (fun z c =>
            or_trap M (match at_N tb (bits_of z) with Some (Some a) => Some a | _ => None end) (fun a =>
              found M (nth_error funcs' a) (fun f => if functy_same (finst_type f) ft then call_at M types funcs' m f c else R_Trap)))))). intros tb.
      apply (fin_found _ _ (fun m ft => pop1 M T_I32 c (fun z c =>
            or_trap M (match at_N tb (bits_of z) with Some (Some a) => Some a | _ => None end) (fun a =>
              found M (nth_error funcs' a) (fun f => if functy_same (finst_type f) ft then call_at M types funcs' m f c else R_Trap))))). intros ft.
      apply (fin_pop1 _ _ _ (fun m z c => or_trap M (match at_N tb (bits_of z) with Some (Some a) => Some a | _ => None end) (fun a =>
              found M (nth_error funcs' a) (fun f => if functy_same (finst_type f) ft then call_at M types funcs' m f c else R_Trap)))). intros z d.
      apply (fin_trap _ _ (fun m a => found M (nth_error funcs' a) (fun f => if functy_same (finst_type f) ft then call_at M types funcs' m f d else R_Trap))).
      intros addr. destruct (nth_error funcs addr) as [f|] eqn:H; [|apply fin_stuck]. destruct (funs _ _ H) as (f' & H' & FL). rewrite H'. cbn [found].
      rewrite (falike_type _ _ FL). destruct (functy_same _ ft); [|apply fin_const]. apply (sim_call n f f' d SE FL).
  - apply BL, B.
  - apply LO; [apply A_loop, B|exact B].
  - apply IF; assumption.
Qed.
Lemma sim_every n : sim_i n.
Proof. induction n as [|n IH]; [intros labels ret i i' c _ H; exfalso; apply H; reflexivity|apply sim_next, IH]. Qed.
End Sim.

(** ** More fuel gives no other result *)
Section Mono.
Variable M : machine.
Variable types : list functy.
Variable fs : list (finst M).
Definition upto (r r' : result M) : Prop := r <> R_Fuel -> r' = r.
Lemma upto_refl r : upto r r.
Proof. intros _. reflexivity. Qed.
Lemma upto_pop ts c k k' : (forall vs d, upto (k vs d) (k' vs d)) -> upto (pop M ts c k) (pop M ts c k').
Proof. intros K. unfold pop. destruct (take ts (c_stack c)) as [[vs rest]|]; [apply K|apply upto_refl]. Qed.
Lemma upto_pop1 u c k k' : (forall v d, upto (k v d) (k' v d)) -> upto (pop1 M u c k) (pop1 M u c k').
Proof. intros K. apply upto_pop. intros [|v [|]] d; [apply upto_refl|apply K|apply upto_refl]. Qed.
Lemma upto_found {A} (o : option A) k k' : (forall a, upto (k a) (k' a)) -> upto (found M o k) (found M o k').
Proof. intros K. destruct o; [apply K|apply upto_refl]. Qed.
Lemma upto_trap {A} (o : option A) k k' : (forall a, upto (k a) (k' a)) -> upto (or_trap M o k) (or_trap M o k').
Proof. intros K. destruct o; [apply K|apply upto_refl]. Qed.
Lemma upto_bind r r' (k k' : result M -> result M) : upto r r' -> k R_Fuel = R_Fuel -> upto (k r) (k' r) -> upto (k r) (k' r').
Proof. intros R KF K A. rewrite R by congruence. apply K, A. Qed.
Lemma upto_seq run run' : (forall i c, upto (run i c) (run' i c)) -> forall e c, upto (run_seq M run e c) (run_seq M run' e c).
Proof.
  intros R. induction e as [|i e IH]; intros c; [apply upto_refl|]. rewrite !seq_cons.
  apply (upto_bind _ _ (andthen M (run_seq M run e)) (andthen M (run_seq M run' e))); [apply R|reflexivity|]. destruct (run i c); cbn [andthen]; [apply IH|apply upto_refl..].
Qed.
Lemma upto_block rt outer ob ob' r r' : upto r r' -> (forall vs d, upto (ob vs d) (ob' vs d)) -> upto (run_block M rt outer ob r) (run_block M rt outer ob' r').
Proof.
  intros R K. apply (upto_bind _ _ (run_block M rt outer ob) (run_block M rt outer ob')); [exact R|reflexivity|].
  destruct r as [d|[|l] vs d|vs st| | |]; cbn [run_block]; [apply upto_refl|apply K|apply upto_refl..].
Qed.
Lemma upto_finish u c r r' : upto r r' -> upto (finish M u c r) (finish M u c r').
Proof. intros R. apply (upto_bind _ _ (finish M u c) (finish M u c)); [exact R|reflexivity|apply upto_refl]. Qed.
Lemma upto_call n f c : (forall labels ret i c, upto (exec M types fs n labels ret i c) (exec M types fs (S n) labels ret i c)) ->
  upto (call_at M types fs n f c) (call_at M types fs (S n) f c).
Proof.
  intros K. unfold call_at. apply upto_pop. intros args d. destruct f; [|apply upto_refl]. apply upto_finish, upto_seq. intros i c0. apply K.
Qed.
Lemma upto_exec n : forall labels ret i c, upto (exec M types fs n labels ret i c) (exec M types fs (S n) labels ret i c).
Proof.
  induction n as [|n IH]; intros labels ret i c; [intros H; exfalso; apply H; reflexivity|].
  assert (SQ : forall labels ret e c, upto (run_seq M (exec M types fs n labels ret) e c) (run_seq M (exec M types fs (S n) labels ret) e c))
    by (intros; apply upto_seq; intros; apply IH).
  destruct i; try apply upto_refl.
  - apply upto_block; [apply SQ|intros; apply upto_refl].
  - apply upto_block; [apply SQ|]. intros [|v vs] d; [apply IH|apply upto_refl].
  - apply (upto_pop1 T_I32 c). intros z d. apply upto_block; [apply SQ|intros; apply upto_refl].
  - apply (upto_found _ (fun f => call_at M types fs n f c) (fun f => call_at M types fs (S n) f c)). intros f. apply upto_call, IH.
  - apply upto_found. intros tb. apply upto_found. intros ft. apply upto_pop1. intros z d. apply upto_trap. intros addr. apply upto_found. intros f.
    destruct (functy_same _ _); [apply (upto_call n f d IH)|apply upto_refl].
Qed.
Theorem more_fuel n m a args st : invoke M types fs n a args st <> R_Fuel -> (n <= m)%nat -> invoke M types fs m a args st = invoke M types fs n a args st.
Proof.
  intros A L. induction L as [|m L IH]; [reflexivity|]. rewrite <- IH. unfold invoke in *. apply upto_exec. rewrite IH. exact A.
Qed.
End Mono.

Section Inst.
Variables (m : module) (fs : list func) (ty : N) (locals : list valty) (p : place) (gs : list func).
Theorem same_runs M fts (imported others : list (finst M)) e1 e2 a args st r : does_as M (m_types m) e1 e2 ->
  gives (fun fuel => invoke M (m_types m) (instance_funcs (with_body m fs ty locals (put p e1) gs) fts imported others) fuel a args st) r ->
  gives (fun fuel => invoke M (m_types m) (instance_funcs (with_body m fs ty locals (put p e2) gs) fts imported others) fuel a args st) r.
Proof.
  intros D (A & B & n & N). split; [exact A|]. split; [exact B|]. pose proof (N n (le_n n)) as E. unfold invoke in *. subst r.
  apply (sim_every M (m_types m) (instance_funcs (with_body m fs ty locals (put p e1) gs) fts imported others)
           (instance_funcs (with_body m fs ty locals (put p e2) gs) fts imported others) (fun a b => a = e1 /\ b = e2)) with (i := I_Call (N.of_nat a));
    try assumption; [| |apply A_same].
  - intros b f. unfold instance_funcs. cbn [with_body with_funcs m_funcs].
    set (us := skipn (length imported) fts).
    assert (K : forall hs us b f, nth_error (map (fun q => @F_Wasm M (fst q) (snd q)) (combine us (hs ++ mkFunc ty locals (put p e1) :: gs))) b = Some f ->
      exists f', nth_error (map (fun q => @F_Wasm M (fst q) (snd q)) (combine us (hs ++ mkFunc ty locals (put p e2) :: gs))) b = Some f' /\
        falike M (fun a b => a = e1 /\ b = e2) f f').
    { induction hs as [|h hs IH]; intros [|u us'] [|b'] f0 H; try discriminate; cbn in H |- *.
      - injection H as <-. eexists. split; [reflexivity|]. right. eexists _, _, _. split; [reflexivity|]. split; [reflexivity|]. split; [reflexivity|].
        apply alikes_put. split; reflexivity.
      - exists f0. split; [exact H|left; reflexivity].
      - exists f0. split; [exact H|left; reflexivity].
      - apply IH, H. }
    pose proof (own_length M us fs (mkFunc ty locals (put p e1)) (mkFunc ty locals (put p e2)) gs) as Q. specialize (K fs us).
    set (own := map _ (combine us (fs ++ mkFunc ty locals (put p e1) :: gs))) in *. set (own' := map _ (combine us (fs ++ mkFunc ty locals (put p e2) :: gs))) in *.
    intros H. destruct (Nat.lt_ge_cases b (length imported)) as [I|I].
    + rewrite nth_error_app1 in H |- * by exact I. exists f. split; [exact H|left; reflexivity].
    + rewrite nth_error_app2 in H |- * by exact I. destruct (Nat.lt_ge_cases (b - length imported) (length own)) as [J|J].
      * rewrite nth_error_app1 in H by exact J. rewrite nth_error_app1 by (rewrite <- Q; exact J). apply K, H.
      * rewrite nth_error_app2 in H by exact J. rewrite nth_error_app2 by (rewrite <- Q; exact J). rewrite <- Q. exists f. split; [exact H|left; reflexivity].
  - intros x1 x2 (-> & ->) labels ret c r. apply D.
Qed.
Theorem same_both M fts (imported others : list (finst M)) e1 e2 a args st r : does_same M (m_types m) e1 e2 ->
  gives (fun fuel => invoke M (m_types m) (instance_funcs (with_body m fs ty locals (put p e1) gs) fts imported others) fuel a args st) r <->
  gives (fun fuel => invoke M (m_types m) (instance_funcs (with_body m fs ty locals (put p e2) gs) fts imported others) fuel a args st) r.
Proof. intros [D1 D2]. split; apply same_runs; assumption. Qed.
End Inst.

(** ** Instances *)
Lemma same_later M types e1 e2 : (forall fs n labels ret c, run_seq M (exec M types fs (S n) labels ret) e1 c = run_seq M (exec M types fs (S n) labels ret) e2 c) ->
  does_same M types e1 e2.
Proof.
  intros H. split; intros fs labels ret c r (A & B & n & N); (split; [exact A|]; split; [exact B|]); exists (S n); intros [|k] L; try lia.
  - rewrite <- H. apply N. lia.
  - rewrite H. apply N. lia.
Qed.
(** as far as it is not stuck *)
Lemma as_later M types e1 e2 : (forall fs n labels ret c, run_seq M (exec M types fs (S n) labels ret) e1 c <> R_Stuck ->
    run_seq M (exec M types fs (S n) labels ret) e2 c = run_seq M (exec M types fs (S n) labels ret) e1 c) -> does_as M types e1 e2.
Proof.
  intros H fs labels ret c r (A & B & n & N). split; [exact A|]. split; [exact B|]. exists (S n). intros [|k] L; try lia. rewrite H; [apply N; lia|].
  rewrite N by lia. exact B.
Qed.
Theorem nop_same M types : does_same M types [I_Nop] [].
Proof. apply same_later. reflexivity. Qed.
Theorem dead_same M types j e : diverts j -> does_same M types (j :: e) [j].
Proof.
  intros D. apply same_later. intros fs n labels ret c. cbn [run_seq].
  assert (X : forall c', exec M types fs (S n) labels ret j c <> R_Normal c').
  { intros c'. assert (BR : forall l d, branch M labels l d <> R_Normal c').
    { intros l d. unfold branch. destruct (at_N labels l); [|discriminate]. cbn [found]. unfold pop. destruct (take _ _) as [[]|]; discriminate. }
    destruct j; try contradiction D; cbn [exec plain_type load_type store_type]; try discriminate; try apply BR.
    - unfold pop1, pop. destruct (take _ _) as [[[|v [|]] rest]|]; try discriminate. apply BR.
    - unfold pop. destruct (take _ _) as [[]|]; discriminate. }
  destruct (exec M types fs (S n) labels ret j c) as [d| | | | |]; try reflexivity. exfalso. apply (X d). reflexivity.
Qed.
Lemma set_nth_same {A} n (v : A) xs : (n < length xs)%nat -> nth_error (set_nth n v xs) n = Some v.
Proof. revert n. induction xs as [|y xs IH]; intros [|n] H; cbn in *; try lia; [reflexivity|]. apply IH. lia. Qed.
Theorem tee_same M types x : does_same M types [I_LocalTee x] [I_LocalSet x; I_LocalGet x].
Proof.
  apply same_later. intros fs n labels ret c. cbn [run_seq exec plain_type load_type store_type]. destruct (at_N (c_vars c) x) as [old|] eqn:H; [|reflexivity]. cbn [found].
  unfold pop1, pop. destruct (take _ _) as [[[|v [|]] rest]|]; try reflexivity. cbn [with_stack with_vars c_vars c_stack c_store push].
  unfold at_N. rewrite set_nth_same; [reflexivity|]. apply nth_error_Some. unfold at_N in H. congruence.
Qed.
Theorem if_same M types rt a b : eqz_right M -> does_same M types [I_If rt a b] [I_I32Eqz; I_If rt b a].
Proof.
  intros Z. apply same_later. intros fs n labels ret c. cbn [run_seq exec plain_type load_type store_type].
  unfold pop1, pop. destruct (take [T_I32] (c_stack c)) as [[vs rest]|] eqn:T; [|reflexivity]. apply take_inv in T as [T Q].
  destruct vs as [|v [|]]; try discriminate T. cbn in T. injection T as T. destruct (Z v T) as (w & W & TW & ZW). rewrite W. cbn [or_trap push].
  cbn [with_stack c_stack rev app]. rewrite <- TW at 1. change (w :: rest) with (rev [w] ++ rest). change [type_of w] with (map type_of [w]). rewrite take_ok.
  cbn [with_stack c_stack]. rewrite ZW. destruct (is_zero v); reflexivity.
Qed.
Lemma set_nth_id {A} n (v : A) xs : nth_error xs n = Some v -> set_nth n v xs = xs.
Proof. revert n. induction xs as [|y xs IH]; intros [|n] H; cbn in *; try discriminate; [congruence|]. rewrite IH by exact H. reflexivity. Qed.
Theorem getset_as M types x : does_as M types [I_LocalGet x; I_LocalSet x] [].
Proof.
  apply as_later. intros fs n labels ret [stk vars st]. cbn [run_seq exec plain_type load_type store_type c_vars].
  destruct (at_N vars x) as [v|] eqn:H; [|intros NS; exfalso; apply NS; reflexivity]. intros _.
  cbn [found]. unfold push, with_stack. cbn [c_stack c_vars c_store rev app]. rewrite H. cbn [found]. unfold pop1, pop. cbn [c_stack].
  replace (take [type_of v] (v :: stk)) with (Some ([v], stk)) by (symmetry; apply (take_ok [v] stk)).
  unfold with_vars, with_stack. cbn [c_vars c_stack c_store]. unfold at_N in H. rewrite (set_nth_id _ _ _ H). reflexivity.
Qed.
Theorem const_same M types i t : machine_ok M -> plain_type i = Some ([], [t]) -> does_same M types [i; I_Drop] [].
Proof.
  intros MO P. apply same_later. intros fs n labels ret c. pose proof (const_ok M MO i [t] P) as K. destruct (mach_num M i []) as [r|] eqn:R; [|congruence].
  pose proof (num_ok M MO i [] [t] [] r P eq_refl R) as T. destruct r as [|v [|]]; try discriminate T.
  cbn [run_seq]. assert (E : exec M types fs (S n) labels ret i c = R_Normal (with_stack M c (v :: c_stack c))).
  { cbn [exec]. rewrite P. unfold pop. cbn. rewrite R. reflexivity. }
  rewrite E. cbn. destruct c. reflexivity.
Qed.
Lemma not_as M types e1 e2 fs labels ret c r1 r2 :
  (forall n, run_seq M (exec M types fs (S n) labels ret) e1 c = r1) -> (forall n, run_seq M (exec M types fs (S n) labels ret) e2 c = r2) ->
  r1 <> R_Fuel -> r1 <> R_Stuck -> r1 <> r2 -> ~ does_as M types e1 e2.
Proof.
  intros E1 E2 A B D H. destruct (H fs labels ret c r1) as (_ & _ & n & N).
  - split; [exact A|]. split; [exact B|]. exists 1%nat. intros [|k] L; [lia|]. apply E1.
  - apply D. rewrite <- (N (S n)) by lia. apply E2.
Qed.
