(** Memory used by validation (C70). *)
From Coq Require Import Lia.
From Verif Require Import SpecTyping SpecRefs EncodeProof TypingProof SafeProof ValidityClaims SpecStorage.
Open Scope list_scope.
Open Scope N_scope.

(** ** Forgetting the events *)
Lemma fst_bind {A B} (p : vw A) (f : A -> vw B) : fst (w_bind p f) = vbind (fst p) (fun a => fst (f a)).
Proof. destruct p as [[a| |] l]; cbn [w_bind fst vbind]; try reflexivity. destruct (f a); reflexivity. Qed.
Lemma vbind_ret {A} (r : vres A) : vbind r VOk = r.
Proof. destruct r; reflexivity. Qed.
Lemma vbind_ext {A B} (r : vres A) (f g : A -> vres B) : (forall a, f a = g a) -> vbind r f = vbind r g.
Proof. intros H. destruct r; cbn [vbind]; auto. Qed.
Lemma fst_push ops s : fst (w_push_operands ops s) = VOk (push_operands ops s).
Proof. destruct ops; reflexivity. Qed.
Lemma fst_end s : fst (w_end s) = v_end s.
Proof. unfold w_end, v_end. rewrite fst_bind. apply vbind_ext. intros rs. apply fst_push. Qed.
Lemma fst_else s : fst (w_else s) = v_else s.
Proof. unfold w_else, v_else. rewrite fst_bind. reflexivity. Qed.
Lemma fst_seq (v : instr -> stacks -> vw stacks) (h : instr -> stacks -> vres stacks) e :
  Forall (fun i => forall s, fst (v i s) = h i s) e -> forall s, fst (w_seq v e s) = v_seq h e s.
Proof.
  induction 1 as [|i e Hi _ IH]; intros s; cbn [w_seq v_seq]; [reflexivity|]. rewrite fst_bind, Hi. apply vbind_ext. exact IH.
Qed.
Lemma fst_instr checks bits c i : forall s, fst (w_instr checks bits c i s) = h_instr checks bits c i s.
Proof.
  induction i as [i IH] using instr_children_ind. intros s.
  assert (SQ : forall sub, In sub (children i) -> forall s, fst (w_seq (w_instr checks bits c) sub s) = v_seq (h_instr checks bits c) sub s).
  { intros sub I. apply fst_seq. apply IH. assumption. }
  clear IH.
  destruct i; cbn [w_instr h_instr]; try reflexivity;
    try solve [rewrite fst_bind; cbn [w_run fst]; etransitivity; [|apply vbind_ret]; apply vbind_ext; intros; reflexivity].
  - rewrite fst_bind. change (fst (w_push_frame a a s)) with (VOk (push_frame a a s)). cbn [vbind]. rewrite fst_bind, SQ by (left; reflexivity).
    apply vbind_ext. exact fst_end.
  - rewrite fst_bind. change (fst (w_push_frame [] a s)) with (VOk (push_frame [] a s)). cbn [vbind]. rewrite fst_bind, SQ by (left; reflexivity).
    apply vbind_ext. exact fst_end.
  - rewrite fst_bind. cbn [w_run fst]. apply vbind_ext. intros s1.
    rewrite fst_bind. change (fst (w_push_frame a a s1)) with (VOk (push_frame a a s1)). cbn [vbind]. rewrite fst_bind, SQ by (left; reflexivity).
    apply vbind_ext. intros s2. rewrite fst_bind, fst_else. apply vbind_ext. intros s3. rewrite fst_bind, SQ by (right; left; reflexivity).
    apply vbind_ext. exact fst_end.
  - apply fst_else.
  - apply fst_end.
  - rewrite fst_bind. apply vbind_ext. intros fr. rewrite fst_bind. apply vbind_ext. intros s1. rewrite fst_bind. apply vbind_ext. intros s2.
    apply fst_push.
  - cbn [v_instr]. rewrite fst_bind. apply vbind_ext. intros ft. rewrite fst_bind. apply vbind_ext. intros s1. apply fst_push.
  - cbn [v_instr]. rewrite fst_bind. apply vbind_ext. intros tt. rewrite fst_bind. apply vbind_ext. intros ft. destruct (negb _); [reflexivity|].
    rewrite fst_bind. apply vbind_ext. intros s1. rewrite fst_bind. apply vbind_ext. intros s2. apply fst_push.
Qed.
Lemma const_plain checks bits c i s u : v_const_check c i = VOk u -> h_instr checks bits c i s = v_instr c i s.
Proof. destruct i; try discriminate; reflexivity. Qed.
Lemma fst_constexpr checks bits c e : forall s, fst (w_constexpr checks bits c e s) = v_constexpr c e s.
Proof.
  induction e as [|i e IH]; intros s; cbn [w_constexpr v_constexpr]; [reflexivity|]. rewrite fst_bind. cbn [w_run fst].
  destruct (v_const_check c i) as [u| |] eqn:E; cbn [vbind]; try reflexivity.
  rewrite fst_bind, fst_instr, (const_plain _ _ _ _ _ _ E). apply vbind_ext. exact IH.
Qed.
Lemma fst_imported_funcs ims : forall c, fst (w_imported_funcs ims c) = use_imported_funcs ims c.
Proof.
  induction ims as [|im ims IH]; intros c; cbn [w_imported_funcs use_imported_funcs]; [reflexivity|]. destruct (im_desc im); try apply IH.
  rewrite fst_bind. apply vbind_ext. intros t0. rewrite fst_bind. apply IH.
Qed.
Lemma fst_funcs fs : forall c, fst (w_funcs fs c) = use_funcs fs c.
Proof.
  induction fs as [|f fs IH]; intros c; cbn [w_funcs use_funcs]; [reflexivity|].
  rewrite fst_bind. apply vbind_ext. intros t. rewrite fst_bind. apply IH.
Qed.
Lemma fst_context m : fst (w_context m) = context_from m.
Proof.
  unfold w_context, context_from. rewrite fst_bind. cbn [w_grown fst vbind]. rewrite fst_bind, fst_imported_funcs. apply vbind_ext. intros c.
  do 3 (rewrite fst_bind; cbn [w_grown fst vbind]). rewrite fst_bind, fst_funcs. apply vbind_ext. intros c1.
  do 2 (rewrite fst_bind; cbn [w_grown fst vbind]). reflexivity.
Qed.
Lemma fst_func checks bits f cs : fst (w_func checks bits f cs) = h_func checks bits f cs.
Proof.
  destruct cs as [c s]. unfold w_func, h_func. rewrite fst_bind. apply vbind_ext. intros t. rewrite fst_bind. cbn [w_note fst vbind].
  rewrite fst_bind. unfold w_push_frame at 1. rewrite fst_bind. cbn [w_note w_run fst vbind]. rewrite fst_bind.
  rewrite (fst_seq _ (h_instr checks bits (set_locals (set_ret c (Some (ft_results t))) (ft_params t ++ fn_locals f))))
    by (apply Forall_forall; intros i _; apply fst_instr).
  apply vbind_ext. intros s1. rewrite fst_bind. apply vbind_ext. intros rs. destruct (stacks_not_empty (snd rs)); reflexivity.
Qed.
Lemma fst_const_body checks bits r e cs : fst (w_const_body checks bits r e cs) = v_const_body r e cs.
Proof.
  destruct cs as [c s]. unfold w_const_body, v_const_body. rewrite fst_bind. unfold w_push_frame at 1. rewrite fst_bind. cbn [w_note w_run fst vbind].
  rewrite fst_bind, fst_constexpr. apply vbind_ext. intros s1. rewrite fst_bind. apply vbind_ext. intros rs.
  destruct (stacks_not_empty (snd rs)); reflexivity.
Qed.
Lemma fst_global checks bits g cs : fst (w_global checks bits g cs) = v_global g cs.
Proof.
  unfold w_global, v_global. rewrite fst_bind. apply vbind_ext. intros u. rewrite fst_bind, fst_const_body. reflexivity.
Qed.
Lemma fst_elem checks bits e cs : fst (w_elem checks bits e cs) = v_elem e cs.
Proof.
  unfold w_elem, v_elem. rewrite fst_bind. apply vbind_ext. intros t. destruct (negb _); [reflexivity|]. rewrite fst_bind, fst_const_body.
  apply vbind_ext. intros cs1. rewrite fst_bind. reflexivity.
Qed.
Lemma fst_data checks bits d cs : fst (w_data checks bits d cs) = v_data d cs.
Proof.
  unfold w_data, v_data. rewrite fst_bind. apply vbind_ext. intros u. rewrite fst_bind, fst_const_body. reflexivity.
Qed.
Lemma fst_each {A B} (w : A -> vctx -> vw (B * vctx)) (v : A -> vctx -> vres (B * vctx)) xs : (forall x cs, fst (w x cs) = v x cs) ->
  forall cs, fst (w_each w xs cs) = v_each v xs cs.
Proof.
  intros H. induction xs as [|x xs IH]; intros cs; cbn [w_each v_each]; [reflexivity|]. rewrite fst_bind, H. apply vbind_ext. intros r.
  rewrite fst_bind, IH. reflexivity.
Qed.
Theorem storage_same checks bits m : fst (w_validate checks bits m) = h_validate checks bits m.
Proof.
  unfold w_validate, h_validate. rewrite fst_bind, fst_context. apply vbind_ext. intros c. rewrite fst_bind. cbn [w_grown fst vbind].
  rewrite fst_bind. apply vbind_ext. intros r1. rewrite fst_bind, (fst_each _ _ _ (fst_func checks bits)). apply vbind_ext. intros r2.
  rewrite fst_bind. apply vbind_ext. intros r3. rewrite fst_bind. apply vbind_ext. intros r4.
  rewrite fst_bind, (fst_each _ _ _ (fst_global checks bits)). apply vbind_ext. intros r5.
  rewrite fst_bind, (fst_each _ _ _ (fst_elem checks bits)). apply vbind_ext. intros r6.
  rewrite fst_bind, (fst_each _ _ _ (fst_data checks bits)). apply vbind_ext. intros r7.
  rewrite fst_bind. apply vbind_ext. intros cs. rewrite fst_bind. cbn [w_note fst vbind]. rewrite fst_bind. apply vbind_ext. intros ims.
  rewrite fst_bind. cbn [w_note fst vbind]. rewrite fst_bind. apply vbind_ext. intros exs.
  destruct (negb _); [reflexivity|]. destruct (negb _); [reflexivity|]. rewrite fst_bind. cbn [w_note fst vbind]. destruct (negb _); reflexivity.
Qed.
Lemma validate_within_eq allows checks bits m :
  validate_within allows checks bits m = if forallb allows (checking checks bits m) then h_validate checks bits m else VPanic.
Proof. unfold validate_within. rewrite storage_same. reflexivity. Qed.
Lemma storage_outcome allows checks bits m :
  validate_within allows checks bits m = VPanic \/ validate_within allows checks bits m = h_validate checks bits m.
Proof. rewrite validate_within_eq. destruct (forallb _ _); auto. Qed.

(** ** Triples: the events satisfy [E], and the result satisfies [Q] *)
Definition trip {A} (E : event -> Prop) (Q : A -> Prop) (w : vw A) : Prop := Forall E (snd w) /\ (forall a, fst w = VOk a -> Q a).
Lemma trip_bind {A B} (E : event -> Prop) (Q : A -> Prop) (R : B -> Prop) p f : trip E Q p -> (forall a, Q a -> trip E R (f a)) -> trip E R (w_bind p f).
Proof.
  intros [H1 H2] F. destruct p as [[a| |] l]; cbn [w_bind fst snd] in *.
  - destruct (F a (H2 a eq_refl)) as [F1 F2]. destruct (f a) as [r l']. cbn [fst snd] in *. split; [apply Forall_app; auto|exact F2].
  - split; [exact H1|discriminate].
  - split; [exact H1|discriminate].
Qed.
Lemma trip_run {A} (E : event -> Prop) (Q : A -> Prop) r : (forall a, r = VOk a -> Q a) -> trip E Q (w_run r).
Proof. intros H. split; [constructor|exact H]. Qed.
Lemma trip_note (E : event -> Prop) e (Q : unit -> Prop) : E e -> Q tt -> trip E Q (w_note e).
Proof. intros H1 H2. split; [repeat constructor; exact H1|]. intros [] _. exact H2. Qed.
Lemma trip_weak {A} (E E' : event -> Prop) (Q Q' : A -> Prop) w : trip E Q w -> (forall e, E e -> E' e) -> (forall a, Q a -> Q' a) -> trip E' Q' w.
Proof. intros [H1 H2] HE HQ. split; [eapply Forall_impl; [exact HE|exact H1]|auto]. Qed.

(** ** The stacks *)
Definition slim (fr : frame) : Prop := (length (f_label fr) <= 1 /\ length (f_out fr) <= 1)%nat.
(** at most [o] operands and [f] frames, of at most one value each *)
Definition low (o f : nat) (s : stacks) : Prop := (length (operands s) <= o)%nat /\ (length (frames s) <= f)%nat /\ Forall slim (frames s).
Definition within (o f : nat) (e : event) : Prop :=
  match e with Hold V_Operand n => n <= N.of_nat o | Hold V_Frame n => n <= N.of_nat f | _ => False end.
Lemma within_more o f o' f' e : (o <= o')%nat -> (f <= f')%nat -> within o f e -> within o' f' e.
Proof. intros O F. destruct e as [| [] |]; cbn; try tauto; lia. Qed.
Lemma low_more o f o' f' s : (o <= o')%nat -> (f <= f')%nat -> low o f s -> low o' f' s.
Proof. intros O F (H1 & H2 & H3). repeat split; [lia|lia|exact H3]. Qed.

Lemma pop_operand_low op s r o f : pop_operand op s = VOk r -> low o f s -> low o f (snd r).
Proof.
  unfold pop_operand. destruct (frames s) as [|fr frs] eqn:F; [discriminate|]. intros H (L1 & L2 & L3).
  destruct (_ && _)%bool; [injection H as <-; repeat split; assumption|]. destruct (Nat.eqb _ _); [discriminate|].
  destruct (operands s) as [|v ops] eqn:O; [discriminate|].
  assert (Z : low o f (mkStacks ops (frames s))).
  { cbn [length] in L1. repeat split; cbn [operands frames]; [lia|assumption|assumption]. }
  rewrite F in Z. destruct v, op; try (injection H as <-; exact Z). destruct (operand_eqb _ _); [|discriminate]. injection H as <-. exact Z.
Qed.
Lemma pop_all_low ops : forall s s' o f, pop_all ops s = VOk s' -> low o f s -> low o f s'.
Proof.
  induction ops as [|op ops IH]; intros s s' o f H L; cbn [pop_all] in H; [injection H as <-; exact L|].
  apply vbind_ok in H as (r & H1 & H2). eapply IH; [exact H2|]. eapply pop_operand_low; eassumption.
Qed.
Lemma pops_low ops s s' o f : pop_operands ops s = VOk s' -> low o f s -> low o f s'.
Proof. apply pop_all_low. Qed.
Lemma push_operands_length ts : forall s, length (operands (push_operands ts s)) = (length (operands s) + length ts)%nat.
Proof.
  unfold push_operands. induction ts as [|t ts IH]; intros s; cbn [fold_left length]; [lia|]. rewrite IH. cbn [push_operand operands length]. lia.
Qed.
Lemma pushes_low ts s o f : (length ts <= 1)%nat -> low o f s -> low (S o) f (push_operands ts s).
Proof.
  intros T (L1 & L2 & L3). unfold low. rewrite push_operands_length, push_operands_frames. repeat split; [lia|assumption..].
Qed.
Lemma push_frame_low l r s o f : (length l <= 1)%nat -> (length r <= 1)%nat -> low o f s -> low o (S f) (push_frame l r s).
Proof. intros A B (L1 & L2 & L3). repeat split; cbn [push_frame operands frames length]; [assumption|lia|]. constructor; [split; assumption|assumption]. Qed.
Lemma pop_frame_low s rs o f : pop_frame s = VOk rs -> low o (S f) s -> low o f (snd rs) /\ (length (fst rs) <= 1)%nat.
Proof.
  unfold pop_frame. destruct (frames s) as [|fr frs] eqn:F; [discriminate|]. intros H L. apply vbind_ok in H as (s1 & H1 & H2).
  assert (X : (length (f_out fr) <= 1)%nat). { destruct L as (_ & _ & L). rewrite F in L. inversion L as [|? ? [_ Y] _]. exact Y. }
  pose proof (pops_frames _ _ _ H1) as F1. apply (pops_low _ _ _ _ _ H1) in L. rewrite F in F1. rewrite F1 in H2.
  destruct (negb _); [discriminate|]. injection H2 as <-. cbn [fst snd]. split; [|exact X].
  destruct L as (L1 & L2 & L3). rewrite F1 in L2, L3. cbn [length] in L2. repeat split; cbn [operands frames]; [assumption|lia|].
  inversion L3; assumption.
Qed.
(** the same when no frame is to be removed for good *)
Lemma pop_frame_low_pos s rs o f : pop_frame s = VOk rs -> low o f s -> exists f', f = S f'.
Proof.
  unfold pop_frame. destruct (frames s) as [|fr frs] eqn:F; [discriminate|]. intros _ (_ & L & _). rewrite F in L. cbn [length] in L.
  destruct f as [|f]; [lia|]. exists f. reflexivity.
Qed.
Lemma unreachable_low s s' o f : s_unreachable s = VOk s' -> low o f s -> low o f s'.
Proof.
  unfold s_unreachable. destruct (frames s) as [|fr frs] eqn:F; [discriminate|]. intros [= <-] (L1 & L2 & L3). rewrite F in L2, L3.
  repeat split; cbn [operands frames].
  - unfold truncate. rewrite skipn_length. lia.
  - exact L2.
  - inversion L3 as [|? ? X Y]; subst. constructor; [exact X|exact Y].
Qed.
Lemma h_label_slim checks bits s i fr : h_labelidx checks bits s i = VOk fr -> Forall slim (frames s) -> slim fr.
Proof.
  unfold h_labelidx. intros H L. apply vbind_ok in H as (k & _ & H). destruct (nth_error _ _) as [fr'|] eqn:E; [|discriminate].
  injection H as <-. apply nth_error_In in E. apply in_rev in E. rewrite Forall_forall in L. apply L, E.
Qed.
Definition slim_ctx (c : context) : Prop :=
  (forall t, In t (c_types c) -> (length (ft_results t) <= 1)%nat) /\ (forall t, In t (c_funcs c) -> (length (ft_results t) <= 1)%nat).
Definition slim_code (e : list instr) : Prop := forall j rt, occurs j e -> block_type j = Some rt -> (length rt <= 1)%nat.

Lemma w_push_low ts s o f : (length ts <= 1)%nat -> low o f s -> trip (within (S o) f) (low (S o) f) (w_push_operands ts s).
Proof.
  intros T L. unfold w_push_operands. apply (trip_bind _ (fun _ => True)).
  - destruct ts as [|t ts]; [apply trip_run; auto|]. apply trip_note; [|exact I]. destruct L as (L & _). unfold count. cbn [within length] in *. lia.
  - intros u _. apply trip_run. intros s' [= <-]. apply pushes_low; assumption.
Qed.
Lemma w_frame_low l r s o f : (length l <= 1)%nat -> (length r <= 1)%nat -> low o f s -> trip (within o (S f)) (low o (S f)) (w_push_frame l r s).
Proof.
  intros A B L. unfold w_push_frame. apply (trip_bind _ (fun _ => True)).
  - apply trip_note; [|exact I]. destruct L as (_ & L & _). unfold count. cbn [within]. lia.
  - intros u _. apply trip_run. intros s' [= <-]. apply push_frame_low; assumption.
Qed.
Lemma w_end_low s o f : low o (S f) s -> trip (within (S o) f) (low (S o) f) (w_end s).
Proof.
  intros L. unfold w_end. apply (trip_bind _ (fun rs => low o f (snd rs) /\ (length (fst rs) <= 1)%nat)).
  - apply trip_run. intros rs H. exact (pop_frame_low _ _ _ _ H L).
  - intros rs [H1 H2]. apply w_push_low; assumption.
Qed.
Lemma w_else_low s o f : low o (S f) s -> trip (within o (S f)) (low o (S f)) (w_else s).
Proof.
  intros L. unfold w_else. apply (trip_bind _ (fun rs => low o f (snd rs) /\ (length (fst rs) <= 1)%nat)).
  - apply trip_run. intros rs H. exact (pop_frame_low _ _ _ _ H L).
  - intros rs [H1 H2]. apply w_frame_low; assumption.
Qed.

(** ** Instructions *)
Definition low_instr checks bits c i : Prop := slim_code [i] -> forall s o f, low o f s ->
  trip (within (o + size i) (f + depth i)) (low (o + size i) f) (w_instr checks bits c i s).
Lemma slim_in e i : slim_code e -> In i e -> slim_code [i].
Proof.
  intros H I j rt O. apply (H j rt). inversion O as [? X|y sub ? X C O']; subst; destruct X as [<-|[]].
  - apply occurs_here. exact I.
  - eapply occurs_inside; eassumption.
Qed.
Lemma slim_child i sub : slim_code [i] -> In sub (children i) -> slim_code sub.
Proof. intros H I j rt O. apply (H j rt). eapply occurs_inside; [left; reflexivity|exact I|exact O]. Qed.
Lemma low_seq checks bits c e : Forall (low_instr checks bits c) e -> slim_code e -> forall s o f, low o f s ->
  trip (within (o + size_expr e) (f + depth_expr e)) (low (o + size_expr e) f) (w_seq (w_instr checks bits c) e s).
Proof.
  induction 1 as [|i e Hi _ IH]; intros SL s o f L; cbn [w_seq].
  - apply trip_run. intros s' [= <-]. eapply low_more; [| |exact L]; lia.
  - change (size_expr (i :: e)) with (size i + size_expr e)%nat. change (depth_expr (i :: e)) with (Nat.max (depth i) (depth_expr e)).
    eapply trip_bind.
    + eapply trip_weak; [apply Hi; [apply (slim_in _ _ SL); left; reflexivity|exact L]| |].
      * intros ev. apply within_more; lia.
      * intros s' H. exact H.
    + intros s1 L1. eapply trip_weak; [apply IH; [|exact L1]| |].
      * intros j rt O. apply (SL j rt). inversion O as [? X|y sub ? X C O']; subst; [apply occurs_here; right; assumption|eapply occurs_inside; [right|..]; eassumption].
      * intros ev. apply within_more; lia.
      * intros s2. apply low_more; lia.
Qed.
Ltac lows := repeat match goal with
  | H : vbind _ _ = VOk _ |- _ => apply vbind_ok in H as (? & ? & H)
  | H : pop_operands _ ?s = VOk _, L : low _ _ ?s |- _ => apply (pops_low _ _ _ _ _ H) in L; clear H
  | H : pop_operand _ ?s = VOk _, L : low _ _ ?s |- _ => apply (pop_operand_low _ _ _ _ _ H) in L; clear H
  | H : s_unreachable ?s = VOk _, L : low _ _ ?s |- _ => apply (unreachable_low _ _ _ _ H) in L; clear H
  | H : VOk _ = VOk _ |- _ => apply vok_inj in H; subst
  | H : (if _ then VErr else _) = VOk _ |- _ => destruct (negb _) in H; [discriminate|]
  end.
Lemma low_plain checks bits c i s s' o f : children i = [] -> (forall l, i <> I_BrIf l) -> (forall x, i <> I_Call x) -> (forall x y, i <> I_CallIndirect x y) ->
  i <> I_Else -> i <> I_End -> low o f s -> h_instr checks bits c i s = VOk s' -> low (S o) f s'.
Proof.
  intros C NB NC NI NE NN L H.
  destruct (plain_type i) as [[ts1 ts2]|] eqn:PT.
  { assert (T : (length ts2 <= 1)%nat) by (destruct i; try discriminate PT; injection PT as <- <-; cbn; lia).
    assert (E : h_instr checks bits c i s = v_instr c i s) by (destruct i; try discriminate PT; reflexivity). rewrite E in H.
    rewrite (v_plain _ _ _ _ _ PT) in H. lows. apply pushes_low; assumption. }
  destruct (load_type i) as [[[al n] t]|] eqn:LT.
  { assert (E : h_instr checks bits c i s = v_instr c i s) by (destruct i; try discriminate LT; reflexivity). rewrite E in H.
    rewrite (v_load_instr _ _ _ _ _ _ LT) in H. lows. apply pushes_low; [cbn; lia|assumption]. }
  destruct (store_type i) as [[[al n] t]|] eqn:ST.
  { assert (E : h_instr checks bits c i s = v_instr c i s) by (destruct i; try discriminate ST; reflexivity). rewrite E in H.
    rewrite (v_store_instr _ _ _ _ _ _ ST) in H. lows. eapply low_more; [| |eassumption]; lia. }
  destruct i; try discriminate PT; try discriminate LT; try discriminate ST; try discriminate C; try (exfalso; first [eapply NB; reflexivity|eapply NC; reflexivity|eapply NI; reflexivity|apply NE; reflexivity|apply NN; reflexivity]);
    cbn [h_instr v_instr] in H;
    try solve [lows; first [apply pushes_low; [cbn; lia|assumption]|eapply low_more; [| |eassumption]; lia]].
  lows. destruct L as (L1 & L2 & L3). repeat split; cbn [push_operand operands frames length]; [lia|assumption..].
Qed.

Lemma low_leaf checks bits c i s o f : children i = [] -> (forall l, i <> I_BrIf l) -> (forall x, i <> I_Call x) -> (forall x y, i <> I_CallIndirect x y) ->
  i <> I_Else -> i <> I_End -> size i = 1%nat -> low o f s ->
  (w_instr checks bits c i s = w_run (h_instr checks bits c i s) \/
   h_instr checks bits c i s = v_instr c i s /\ w_instr checks bits c i s =
     (s <=~ w_run (v_instr c i s) ;; _ <=~ w_note (Hold V_Operand (count (operands s))) ;; w_run (VOk s))) ->
  trip (within (o + size i) (f + depth i)) (low (o + size i) f) (w_instr checks bits c i s).
Proof.
  intros C NB NC NI NE NN SZ L H. rewrite SZ.
  assert (G : forall s', h_instr checks bits c i s = VOk s' -> low (o + 1) f s').
  { intros s' E. apply (low_more (S o) f); [lia|lia|]. eapply low_plain; eassumption. }
  destruct H as [-> | [E ->]]; [apply trip_run, G|]. rewrite E in G.
  apply (trip_bind _ (low (o + 1) f)); [apply trip_run, G|]. intros s1 L1.
  apply (trip_bind _ (fun _ => True)).
  - apply trip_note; [|exact I]. destruct L1 as (L1 & _). unfold count. cbn [within]. lia.
  - intros _ _. apply trip_run. intros s' [= <-]. exact L1.
Qed.
Lemma low_any checks bits c : slim_ctx c -> forall i, low_instr checks bits c i.
Proof.
  intros [CT CF]. induction i as [i IH] using instr_children_ind. intros SL s o f L.
  assert (SQ : forall sub, In sub (children i) -> forall s o f, low o f s ->
    trip (within (o + size_expr sub) (f + depth_expr sub)) (low (o + size_expr sub) f) (w_seq (w_instr checks bits c) sub s)).
  { intros sub I. apply low_seq; [apply IH; assumption|apply (slim_child _ _ SL I)]. }
  assert (RT : forall rt, block_type i = Some rt -> (length rt <= 1)%nat).
  { intros rt B. apply (SL i rt); [apply occurs_here; left; reflexivity|exact B]. }
  clear IH SL.
  destruct i;
    try (apply low_leaf; try reflexivity; try discriminate; [exact L|first [left; reflexivity|right; split; reflexivity]]);
    cbn [w_instr].
  - specialize (RT a eq_refl). cbn [size depth]. change (list_sum (map size b)) with (size_expr b). change (list_max (map depth b)) with (depth_expr b).
    eapply trip_bind; [eapply trip_weak; [apply (w_frame_low a a s o f RT RT L)|intros e; apply within_more; lia|intros s1 H; exact H]|]. intros s1 L1. cbv beta in L1.
    eapply trip_bind; [eapply trip_weak; [apply (SQ b (or_introl eq_refl) _ _ _ L1)|intros e; apply within_more; lia|intros s2 H; exact H]|]. intros s2 L2. cbv beta in L2.
    eapply trip_weak; [apply (w_end_low _ _ _ L2)|intros e; apply within_more; lia|intros s3; apply low_more; lia].
  - specialize (RT a eq_refl). cbn [size depth]. change (list_sum (map size b)) with (size_expr b). change (list_max (map depth b)) with (depth_expr b).
    eapply trip_bind; [eapply trip_weak; [apply (w_frame_low [] a s o f (le_S _ _ (le_n _)) RT L)|intros e; apply within_more; lia|intros s1 H; exact H]|]. intros s1 L1. cbv beta in L1.
    eapply trip_bind; [eapply trip_weak; [apply (SQ b (or_introl eq_refl) _ _ _ L1)|intros e; apply within_more; lia|intros s2 H; exact H]|]. intros s2 L2. cbv beta in L2.
    eapply trip_weak; [apply (w_end_low _ _ _ L2)|intros e; apply within_more; lia|intros s3; apply low_more; lia].
  - specialize (RT a eq_refl). cbn [size depth]. change (list_sum (map size b)) with (size_expr b). change (list_max (map depth b)) with (depth_expr b).
    change (list_sum (map size c0)) with (size_expr c0). change (list_max (map depth c0)) with (depth_expr c0).
    apply (trip_bind _ (low o f)); [apply trip_run; intros s0 H; exact (pops_low _ _ _ _ _ H L)|]. intros s0 L0.
    eapply trip_bind; [eapply trip_weak; [apply (w_frame_low a a s0 o f RT RT L0)|intros e; apply within_more; lia|intros s1 H; exact H]|]. intros s1 L1. cbv beta in L1.
    eapply trip_bind; [eapply trip_weak; [apply (SQ b (or_introl eq_refl) _ _ _ L1)|intros e; apply within_more; lia|intros s2 H; exact H]|]. intros s2 L2. cbv beta in L2.
    eapply trip_bind; [eapply trip_weak; [apply (w_else_low _ _ _ L2)|intros e; apply within_more; lia|intros s3 H; exact H]|]. intros s3 L3. cbv beta in L3.
    eapply trip_bind; [eapply trip_weak; [apply (SQ c0 (or_intror (or_introl eq_refl)) _ _ _ L3)|intros e; apply within_more; lia|intros s4 H; exact H]|]. intros s4 L4. cbv beta in L4.
    eapply trip_weak; [apply (w_end_low _ _ _ L4)|intros e; apply within_more; lia|intros s5; apply low_more; lia].
  - destruct f as [|f].
    { unfold w_else. apply (trip_bind _ (fun _ => False)); [|intros _ []]. apply trip_run. intros rs H. destruct (pop_frame_low_pos _ _ _ _ H L); discriminate. }
    eapply trip_weak; [apply (w_else_low _ _ _ L)|intros e; apply within_more; cbn; lia|intros s3; apply low_more; cbn; lia].
  - destruct f as [|f].
    { unfold w_end. apply (trip_bind _ (fun _ => False)); [|intros _ []]. apply trip_run. intros rs H. destruct (pop_frame_low_pos _ _ _ _ H L); discriminate. }
    eapply trip_weak; [apply (w_end_low _ _ _ L)|intros e; apply within_more; cbn; lia|intros s3; apply low_more; cbn; lia].
  - apply (trip_bind _ slim); [apply trip_run; intros fr H; exact (h_label_slim _ _ _ _ _ H (proj2 (proj2 L)))|]. intros fr [F1 F2].
    apply (trip_bind _ (low o f)); [apply trip_run; intros s1 H; exact (pops_low _ _ _ _ _ H L)|]. intros s1 L1.
    apply (trip_bind _ (low o f)); [apply trip_run; intros s2 H; exact (pops_low _ _ _ _ _ H L1)|]. intros s2 L2.
    eapply trip_weak; [apply (w_push_low _ _ _ _ F1 L2)|intros e; apply within_more; cbn; lia|intros s3; apply low_more; cbn; lia].
  - apply (trip_bind _ (fun t => (length (ft_results t) <= 1)%nat)).
    { apply trip_run. intros t H. apply v_lookup_ok in H. apply CF. apply nth_error_In in H. exact H. }
    intros t T. apply (trip_bind _ (low o f)); [apply trip_run; intros s1 H; exact (pops_low _ _ _ _ _ H L)|]. intros s1 L1.
    eapply trip_weak; [apply (w_push_low _ _ _ _ T L1)|intros e; apply within_more; cbn; lia|intros s3; apply low_more; cbn; lia].
  - apply (trip_bind _ (fun _ => True)); [apply trip_run; auto|]. intros tt _.
    apply (trip_bind _ (fun t => (length (ft_results t) <= 1)%nat)).
    { apply trip_run. intros t H. apply v_lookup_ok in H. apply CT. apply nth_error_In in H. exact H. }
    intros t T. destruct (negb _); [apply trip_run; discriminate|].
    apply (trip_bind _ (low o f)); [apply trip_run; intros s1 H; exact (pops_low _ _ _ _ _ H L)|]. intros s1 L1.
    apply (trip_bind _ (low o f)); [apply trip_run; intros s2 H; exact (pops_low _ _ _ _ _ H L1)|]. intros s2 L2.
    eapply trip_weak; [apply (w_push_low _ _ _ _ T L2)|intros e; apply within_more; cbn; lia|intros s3; apply low_more; cbn; lia].
Qed.

(** ** Constant expressions *)
Lemma const_slim c i u : v_const_check c i = VOk u -> slim_code [i] /\ depth i = O.
Proof.
  intros H. assert (X : children i = [] /\ block_type i = None /\ depth i = O) by (destruct i; try discriminate H; repeat split; reflexivity).
  destruct X as (C & B & D). split; [|exact D]. intros j rt O. inversion O as [? I|y sub ? I S O']; subst; destruct I as [<-|[]].
  - congruence.
  - rewrite C in S. destruct S.
Qed.
Lemma low_const checks bits c e : slim_ctx c -> forall s o f, low o f s ->
  trip (within (o + size_expr e) f) (low (o + size_expr e) f) (w_constexpr checks bits c e s).
Proof.
  intros SC. induction e as [|i e IH]; intros s o f L; cbn [w_constexpr].
  - apply trip_run. intros s' [= <-]. eapply low_more; [| |exact L]; lia.
  - change (size_expr (i :: e)) with (size i + size_expr e)%nat. apply (trip_bind _ (fun _ => slim_code [i] /\ depth i = O)).
    + apply trip_run. intros u H. exact (const_slim _ _ _ H).
    + intros u [S D]. eapply trip_bind; [eapply trip_weak; [apply (low_any checks bits c SC i S s o f L)|intros ev; apply within_more; lia|intros s1 H; exact H]|].
      intros s1 L1. eapply trip_weak; [apply (IH _ _ _ L1)|intros ev; apply within_more; lia|intros s2; apply low_more; lia].
Qed.

(** ** Components *)
Lemma empty_low s : stacks_not_empty s = false -> low 0 0 s.
Proof.
  unfold stacks_not_empty. destruct (frames s) eqn:F, (operands s) eqn:O; try discriminate. intros _. unfold low. rewrite F, O.
  repeat split; try constructor.
Qed.
Lemma within_storage m x e : In x (module_exprs m) -> within (size_expr x) (S (depth_expr x)) e -> storage_ok m e.
Proof.
  intros I. destruct e as [k n|k n|n]; cbn [within storage_ok]; try contradiction. destruct k; try contradiction; intros H; exists x; split; try assumption; lia.
Qed.
Definition settled (m : module) (cs : vctx) : Prop := c_types (fst cs) = m_types m /\ slim_ctx (fst cs) /\ low 0 0 (snd cs).
Lemma func_storage checks bits m f cs : In f (m_funcs m) -> slim_code (fn_body f) -> settled m cs ->
  trip (storage_ok m) (fun r => settled m (snd r)) (w_func checks bits f cs).
Proof.
  intros I SL. destruct cs as [c s]. intros (CT & SC & L). cbn [fst snd] in *. unfold w_func.
  assert (IE : In (fn_body f) (module_exprs m)) by (apply in_or_app; left; apply in_map; exact I).
  apply (trip_bind _ (fun t => at_index (m_types m) (fn_ty f) t)).
  { apply trip_run. intros t H. unfold v_typeidx in H. rewrite CT in H. apply v_lookup_ok. exact H. }
  intros t T. assert (RT : (length (ft_results t) <= 1)%nat).
  { apply (proj1 SC). rewrite CT. eapply nth_error_In. exact T. }
  apply (trip_bind _ (fun _ => True)).
  { apply trip_note; [|exact I0 || exact Logic.I]. cbn [storage_ok]. right. exists f, t. auto. }
  intros _ _. apply (trip_bind _ (low 0 1)).
  { eapply trip_weak; [apply (w_frame_low _ _ _ _ _ RT RT L)| |intros s1 H; exact H]. intros e H. apply (within_storage m (fn_body f)); [exact IE|].
    eapply within_more; [| |exact H]; lia. }
  intros s1 L1. apply (trip_bind _ (low (0 + size_expr (fn_body f)) 1)).
  { eapply trip_weak; [apply (low_seq checks bits); [apply Forall_forall; intros i _; apply low_any; exact SC|exact SL|exact L1]| |intros s2 H; exact H].
    intros e H. apply (within_storage m (fn_body f)); [exact IE|]. eapply within_more; [| |exact H]; lia. }
  intros s2 _. apply (trip_bind _ (fun _ => True)); [apply trip_run; auto|]. intros rs _.
  destruct (stacks_not_empty (snd rs)) eqn:E; [apply trip_run; discriminate|]. apply trip_run. intros r [= <-]. cbn [snd].
  split; [exact CT|]. split; [exact SC|]. apply empty_low, E.
Qed.
Lemma body_storage checks bits m T r e cs : In e (module_exprs m) -> (length r <= 1)%nat -> c_types (fst cs) = T -> slim_ctx (fst cs) -> low 0 0 (snd cs) ->
  trip (storage_ok m) (fun cs' => c_types (fst cs') = T /\ slim_ctx (fst cs') /\ low 0 0 (snd cs')) (w_const_body checks bits r e cs).
Proof.
  intros IE RT. destruct cs as [c s]. cbn [fst snd]. intros CT SC L. unfold w_const_body. apply (trip_bind _ (low 0 1)).
  { eapply trip_weak; [apply (w_frame_low _ _ _ _ _ RT RT L)| |intros s1 H; exact H]. intros ev H. apply (within_storage m e); [exact IE|].
    eapply within_more; [| |exact H]; lia. }
  intros s1 L1. apply (trip_bind _ (low (0 + size_expr e) 1)).
  { eapply trip_weak; [apply (low_const checks bits c e SC _ _ _ L1)| |intros s2 H; exact H].
    intros ev H. apply (within_storage m e); [exact IE|]. eapply within_more; [| |exact H]; lia. }
  intros s2 _. apply (trip_bind _ (fun _ => True)); [apply trip_run; auto|]. intros rs _.
  destruct (stacks_not_empty (snd rs)) eqn:E; [apply trip_run; discriminate|]. apply trip_run. intros cs' [= <-]. cbn [fst snd].
  split; [exact CT|]. split; [exact SC|]. apply empty_low, E.
Qed.
Lemma each_storage {A B} E (Inv : vctx -> Prop) (w : A -> vctx -> vw (B * vctx)) xs :
  (forall x cs, In x xs -> Inv cs -> trip E (fun r => Inv (snd r)) (w x cs)) -> forall cs, Inv cs ->
  trip E (fun r => Inv (snd r)) (w_each w xs cs).
Proof.
  induction xs as [|x xs IH]; intros H cs V; cbn [w_each]; [apply trip_run; intros r [= <-]; exact V|].
  eapply trip_bind; [apply H; [left; reflexivity|exact V]|]. intros r R. eapply trip_bind; [apply IH; [intros; apply H; [right; assumption|assumption]|exact R]|].
  intros rs RS. apply trip_run. intros r' [= <-]. exact RS.
Qed.
Lemma each_same {A B} (P : A -> Prop) (v : A -> vctx -> vres (B * vctx)) xs :
  (forall x cs r, v x cs = VOk r -> snd r = cs /\ P x) -> forall cs r, v_each v xs cs = VOk r -> snd r = cs /\ Forall P xs.
Proof.
  intros H. induction xs as [|x xs IH]; intros cs r; cbn [v_each]; [intros [= <-]; split; [reflexivity|constructor]|].
  intros E. apply vbind_ok in E as (r1 & E1 & E). apply vbind_ok in E as (r2 & E2 & [= <-]). apply H in E1 as [E1 P1]. apply IH in E2 as [E2 P2].
  cbn [snd]. split; [congruence|constructor; assumption].
Qed.
Lemma types_slim ts cs r : v_each v_type_item ts cs = VOk r -> snd r = cs /\ Forall (fun t => (length (ft_results t) <= 1)%nat) ts.
Proof.
  apply each_same. intros t cs' r' H. unfold v_type_item in H. apply vbind_ok in H as (u & H & [= <-]). split; [reflexivity|].
  unfold v_functy in H. destruct (Nat.leb _ _) eqn:L; [apply Nat.leb_le in L; exact L|discriminate].
Qed.
Lemma tables_same ts cs r : v_each v_table ts cs = VOk r -> snd r = cs.
Proof. intros H. apply (each_same (fun _ => True)) in H; [apply H|]. intros x cs' r' E. unfold v_table in E. apply vbind_ok in E as (u & _ & [= <-]). auto. Qed.
Lemma mems_same ts cs r : v_each v_mem ts cs = VOk r -> snd r = cs.
Proof. intros H. apply (each_same (fun _ => True)) in H; [apply H|]. intros x cs' r' E. unfold v_mem in E. apply vbind_ok in E as (u & _ & [= <-]). auto. Qed.

(** ** The context *)
Record dims (m : module) (f t e g : nat) (c : context) : Prop := {
  d_types : c_types c = m_types m;
  d_funcs : (length (c_funcs c) <= f)%nat /\ forall x, In x (c_funcs c) -> In x (m_types m);
  d_tables : (length (c_tables c) <= t)%nat;
  d_mems : (length (c_mems c) <= e)%nat;
  d_globals : (length (c_globals c) <= g)%nat }.
Lemma use_types_eq ts : forall c, use_types ts c = mkContext (c_types c ++ ts) (c_funcs c) (c_tables c) (c_mems c) (c_globals c) (c_locals c) (c_ret c).
Proof.
  unfold use_types. induction ts as [|t ts IH]; intros c; cbn [fold_left]; [rewrite app_nil_r; destruct c; reflexivity|].
  rewrite IH. cbn [push_type c_types c_funcs c_tables c_mems c_globals c_locals c_ret]. rewrite <- app_assoc. reflexivity.
Qed.
Ltac dim := constructor; cbn; auto; rewrite ?app_length; cbn; try lia.
Lemma tables_dims m ims : forall c f t e g, dims m f t e g c -> dims m f (t + length ims) e g (use_imported_tables ims c).
Proof.
  unfold use_imported_tables. induction ims as [|im ims IH]; intros c f t e g D; cbn [fold_left length]; [rewrite Nat.add_0_r; exact D|].
  rewrite Nat.add_succ_r, <- Nat.add_succ_l. apply IH. destruct D as [D1 D2 D3 D4 D5]. destruct (im_desc im); dim.
Qed.
Lemma mems_dims m ims : forall c f t e g, dims m f t e g c -> dims m f t (e + length ims) g (use_imported_mems ims c).
Proof.
  unfold use_imported_mems. induction ims as [|im ims IH]; intros c f t e g D; cbn [fold_left length]; [rewrite Nat.add_0_r; exact D|].
  rewrite Nat.add_succ_r, <- Nat.add_succ_l. apply IH. destruct D as [D1 D2 D3 D4 D5]. destruct (im_desc im); dim.
Qed.
Lemma globals_dims m ims : forall c f t e g, dims m f t e g c -> dims m f t e (g + length ims) (use_imported_globals ims c).
Proof.
  unfold use_imported_globals. induction ims as [|im ims IH]; intros c f t e g D; cbn [fold_left length]; [rewrite Nat.add_0_r; exact D|].
  rewrite Nat.add_succ_r, <- Nat.add_succ_l. apply IH. destruct D as [D1 D2 D3 D4 D5]. destruct (im_desc im); dim.
Qed.
Lemma own_tables_dims m xs : forall c f t e g, dims m f t e g c -> dims m f (t + length xs) e g (use_tables xs c).
Proof.
  unfold use_tables. induction xs as [|x xs IH]; intros c f t e g D; cbn [fold_left length]; [rewrite Nat.add_0_r; exact D|].
  rewrite Nat.add_succ_r, <- Nat.add_succ_l. apply IH. destruct D as [D1 D2 D3 D4 D5]. dim.
Qed.
Lemma own_mems_dims m xs : forall c f t e g, dims m f t e g c -> dims m f t (e + length xs) g (use_mems xs c).
Proof.
  unfold use_mems. induction xs as [|x xs IH]; intros c f t e g D; cbn [fold_left length]; [rewrite Nat.add_0_r; exact D|].
  rewrite Nat.add_succ_r, <- Nat.add_succ_l. apply IH. destruct D as [D1 D2 D3 D4 D5]. dim.
Qed.
Lemma own_globals_dims m xs : forall c f t e g, dims m f t e g c -> dims m f t e (g + length xs) (use_globals xs c).
Proof.
  unfold use_globals. induction xs as [|x xs IH]; intros c f t e g D; cbn [fold_left length]; [rewrite Nat.add_0_r; exact D|].
  rewrite Nat.add_succ_r, <- Nat.add_succ_l. apply IH. destruct D as [D1 D2 D3 D4 D5]. dim.
Qed.
Lemma push_func_dims m c f t e g x : dims m f t e g c -> In x (m_types m) -> dims m (S f) t e g (push_func c x).
Proof.
  intros [D1 [D2 D2'] D3 D4 D5] I. dim. split; [lia|]. intros y. rewrite in_app_iff. intros [Y|[<-|[]]]; auto.
Qed.
Lemma trip_grown {A} m (Q : A -> Prop) (a : A) n : N.of_nat n <= items m -> Q a -> trip (storage_ok m) Q (w_grown a n).
Proof.
  intros L H. split; cbn [w_grown fst snd]; [|intros x [= <-]; exact H]. unfold grown. destruct n; [constructor|]. constructor; [exact L|constructor].
Qed.
Lemma imported_funcs_storage m ims : forall c f t e g, N.of_nat (f + length ims) <= items m -> dims m f t e g c ->
  trip (storage_ok m) (dims m (f + length ims) t e g) (w_imported_funcs ims c).
Proof.
  induction ims as [|im ims IH]; intros c f t e g L D; cbn [w_imported_funcs length]; [rewrite Nat.add_0_r; apply trip_run; intros c' [= <-]; exact D|].
  cbn [length] in L. rewrite Nat.add_succ_r, <- Nat.add_succ_l in *.
  assert (D' : dims m (S f) t e g c) by (destruct D as [D1 [D2 D2'] D3 D4 D5]; dim). destruct (im_desc im); try (apply IH; assumption).
  apply (trip_bind _ (fun x => In x (m_types m))).
  { apply trip_run. intros x H. apply v_lookup_ok in H. rewrite (d_types _ _ _ _ _ _ D) in H. eapply nth_error_In, H. }
  intros ty T. apply (trip_bind _ (fun _ => True)).
  { apply trip_note; [|exact Logic.I]. cbn [storage_ok]. unfold count. destruct (d_funcs _ _ _ _ _ _ D) as [X _]. lia. }
  intros _ _. apply IH; [exact L|]. apply push_func_dims; assumption.
Qed.
Lemma funcs_storage m fs : forall c f t e g, N.of_nat (f + length fs) <= items m -> dims m f t e g c ->
  trip (storage_ok m) (dims m (f + length fs) t e g) (w_funcs fs c).
Proof.
  induction fs as [|fn fs IH]; intros c f t e g L D; cbn [w_funcs length]; [rewrite Nat.add_0_r; apply trip_run; intros c' [= <-]; exact D|].
  cbn [length] in L. rewrite Nat.add_succ_r, <- Nat.add_succ_l in *.
  apply (trip_bind _ (fun x => In x (m_types m))).
  { apply trip_run. intros x H. apply v_lookup_ok in H. rewrite (d_types _ _ _ _ _ _ D) in H. eapply nth_error_In, H. }
  intros ty T. apply (trip_bind _ (fun _ => True)).
  { apply trip_note; [|exact Logic.I]. cbn [storage_ok]. unfold count. destruct (d_funcs _ _ _ _ _ _ D) as [X _]. lia. }
  intros _ _. apply IH; [exact L|]. apply push_func_dims; assumption.
Qed.
Definition all_dims (m : module) : context -> Prop := let i := length (m_imports m) in
  dims m (i + length (m_funcs m)) (i + length (m_tables m)) (i + length (m_mems m)) (i + length (m_globals m)).
Lemma context_storage m : trip (storage_ok m) (all_dims m) (w_context m).
Proof.
  unfold w_context. rewrite use_types_eq. cbn [default_context c_types c_funcs c_tables c_mems c_globals c_locals c_ret app].
  assert (IT : N.of_nat (length (m_types m)) <= items m /\ N.of_nat (length (m_imports m) + length (m_funcs m)) <= items m /\
    N.of_nat (length (m_imports m) + length (m_tables m)) <= items m /\ N.of_nat (length (m_imports m) + length (m_mems m)) <= items m /\
    N.of_nat (length (m_imports m) + length (m_globals m)) <= items m) by (unfold items, count; lia).
  destruct IT as (I1 & I2 & I3 & I4 & I5).
  apply (trip_bind _ (dims m 0 0 0 0)); [apply trip_grown; [exact I1|dim; split; [lia|intros x []]]|]. intros c0 D0.
  apply (trip_bind _ (dims m (length (m_imports m)) 0 0 0)); [apply (imported_funcs_storage m (m_imports m) c0 0 0 0 0); [lia|exact D0]|]. intros c1 D1.
  apply (trip_bind _ (dims m (length (m_imports m)) (length (m_imports m)) 0 0)).
  { pose proof (tables_dims _ (m_imports m) _ _ _ _ _ D1) as D. apply trip_grown; [|exact D]. pose proof (d_tables _ _ _ _ _ _ D). lia. }
  intros c2 D2. apply (trip_bind _ (dims m (length (m_imports m)) (length (m_imports m)) (length (m_imports m)) 0)).
  { pose proof (mems_dims _ (m_imports m) _ _ _ _ _ D2) as D. apply trip_grown; [|exact D]. pose proof (d_mems _ _ _ _ _ _ D). lia. }
  intros c3 D3. apply (trip_bind _ (dims m (length (m_imports m)) (length (m_imports m)) (length (m_imports m)) (length (m_imports m)))).
  { pose proof (globals_dims _ (m_imports m) _ _ _ _ _ D3) as D. apply trip_grown; [|exact D]. pose proof (d_globals _ _ _ _ _ _ D). lia. }
  intros c4 D4. eapply trip_bind; [apply (funcs_storage m (m_funcs m) c4); [exact I2|exact D4]|]. intros c5 D5.
  apply (trip_bind _ (dims m (length (m_imports m) + length (m_funcs m)) (length (m_imports m) + length (m_tables m)) (length (m_imports m)) (length (m_imports m)))).
  { pose proof (own_tables_dims _ (m_tables m) _ _ _ _ _ D5) as D. apply trip_grown; [|exact D]. pose proof (d_tables _ _ _ _ _ _ D). lia. }
  intros c6 D6. apply (trip_bind _ (dims m (length (m_imports m) + length (m_funcs m)) (length (m_imports m) + length (m_tables m)) (length (m_imports m) + length (m_mems m)) (length (m_imports m)))).
  { pose proof (own_mems_dims _ (m_mems m) _ _ _ _ _ D6) as D. apply trip_grown; [|exact D]. pose proof (d_mems _ _ _ _ _ _ D). lia. }
  intros c7 D7. pose proof (own_globals_dims _ (m_globals m) _ _ _ _ _ D7) as D. apply trip_grown; [|exact D]. pose proof (d_globals _ _ _ _ _ _ D). lia.
Qed.

(** ** Modules *)
Lemma expr_slim m e : (forall x, In x (module_exprs m) -> well_nested x) -> In e (module_exprs m) -> slim_code e.
Proof. intros W I. exact (proj2 (proj2 (W _ I))). Qed.
Theorem storage_each m : (forall x, In x (module_exprs m) -> well_nested x) ->
  forall checks bits e, In e (checking checks bits m) -> storage_ok m e.
Proof.
  intros W checks bits. assert (G : trip (storage_ok m) (fun _ => True) (w_validate checks bits m)).
  2: { destruct G as [G _]. rewrite Forall_forall in G. exact G. }
  unfold w_validate. eapply trip_bind; [apply context_storage|]. intros c D.
  apply (trip_bind _ (fun cg => c_types cg = [] /\ c_funcs cg = [])).
  { apply trip_grown; [unfold items, count; lia|]. unfold use_globals. generalize (m_globals m). intros l.
    assert (Z : forall c, c_types c = [] /\ c_funcs c = [] -> let c' := fold_left (fun c g => push_global c (glob_ty g)) l c in c_types c' = [] /\ c_funcs c' = []).
    { induction l as [|x l IH]; intros c1 H; cbn [fold_left]; [exact H|]. apply IH. exact H. }
    apply Z. split; reflexivity. }
  intros cg [CG1 CG2]. apply (trip_bind _ (fun r => settled m (snd r))).
  { apply trip_run. intros r H. apply types_slim in H as [E F]. rewrite E. rewrite Forall_forall in F. split; [apply D|]. split; [split; cbn [fst]|].
    - rewrite (d_types _ _ _ _ _ _ D). exact F.
    - intros t T. apply F. apply (d_funcs _ _ _ _ _ _ D). exact T.
    - repeat split; try constructor. }
  intros r1 S1. eapply trip_bind; [apply (each_storage _ (settled m)); [|exact S1]|].
  { intros f cs I S. apply func_storage; [exact I| |exact S]. apply (expr_slim m); [exact W|]. apply in_or_app. left. apply in_map. exact I. }
  intros r2 S2. apply (trip_bind _ (fun r => settled m (snd r))); [apply trip_run; intros r H; apply tables_same in H; rewrite H; exact S2|].
  intros r3 S3. apply (trip_bind _ (fun r => settled m (snd r))); [apply trip_run; intros r H; apply mems_same in H; rewrite H; exact S3|].
  intros r4 S4. apply (trip_bind _ (fun _ => True)).
  { eapply trip_weak; [apply (each_storage _ (fun cs => c_types (fst cs) = [] /\ slim_ctx (fst cs) /\ low 0 0 (snd cs)))|intros e H; exact H|auto].
    - intros g cs I (X1 & X2 & X3). unfold w_global. apply (trip_bind _ (fun _ => True)); [apply trip_run; auto|]. intros _ _.
      eapply trip_bind; [apply (body_storage checks bits m []); [|cbn; lia|exact X1|exact X2|exact X3]|].
      + unfold module_exprs. rewrite !in_app_iff. right. left. apply in_map. exact I.
      + intros cs' X. apply trip_run. intros r [= <-]. exact X.
    - split; [exact CG1|]. split; [|repeat split; constructor]. split; cbn [fst]; [rewrite CG1|rewrite CG2]; intros t []. }
  intros _ _. eapply trip_bind; [apply (each_storage _ (settled m)); [|exact S4]|].
  { intros el cs I (X1 & X2 & X3). unfold w_elem. apply (trip_bind _ (fun _ => True)); [apply trip_run; auto|]. intros t _. destruct (negb _); [apply trip_run; discriminate|].
    eapply trip_bind; [apply (body_storage checks bits m (m_types m)); [|cbn; lia|exact X1|exact X2|exact X3]|].
    - unfold module_exprs. rewrite !in_app_iff. right. right. left. apply in_map. exact I.
    - intros cs' X. apply (trip_bind _ (fun _ => True)); [apply trip_run; auto|]. intros _ _. apply trip_run. intros r [= <-]. exact X. }
  intros r6 S6. eapply trip_bind; [apply (each_storage _ (settled m)); [|exact S6]|].
  { intros d cs I (X1 & X2 & X3). unfold w_data. apply (trip_bind _ (fun _ => True)); [apply trip_run; auto|]. intros t _.
    eapply trip_bind; [apply (body_storage checks bits m (m_types m)); [|cbn; lia|exact X1|exact X2|exact X3]|].
    - unfold module_exprs. rewrite !in_app_iff. right. right. right. apply in_map. exact I.
    - intros cs' X. apply trip_run. intros r [= <-]. exact X. }
  intros r7 _. apply (trip_bind _ (fun _ => True)); [apply trip_run; auto|]. intros cs _.
  apply (trip_bind _ (fun _ => True)); [apply trip_note; [left; reflexivity|exact Logic.I]|]. intros _ _.
  apply (trip_bind _ (fun _ => True)); [apply trip_run; auto|]. intros ims _.
  apply (trip_bind _ (fun _ => True)); [apply trip_note; [right; reflexivity|exact Logic.I]|]. intros _ _.
  apply (trip_bind _ (fun _ => True)); [apply trip_run; auto|]. intros exs _.
  destruct (negb _); [apply trip_run; auto|]. destruct (negb _); [apply trip_run; auto|].
  apply (trip_bind _ (fun _ => True)); [apply trip_note; [left; reflexivity|exact Logic.I]|]. intros _ _.
  destruct (negb _); apply trip_run; auto.
Qed.
