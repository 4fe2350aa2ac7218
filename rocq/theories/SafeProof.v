(** Facts about the validation algorithm that hold for arbitrary syntax trees, also with stray pseudo
    instructions: it never panics, End is always rejected, accepted code has no dangling reference. *)
From Coq Require Import Lia.
From Verif Require Import ValidatorModule SpecRefs EncodeProof TypingProof ModuleValidProof.

(** ** No panic *)
Fixpoint chain (n : nat) (frs : list frame) : Prop :=
  match frs with [] => True | fr :: frs' => (f_height fr <= n)%nat /\ chain (f_height fr) frs' end.
Definition wf (s : stacks) : Prop := chain (length (operands s)) (frames s).
Definition good {A} (P : A -> Prop) (r : vres A) : Prop := match r with VOk a => P a | VErr => True | VPanic => False end.
Definition gs : vres stacks -> Prop := good wf.

Lemma good_bind {A B} (P : A -> Prop) (Q : B -> Prop) r f : good P r -> (forall a, P a -> good Q (f a)) -> good Q (vbind r f).
Proof. destruct r; cbn; auto. Qed.
Lemma good_lookup {A B} (Q : B -> Prop) (xs : list A) i f : (forall a, good Q (f a)) -> good Q (vbind (v_lookup xs i) f).
Proof.
  intros H. pose proof (v_lookup_no_panic xs i). destruct (v_lookup xs i); cbn; auto.
Qed.
Lemma good_label {B} (Q : B -> Prop) s i f : (forall a, good Q (f a)) -> good Q (vbind (v_labelidx s i) f).
Proof.
  intros H. pose proof (v_labelidx_no_panic s i). destruct (v_labelidx s i); cbn; auto.
Qed.
Lemma chain_mono n n' frs : (n <= n')%nat -> chain n frs -> chain n' frs.
Proof. destruct frs; cbn; [auto|]. intros L [A B]. split; [lia|assumption]. Qed.

Lemma wf_push op s : wf s -> wf (push_operand op s).
Proof. unfold wf. cbn. apply chain_mono. lia. Qed.
Lemma wf_push_operands ts s : wf s -> wf (push_operands ts s).
Proof. unfold push_operands. revert s. induction ts as [|t ts IH]; intros s W; cbn; [assumption|]. apply IH. apply wf_push. assumption. Qed.
Lemma good_pop op s : wf s -> good (fun p => wf (snd p)) (pop_operand op s).
Proof.
  unfold wf, pop_operand. destruct s as [ops [|fr frs]]; cbn [frames operands]; [intros _; exact I|].
  intros [A B]. destruct (Nat.eqb_spec (length ops) (f_height fr)) as [E|E]; cbn [andb].
  - destruct (f_unreachable fr); cbn; auto.
  - destruct ops as [|v ops]; [cbn in *; lia|]. cbn [length] in *.
    destruct v as [|tv]; [|destruct op as [|t]; [|destruct (operand_eqb (Val tv) (Val t))]]; cbn; try exact I; (split; [lia|assumption]).
Qed.
Lemma good_pop_all ts s : wf s -> gs (pop_all ts s).
Proof.
  revert s. induction ts as [|t ts IH]; intros s W; cbn [pop_all]; [exact W|].
  eapply good_bind; [apply good_pop; assumption|]. intros [op s'] W'. apply IH. exact W'.
Qed.
Lemma good_pops ts s : wf s -> gs (pop_operands ts s).
Proof. apply good_pop_all. Qed.
Lemma wf_push_frame l o s : wf s -> wf (push_frame l o s).
Proof. unfold wf. cbn. auto. Qed.
Lemma pop_operand_frames op s op' s' : pop_operand op s = VOk (op', s') -> frames s' = frames s.
Proof.
  unfold pop_operand. destruct (frames s) as [|fr frs] eqn:F; [discriminate|].
  destruct (_ && _); [intros [= _ <-]; assumption|]. destruct (Nat.eqb _ _); [discriminate|].
  destruct (operands s) as [|v ops]; [discriminate|].
  destruct v as [|tv]; [|destruct op as [|t]; [|destruct (operand_eqb (Val tv) (Val t)); [|discriminate]]]; intros [= _ <-]; reflexivity.
Qed.
Lemma pop_all_frames ts s s' : pop_all ts s = VOk s' -> frames s' = frames s.
Proof.
  revert s. induction ts as [|t ts IH]; intros s; cbn [pop_all]; [congruence|].
  intros H. apply vbind_ok in H as ([op s1] & H1 & H2). apply pop_operand_frames in H1. apply IH in H2. cbn in H2. congruence.
Qed.
Lemma pops_frames ts s s' : pop_operands ts s = VOk s' -> frames s' = frames s.
Proof. apply pop_all_frames. Qed.
Lemma good_pop_frame s : wf s -> good (fun p => wf (snd p)) (pop_frame s).
Proof.
  intros W. unfold pop_frame. destruct (frames s) as [|fr frs] eqn:F; [exact I|].
  pose proof (good_pops (f_out fr) s W) as G. destruct (pop_operands (f_out fr) s) as [s'| |] eqn:E; [|exact I|exact G].
  cbn [vbind]. apply pops_frames in E. rewrite F in E. rewrite E.
  destruct (Nat.eqb_spec (length (operands s')) (f_height fr)) as [L|L]; cbn [negb]; [|exact I].
  unfold gs, good, wf in *. cbn. rewrite E in G. cbn in G. rewrite L. apply G.
Qed.
Lemma good_unreachable s : wf s -> gs (s_unreachable s).
Proof.
  unfold s_unreachable, gs, wf. destruct s as [ops [|fr frs]]; cbn [frames operands]; [intros _; exact I|].
  intros [A B]. cbn. unfold truncate. rewrite skipn_length. split; [lia|assumption].
Qed.
Lemma good_end s : wf s -> gs (v_end s).
Proof. intros W. eapply good_bind; [apply good_pop_frame; assumption|]. intros [ts s'] W'. apply wf_push_operands. exact W'. Qed.
Lemma good_else s : wf s -> gs (v_else s).
Proof. intros W. eapply good_bind; [apply good_pop_frame; assumption|]. intros [ts s'] W'. apply wf_push_frame. exact W'. Qed.
Lemma good_br_table s fr ls : good (fun _ => True) (v_br_table_labels s fr ls).
Proof.
  induction ls as [|l ls IH]; cbn [v_br_table_labels]; [exact I|]. apply good_label. intros f. destruct (negb _); [exact I|exact IH].
Qed.

Lemma good_instr c i : forall s, wf s -> gs (v_instr c i s).
Proof.
  induction i as [i IH] using instr_children_ind. intros s W.
  assert (SQ : forall sub, In sub (children i) -> forall s, wf s -> gs (v_seq (v_instr c) sub s)).
  { intros sub J. specialize (IH sub J). clear - IH. induction IH as [|x xs Hx _ IHx]; intros s W; cbn [v_seq]; [exact W|].
    eapply good_bind; [apply Hx; assumption|]. intros; apply IHx; assumption. }
  assert (PP : forall ts (f : stacks -> vres stacks) s, wf s -> (forall s, wf s -> gs (f s)) -> gs (vbind (pop_operands ts s) f)).
  { intros. eapply good_bind; [apply good_pops; assumption|assumption]. }
  assert (PU : forall ts s, wf s -> gs (VOk (push_operands ts s))) by (intros; apply wf_push_operands; assumption).
  destruct (plain_type i) as [[ts1 ts2]|] eqn:PT.
  { rewrite (v_plain _ _ _ _ _ PT). apply PP; auto. }
  destruct (load_type i) as [[[al n] t]|] eqn:LT.
  { rewrite (v_load_instr _ _ _ _ _ _ LT). apply good_lookup. intros _. apply PP; auto. }
  destruct (store_type i) as [[[al n] t]|] eqn:ST.
  { rewrite (v_store_instr _ _ _ _ _ _ ST). apply good_lookup. intros _. apply good_pops; auto. }
  destruct i; try discriminate PT; try discriminate LT; try discriminate ST; cbn [v_instr];
  try (apply good_label; intros); try (apply good_lookup; intros); auto.
  - apply good_unreachable; assumption.
  - eapply good_bind; [apply SQ; [left; reflexivity|apply wf_push_frame; assumption]|apply good_end].
  - eapply good_bind; [apply SQ; [left; reflexivity|apply wf_push_frame; assumption]|apply good_end].
  - apply PP; [assumption|]. intros s1 W1.
    eapply good_bind; [apply SQ; [left; reflexivity|apply wf_push_frame; assumption]|]. intros s2 W2.
    eapply good_bind; [apply good_else; assumption|]. intros s3 W3.
    eapply good_bind; [apply SQ; [right; left; reflexivity|assumption]|apply good_end].
  - apply good_else; assumption.
  - apply good_end; assumption.
  - apply PP; [assumption|apply good_unreachable].
  - apply PP; [assumption|]. intros s1 W1. apply PP; auto.
  - eapply good_bind; [apply good_br_table|]. intros _ _. apply PP; [assumption|]. intros s1 W1. apply PP; [assumption|apply good_unreachable].
  - destruct (c_ret c); cbn [vbind]; [|exact I]. apply PP; [assumption|apply good_unreachable].
  - apply PP; auto.
  - apply good_lookup. intros ft. destruct (negb _); [exact I|]. apply PP; [assumption|]. intros s1 W1. apply PP; auto.
  - eapply good_bind; [apply good_pop; assumption|]. intros [op s'] W'. exact W'.
  - apply PP; [assumption|]. intros s1 W1. eapply good_bind; [apply good_pop; assumption|]. intros [op1 s2] W2.
    eapply good_bind; [apply good_pop; exact W2|]. intros [op2 s3] W3. apply wf_push. exact W3.
  - apply PU; assumption.
  - apply good_pops; assumption.
  - apply PP; auto.
  - apply PU; assumption.
  - destruct (negb _); [exact I|]. apply good_pops; assumption.
  - apply PU; assumption.
  - apply PP; auto.
Qed.
Lemma good_seq c e s : wf s -> gs (v_seq (v_instr c) e s).
Proof.
  revert s. induction e as [|i e IH]; intros s W; cbn [v_seq]; [exact W|].
  eapply good_bind; [apply good_instr; assumption|assumption].
Qed.
Lemma good_constexpr c e s : wf s -> gs (v_constexpr c e s).
Proof.
  revert s. induction e as [|i e IH]; intros s W; cbn [v_constexpr]; [exact W|].
  eapply (good_bind (fun _ => True)); [|intros _ _; eapply good_bind; [apply good_instr; assumption|assumption]].
  unfold v_const_check. destruct i; try exact I. apply good_lookup. intros g. destruct (negb _); exact I.
Qed.

Definition np {A} (r : vres A) : Prop := r <> VPanic.
Definition wfc (cs : vctx) : Prop := wf (snd cs).
Definition good_item {A B} (v : A -> vctx -> vres (B * vctx)) : Prop := forall x cs, wfc cs -> good (fun r => wfc (snd r)) (v x cs).
Lemma good_each {A B} (v : A -> vctx -> vres (B * vctx)) xs cs : good_item v -> wfc cs -> good (fun r => wfc (snd r)) (v_each v xs cs).
Proof.
  intros G. revert cs. induction xs as [|x xs IH]; intros cs W; cbn [v_each]; [exact W|].
  eapply good_bind; [apply G; assumption|]. intros [r cs1] W1. eapply good_bind; [apply IH; exact W1|]. intros [rs cs2] W2. exact W2.
Qed.
Lemma good_func : good_item v_func.
Proof.
  intros f [c s] W. unfold v_func. apply good_lookup. intros t.
  eapply good_bind; [apply good_seq; apply wf_push_frame; exact W|]. intros s1 W1.
  eapply good_bind; [apply good_pop_frame; exact W1|]. intros [ts s2] W2. cbn [snd] in *. destruct (stacks_not_empty s2); [exact I|exact W2].
Qed.
Lemma good_limits l bound {A} (P : A -> Prop) f : (forall r, good P (f r)) -> good P (vbind (range <-- v_limits l ;; if negb (range <=? bound) then VErr else VOk tt) f).
Proof. intros H. unfold v_limits. destruct (negb _); cbn; [exact I|]. destruct (negb _); cbn; [exact I|auto]. Qed.
Lemma good_table : good_item v_table.
Proof. intros t cs W. apply good_limits. intros _. exact W. Qed.
Lemma good_mem : good_item v_mem.
Proof. intros t cs W. apply good_limits. intros _. exact W. Qed.
Lemma good_type : good_item v_type_item.
Proof. intros t cs W. unfold v_type_item, v_functy. destruct (negb _); [exact I|exact W]. Qed.
Lemma good_const_body r e cs : wfc cs -> good wfc (v_const_body r e cs).
Proof.
  destruct cs as [c s]. intros W. unfold v_const_body.
  eapply good_bind; [apply good_constexpr; apply wf_push_frame; exact W|]. intros s1 W1.
  eapply good_bind; [apply good_pop_frame; exact W1|]. intros [ts s2] W2. cbn [snd] in *. destruct (stacks_not_empty s2); [exact I|exact W2].
Qed.
Lemma good_global : good_item v_global.
Proof. intros g cs W. unfold v_global. cbn [v_globalty vbind]. eapply good_bind; [apply good_const_body; assumption|]. intros cs' W'. exact W'. Qed.
Lemma good_elem_init c is : good (fun _ => True) (v_elem_init c is).
Proof. induction is as [|i is IH]; cbn [v_elem_init]; [exact I|]. apply good_lookup. intros _. exact IH. Qed.
Lemma good_elem : good_item v_elem.
Proof.
  intros e cs W. unfold v_elem. apply good_lookup. intros t. destruct (negb _); [exact I|].
  eapply good_bind; [apply good_const_body; assumption|]. intros cs' W'. eapply good_bind; [apply good_elem_init|]. intros _ _. exact W'.
Qed.
Lemma good_data : good_item v_data.
Proof.
  intros e cs W. unfold v_data. apply good_lookup. intros t.
  eapply good_bind; [apply good_const_body; assumption|]. intros cs' W'. exact W'.
Qed.
Lemma good_start : good_item v_start.
Proof. intros s cs W. unfold v_start. apply good_lookup. intros t. destruct (_ || _); [exact I|exact W]. Qed.
Lemma good_import : good_item v_import.
Proof.
  intros im cs W. unfold v_import. destruct (im_desc im).
  - apply good_lookup. intros ?. exact W.
  - apply good_limits. intros _. exact W.
  - apply good_limits. intros _. exact W.
  - exact W.
Qed.
Lemma good_export : good_item v_export.
Proof. intros ex cs W. unfold v_export. destruct (ex_desc ex); apply good_lookup; intros ?; exact W. Qed.
Lemma good_imported_funcs ims c : good (fun _ => True) (use_imported_funcs ims c).
Proof.
  revert c. induction ims as [|im ims IH]; intros c; cbn [use_imported_funcs]; [exact I|].
  destruct (im_desc im); try apply IH. apply good_lookup. intros ?. apply IH.
Qed.
Lemma good_use_funcs fs c : good (fun _ => True) (use_funcs fs c).
Proof.
  revert c. induction fs as [|f fs IH]; intros c; cbn [use_funcs]; [exact I|]. apply good_lookup. intros t. apply IH.
Qed.
Lemma good_context m : good (fun _ => True) (context_from m).
Proof.
  unfold context_from. eapply good_bind; [apply good_imported_funcs|]. intros c _.
  eapply good_bind; [apply good_use_funcs|]. intros; exact I.
Qed.
Theorem validate_no_panic m : validate m <> VPanic.
Proof.
  assert (G : good (fun _ => True) (validate m)).
  2: { intros E. rewrite E in G. exact G. }
  unfold validate, v_module. eapply good_bind; [apply good_context|]. intros c _.
  assert (W0 : forall c, wfc (c, empty_stacks)) by (intros; exact I).
  eapply good_bind; [apply good_each; [exact good_type|apply W0]|]. intros [r1 cs1] W1.
  eapply good_bind; [apply good_each; [exact good_func|exact W1]|]. intros [r2 cs2] W2.
  eapply good_bind; [apply good_each; [exact good_table|exact W2]|]. intros [r3 cs3] W3.
  eapply good_bind; [apply good_each; [exact good_mem|exact W3]|]. intros [r4 cs4] W4.
  eapply good_bind; [apply good_each; [exact good_global|apply W0]|]. intros [r5 cs5] W5.
  eapply good_bind; [apply good_each; [exact good_elem|exact W4]|]. intros [r6 cs6] W6.
  eapply good_bind; [apply good_each; [exact good_data|exact W6]|]. intros [r7 cs7] W7.
  eapply (good_bind wfc).
  { destruct (m_start m) as [s|]; [|exact W7]. eapply good_bind; [apply good_start; exact W7|]. intros [r8 cs8] W8. exact W8. }
  intros cs8 W8.
  eapply good_bind; [apply good_each; [exact good_import|exact W8]|]. intros [r9 cs9] W9.
  eapply good_bind; [apply good_each; [exact good_export|exact W9]|]. intros [r10 cs10] W10.
  destruct (negb _); [exact I|]. destruct (negb _); [exact I|]. destruct (negb _); exact I.
Qed.

(** ** Frames are only removed by stray End instructions *)
Fixpoint ends (i : instr) : nat :=
  match i with
  | I_End => 1
  | I_Block _ b | I_Loop _ b => list_sum (map ends b)
  | I_If _ b d => list_sum (map ends b) + list_sum (map ends d)
  | _ => 0
  end.
Definition ends_seq (e : list instr) : nat := list_sum (map ends e).
Lemma ends_seq_cons i e : ends_seq (i :: e) = (ends i + ends_seq e)%nat.
Proof. reflexivity. Qed.
Lemma ends_seq_app a b : ends_seq (a ++ b) = (ends_seq a + ends_seq b)%nat.
Proof. unfold ends_seq. rewrite map_app, list_sum_app. reflexivity. Qed.
Lemma ends_in i e : In i e -> (ends i <= ends_seq e)%nat.
Proof. intros I. apply in_split in I as (a & b & ->). rewrite ends_seq_app, ends_seq_cons. lia. Qed.
Lemma ends_child i sub : In sub (children i) -> (ends_seq sub <= ends i)%nat.
Proof. destruct i; cbn; try contradiction; intros I; repeat (destruct I as [<-|I]; [unfold ends_seq; lia|]); contradiction. Qed.
Lemma occurs_ends e : occurs I_End e -> (1 <= ends_seq e)%nat.
Proof.
  induction 1 as [e I|i sub e I S O IH].
  - apply ends_in in I. exact I.
  - apply ends_in in I. apply ends_child in S. lia.
Qed.
Lemma no_occurs_ends e : ~ occurs I_End e -> ends_seq e = 0%nat.
Proof.
  assert (K : forall i, ends i <> O -> occurs I_End [i]).
  { induction i as [i IH] using instr_children_ind. intros E.
    assert (SUB : forall sub, In sub (children i) -> ends_seq sub <> O -> occurs I_End [i]).
    { intros sub J. specialize (IH sub J). intros NE. eapply occurs_inside; [left; reflexivity|exact J|]. clear - IH NE.
      induction IH as [|x xs Hx _ IHx]; [contradiction|]. rewrite ends_seq_cons in NE.
      destruct (Nat.eq_dec (ends x) 0) as [Z|Z].
      - assert (O : occurs I_End xs) by (apply IHx; lia). inversion O as [? I|y sub ? I C O']; subst; [apply occurs_here; right; assumption|].
        eapply occurs_inside; [right| |]; eassumption.
      - apply Hx in Z. inversion Z as [? I|y sub ? I C O']; subst; destruct I as [->|[]]; [apply occurs_here; left; reflexivity|].
        eapply occurs_inside; [left; reflexivity| |]; eassumption. }
    destruct i; cbn [ends] in E; try lia.
    - apply (SUB b); [left; reflexivity|exact E].
    - apply (SUB b); [left; reflexivity|exact E].
    - destruct (Nat.eq_dec (list_sum (map ends b)) 0) as [Z|Z]; [apply (SUB c); [right; left; reflexivity|unfold ends_seq; lia]|apply (SUB b); [left; reflexivity|exact Z]].
    - apply occurs_here. left. reflexivity. }
  intros NO. destruct (Nat.eq_dec (ends_seq e) 0) as [Z|Z]; [assumption|]. exfalso. apply NO. clear NO.
  induction e as [|x xs IHx]; [contradiction|]. rewrite ends_seq_cons in Z.
  destruct (Nat.eq_dec (ends x) 0) as [Y|Y].
  - assert (O : occurs I_End xs) by (apply IHx; lia). inversion O as [? I|y sub ? I C O']; subst; [apply occurs_here; right; assumption|].
    eapply occurs_inside; [right| |]; eassumption.
  - apply K in Y. inversion Y as [? I|y sub ? I C O']; subst; destruct I as [->|[]]; [apply occurs_here; left; reflexivity|].
    eapply occurs_inside; [left; reflexivity| |]; eassumption.
Qed.

Lemma push_operands_frames ts s : frames (push_operands ts s) = frames s.
Proof. unfold push_operands. revert s. induction ts as [|t ts IH]; intros s; cbn; [reflexivity|]. rewrite IH. reflexivity. Qed.
Lemma pop_frame_frames s rs : pop_frame s = VOk rs -> S (length (frames (snd rs))) = length (frames s).
Proof.
  unfold pop_frame. destruct (frames s) as [|fr frs] eqn:F; [discriminate|]. intros H. apply vbind_ok in H as (s1 & H1 & H2).
  apply pops_frames in H1. rewrite F in H1. rewrite H1 in H2. destruct (negb _); [discriminate|]. injection H2 as <-. reflexivity.
Qed.
Lemma unreachable_frames s s' : s_unreachable s = VOk s' -> length (frames s') = length (frames s).
Proof. unfold s_unreachable. destruct (frames s) as [|fr frs]; [discriminate|]. intros [= <-]. reflexivity. Qed.
Lemma end_frames s s' : v_end s = VOk s' -> S (length (frames s')) = length (frames s).
Proof.
  unfold v_end. intros H. apply vbind_ok in H as (rs & H1 & H2). apply pop_frame_frames in H1. injection H2 as <-.
  rewrite push_operands_frames. assumption.
Qed.
Lemma else_frames s s' : v_else s = VOk s' -> length (frames s') = length (frames s).
Proof.
  unfold v_else. intros H. apply vbind_ok in H as (rs & H1 & H2). apply pop_frame_frames in H1. injection H2 as <-. cbn. assumption.
Qed.

Definition counts c i := forall s s', v_instr c i s = VOk s' -> (length (frames s') + ends i = length (frames s))%nat.
Lemma counts_seq c e : Forall (counts c) e -> forall s s', v_seq (v_instr c) e s = VOk s' ->
  (length (frames s') + ends_seq e = length (frames s))%nat.
Proof.
  induction 1 as [|i e Hi _ IH]; intros s s'; cbn [v_seq].
  - intros [= <-]. cbn. lia.
  - intros H. apply vbind_ok in H as (s1 & H1 & H2). apply Hi in H1. apply IH in H2. rewrite ends_seq_cons. lia.
Qed.
Lemma vok_inj {A} (a b : A) : VOk a = VOk b -> a = b.
Proof. congruence. Qed.
Ltac fr := repeat match goal with
  | H : vbind _ _ = VOk _ |- _ => apply vbind_ok in H as (? & ? & H)
  | H : pop_operands _ _ = VOk _ |- _ => apply pops_frames in H
  | H : s_unreachable _ = VOk _ |- _ => apply unreachable_frames in H
  | H : VOk _ = VOk _ |- _ => apply vok_inj in H
  | H : (if _ then VErr else _) = VOk _ |- _ => destruct (negb _) in H; [discriminate|]
  | H : push_operands _ _ = _ |- _ => apply (f_equal frames) in H; rewrite push_operands_frames in H
  end.
Lemma counts_instr c i : counts c i.
Proof.
  induction i as [i IH] using instr_children_ind. intros s s' H.
  assert (SQ : forall sub, In sub (children i) -> forall s s', v_seq (v_instr c) sub s = VOk s' ->
    (length (frames s') + ends_seq sub = length (frames s))%nat).
  { intros sub J. apply counts_seq. apply IH. assumption. }
  destruct (plain_type i) as [[ts1 ts2]|] eqn:PT.
  { rewrite (v_plain _ _ _ _ _ PT) in H. fr. assert (ends i = O) as -> by (destruct i; try discriminate PT; reflexivity). rewrite Nat.add_0_r. congruence. }
  destruct (load_type i) as [[[al n] t]|] eqn:LT.
  { rewrite (v_load_instr _ _ _ _ _ _ LT) in H. fr. assert (ends i = O) as -> by (destruct i; try discriminate LT; reflexivity). rewrite Nat.add_0_r. congruence. }
  destruct (store_type i) as [[[al n] t]|] eqn:ST.
  { rewrite (v_store_instr _ _ _ _ _ _ ST) in H. fr. assert (ends i = O) as -> by (destruct i; try discriminate ST; reflexivity). rewrite Nat.add_0_r. congruence. }
  destruct i; try discriminate PT; try discriminate LT; try discriminate ST; cbn [v_instr] in H; cbn [ends]; rewrite ?Nat.add_0_r;
  try solve [fr; congruence].
  - apply vbind_ok in H as (s1 & H1 & H2). apply SQ in H1; [|left; reflexivity]. apply end_frames in H2. cbn in H1. unfold ends_seq in H1. lia.
  - apply vbind_ok in H as (s1 & H1 & H2). apply SQ in H1; [|left; reflexivity]. apply end_frames in H2. cbn in H1. unfold ends_seq in H1. lia.
  - apply vbind_ok in H as (s0 & H0 & H). apply pops_frames in H0.
    apply vbind_ok in H as (s1 & H1 & H). apply SQ in H1; [|left; reflexivity]. cbn in H1. rewrite H0 in H1.
    apply vbind_ok in H as (s2 & H2 & H). apply else_frames in H2.
    apply vbind_ok in H as (s3 & H3 & H). apply SQ in H3; [|right; left; reflexivity]. apply end_frames in H. unfold ends_seq in *. lia.
  - apply else_frames in H. assumption.
  - apply end_frames in H. lia.
  - apply vbind_ok in H as ([op s1] & H1 & H). apply pop_operand_frames in H1. injection H as <-. cbn. congruence.
  - apply vbind_ok in H as (s0 & H0 & H). apply pops_frames in H0.
    apply vbind_ok in H as ([op s1] & H1 & H). apply pop_operand_frames in H1.
    apply vbind_ok in H as ([op2 s2] & H2 & H). apply pop_operand_frames in H2. injection H as <-. cbn in *. congruence.
Qed.
Lemma counts_expr c e s s' : v_expr c e s = VOk s' -> (length (frames s') + ends_seq e = length (frames s))%nat.
Proof. apply counts_seq. apply Forall_forall. intros i _. apply counts_instr. Qed.

(** ** Every instruction of accepted code was run *)
Inductive at_depth (j : instr) : nat -> list instr -> Prop :=
| depth_here e : In j e -> at_depth j 0 e
| depth_inside d i sub e : In i e -> In sub (children i) -> at_depth j d sub -> at_depth j (S d) e.
Lemma occurs_at_depth j e : occurs j e -> exists d, at_depth j d e.
Proof.
  induction 1 as [e I|i sub e I S O [d IH]]; [exists O; constructor; assumption|]. exists (Datatypes.S d). econstructor; eassumption.
Qed.
Lemma jump_at_depth d l e : jump d l e -> exists j, at_depth j d e /\ In l (branch_targets j).
Proof.
  induction 1 as [i l e I L|d i sub l e I S J (j & A & L)].
  - exists i. split; [constructor; assumption|assumption].
  - exists j. split; [econstructor; eassumption|assumption].
Qed.
Lemma v_seq_app v a b s : v_seq v (a ++ b) s = (s <-- v_seq v a s ;; v_seq v b s).
Proof.
  revert s. induction a as [|i a IH]; intros s; [reflexivity|]. cbn [app v_seq]. destruct (v i s); cbn [vbind]; [apply IH|reflexivity|reflexivity].
Qed.
Lemma ran c j d e : at_depth j d e -> forall s s', v_expr c e s = VOk s' ->
  exists s1 s2, v_instr c j s1 = VOk s2 /\ (ends_seq e = 0%nat -> length (frames s1) = (d + length (frames s))%nat).
Proof.
  induction 1 as [e I|d i sub e I S A IH]; intros s s' H.
  - apply in_split in I as (a & b & ->). unfold v_expr in H. rewrite v_seq_app in H. apply vbind_ok in H as (s1 & H1 & H2).
    cbn [v_seq] in H2. apply vbind_ok in H2 as (s2 & H2 & _). exists s1, s2. split; [assumption|]. intros E.
    rewrite ends_seq_app in E. apply counts_expr in H1. lia.
  - apply in_split in I as (a & b & ->). unfold v_expr in H. rewrite v_seq_app in H. apply vbind_ok in H as (s1 & H1 & H2).
    cbn [v_seq] in H2. apply vbind_ok in H2 as (s2 & H2 & _). apply counts_expr in H1.
    assert (E0 : ends_seq (a ++ i :: b) = 0%nat -> ends_seq a = 0%nat /\ ends i = 0%nat) by (rewrite ends_seq_app, ends_seq_cons; lia).
    assert (K : exists s3 s4, v_expr c sub s3 = VOk s4 /\ (ends i = 0%nat -> length (frames s3) = Datatypes.S (length (frames s1)))).
    { destruct i; try contradiction S; cbn [v_instr] in H2.
      - destruct S as [<-|[]]. apply vbind_ok in H2 as (s4 & H3 & _). eexists _, _. split; [exact H3|]. reflexivity.
      - destruct S as [<-|[]]. apply vbind_ok in H2 as (s4 & H3 & _). eexists _, _. split; [exact H3|]. reflexivity.
      - apply vbind_ok in H2 as (s3 & P & H2). apply pops_frames in P.
        apply vbind_ok in H2 as (s4 & H3 & H2). destruct S as [<-|[<-|[]]].
        + eexists _, _. split; [exact H3|]. intros _. cbn. rewrite P. reflexivity.
        + apply vbind_ok in H2 as (s5 & H5 & H2). apply else_frames in H5. apply vbind_ok in H2 as (s6 & H6 & _).
          apply counts_expr in H3. cbn in H3. rewrite P in H3.
          eexists _, _. split; [exact H6|]. cbn [ends]. unfold ends_seq in H3. lia. }
    destruct K as (s3 & s4 & K & L). destruct (IH _ _ K) as (s5 & s6 & R & M). exists s5, s6. split; [assumption|].
    intros E. destruct (E0 E) as [E1 E2]. pose proof (ends_child _ _ S). rewrite M by lia. rewrite L by assumption. lia.
Qed.

(** what one accepted step says about references *)
Definition ctx_size (c : context) (s : space) : N :=
  N.of_nat match s with
           | S_Type => length (c_types c)
           | S_Func => length (c_funcs c)
           | S_Table => length (c_tables c)
           | S_Mem => length (c_mems c)
           | S_Global => length (c_globals c)
           | S_Local => length (c_locals c)
           end.
Lemma at_index_lt {A} (xs : list A) i x : at_index xs i x -> i < N.of_nat (length xs).
Proof. unfold at_index. intros H. assert (nth_error xs (N.to_nat i) <> None) as Q by congruence. apply nth_error_Some in Q. lia. Qed.
Lemma v_lookup_lt {A} (xs : list A) i x : v_lookup xs i = VOk x -> i < N.of_nat (length xs).
Proof. intros H. apply v_lookup_ok in H. eapply at_index_lt; eassumption. Qed.
Lemma refs_step c j s s' sp x : v_instr c j s = VOk s' -> In (sp, x) (refs j) -> x < ctx_size c sp.
Proof.
  intros H I.
  destruct (load_type j) as [[[al n] t]|] eqn:LT.
  { rewrite (v_load_instr _ _ _ _ _ _ LT) in H. apply vbind_ok in H as (m & H & _). apply v_lookup_lt in H.
    assert (refs j = [(S_Mem, 0)]) as E by (destruct j; try discriminate LT; reflexivity). rewrite E in I. destruct I as [[= <- <-]|[]]. exact H. }
  destruct (store_type j) as [[[al n] t]|] eqn:ST.
  { rewrite (v_store_instr _ _ _ _ _ _ ST) in H. apply vbind_ok in H as (m & H & _). apply v_lookup_lt in H.
    assert (refs j = [(S_Mem, 0)]) as E by (destruct j; try discriminate ST; reflexivity). rewrite E in I. destruct I as [[= <- <-]|[]]. exact H. }
  destruct j; try discriminate LT; try discriminate ST; try contradiction I; cbn [v_instr] in H;
  apply vbind_ok in H as (? & H1 & H); cbn in I.
  2: { apply vbind_ok in H as (? & H2 & H). destruct I as [[= <- <-]|[[= <- <-]|[]]]; [eapply v_lookup_lt; exact H2|eapply v_lookup_lt; exact H1]. }
  all: destruct I as [I|[]]; injection I as <- <-; eapply v_lookup_lt; exact H1.
Qed.
Lemma br_labels_lt s fr ls : v_br_table_labels s fr ls = VOk tt -> forall l, In l ls -> (S (N.to_nat l) < length (frames s))%nat.
Proof.
  induction ls as [|y ls IH]; cbn [v_br_table_labels]; [contradiction|]. intros H l I.
  apply vbind_ok in H as (f & H1 & H2). destruct (negb _); [discriminate|]. destruct I as [<-|I]; [|auto].
  apply v_labelidx_ok in H1 as [_ L]. exact L.
Qed.
Lemma branch_step c j s s' l : v_instr c j s = VOk s' -> In l (branch_targets j) -> (S (N.to_nat l) < length (frames s))%nat.
Proof.
  intros H I. destruct j; try contradiction I; cbn [v_instr branch_targets] in H, I; apply vbind_ok in H as (f & H1 & H);
  apply v_labelidx_ok in H1 as [_ L].
  - destruct I as [<-|[]]. exact L.
  - destruct I as [<-|[]]. exact L.
  - apply vbind_ok in H as ([] & H2 & _). apply in_app_or in I as [I|[<-|[]]]; [|exact L]. eapply br_labels_lt; eassumption.
Qed.
Lemma global_set_step c x s s' : v_instr c (I_GlobalSet x) s = VOk s' -> exists g, at_index (c_globals c) x g /\ gt_mut g = Var.
Proof.
  cbn [v_instr]. intros H. apply vbind_ok in H as (g & H1 & H). apply v_lookup_ok in H1. exists g. split; [assumption|].
  destruct (gt_mut g); [discriminate|reflexivity].
Qed.

(** ** Accepted functions *)
Definition body_ctx (c : context) (t : functy) (f : func) : context :=
  set_locals (set_ret c (Some (ft_results t))) (ft_params t ++ fn_locals f).
Lemma v_func_run f c t cs' : v_func f (c, empty_stacks) = VOk (t, cs') ->
  at_index (c_types c) (fn_ty f) t /\
  exists s rs, v_expr (body_ctx c t f) (fn_body f) (push_frame (ft_results t) (ft_results t) empty_stacks) = VOk s /\ pop_frame s = VOk rs.
Proof.
  unfold v_func. intros H. apply vbind_ok in H as (t' & Ht & H). apply vbind_ok in H as (s & Hs & H). apply vbind_ok in H as (rs & Hr & H).
  assert (t' = t) as -> by (destruct (stacks_not_empty (snd rs)); congruence). apply v_lookup_ok in Ht. split; [exact Ht|].
  exists s, rs. auto.
Qed.
Lemma func_no_end f c t cs' : v_func f (c, empty_stacks) = VOk (t, cs') -> ends_seq (fn_body f) = 0%nat.
Proof.
  intros H. apply v_func_run in H as (_ & s & rs & H & P). apply counts_expr in H. apply pop_frame_frames in P. cbn in H. lia.
Qed.
Lemma func_refs f c t cs' j sp x : v_func f (c, empty_stacks) = VOk (t, cs') -> occurs j (fn_body f) -> In (sp, x) (refs j) ->
  x < ctx_size (body_ctx c t f) sp.
Proof.
  intros H O I. apply v_func_run in H as (_ & s & rs & H & _). apply occurs_at_depth in O as [d O].
  destruct (ran _ _ _ _ O _ _ H) as (s1 & s2 & R & _). eapply refs_step; eassumption.
Qed.
Lemma func_jumps f c t cs' : v_func f (c, empty_stacks) = VOk (t, cs') -> jumps_inside (fn_body f).
Proof.
  intros H d l J. pose proof (func_no_end _ _ _ _ H) as E. apply v_func_run in H as (_ & s & rs & H & _).
  apply jump_at_depth in J as (j & A & I). destruct (ran _ _ _ _ A _ _ H) as (s1 & s2 & R & L). specialize (L E). cbn in L.
  pose proof (branch_step _ _ _ _ _ R I). lia.
Qed.
Lemma func_global_set f c t cs' x : v_func f (c, empty_stacks) = VOk (t, cs') -> occurs (I_GlobalSet x) (fn_body f) ->
  exists g, at_index (c_globals c) x g /\ gt_mut g = Var.
Proof.
  intros H O. apply v_func_run in H as (_ & s & rs & H & _). apply occurs_at_depth in O as [d O].
  destruct (ran _ _ _ _ O _ _ H) as (s1 & s2 & R & _). apply global_set_step in R. exact R.
Qed.
