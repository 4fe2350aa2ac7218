(** [==] on modules is equality up to the sign of zeros, and false on modules that contain a NaN. *)
From Coq Require Import Lia ZifyN ZifyBool.
From Verif Require Import Equality SpecEq SpecFormat ParserModule EncodeProof.
Open Scope N_scope.
Ltac Zify.zify_post_hook ::= Z.div_mod_to_equations.

(** floating point numbers *)
Lemma nan32_ok x : is_nan32 x = nan32 x.
Proof. unfold is_nan32, nan32, exponent32, mantissa32. change (2 ^ 23) with 8388608. change (2 ^ 8) with 256. lia. Qed.
Lemma nan64_ok x : is_nan64 x = nan64 x.
Proof. unfold is_nan64, nan64, exponent64, mantissa64. change (2 ^ 52) with 4503599627370496. change (2 ^ 11) with 2048. lia. Qed.
Lemma zero32_ok x : (x mod 0x80000000 =? 0) = zero32 x.
Proof. unfold zero32, exponent32, mantissa32. change (2 ^ 23) with 8388608. change (2 ^ 8) with 256. lia. Qed.
Lemma zero64_ok x : (x mod 0x8000000000000000 =? 0) = zero64 x.
Proof. unfold zero64, exponent64, mantissa64. change (2 ^ 52) with 4503599627370496. change (2 ^ 11) with 2048. lia. Qed.
Lemma zero_not_nan32 x : zero32 x = true -> nan32 x = false.
Proof. unfold zero32, nan32. intros H. apply andb_true_iff in H. destruct H as [H _]. apply N.eqb_eq in H. rewrite H. reflexivity. Qed.
Lemma zero_not_nan64 x : zero64 x = true -> nan64 x = false.
Proof. unfold zero64, nan64. intros H. apply andb_true_iff in H. destruct H as [H _]. apply N.eqb_eq in H. rewrite H. reflexivity. Qed.
Lemma eq_f32_iff x y : eq_f32 x y = true <-> (if zero32 x then 0 else x) = (if zero32 y then 0 else y) /\ nan32 x = false.
Proof.
  unfold eq_f32. rewrite !nan32_ok, !zero32_ok. split.
  - destruct (nan32 x); [discriminate|]. destruct (nan32 y); [discriminate|]. cbn [orb]. intros H. split; [|reflexivity].
    apply orb_true_iff in H. destruct H as [H|H]; [apply N.eqb_eq in H; subst; reflexivity|]. apply andb_true_iff in H. destruct H as [-> ->]. reflexivity.
  - intros [E N]. rewrite N. cbn [orb]. destruct (zero32 x) eqn:X, (zero32 y) eqn:Y.
    + rewrite (zero_not_nan32 y Y). apply orb_true_r.
    + subst y. discriminate Y.
    + subst x. discriminate X.
    + subst y. rewrite N, N.eqb_refl. reflexivity.
Qed.
Lemma eq_f64_iff x y : eq_f64 x y = true <-> (if zero64 x then 0 else x) = (if zero64 y then 0 else y) /\ nan64 x = false.
Proof.
  unfold eq_f64. rewrite !nan64_ok, !zero64_ok. split.
  - destruct (nan64 x); [discriminate|]. destruct (nan64 y); [discriminate|]. cbn [orb]. intros H. split; [|reflexivity].
    apply orb_true_iff in H. destruct H as [H|H]; [apply N.eqb_eq in H; subst; reflexivity|]. apply andb_true_iff in H. destruct H as [-> ->]. reflexivity.
  - intros [E N]. rewrite N. cbn [orb]. destruct (zero64 x) eqn:X, (zero64 y) eqn:Y.
    + rewrite (zero_not_nan64 y Y). apply orb_true_r.
    + subst y. discriminate Y.
    + subst x. discriminate X.
    + subst y. rewrite N, N.eqb_refl. reflexivity.
Qed.

(** lists and options *)
Lemma eq_vec_iff {A B} (eq : A -> A -> bool) (h : A -> B) (P : A -> Prop) l l' :
  (forall x y, In x l -> eq x y = true <-> h x = h y /\ P x) -> eq_vec eq l l' = true <-> map h l = map h l' /\ Forall P l.
Proof.
  revert l'. induction l as [|x l IH]; intros [|y l'] E.
  - split; [split; [reflexivity|constructor]|reflexivity].
  - split; [discriminate|intros [H _]; discriminate H].
  - split; [discriminate|intros [H _]; discriminate H].
  - change (eq_vec eq (x :: l) (y :: l')) with (eq x y && eq_vec eq l l'). cbn [map]. rewrite andb_true_iff.
    rewrite (E x y (or_introl eq_refl)), (IH l') by (intros a b I; apply E; right; exact I). split.
    + intros [[H1 H2] [H3 H4]]. split; [congruence|constructor; assumption].
    + intros [H F]. inversion F as [|? ? F1 F2]; subst. injection H as G1 G2. auto.
Qed.
Lemma eq_vec_id {A} (eq : A -> A -> bool) l l' : (forall x y, eq x y = true <-> x = y) -> eq_vec eq l l' = true <-> l = l'.
Proof.
  intros E. rewrite (eq_vec_iff eq (fun x => x) (fun _ => True)), !map_id.
  - split; [intros [H _]; exact H|]. intros H. split; [exact H|]. apply Forall_forall. auto.
  - intros x y _. rewrite E. tauto.
Qed.
Lemma eq_option_id {A} (eq : A -> A -> bool) o o' : (forall x y, eq x y = true <-> x = y) -> eq_option eq o o' = true <-> o = o'.
Proof.
  intros E. destruct o, o'; cbn [eq_option]; try (split; congruence). rewrite E. split; congruence.
Qed.
Lemma eq_byte_iff (x y : byte) : Byte.eqb x y = true <-> x = y.
Proof. split; [apply Byte.byte_dec_bl|apply Byte.byte_dec_lb]. Qed.
Lemma eq_bytes_iff l l' : eq_bytes l l' = true <-> l = l'.
Proof. apply eq_vec_id, eq_byte_iff. Qed.
Lemma eq_valty_iff t t' : eq_valty t t' = true <-> t = t'.
Proof. destruct t, t'; cbn; split; congruence. Qed.
Lemma eq_valtys_iff l l' : eq_vec eq_valty l l' = true <-> l = l'.
Proof. apply eq_vec_id, eq_valty_iff. Qed.
Lemma eq_u32s_iff l l' : eq_vec N.eqb l l' = true <-> l = l'.
Proof. apply eq_vec_id, N.eqb_eq. Qed.

(** discriminants *)
Definition protos : list instr :=
  [I_Unreachable; I_Nop; I_Block [] []; I_Loop [] []; I_If [] [] []; I_Else; I_End; I_Br 0; I_BrIf 0; I_BrTable [] 0;
   I_Return; I_Call 0; I_CallIndirect 0 0; I_Drop; I_Select; I_LocalGet 0; I_LocalSet 0; I_LocalTee 0; I_GlobalGet 0;
   I_GlobalSet 0; I_I32Load 0 0; I_I64Load 0 0; I_F32Load 0 0; I_F64Load 0 0; I_I32Load8S 0 0; I_I32Load8U 0 0;
   I_I32Load16S 0 0; I_I32Load16U 0 0; I_I64Load8S 0 0; I_I64Load8U 0 0; I_I64Load16S 0 0; I_I64Load16U 0 0;
   I_I64Load32S 0 0; I_I64Load32U 0 0; I_I32Store 0 0; I_I64Store 0 0; I_F32Store 0 0; I_F64Store 0 0; I_I32Store8 0 0;
   I_I32Store16 0 0; I_I64Store8 0 0; I_I64Store16 0 0; I_I64Store32 0 0; I_MemSize 0; I_MemGrow 0; I_ConstI32 0%Z;
   I_ConstI64 0%Z; I_ConstF32 0; I_ConstF64 0; I_I32Eqz; I_I32Eq; I_I32Ne; I_I32LtS; I_I32LtU; I_I32GtS; I_I32GtU; I_I32LeS;
   I_I32LeU; I_I32GeS; I_I32GeU; I_I64Eqz; I_I64Eq; I_I64Ne; I_I64LtS; I_I64LtU; I_I64GtS; I_I64GtU; I_I64LeS; I_I64LeU;
   I_I64GeS; I_I64GeU; I_F32Eq; I_F32Ne; I_F32Lt; I_F32Gt; I_F32Le; I_F32Ge; I_F64Eq; I_F64Ne; I_F64Lt; I_F64Gt; I_F64Le;
   I_F64Ge; I_I32Clz; I_I32Ctz; I_I32Popcnt; I_I32Add; I_I32Sub; I_I32Mul; I_I32DivS; I_I32DivU; I_I32RemS; I_I32RemU;
   I_I32And; I_I32Or; I_I32Xor; I_I32Shl; I_I32ShrS; I_I32ShrU; I_I32Rotl; I_I32Rotr; I_I64Clz; I_I64Ctz; I_I64Popcnt;
   I_I64Add; I_I64Sub; I_I64Mul; I_I64DivS; I_I64DivU; I_I64RemS; I_I64RemU; I_I64And; I_I64Or; I_I64Xor; I_I64Shl;
   I_I64ShrS; I_I64ShrU; I_I64Rotl; I_I64Rotr; I_F32Abs; I_F32Neg; I_F32Ceil; I_F32Floor; I_F32Trunc; I_F32Nearest;
   I_F32Sqrt; I_F32Add; I_F32Sub; I_F32Mul; I_F32Div; I_F32Min; I_F32Max; I_F32Copysign; I_F64Abs; I_F64Neg; I_F64Ceil;
   I_F64Floor; I_F64Trunc; I_F64Nearest; I_F64Sqrt; I_F64Add; I_F64Sub; I_F64Mul; I_F64Div; I_F64Min; I_F64Max;
   I_F64Copysign; I_I32WrapI64; I_I32TruncF32S; I_I32TruncF32U; I_I32TruncF64S; I_I32TruncF64U; I_I64ExtendI32S;
   I_I64ExtendI32U; I_I64TruncF32S; I_I64TruncF32U; I_I64TruncF64S; I_I64TruncF64U; I_F32ConvertI32S; I_F32ConvertI32U;
   I_F32ConvertI64S; I_F32ConvertI64U; I_F32DemoteF64; I_F64ConvertI32S; I_F64ConvertI32U; I_F64ConvertI64S;
   I_F64ConvertI64U; I_F64PromoteF32; I_I32ReinterpretF32; I_I64ReinterpretF64; I_F32ReinterpretI32; I_F64ReinterpretI64]%N.
(** the instruction with its immediates replaced *)
Definition erase (i : instr) : instr :=
  match i with
  | I_Block _ _ => I_Block [] []
  | I_Loop _ _ => I_Loop [] []
  | I_If _ _ _ => I_If [] [] []
  | I_Br _ => I_Br 0
  | I_BrIf _ => I_BrIf 0
  | I_BrTable _ _ => I_BrTable [] 0
  | I_Call _ => I_Call 0
  | I_CallIndirect _ _ => I_CallIndirect 0 0
  | I_LocalGet _ => I_LocalGet 0
  | I_LocalSet _ => I_LocalSet 0
  | I_LocalTee _ => I_LocalTee 0
  | I_GlobalGet _ => I_GlobalGet 0
  | I_GlobalSet _ => I_GlobalSet 0
  | I_I32Load _ _ => I_I32Load 0 0
  | I_I64Load _ _ => I_I64Load 0 0
  | I_F32Load _ _ => I_F32Load 0 0
  | I_F64Load _ _ => I_F64Load 0 0
  | I_I32Load8S _ _ => I_I32Load8S 0 0
  | I_I32Load8U _ _ => I_I32Load8U 0 0
  | I_I32Load16S _ _ => I_I32Load16S 0 0
  | I_I32Load16U _ _ => I_I32Load16U 0 0
  | I_I64Load8S _ _ => I_I64Load8S 0 0
  | I_I64Load8U _ _ => I_I64Load8U 0 0
  | I_I64Load16S _ _ => I_I64Load16S 0 0
  | I_I64Load16U _ _ => I_I64Load16U 0 0
  | I_I64Load32S _ _ => I_I64Load32S 0 0
  | I_I64Load32U _ _ => I_I64Load32U 0 0
  | I_I32Store _ _ => I_I32Store 0 0
  | I_I64Store _ _ => I_I64Store 0 0
  | I_F32Store _ _ => I_F32Store 0 0
  | I_F64Store _ _ => I_F64Store 0 0
  | I_I32Store8 _ _ => I_I32Store8 0 0
  | I_I32Store16 _ _ => I_I32Store16 0 0
  | I_I64Store8 _ _ => I_I64Store8 0 0
  | I_I64Store16 _ _ => I_I64Store16 0 0
  | I_I64Store32 _ _ => I_I64Store32 0 0
  | I_MemSize _ => I_MemSize 0
  | I_MemGrow _ => I_MemGrow 0
  | I_ConstI32 _ => I_ConstI32 0%Z
  | I_ConstI64 _ => I_ConstI64 0%Z
  | I_ConstF32 _ => I_ConstF32 0
  | I_ConstF64 _ => I_ConstF64 0
  | _ => i
  end%N.
Definition bare (i : instr) : bool :=
  match i with
  | I_Block _ _ | I_Loop _ _ | I_If _ _ _ | I_Br _ | I_BrIf _ | I_BrTable _ _ | I_Call _ | I_CallIndirect _ _ | I_LocalGet _ | I_LocalSet _ | I_LocalTee _ | I_GlobalGet _ | I_GlobalSet _ | I_I32Load _ _ | I_I64Load _ _ | I_F32Load _ _ | I_F64Load _ _ | I_I32Load8S _ _ | I_I32Load8U _ _ | I_I32Load16S _ _ | I_I32Load16U _ _ | I_I64Load8S _ _ | I_I64Load8U _ _ | I_I64Load16S _ _ | I_I64Load16U _ _ | I_I64Load32S _ _ | I_I64Load32U _ _ | I_I32Store _ _ | I_I64Store _ _ | I_F32Store _ _ | I_F64Store _ _ | I_I32Store8 _ _ | I_I32Store16 _ _ | I_I64Store8 _ _ | I_I64Store16 _ _ | I_I64Store32 _ _ | I_MemSize _ | I_MemGrow _ | I_ConstI32 _ | I_ConstI64 _ | I_ConstF32 _ | I_ConstF64 _ => false
  | _ => true
  end.
Lemma protos_ok i : nth_error protos (N.to_nat (discriminant i)) = Some (erase i).
Proof. destruct i; reflexivity. Qed.
Lemma discriminant_erase i j : discriminant i = discriminant j -> erase i = erase j.
Proof. intros H. pose proof (protos_ok i) as P. rewrite H, protos_ok in P. congruence. Qed.
Lemma bare_erase i : bare (erase i) = bare i.
Proof. destruct i; reflexivity. Qed.
Lemma bare_same i : bare i = true -> erase i = i.
Proof. destruct i; intros H; try reflexivity; discriminate H. Qed.
Lemma bare_inj i j : bare i = true -> discriminant i = discriminant j -> i = j.
Proof.
  intros B D. apply discriminant_erase in D. rewrite (bare_same i B) in D.
  assert (C : bare j = true) by (rewrite <- bare_erase, <- D; exact B). rewrite (bare_same j C) in D. exact D.
Qed.
Lemma bare_zero i : bare i = true -> one_zero i = i.
Proof. destruct i; intros H; try reflexivity; discriminate H. Qed.
Lemma bare_one_zero i : bare (one_zero i) = bare i.
Proof. destruct i; reflexivity. Qed.

(** instructions *)
Definition Forall' (P : instr -> Prop) : list instr -> Prop := fix go l := match l with [] => True | i :: r => P i /\ go r end.
Fixpoint clean (i : instr) : Prop :=
  match i with
  | I_Block _ b | I_Loop _ b => Forall' clean b
  | I_If _ b c => Forall' clean b /\ Forall' clean c
  | I_ConstF32 x => nan32 x = false
  | I_ConstF64 x => nan64 x = false
  | _ => True
  end.
Lemma eq_instr_bare i j : bare i = true -> eq_instr i j = true <-> one_zero i = one_zero j /\ clean i.
Proof.
  intros B. assert (E : eq_instr i j = (discriminant i =? discriminant j)).
  { destruct i; try discriminate B; apply andb_true_r. }
  assert (C : clean i) by (destruct i; try discriminate B; exact I).
  rewrite E, N.eqb_eq. split.
  - intros D. split; [|exact C]. rewrite (bare_inj i j B D). reflexivity.
  - intros [H _]. rewrite (bare_zero i B) in H. assert (K : bare j = true) by (rewrite <- bare_one_zero, <- H; exact B).
    rewrite (bare_zero j K) in H. subst. reflexivity.
Qed.
Lemma all_iff (P : instr -> Prop) b : Forall' P b <-> Forall P b.
Proof.
  induction b as [|i b IH]; [split; constructor|]. change (Forall' P (i :: b)) with (P i /\ Forall' P b). rewrite IH. split; [intros [H F]; constructor; assumption|].
  intros F. inversion F; auto.
Qed.
Lemma eq_instr_iff i j : eq_instr i j = true <-> one_zero i = one_zero j /\ clean i.
Proof.
  revert j. induction i as [i IH] using instr_children_ind. intros j. destruct (bare i) eqn:B; [apply eq_instr_bare, B|].
  assert (L : forall b b', In b (children i) -> eq_vec eq_instr b b' = true <-> map one_zero b = map one_zero b' /\ Forall clean b).
  { intros b b' I. apply eq_vec_iff. intros x y J. specialize (IH b I). rewrite Forall_forall in IH. apply IH, J. }
  clear IH. destruct i; try discriminate B; clear B; destruct j;
    try (split; [discriminate|intros [H _]; discriminate H]);
    cbn [eq_instr discriminant one_zero clean]; rewrite N.eqb_refl; cbn [andb]; rewrite ?andb_true_iff, ?all_iff;
    rewrite ?eq_u32s_iff, ?N.eqb_eq, ?Z.eqb_eq;
    try (split; [intros [-> ->]; split; [reflexivity|exact I]|intros [H _]; injection H as -> ->; split; reflexivity]; fail);
    try (split; [intros ->; split; [reflexivity|exact I]|intros [H _]; injection H as ->; reflexivity]; fail).
  - rewrite eq_valtys_iff, (L b b0) by (left; reflexivity). split; [intros [-> [-> H]]; auto|intros [H F]; injection H as -> ->; auto].
  - rewrite eq_valtys_iff, (L b b0) by (left; reflexivity). split; [intros [-> [-> H]]; auto|intros [H F]; injection H as -> ->; auto].
  - rewrite eq_valtys_iff, (L b b0), (L c c0) by (cbn; auto).
    split; [intros [[-> [-> H]] [-> H']]; auto|intros [H F]; injection H as -> -> ->; tauto].
  - rewrite eq_f32_iff. split; [intros [E H]; split; [exact (f_equal I_ConstF32 E)|exact H]|intros [H F]; injection H as E; split; [exact E|exact F]].
  - rewrite eq_f64_iff. split; [intros [E H]; split; [exact (f_equal I_ConstF64 E)|exact H]|intros [H F]; injection H as E; split; [exact E|exact F]].
Qed.
Lemma eq_expr_iff e e' : eq_expr e e' = true <-> map one_zero e = map one_zero e' /\ Forall clean e.
Proof. apply eq_vec_iff. intros x y _. apply eq_instr_iff. Qed.

(** [clean] in terms of occurrences *)
Lemma clean_occurs e : Forall clean e <-> forall x, (occurs (I_ConstF32 x) e -> nan32 x = false) /\ (occurs (I_ConstF64 x) e -> nan64 x = false).
Proof.
  split.
  - intros F x. split; intros O; induction O as [e I|i sub e I C O IH].
    + rewrite Forall_forall in F. exact (F _ I).
    + apply IH. rewrite Forall_forall in F. specialize (F i I). destruct i; cbn in C; try contradiction; cbn [clean] in F; rewrite ?all_iff in F.
      * destruct C as [<-|[]]. exact F.
      * destruct C as [<-|[]]. exact F.
      * destruct C as [<-|[<-|[]]]; apply F.
    + rewrite Forall_forall in F. exact (F _ I).
    + apply IH. rewrite Forall_forall in F. specialize (F i I). destruct i; cbn in C; try contradiction; cbn [clean] in F; rewrite ?all_iff in F.
      * destruct C as [<-|[]]. exact F.
      * destruct C as [<-|[]]. exact F.
      * destruct C as [<-|[<-|[]]]; apply F.
  - intros H. apply Forall_forall. intros i I.
    assert (G : forall i, (forall x, (occurs (I_ConstF32 x) [i] -> nan32 x = false) /\ (occurs (I_ConstF64 x) [i] -> nan64 x = false)) -> clean i).
    { clear. intros i. induction i as [i IH] using instr_children_ind. intros H.
      assert (L : forall b, In b (children i) -> Forall clean b).
      { intros b C. apply Forall_forall. intros k K. specialize (IH b C). rewrite Forall_forall in IH. apply IH; [exact K|].
        assert (U : forall c, occurs c [k] -> occurs c [i]).
        { intros c O. eapply occurs_inside; [left; reflexivity|exact C|]. inversion O as [? J|k' sub ? J Cs Os]; subst.
          - destruct J as [<-|[]]. apply occurs_here, K.
          - destruct J as [<-|[]]. eapply occurs_inside; eassumption. }
        intros x. split; intros O; apply H; apply U, O. }
      destruct i; cbn [clean]; rewrite ?all_iff; auto.
      - apply L. left. reflexivity.
      - apply L. left. reflexivity.
      - split; apply L; cbn; auto.
      - apply H. apply occurs_here. left. reflexivity.
      - apply H. apply occurs_here. left. reflexivity. }
    apply G. intros x. specialize (H x).
    assert (U : forall c, occurs c [i] -> occurs c e).
    { intros c O. inversion O as [? J|k' sub ? J Cs Os]; subst.
      - destruct J as [<-|[]]. apply occurs_here, I.
      - destruct J as [<-|[]]. eapply occurs_inside; eassumption. }
    split; intros O; apply H, U, O.
Qed.

(** components *)
Lemma eq_limits_iff l l' : eq_limits l l' = true <-> l = l'.
Proof.
  unfold eq_limits. rewrite andb_true_iff, N.eqb_eq, eq_option_id by apply N.eqb_eq. destruct l, l'; cbn. split; [intros [-> ->]; reflexivity|].
  intros H. injection H as -> ->. auto.
Qed.
Lemma eq_functy_iff t t' : eq_functy t t' = true <-> t = t'.
Proof.
  unfold eq_functy. rewrite andb_true_iff, !eq_valtys_iff. destruct t, t'; cbn. split; [intros [-> ->]; reflexivity|]. intros H. injection H as -> ->. auto.
Qed.
Lemma eq_tablety_iff t t' : eq_tablety t t' = true <-> t = t'.
Proof.
  unfold eq_tablety. rewrite andb_true_iff, eq_limits_iff. destruct t as [l []], t' as [l' []]; cbn. split; [intros [-> _]; reflexivity|].
  intros H. injection H as ->. auto.
Qed.
Lemma eq_memty_iff t t' : eq_memty t t' = true <-> t = t'.
Proof. unfold eq_memty. rewrite eq_limits_iff. destruct t, t'; cbn. split; congruence. Qed.
Lemma eq_globalty_iff t t' : eq_globalty t t' = true <-> t = t'.
Proof.
  unfold eq_globalty. rewrite andb_true_iff, eq_valty_iff. destruct t as [[] v], t' as [[] v']; cbn; (split; [intros [? ?]; congruence|]);
    intros H; inversion H; auto.
Qed.
Lemma eq_table_iff t t' : eq_table t t' = true <-> t = t'.
Proof. unfold eq_table. rewrite eq_tablety_iff. destruct t, t'; cbn. split; congruence. Qed.
Lemma eq_mem_iff t t' : eq_mem t t' = true <-> t = t'.
Proof. unfold eq_mem. rewrite eq_memty_iff. destruct t, t'; cbn. split; congruence. Qed.
Lemma eq_start_iff s s' : eq_start s s' = true <-> s = s'.
Proof. unfold eq_start. rewrite N.eqb_eq. destruct s, s'; cbn. split; congruence. Qed.
Lemma eq_importdesc_iff d d' : eq_importdesc d d' = true <-> d = d'.
Proof.
  destruct d, d'; cbn [eq_importdesc]; rewrite ?N.eqb_eq, ?eq_tablety_iff, ?eq_memty_iff, ?eq_globalty_iff; split; congruence.
Qed.
Lemma eq_exportdesc_iff d d' : eq_exportdesc d d' = true <-> d = d'.
Proof. destruct d, d'; cbn [eq_exportdesc]; rewrite ?N.eqb_eq; split; congruence. Qed.
Lemma eq_import_iff i i' : eq_import i i' = true <-> i = i'.
Proof.
  unfold eq_import. rewrite !andb_true_iff, !eq_bytes_iff, eq_importdesc_iff. destruct i, i'; cbn. split; [intros [[-> ->] ->]; reflexivity|].
  intros H. injection H as -> -> ->. auto.
Qed.
Lemma eq_export_iff x x' : eq_export x x' = true <-> x = x'.
Proof.
  unfold eq_export. rewrite !andb_true_iff, !eq_bytes_iff, eq_exportdesc_iff. destruct x, x'; cbn. split; [intros [-> ->]; reflexivity|].
  intros H. injection H as -> ->. auto.
Qed.
Definition zero_func (f : func) : func := mkFunc (fn_ty f) (fn_locals f) (map one_zero (fn_body f)).
Definition zero_global (g : global) : global := mkGlobal (glob_ty g) (map one_zero (glob_init g)).
Definition zero_elem (e : elem) : elem := mkElem (el_table e) (map one_zero (el_offset e)) (el_init e).
Definition zero_data (d : data) : data := mkData (da_mem d) (map one_zero (da_offset d)) (da_init d).
Lemma eq_func_iff f f' : eq_func f f' = true <-> zero_func f = zero_func f' /\ Forall clean (fn_body f).
Proof.
  unfold eq_func, zero_func. rewrite !andb_true_iff, N.eqb_eq, eq_valtys_iff, eq_expr_iff. destruct f, f'; cbn.
  split; [intros [[-> ->] [-> H]]; auto|]. intros [H F]. injection H as -> -> ->. auto.
Qed.
Lemma eq_global_iff f f' : eq_global f f' = true <-> zero_global f = zero_global f' /\ Forall clean (glob_init f).
Proof.
  unfold eq_global, zero_global. rewrite !andb_true_iff, eq_globalty_iff, eq_expr_iff. destruct f, f'; cbn.
  split; [intros [-> [-> H]]; auto|]. intros [H F]. injection H as -> ->. auto.
Qed.
Lemma eq_elem_iff f f' : eq_elem f f' = true <-> zero_elem f = zero_elem f' /\ Forall clean (el_offset f).
Proof.
  unfold eq_elem, zero_elem. rewrite !andb_true_iff, N.eqb_eq, eq_u32s_iff, eq_expr_iff. destruct f, f'; cbn.
  split; [intros [[-> [-> H]] ->]; auto|]. intros [H F]. injection H as -> -> ->. auto.
Qed.
Lemma eq_data_iff f f' : eq_data f f' = true <-> zero_data f = zero_data f' /\ Forall clean (da_offset f).
Proof.
  unfold eq_data, zero_data. rewrite !andb_true_iff, N.eqb_eq, eq_bytes_iff, eq_expr_iff. destruct f, f'; cbn.
  split; [intros [[-> [-> H]] ->]; auto|]. intros [H F]. injection H as -> -> ->. auto.
Qed.
Lemma clean_module m : no_nan m <-> Forall (fun f => Forall clean (fn_body f)) (m_funcs m) /\ Forall (fun g => Forall clean (glob_init g)) (m_globals m) /\
  Forall (fun e => Forall clean (el_offset e)) (m_elem m) /\ Forall (fun d => Forall clean (da_offset d)) (m_data m).
Proof.
  assert (E : no_nan m <-> Forall (Forall clean) (module_exprs m)).
  { unfold no_nan. rewrite Forall_forall. split.
    - intros H e I. apply clean_occurs. intros x. apply H, I.
    - intros H e x I. revert x. apply clean_occurs, H, I. }
  rewrite E. unfold module_exprs. rewrite !Forall_app, !Forall_map. tauto.
Qed.
Theorem eq_module_iff m m' : eq_module m m' = true <-> same_but_zeros m m' /\ no_nan m.
Proof.
  unfold eq_module, same_but_zeros, map_code. rewrite !andb_true_iff, clean_module.
  rewrite (eq_vec_id eq_functy) by apply eq_functy_iff. rewrite (eq_vec_id eq_table) by apply eq_table_iff. rewrite (eq_vec_id eq_mem) by apply eq_mem_iff.
  rewrite (eq_option_id eq_start) by apply eq_start_iff. rewrite (eq_vec_id eq_import) by apply eq_import_iff.
  rewrite (eq_vec_id eq_export) by apply eq_export_iff.
  rewrite (eq_vec_iff eq_func zero_func (fun f => Forall clean (fn_body f))) by (intros x y _; apply eq_func_iff).
  rewrite (eq_vec_iff eq_global zero_global (fun f => Forall clean (glob_init f))) by (intros x y _; apply eq_global_iff).
  rewrite (eq_vec_iff eq_elem zero_elem (fun f => Forall clean (el_offset f))) by (intros x y _; apply eq_elem_iff).
  rewrite (eq_vec_iff eq_data zero_data (fun f => Forall clean (da_offset f))) by (intros x y _; apply eq_data_iff).
  split.
  - intros (((((((((H1 & H2 & C2) & H3) & H4) & H5 & C5) & H6 & C6) & H7 & C7) & H8) & H9) & H10).
    split; [|auto]. unfold zero_func, zero_global, zero_elem, zero_data in *. congruence.
  - intros [H (C2 & C5 & C6 & C7)]. injection H as H1 H2 H3 H4 H5 H6 H7 H8 H9 H10. 
    unfold zero_func, zero_global, zero_elem, zero_data. repeat split; assumption.
Qed.
(** consequences *)
Lemma eq_reflexive m : eq_module m m = true <-> no_nan m.
Proof. rewrite eq_module_iff. split; [intros [_ H]; exact H|]. intros H. split; [reflexivity|exact H]. Qed.
Lemma clean_one_zero i : clean (one_zero i) <-> clean i.
Proof.
  induction i as [i IH] using instr_children_ind.
  assert (L : forall b, In b (children i) -> Forall clean (map one_zero b) <-> Forall clean b).
  { intros b I. specialize (IH b I). rewrite Forall_map. rewrite Forall_forall in IH. rewrite !Forall_forall. split; intros H x J; apply IH; auto. }
  destruct i; cbn [one_zero clean]; rewrite ?all_iff; try tauto.
  - apply L. left. reflexivity.
  - apply L. left. reflexivity.
  - rewrite !L by (cbn; auto). tauto.
  - destruct (zero32 a) eqn:Z; [|tauto]. rewrite (zero_not_nan32 a Z). cbn. tauto.
  - destruct (zero64 a) eqn:Z; [|tauto]. rewrite (zero_not_nan64 a Z). cbn. tauto.
Qed.
Lemma no_nan_map m : no_nan (map_code one_zero m) <-> no_nan m.
Proof.
  rewrite !clean_module. unfold map_code. cbn [m_funcs m_globals m_elem m_data]. rewrite !Forall_map. cbn [fn_body glob_init el_offset da_offset].
  assert (L : forall b, Forall clean (map one_zero b) <-> Forall clean b).
  { intros b. rewrite Forall_map, !Forall_forall. split; intros H x J; apply clean_one_zero; auto. }
  rewrite !Forall_forall. setoid_rewrite L. tauto.
Qed.
Lemma same_no_nan m m' : same_but_zeros m m' -> no_nan m -> no_nan m'.
Proof. unfold same_but_zeros. intros E H. apply no_nan_map. rewrite <- E. apply no_nan_map, H. Qed.
Lemma eq_symmetric m m' : eq_module m m' = eq_module m' m.
Proof.
  destruct (eq_module m' m) eqn:E.
  - apply eq_module_iff in E. destruct E as [E N]. apply eq_module_iff. split; [symmetry; exact E|eapply same_no_nan; eassumption].
  - destruct (eq_module m m') eqn:D; [|reflexivity]. apply eq_module_iff in D. destruct D as [D N]. rewrite <- E. symmetry. apply eq_module_iff.
    split; [symmetry; exact D|eapply same_no_nan; eassumption].
Qed.
Lemma eq_transitive a b c : eq_module a b = true -> eq_module b c = true -> eq_module a c = true.
Proof. rewrite !eq_module_iff. unfold same_but_zeros. intros [E N] [F _]. split; [congruence|exact N]. Qed.
Lemma eq_markers i : eq_instr i I_Else = is_else i /\ eq_instr i I_End = is_end i.
Proof. destruct i; split; reflexivity. Qed.

(** witnesses: a global initialised with a NaN, and with each of the zeros *)
Definition const_file (a b : byte) : list byte := (preamble ++ [x06; x09; x01; x7d; x00; x43; x00; x00; a; b; x0b])%list.
Lemma eq_reflexive_refuted : exists bytes m, p_module bytes = (Ok m, []) /\ eq_module m m = false.
Proof. exists (const_file xc0 x7f). eexists. split; vm_compute; reflexivity. Qed.
Lemma eq_zeros_refuted : exists bytes1 bytes2 m1 m2, p_module bytes1 = (Ok m1, []) /\ p_module bytes2 = (Ok m2, []) /\ m1 <> m2 /\ eq_module m1 m2 = true.
Proof.
  exists (const_file x00 x00), (const_file x00 x80). eexists. eexists.
  split; [vm_compute; reflexivity|]. split; [vm_compute; reflexivity|]. split; [discriminate|vm_compute; reflexivity].
Qed.
