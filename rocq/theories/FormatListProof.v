(** The list of the four deviations from the binary format (C80). *)
From Coq Require Import Lia.
From Verif Require Import ParserModule SpecParser SpecFormatList SpecEncoder ParserMeta TypesProof InstrProof ModuleProof GrammarProof SectionsProof DialectProof CodeProof.
Open Scope N_scope.
Open Scope list_scope.

Notation W := whasm_format.

Section Meet.
Variables f1 f2 : fdialect.
Notation f := (meet f1 f2).

Definition both {A} (E1 E2 E : format A) : Prop := forall p a, E1 p a -> E2 p a -> E p a.
Definition meets {A} (E1 E2 E : format A) : Prop :=
  forall p1 p2 r1 r2 a b, E1 p1 a -> E2 p2 b -> p1 ++ r1 = p2 ++ r2 -> p1 = p2 /\ r1 = r2 /\ a = b /\ E p1 a.

Lemma meets_of {A} (p : parser A) (EW E1 E2 E : format A) :
  exact p EW -> weaker E1 EW -> weaker E2 EW -> both E1 E2 E -> meets E1 E2 E.
Proof.
  intros X W1 W2 B p1 p2 r1 r2 a b H1 H2 EQ.
  destruct (exact_prefix_free p EW X p1 p2 r1 r2 a b (W1 _ _ H1) (W2 _ _ H2) EQ) as [-> ->].
  apply app_inv_head in EQ. auto.
Qed.
Lemma meets_both {A} (E1 E2 E : format A) : meets E1 E2 E -> both E1 E2 E.
Proof. intros M p a H1 H2. apply (M p p [] [] a a H1 H2 eq_refl). Qed.
Lemma split_app (p1 p2 q1 q2 r1 r2 : list byte) : (p1 ++ q1) ++ r1 = (p2 ++ q2) ++ r2 -> p1 ++ (q1 ++ r1) = p2 ++ (q2 ++ r2).
Proof. rewrite <- !app_assoc. auto. Qed.

(** ** Values *)
Lemma meets_u32 : meets (enc_u32 f1) (enc_u32 f2) (enc_u32 f).
Proof.
  apply (meets_of p_u32 (enc_u32 W)); [apply exact_u32|apply w_u32; cbn; auto|apply w_u32; cbn; auto|].
  intros p a [H L1] [_ L2]. split; [exact H|]. split; assumption.
Qed.
Lemma both_s n : both (enc_s f1 n) (enc_s f2 n) (enc_s f n).
Proof. intros p a [H L1] [_ L2]. split; [exact H|]. split; assumption. Qed.
Lemma both_reserved : both (enc_reserved f1) (enc_reserved f2) (enc_reserved f).
Proof.
  intros p a [H1 R1] [H2 R2]. split; [|split; assumption]. apply (meets_both _ _ _ meets_u32); assumption.
Qed.
Lemma meets_byte : meets enc_byte enc_byte enc_byte.
Proof. intros p1 p2 r1 r2 a b -> -> EQ. injection EQ as -> ->. repeat split. Qed.
Lemma meets_valty : meets enc_valty enc_valty enc_valty.
Proof. apply (meets_of p_valty enc_valty); [apply exact_valty|intros ? ?; auto..]. Qed.
Lemma meets_blockty : meets enc_blockty enc_blockty enc_blockty.
Proof. apply (meets_of p_retval enc_blockty); [apply exact_retval|intros ? ?; auto..]. Qed.
Lemma meets_globalty : meets enc_globalty enc_globalty enc_globalty.
Proof. apply (meets_of p_globalty enc_globalty); [apply exact_globalty|intros ? ?; auto..]. Qed.

Lemma meets_chunks {A} (E1 E2 E : format A) : meets E1 E2 E ->
  forall xs ys c1 c2 r1 r2, length xs = length ys -> Forall2 E1 c1 xs -> Forall2 E2 c2 ys ->
  concat c1 ++ r1 = concat c2 ++ r2 -> c1 = c2 /\ r1 = r2 /\ xs = ys /\ Forall2 E c1 xs.
Proof.
  intros M xs. induction xs as [|x xs IH]; intros [|y ys] c1 c2 r1 r2 L F1 F2 EQ; try discriminate.
  - inversion F1; subst. inversion F2; subst. repeat split; [exact EQ|constructor].
  - inversion F1 as [|u1 ? v1 ? Hx F1']. inversion F2 as [|u2 ? v2 ? Hy F2']. subst. cbn [concat] in *.
    apply split_app in EQ. destruct (M _ _ _ _ _ _ Hx Hy EQ) as (-> & EQ' & -> & HE).
    injection L as L. destruct (IH ys v1 v2 r1 r2 L F1' F2' EQ') as (-> & -> & -> & F). repeat split. constructor; assumption.
Qed.
Lemma meets_vec {A} (E1 E2 E : format A) : meets E1 E2 E -> meets (enc_vec f1 E1) (enc_vec f2 E2) (enc_vec f E).
Proof.
  intros M p1 p2 r1 r2 xs ys (n1 & e1 & -> & N1 & c1 & F1 & ->) (n2 & e2 & -> & N2 & c2 & F2 & ->) EQ.
  apply split_app in EQ. destruct (meets_u32 _ _ _ _ _ _ N1 N2 EQ) as (-> & EQ' & L & HN).
  assert (L' : length xs = length ys) by lia.
  destruct (meets_chunks E1 E2 E M xs ys c1 c2 r1 r2 L' F1 F2 EQ') as (-> & -> & -> & F). repeat split.
  exists n2, (concat c2). split; [reflexivity|]. split; [exact HN|]. exists c2. auto.
Qed.
Lemma meets_sized {A} (E1 E2 E : format A) : (forall p a b, E1 p a -> E2 p b -> a = b /\ E p a) ->
  meets (enc_sized f1 E1) (enc_sized f2 E2) (enc_sized f E).
Proof.
  intros M p1 p2 r1 r2 a b (n1 & c1 & -> & N1 & H1) (n2 & c2 & -> & N2 & H2) EQ. apply split_app in EQ.
  destruct (meets_u32 _ _ _ _ _ _ N1 N2 EQ) as (-> & EQ' & L & HN).
  assert (L' : length c1 = length c2) by lia.
  assert (c1 = c2).
  { pose proof (f_equal (firstn (length c1)) EQ') as F. rewrite !firstn_app, L', !Nat.sub_diag in F. cbn [firstn] in F.
    rewrite <- L' in F at 1. rewrite !firstn_all, !app_nil_r in F. exact F. }
  subst c2. apply app_inv_head in EQ' as ->. destruct (M c1 a b H1 H2) as [-> H]. repeat split.
  exists n2, c1. auto.
Qed.
Lemma meets_whole {A} (E1 E2 E : format A) : meets E1 E2 E -> forall p a b, E1 p a -> E2 p b -> a = b /\ E p a.
Proof. intros M p a b H1 H2. destruct (M p p [] [] a b H1 H2 eq_refl) as (_ & _ & -> & H). auto. Qed.
Lemma meets_name : meets (enc_name f1) (enc_name f2) (enc_name f).
Proof.
  intros p1 p2 r1 r2 a b [H1 U] [H2 _] EQ. destruct (meets_vec _ _ _ meets_byte _ _ _ _ _ _ H1 H2 EQ) as (-> & -> & -> & H).
  repeat split; assumption.
Qed.

(** ** Types *)
Lemma meets_functy : meets (enc_functy f1) (enc_functy f2) (enc_functy f).
Proof.
  intros p1 p2 r1 r2 [a1 a2] [b1 b2] (ps1 & rs1 & -> & P1 & R1) (ps2 & rs2 & -> & P2 & R2) EQ. cbn in *.
  injection EQ as EQ. apply split_app in EQ.
  destruct (meets_vec _ _ _ meets_valty _ _ _ _ _ _ P1 P2 EQ) as (-> & EQ' & -> & HP).
  destruct (meets_vec _ _ _ meets_valty _ _ _ _ _ _ R1 R2 EQ') as (-> & -> & -> & HR). repeat split.
  exists ps2, rs2. auto.
Qed.
Lemma meets_limits : meets (enc_limits f1) (enc_limits f2) (enc_limits f).
Proof.
  intros p1 p2 r1 r2 [a1 a2] [b1 b2]. unfold enc_limits. cbn. destruct a2 as [a2|], b2 as [b2|].
  - intros (n1 & m1 & -> & N1 & M1) (n2 & m2 & -> & N2 & M2) EQ. injection EQ as EQ. apply split_app in EQ.
    destruct (meets_u32 _ _ _ _ _ _ N1 N2 EQ) as (-> & EQ' & -> & HN).
    destruct (meets_u32 _ _ _ _ _ _ M1 M2 EQ') as (-> & -> & -> & HM). repeat split. exists n2, m2. auto.
  - intros (n1 & m1 & -> & _) (n2 & -> & _) EQ. discriminate EQ.
  - intros (n1 & -> & _) (n2 & m2 & -> & _) EQ. discriminate EQ.
  - intros (n1 & -> & N1) (n2 & -> & N2) EQ. injection EQ as EQ.
    destruct (meets_u32 _ _ _ _ _ _ N1 N2 EQ) as (-> & -> & -> & HN). repeat split. exists n2. auto.
Qed.
Lemma meets_memty : meets (enc_memty f1) (enc_memty f2) (enc_memty f).
Proof.
  intros p1 p2 r1 r2 [a] [b] H1 H2 EQ. destruct (meets_limits _ _ _ _ _ _ H1 H2 EQ) as (-> & -> & E & H). cbn in E. subst. auto.
Qed.
Lemma meets_tablety : meets (enc_tablety f1) (enc_tablety f2) (enc_tablety f).
Proof.
  intros p1 p2 r1 r2 [l1 t1] [l2 t2] (lb1 & -> & T1 & L1) (lb2 & -> & T2 & L2) EQ. cbn in *. subst.
  injection EQ as EQ. destruct (meets_limits _ _ _ _ _ _ L1 L2 EQ) as (-> & -> & -> & HL). repeat split. exists lb2. auto.
Qed.

(** ** Instructions *)
Lemma opcode_kinds i : (plain_opcode i <> None -> index_opcode i = None /\ memarg_opcode i = None) /\
  (index_opcode i <> None -> plain_opcode i = None /\ memarg_opcode i = None) /\
  (memarg_opcode i <> None -> plain_opcode i = None /\ index_opcode i = None).
Proof. destruct i; cbn; repeat split; congruence. Qed.
Lemma index_inv i op x p : index_opcode i = Some (op, x) -> enc_instr f2 p i -> exists xb, p = op :: xb /\ enc_u32 f2 xb x.
Proof.
  intros X H. destruct (opcode_kinds i) as (_ & K & _). rewrite X in K. destruct K as [K1 K2]; [discriminate|].
  destruct H; try congruence; try discriminate X. rewrite X in H. injection H as <- <-. eauto.
Qed.
Lemma memarg_inv i op al off p : memarg_opcode i = Some (op, al, off) -> enc_instr f2 p i ->
  exists ab ob, p = op :: ab ++ ob /\ enc_u32 f2 ab al /\ enc_u32 f2 ob off.
Proof.
  intros X H. destruct (opcode_kinds i) as (_ & _ & K). rewrite X in K. destruct K as [K1 K2]; [discriminate|].
  destruct H; try congruence; try discriminate X. rewrite X in H. injection H as <- <- <-. eauto 6.
Qed.
Lemma same_instrs is : forall p1 p2 r1 r2, enc_instrs W p1 is -> enc_instrs W p2 is -> p1 ++ r1 = p2 ++ r2 -> p1 = p2.
Proof.
  induction is as [|i is IH]; intros p1 p2 r1 r2 H1 H2 EQ; inversion H1; inversion H2; subst; [reflexivity|].
  apply split_app in EQ.
  match goal with A : enc_instr W ?u i, B : enc_instr W ?v i |- _ =>
    destruct (exact_prefix_free _ _ exact_instr_top u v _ _ i i (or_introl A) (or_introl B) EQ) as [-> _] end.
  apply app_inv_head in EQ. f_equal. eapply IH; eassumption.
Qed.
Lemma up1_instrs p is : enc_instrs f1 p is -> enc_instrs W p is. Proof. apply w_instr_instrs; cbn; auto. Qed.
Lemma up2_instrs p is : enc_instrs f2 p is -> enc_instrs W p is. Proof. apply w_instr_instrs; cbn; auto. Qed.
Lemma up1_instr p i : enc_instr f1 p i -> enc_instr W p i. Proof. apply w_instr_instrs; cbn; auto. Qed.
Lemma up2_instr p i : enc_instr f2 p i -> enc_instr W p i. Proof. apply w_instr_instrs; cbn; auto. Qed.

Ltac take M H1 H2 EQ := let X := fresh in destruct (M _ _ _ _ _ _ H1 H2 EQ) as (-> & X & _ & ?); clear EQ; rename X into EQ.

Lemma both_code :
  (forall p i, enc_instr f1 p i -> enc_instr f2 p i -> enc_instr f p i) /\
  (forall p is, enc_instrs f1 p is -> enc_instrs f2 p is -> enc_instrs f p is).
Proof.
  apply enc_instr_instrs_ind.
  - intros i op P _. apply enc_plain, P.
  - intros i op x xb P H1 H2. destruct (index_inv _ _ _ _ P H2) as (xb2 & E & H2'). injection E as <-.
    eapply enc_index; [exact P|]. apply (meets_both _ _ _ meets_u32); assumption.
  - intros i op al off ab ob P HA HO H2. destruct (memarg_inv _ _ _ _ _ P H2) as (ab2 & ob2 & E & HA2 & HO2). injection E as E.
    destruct (meets_u32 _ _ _ _ _ _ HA HA2 E) as (-> & -> & _ & HA'). eapply enc_memarg; [exact P|exact HA'|].
    apply (meets_both _ _ _ meets_u32); assumption.
  - intros ls l lsb lb HV HL H2. inversion H2 as [| | |? ? lsb2 lb2 HV2 HL2 E| | | | | | | | | | |]; subst; try discriminate.
    symmetry in E. destruct (meets_vec _ _ _ meets_u32 _ _ _ _ _ _ HV HV2 E) as (-> & -> & _ & HV').
    apply enc_br_table; [exact HV'|]. apply (meets_both _ _ _ meets_u32); assumption.
  - intros ty tab tyb tabb HT HR H2. inversion H2 as [| | | |? ? tyb2 tabb2 HT2 HR2 E| | | | | | | | | |]; subst; try discriminate.
    symmetry in E. destruct (meets_u32 _ _ _ _ _ _ HT HT2 E) as (-> & -> & _ & HT').
    apply enc_call_indirect; [exact HT'|]. apply both_reserved; assumption.
  - intros m mb HR H2. inversion H2; subst; try discriminate. apply enc_memory_size, both_reserved; assumption.
  - intros m mb HR H2. inversion H2; subst; try discriminate. apply enc_memory_grow, both_reserved; assumption.
  - intros n nb HS H2. inversion H2; subst; try discriminate. apply enc_i32_const, both_s; assumption.
  - intros n nb HS H2. inversion H2; subst; try discriminate. apply enc_i64_const, both_s; assumption.
  - intros n nb HS H2. apply enc_f32_const, HS.
  - intros n nb HS H2. apply enc_f64_const, HS.
  - intros rt is rtb isb HT _ IH H2. inversion H2 as [| | | | | | | | | | |? ? rtb2 isb2 HT2 HI2 E| | |]; subst; try discriminate.
    symmetry in E. destruct (meets_blockty _ _ _ _ _ _ HT HT2 E) as (-> & EQ & _). apply app_inv_tail in EQ as ->.
    apply enc_block; auto.
  - intros rt is rtb isb HT _ IH H2. inversion H2 as [| | | | | | | | | | | |? ? rtb2 isb2 HT2 HI2 E| |]; subst; try discriminate.
    symmetry in E. destruct (meets_blockty _ _ _ _ _ _ HT HT2 E) as (-> & EQ & _). apply app_inv_tail in EQ as ->.
    apply enc_loop; auto.
  - intros rt is rtb isb HT HI IH H2.
    inversion H2 as [| | | | | | | | | | | | |? ? rtb2 isb2 HT2 HI2 E|? ? ? rtb2 isb2 isb2' HT2 HI2 HI2' E]; subst; try discriminate; symmetry in E.
    + destruct (meets_blockty _ _ _ _ _ _ HT HT2 E) as (-> & EQ & _). apply app_inv_tail in EQ as ->. apply enc_if; auto.
    + destruct (meets_blockty _ _ _ _ _ _ HT HT2 E) as (-> & EQ & _). exfalso.
      pose proof (same_instrs _ _ _ _ _ (up1_instrs _ _ HI) (up2_instrs _ _ HI2) EQ) as ->. apply app_inv_head in EQ. discriminate EQ.
  - intros rt is1 is2 rtb is1b is2b HT HI IH HI' IH' H2.
    inversion H2 as [| | | | | | | | | | | | |? ? rtb2 isb2 HT2 HI2 E|? ? ? rtb2 isb2 isb2' HT2 HI2 HI2' E]; subst; try discriminate; symmetry in E.
    + destruct (meets_blockty _ _ _ _ _ _ HT HT2 E) as (-> & EQ & _). exfalso.
      pose proof (same_instrs _ _ _ _ _ (up1_instrs _ _ HI) (up2_instrs _ _ HI2) EQ) as ->. apply app_inv_head in EQ. discriminate EQ.
    + destruct (meets_blockty _ _ _ _ _ _ HT HT2 E) as (-> & EQ & _).
      pose proof (same_instrs _ _ _ _ _ (up1_instrs _ _ HI) (up2_instrs _ _ HI2) EQ) as ->. apply app_inv_head in EQ. injection EQ as EQ.
      apply app_inv_tail in EQ as ->. apply enc_if_else; auto.
  - intros _. constructor.
  - intros i is ib isb HI IH _ IH' H2. inversion H2 as [|? ? ib2 isb2 HI2 HR2 E]; subst. symmetry in E.
    destruct (exact_prefix_free _ _ exact_instr_top ib ib2 isb isb2 i i (or_introl (up1_instr _ _ HI)) (or_introl (up2_instr _ _ HI2)) E) as [-> _].
    apply app_inv_head in E as ->. constructor; auto.
Qed.
Lemma meets_expr : meets (enc_expr f1) (enc_expr f2) (enc_expr f).
Proof.
  apply (meets_of p_expr (enc_expr W)); [apply exact_expr|apply w_expr; cbn; auto|apply w_expr; cbn; auto|].
  intros p e (b1 & -> & H1) (b2 & E & H2). apply app_inj_tail in E as [-> _]. exists b2. split; [reflexivity|]. apply both_code; assumption.
Qed.

(** ** Sections *)
Lemma meets_importdesc : meets (enc_importdesc f1) (enc_importdesc f2) (enc_importdesc f).
Proof.
  intros p1 p2 r1 r2 [x|x|x|x] [y|y|y|y]; cbn; intros (b1 & -> & H1) (b2 & -> & H2) EQ; try discriminate EQ; injection EQ as EQ.
  - destruct (meets_u32 _ _ _ _ _ _ H1 H2 EQ) as (-> & -> & -> & H). repeat split. eauto.
  - destruct (meets_tablety _ _ _ _ _ _ H1 H2 EQ) as (-> & -> & -> & H). repeat split. eauto.
  - destruct (meets_memty _ _ _ _ _ _ H1 H2 EQ) as (-> & -> & -> & H). repeat split. eauto.
  - destruct (meets_globalty _ _ _ _ _ _ H1 H2 EQ) as (-> & -> & -> & H). repeat split. eauto.
Qed.
Lemma meets_exportdesc : meets (enc_exportdesc f1) (enc_exportdesc f2) (enc_exportdesc f).
Proof.
  intros p1 p2 r1 r2 [x|x|x|x] [y|y|y|y]; cbn; intros (b1 & -> & H1) (b2 & -> & H2) EQ; try discriminate EQ; injection EQ as EQ;
    destruct (meets_u32 _ _ _ _ _ _ H1 H2 EQ) as (-> & -> & -> & H); repeat split; eauto.
Qed.
Lemma meets_import : meets (enc_import f1) (enc_import f2) (enc_import f).
Proof.
  intros p1 p2 r1 r2 [a1 a2 a3] [b1 b2 b3] (m1 & n1 & d1 & -> & M1 & N1 & D1) (m2 & n2 & d2 & -> & M2 & N2 & D2) EQ. cbn in *.
  apply split_app in EQ. destruct (meets_name _ _ _ _ _ _ M1 M2 EQ) as (-> & E & -> & HM). apply split_app in E.
  destruct (meets_name _ _ _ _ _ _ N1 N2 E) as (-> & E' & -> & HN).
  destruct (meets_importdesc _ _ _ _ _ _ D1 D2 E') as (-> & -> & -> & HD). repeat split. exists m2, n2, d2. auto.
Qed.
Lemma meets_export : meets (enc_export f1) (enc_export f2) (enc_export f).
Proof.
  intros p1 p2 r1 r2 [a1 a2] [b1 b2] (n1 & d1 & -> & N1 & D1) (n2 & d2 & -> & N2 & D2) EQ. cbn in *.
  apply split_app in EQ. destruct (meets_name _ _ _ _ _ _ N1 N2 EQ) as (-> & E' & -> & HN).
  destruct (meets_exportdesc _ _ _ _ _ _ D1 D2 E') as (-> & -> & -> & HD). repeat split. exists n2, d2. auto.
Qed.
Lemma meets_table : meets (enc_table f1) (enc_table f2) (enc_table f).
Proof.
  intros p1 p2 r1 r2 [a] [b] H1 H2 EQ. destruct (meets_tablety _ _ _ _ _ _ H1 H2 EQ) as (-> & -> & E & H). cbn in E. subst. auto.
Qed.
Lemma meets_mem : meets (enc_mem f1) (enc_mem f2) (enc_mem f).
Proof.
  intros p1 p2 r1 r2 [a] [b] H1 H2 EQ. destruct (meets_memty _ _ _ _ _ _ H1 H2 EQ) as (-> & -> & E & H). cbn in E. subst. auto.
Qed.
Lemma meets_global : meets (enc_global f1) (enc_global f2) (enc_global f).
Proof.
  intros p1 p2 r1 r2 [a1 a2] [b1 b2] (n1 & d1 & -> & N1 & D1) (n2 & d2 & -> & N2 & D2) EQ. cbn in *.
  apply split_app in EQ. destruct (meets_globalty _ _ _ _ _ _ N1 N2 EQ) as (-> & E' & -> & HN).
  destruct (meets_expr _ _ _ _ _ _ D1 D2 E') as (-> & -> & -> & HD). repeat split. exists n2, d2. auto.
Qed.
Lemma meets_start : meets (enc_start f1) (enc_start f2) (enc_start f).
Proof.
  intros p1 p2 r1 r2 [a] [b] H1 H2 EQ. destruct (meets_u32 _ _ _ _ _ _ H1 H2 EQ) as (-> & -> & E & H). cbn in E. subst. auto.
Qed.
Lemma meets_elem : meets (enc_elem f1) (enc_elem f2) (enc_elem f).
Proof.
  intros p1 p2 r1 r2 [a1 a2 a3] [b1 b2 b3] (m1 & n1 & d1 & -> & M1 & N1 & D1) (m2 & n2 & d2 & -> & M2 & N2 & D2) EQ. cbn in *.
  apply split_app in EQ. destruct (meets_u32 _ _ _ _ _ _ M1 M2 EQ) as (-> & E & -> & HM). apply split_app in E.
  destruct (meets_expr _ _ _ _ _ _ N1 N2 E) as (-> & E' & -> & HN).
  destruct (meets_vec _ _ _ meets_u32 _ _ _ _ _ _ D1 D2 E') as (-> & -> & -> & HD). repeat split. exists m2, n2, d2. auto.
Qed.
Lemma meets_data : meets (enc_data f1) (enc_data f2) (enc_data f).
Proof.
  intros p1 p2 r1 r2 [a1 a2 a3] [b1 b2 b3] (m1 & n1 & d1 & -> & M1 & N1 & D1) (m2 & n2 & d2 & -> & M2 & N2 & D2) EQ. cbn in *.
  apply split_app in EQ. destruct (meets_u32 _ _ _ _ _ _ M1 M2 EQ) as (-> & E & -> & HM). apply split_app in E.
  destruct (meets_expr _ _ _ _ _ _ N1 N2 E) as (-> & E' & -> & HN).
  destruct (meets_vec _ _ _ meets_byte _ _ _ _ _ _ D1 D2 E') as (-> & -> & -> & HD). repeat split. exists m2, n2, d2. auto.
Qed.
Lemma meets_run : meets (enc_run f1) (enc_run f2) (enc_run f).
Proof.
  intros p1 p2 r1 r2 [a1 a2] [b1 b2] (n1 & d1 & -> & N1 & D1) (n2 & d2 & -> & N2 & D2) EQ. cbn in *.
  apply split_app in EQ. destruct (meets_u32 _ _ _ _ _ _ N1 N2 EQ) as (-> & E' & -> & HN).
  destruct (meets_valty _ _ _ _ _ _ D1 D2 E') as (-> & -> & -> & HD). repeat split. exists n2, d2. auto.
Qed.
Lemma meets_func : meets (enc_func f1) (enc_func f2) (enc_func f).
Proof.
  intros p1 p2 r1 r2 [a1 a2] [b1 b2] (n1 & d1 & u1 & -> & N1 & X1 & L1 & D1) (n2 & d2 & u2 & -> & N2 & X2 & L2 & D2) EQ. cbn [fst snd] in *.
  apply split_app in EQ. destruct (meets_vec _ _ _ meets_run _ _ _ _ _ _ N1 N2 EQ) as (-> & E' & -> & HN).
  destruct (meets_expr _ _ _ _ _ _ D1 D2 E') as (-> & -> & -> & HD). rewrite <- X2 in X1. subst a1. repeat split.
  exists n2, d2, u2. cbn [fst snd]. repeat split; try assumption; apply HN.
Qed.
Lemma meets_code : meets (enc_code f1) (enc_code f2) (enc_code f).
Proof. apply meets_sized, meets_whole, meets_func. Qed.
Lemma whole_custom : forall p a b, enc_custom f1 p a -> enc_custom f2 p b -> a = b /\ enc_custom f p a.
Proof.
  intros p [a1 a2] [b1 b2] (n1 & -> & N1) (n2 & E & N2). cbn in *. destruct (meets_name _ _ _ _ _ _ N1 N2 E) as (-> & -> & -> & H).
  split; [reflexivity|]. exists n2. auto.
Qed.
Lemma meets_section : meets (enc_section f1) (enc_section f2) (enc_section f).
Proof.
  assert (X : forall A (E1 E2 E : format A) (mk : A -> section) id b1 b2 r1 r2 (a b : A),
    (forall p x y, E1 p x -> E2 p y -> x = y /\ E p x) ->
    (forall q v, enc_sized f E q v -> enc_section f (id :: q) (mk v)) ->
    enc_sized f1 E1 b1 a -> enc_sized f2 E2 b2 b -> (id :: b1) ++ r1 = (id :: b2) ++ r2 ->
    id :: b1 = id :: b2 /\ r1 = r2 /\ mk a = mk b /\ enc_section f (id :: b1) (mk a)).
  { intros A E1 E2 E mk id b1 b2 r1 r2 a b M K H1 H2 EQ. injection EQ as EQ.
    destruct (meets_sized E1 E2 E M _ _ _ _ _ _ H1 H2 EQ) as (-> & -> & -> & H). repeat split. apply K, H. }
  intros p1 p2 r1 r2 a b. destruct a, b; cbn [enc_section]; intros (b1 & -> & H1) (b2 & -> & H2) EQ; try discriminate EQ;
    (eapply X; [|intros q w HW; exists q; split; [reflexivity|exact HW]|exact H1|exact H2|exact EQ]);
    first [exact whole_custom | apply meets_whole; first [apply meets_start | apply meets_vec; first
      [apply meets_functy | apply meets_import | apply meets_u32 | apply meets_table | apply meets_mem | apply meets_global
      | apply meets_export | apply meets_elem | apply meets_code | apply meets_data]]].
Qed.
Lemma section_nonempty d p s : enc_section d p s -> p <> [].
Proof. destruct s; intros (b & -> & _); discriminate. Qed.
Lemma meets_sections : forall secs1 secs2 body, enc_list (enc_section f1) body secs1 -> enc_list (enc_section f2) body secs2 ->
  secs1 = secs2 /\ enc_list (enc_section f) body secs1.
Proof.
  induction secs1 as [|s secs1 IH]; intros secs2 body (c1 & F1 & E1) (c2 & F2 & E2); inversion F1 as [|u1 ? v1 ? H1 F1']; subst.
  - inversion F2 as [|u2 ? v2 ? H2 F2']; subst.
    + split; [reflexivity|]. exists []. split; [constructor|reflexivity].
    + apply section_nonempty in H2. destruct u2; [congruence|discriminate].
  - inversion F2 as [|u2 s2 v2 ? H2 F2']; subst; cbn [concat] in E2.
    + apply section_nonempty in H1. destruct u1; [congruence|discriminate].
    + destruct (meets_section _ _ _ _ _ _ H1 H2 E2) as (-> & E & -> & H).
      destruct (IH l' (concat v1)) as (-> & c & F & EC); [exists v1; auto|exists v2; auto|].
      split; [reflexivity|]. exists (u2 :: c). split; [constructor; assumption|]. cbn [concat]. rewrite EC. reflexivity.
Qed.
Lemma meets_module bs m1 m2 : enc_module f1 bs m1 -> enc_module f2 bs m2 -> m1 = m2 /\ enc_module f bs m1.
Proof.
  intros (body1 & secs1 & -> & L1 & O1 & C1 & ->) (body2 & secs2 & E & L2 & O2 & C2 & ->). apply app_inv_head in E as <-.
  destruct (meets_sections _ _ _ L1 L2) as [<- L]. split; [reflexivity|]. exists body1, secs1. split; [reflexivity|].
  split; [exact L|]. split; [exact O1|]. split; [|reflexivity].
  destruct C1 as [C1|[M1 C1]]; [left; exact C1|]. destruct C2 as [C2|[M2 C2]]; [left; exact C2|]. right. split; [split; assumption|exact C1].
Qed.
End Meet.

(** in both is in what both allow *)
Lemma meet_exact d d' bs m : enc_module (meet d d') bs m <-> enc_module d bs m /\ enc_module d' bs m.
Proof.
  split.
  - intros H. split; revert H; apply w_module; cbn; tauto.
  - intros [H H']. apply (meets_module d d' bs m m H H').
Qed.

(** ** The official format as the conjunction of the four restrictions *)
Lemma official_is_meet bs m : enc_module wasm10_format bs m <->
  enc_module (meet (meet short_integers zero_reserved) (meet bounded_locals present_code)) bs m.
Proof.
  split; apply w_module; cbn - [N.mul N.add N.div]; try tauto; intros size len H.
  - assert (X : 7 * N.of_nat len < size + 7) by (pose proof (N.mul_div_le (size + 6) 7 ltac:(discriminate)); lia). tauto.
  - destruct H as [[H _] _]. apply N.div_le_lower_bound; lia.
Qed.
Lemma official_four bs m : enc_module wasm10_format bs m <->
  enc_module short_integers bs m /\ enc_module zero_reserved bs m /\ enc_module bounded_locals bs m /\ enc_module present_code bs m.
Proof. rewrite official_is_meet, !meet_exact. tauto. Qed.

Lemma combine_all {A B} : forall (l : list A) (l' : list B), length l = length l' -> forall b, In b l' -> exists a, In (a, b) (combine l l').
Proof.
  induction l as [|x l IH]; intros [|y l'] L b I; try discriminate; [destruct I|]. cbn. destruct I as [->|I]; [eauto|].
  injection L as L. destruct (IH l' L b I) as [a H]. eauto.
Qed.
Lemma bounded_code bs c : enc_code W bs c -> N.of_nat (length (fst c)) < 2 ^ 32 -> enc_code bounded_locals bs c.
Proof.
  intros (n & cont & -> & HN & rb & eb & runs & -> & HR & X & L & HE) H. exists n, (rb ++ eb). split; [reflexivity|].
  split; [exact HN|]. exists rb, eb, runs. split; [reflexivity|]. split; [exact HR|]. split; [exact X|]. split; [exact H|].
  revert HE. apply w_expr; cbn; auto.
Qed.
Lemma list_forall {A} (E E' : format A) p xs : (forall q x, In x xs -> E q x -> E' q x) -> enc_list E p xs -> enc_list E' p xs.
Proof.
  intros K (ch & F & ->). exists ch. split; [|reflexivity]. induction F; constructor; [apply K; [left; reflexivity|assumption]|].
  apply IHF. intros q z I. apply K. right. exact I.
Qed.
Lemma bounded_exact bs m : enc_module bounded_locals bs m <-> enc_module W bs m /\ few_locals m.
Proof.
  split.
  - intros H. split; [revert H; apply w_module; cbn; auto|]. intros fn I.
    apply module_components in H. destruct H as (_ & HF & _). apply HF in I. destruct I as (_ & b & rb & eb & runs & _ & _ & _ & L & _). exact L.
  - intros [(body & secs & -> & L & O & C & ->) F]. exists body, secs. split; [reflexivity|]. split; [|split; [exact O|split; [|reflexivity]]].
    + assert (K : forall v c, In (S_Code v) secs -> In c v -> N.of_nat (length (fst c)) < 2 ^ 32).
      { intros v c I J. destruct C as [C|[_ C]]; [|destruct C; exists v; exact I].
        destruct (combine_all _ _ C c) as [t T]; [apply in_flat_map; exists (S_Code v); auto|].
        apply (F (mkFunc t (fst c) (snd c))). cbn. unfold pair_funcs.
        apply in_map_iff. exists (t, c). split; [reflexivity|exact T]. }
      revert L. apply list_forall. intros q s I H.
      destruct s as [c|v|v|v|v|v|v|v|v|v|v|v]; destruct H as (b & -> & H); exists b; (split; [reflexivity|]); try exact H.
      * revert H. apply w_sized; [cbn; auto|]. apply w_vec; [cbn; auto|]. apply w_global; cbn; auto.
      * revert H. apply w_sized; [cbn; auto|]. apply w_vec; [cbn; auto|]. apply w_elem; cbn; auto.
      * destruct H as (n & cont & -> & HN & k & es & -> & HK & HL). exists n, (k ++ es). split; [reflexivity|]. split; [exact HN|].
        exists k, es. split; [reflexivity|]. split; [exact HK|]. revert HL. apply list_forall. intros q c J HC.
        apply bounded_code; [exact HC|]. eapply K; eassumption.
      * revert H. apply w_sized; [cbn; auto|]. apply w_vec; [cbn; auto|]. apply w_data; cbn; auto.
    + destruct C as [C|C]; [left; exact C|right; exact C].
Qed.
Lemma present_exact bs m : enc_module present_code bs m <-> enc_module W bs m /\ all_bodies bs.
Proof.
  split.
  - intros H. split; [revert H; apply w_module; cbn; auto|].
    destruct H as (body & secs & -> & L & _ & [C|[[] _]] & _). exists body, secs. split; [reflexivity|]. split; [|symmetry; exact C].
    revert L. apply w_list, w_section; cbn; auto.
  - intros [(body & secs & -> & L & O & _ & ->) (body' & secs' & E & L' & C)]. apply app_inv_head in E as <-.
    destruct (meets_sections W W _ _ _ L L') as [<- _]. exists body, secs. split; [reflexivity|].
    split; [revert L; apply w_list, w_section; cbn; auto|]. split; [exact O|]. split; [left; symmetry; exact C|reflexivity].
Qed.
(** the four, for a file that whasm reads *)
Lemma format_exact bs m : p_module bs = (Ok m, []) ->
  (enc_module wasm10_format bs m <->
   enc_module short_integers bs m /\ enc_module zero_reserved bs m /\ few_locals m /\ all_bodies bs).
Proof. intros P. apply module_exact in P as [_ P]. rewrite official_four, bounded_exact, present_exact. tauto. Qed.
