(** Files of WebAssembly 2.0 (C67): two readings of the same bytes. *)
From Coq Require Import Lia.
From Verif Require Import ParserModule SpecParser SpecLater ParserMeta TypesProof InstrProof ModuleProof SectionsProof DialectProof.
Open Scope N_scope.
Open Scope list_scope.

Notation W := whasm_format.

Definition agree {A B} (P : A -> Prop) (E : format A) (E2 : format B) (j : A -> B) : Prop :=
  forall p1 p2 r1 r2 a b, P a -> E p1 a -> E2 p2 b -> p1 ++ r1 = p2 ++ r2 -> p1 = p2 /\ b = j a.
Definition agree_all {A B} (P : A -> Prop) (E : format A) (E2 : format B) (j : A -> B) : Prop :=
  forall bs a b, P a -> E bs a -> E2 bs b -> b = j a.
Definition anything {A} (_ : A) : Prop := True.

Lemma agree_to_all {A B} P (E : format A) (E2 : format B) j : agree P E E2 j -> agree_all P E E2 j.
Proof. intros G bs a b Pa H1 H2. exact (proj2 (G bs bs [] [] a b Pa H1 H2 eq_refl)). Qed.
Lemma agree_ext {A B} (P Q : A -> Prop) (E : format A) (E2 : format B) j : (forall a, P a -> Q a) -> agree Q E E2 j -> agree P E E2 j.
Proof. intros I G p1 p2 r1 r2 a b Pa. apply G. auto. Qed.
(** one parser reads both *)
Lemma agree_same {A} (p : parser A) P (E E2 : format A) : exact p E -> weaker E2 E -> agree P E E2 (fun a => a).
Proof.
  intros X Wk p1 p2 r1 r2 a b _ H1 H2 EQ. apply Wk in H2.
  destruct (exact_prefix_free p E X _ _ _ _ _ _ H1 H2 EQ). auto.
Qed.
Lemma split_app (p1 p2 q1 q2 r1 r2 : list byte) : (p1 ++ q1) ++ r1 = (p2 ++ q2) ++ r2 -> p1 ++ (q1 ++ r1) = p2 ++ (q2 ++ r2).
Proof. rewrite <- !app_assoc. auto. Qed.

Section Later.
Variable fd : fdialect.

Lemma wk_u32 : weaker (enc_u32 fd) (enc_u32 W). Proof. apply w_u32. cbn; auto. Qed.
Lemma agree_u32 P : agree P (enc_u32 W) (enc_u32 fd) (fun a => a).
Proof. apply (agree_same p_u32); [apply exact_u32|apply wk_u32]. Qed.
Lemma wk_name : weaker (enc_name fd) (enc_name W). Proof. apply w_name. cbn; auto. Qed.
Lemma agree_name P : agree P (enc_name W) (enc_name fd) (fun a => a).
Proof. apply (agree_same p_string); [apply exact_string|apply wk_name]. Qed.
Lemma agree_limits P : agree P (enc_limits W) (enc_limits fd) (fun a => a).
Proof. apply (agree_same p_limits); [apply exact_limits|apply w_limits; cbn; auto]. Qed.
Lemma agree_memty P : agree P (enc_memty W) (enc_memty fd) (fun a => a).
Proof. apply (agree_same p_memty); [apply exact_memty|apply w_memty; cbn; auto]. Qed.
Lemma agree_export P : agree P (enc_export W) (enc_export fd) (fun a => a).
Proof. apply (agree_same p_export); [apply exact_export|apply w_export; cbn; auto]. Qed.
Lemma agree_byte P : agree P enc_byte enc_byte (fun a => a).
Proof. apply (agree_same p_byte); [apply exact_byte'|intros ? ?; auto]. Qed.

Lemma agree_chunks {A B} P (E : format A) (E2 : format B) j : agree P E E2 j ->
  forall xs ys c1 c2 r1 r2, length xs = length ys -> Forall P xs -> Forall2 E c1 xs -> Forall2 E2 c2 ys ->
  concat c1 ++ r1 = concat c2 ++ r2 -> concat c1 = concat c2 /\ ys = map j xs.
Proof.
  intros G xs. induction xs as [|x xs IH]; intros [|y ys] c1 c2 r1 r2 L FP F1 F2 EQ; try discriminate.
  - inversion F1. inversion F2. auto.
  - inversion F1 as [|u1 ? v1 ? Hx F1']. inversion F2 as [|u2 ? v2 ? Hy F2']. subst. cbn [concat] in *.
    inversion FP as [|? ? Px FP']. subst.
    apply split_app in EQ. destruct (G _ _ _ _ _ _ Px Hx Hy EQ) as [-> ->]. apply app_inv_head in EQ.
    injection L as L. destruct (IH ys v1 v2 r1 r2 L FP' F1' F2' EQ) as [EC ->]. rewrite EC. auto.
Qed.
Lemma agree_vec {A B} P (E : format A) (E2 : format B) j : agree P E E2 j ->
  agree (Forall P) (enc_vec W E) (enc_vec fd E2) (map j).
Proof.
  intros G p1 p2 r1 r2 xs ys FP (n1 & e1 & -> & N1 & c1 & F1 & ->) (n2 & e2 & -> & N2 & c2 & F2 & ->) EQ.
  apply split_app in EQ. destruct (agree_u32 anything _ _ _ _ _ _ I N1 N2 EQ) as [-> L]. apply app_inv_head in EQ.
  assert (L' : length xs = length ys) by lia.
  destruct (agree_chunks P E E2 j G xs ys c1 c2 r1 r2 L' FP F1 F2 EQ) as [EC ->]. rewrite EC. auto.
Qed.
Lemma agree_vec_any {A B} (E : format A) (E2 : format B) j : agree anything E E2 j ->
  agree anything (enc_vec W E) (enc_vec fd E2) (map j).
Proof.
  intros G. eapply agree_ext; [|apply agree_vec, G]. intros l _. apply Forall_forall. intros x _. exact I.
Qed.
Lemma sized_same {A B} (E : format A) (E2 : format B) p1 p2 r1 r2 a b :
  enc_sized W E p1 a -> enc_sized fd E2 p2 b -> p1 ++ r1 = p2 ++ r2 ->
  p1 = p2 /\ exists cont, E cont a /\ E2 cont b.
Proof.
  intros (n1 & c1 & -> & N1 & H1) (n2 & c2 & -> & N2 & H2) EQ. apply split_app in EQ.
  destruct (agree_u32 anything _ _ _ _ _ _ I N1 N2 EQ) as [-> L]. apply app_inv_head in EQ.
  assert (L' : length c1 = length c2) by lia.
  assert (c1 = c2).
  { rewrite <- (firstn_all c1), <- (firstn_all c2). rewrite <- (app_nil_r (firstn _ c1)), <- (app_nil_r (firstn _ c2)).
    pose proof (f_equal (firstn (length c1)) EQ) as F. rewrite !firstn_app, L', !Nat.sub_diag in F. cbn [firstn] in F.
    rewrite L'. exact F. }
  subst c2. split; [reflexivity|]. eauto.
Qed.
Lemma agree_sized {A B} P (E : format A) (E2 : format B) j : agree_all P E E2 j -> agree P (enc_sized W E) (enc_sized fd E2) j.
Proof.
  intros G p1 p2 r1 r2 a b Pa H1 H2 EQ. destruct (sized_same E E2 p1 p2 r1 r2 a b H1 H2 EQ) as (-> & c & C1 & C2).
  split; [reflexivity|]. exact (G c a b Pa C1 C2).
Qed.

(** ** Types *)
Lemma valty_eq t t2 : valty_byte t = valty2_byte t2 -> t2 = W_num t.
Proof. destruct t, t2 as [[]| |[]]; cbn; intros H; try discriminate; reflexivity. Qed.
Lemma agree_valty P : agree P enc_valty enc2_valty W_num.
Proof.
  intros p1 p2 r1 r2 a b _ -> -> EQ. injection EQ as EQ _. split; [rewrite EQ; reflexivity|]. apply valty_eq, EQ.
Qed.
Lemma agree_functy P : agree P (enc_functy W) (enc2_functy fd) later_functy.
Proof.
  intros p1 p2 r1 r2 [a1 a2] [b1 b2] _ (ps1 & rs1 & -> & P1 & R1) (ps2 & rs2 & -> & P2 & R2) EQ. cbn in *.
  injection EQ as EQ. apply split_app in EQ.
  destruct (agree_vec_any _ _ _ (agree_valty anything) _ _ _ _ _ _ I P1 P2 EQ) as [-> ->]. apply app_inv_head in EQ.
  destruct (agree_vec_any _ _ _ (agree_valty anything) _ _ _ _ _ _ I R1 R2 EQ) as [-> ->]. auto.
Qed.
Lemma agree_tablety P : agree P (enc_tablety W) (enc2_tablety fd) later_tablety.
Proof.
  intros p1 p2 r1 r2 [l1 t1] [l2 t2] _ (lb1 & -> & T1 & L1) (rb & lb2 & -> & -> & L2) EQ. cbn in *.
  injection EQ as T EQ. assert (t2 = R_func) by (destruct t2; [reflexivity|discriminate]). subst.
  destruct (agree_limits anything _ _ _ _ _ _ I L1 L2 EQ) as [-> ->]. auto.
Qed.
Lemma agree_globalty P : agree P enc_globalty enc2_globalty later_globalty.
Proof.
  intros p1 p2 r1 r2 [m1 v1] [m2 v2] _ -> -> EQ. cbn in *. injection EQ as V M _. split; [rewrite V, M; reflexivity|].
  apply valty_eq in V. subst. destruct m1, m2; try discriminate; reflexivity.
Qed.
Lemma agree_blockty P : agree P enc_blockty (enc2_blockty fd) later_blockty.
Proof.
  intros p1 p2 r1 r2 a b _ H1 H2 EQ.
  destruct b as [|t2|x].
  - cbn in H2. subst p2. destruct H1 as [[-> ->]|(t & -> & ->)]; [auto|]. destruct t; discriminate.
  - cbn in H2. unfold enc2_valty in H2. subst p2.
    destruct H1 as [[-> ->]|(t & -> & ->)].
    + destruct t2 as [[]| |[]]; discriminate.
    + injection EQ as EQ _. apply valty_eq in EQ. subst t2. auto.
  - exfalso. destruct H2 as [H2 _].
    assert (R : p_signed 33 (p2 ++ r2) = (Ok (Z.of_N x), r2)) by (apply exact_signed; [lia|]; eauto).
    rewrite <- EQ in R.
    assert (Z0 : exists z, p_signed 33 (p1 ++ r1) = (Ok z, r1) /\ (z < 0)%Z).
    { destruct H1 as [[-> _]|(t & -> & _)]; [|destruct t]; eexists; (split; [vm_compute; reflexivity|lia]). }
    destruct Z0 as (z & E & N). rewrite E in R. injection R as -> _. lia.
Qed.

(** ** Instructions *)
Scheme enc2_instr_mind := Induction for enc2_instr Sort Prop
  with enc2_instrs_mind := Induction for enc2_instrs Sort Prop.
Combined Scheme enc2_instr_instrs_ind from enc2_instr_mind, enc2_instrs_mind.

Definition new_opcode (b : byte) : Prop :=
  In b [x05; x0b; x1c; x25; x26; xc0; xc1; xc2; xc3; xc4; xd0; xd1; xd2; xfc; xfd].
Definition structured_opcode (b : byte) : Prop := In b [x02; x03; x04].
Lemma plain_head i b : plain_opcode i = Some b -> ~ new_opcode b /\ ~ structured_opcode b.
Proof. destruct i; intros H; try discriminate; injection H as <-; split; intros H; repeat destruct H as [H|H]; try discriminate; exact H. Qed.
Lemma index_head i b x : index_opcode i = Some (b, x) -> ~ new_opcode b /\ ~ structured_opcode b.
Proof. destruct i; intros H; try discriminate; injection H as <- _; split; intros H; repeat destruct H as [H|H]; try discriminate; exact H. Qed.
Lemma memarg_head i b x y : memarg_opcode i = Some (b, x, y) -> ~ new_opcode b /\ ~ structured_opcode b.
Proof. destruct i; intros H; try discriminate; injection H as <- _ _; split; intros H; repeat destruct H as [H|H]; try discriminate; exact H. Qed.
Ltac not_in := intros HN; repeat destruct HN as [HN|HN]; try discriminate; exact HN.
(** no instruction of 1.0 begins with an opcode of 2.0, nor with that of end or else *)
Lemma head_old f b p i : enc_instr f (b :: p) i -> ~ new_opcode b.
Proof.
  intros H. remember (b :: p) as l eqn:E. destruct H; injection E as <- _; try not_in.
  - exact (proj1 (plain_head _ _ H)). - exact (proj1 (index_head _ _ _ H)). - exact (proj1 (memarg_head _ _ _ _ H)).
Qed.
Lemma head_structured f b p i : enc_instr f (b :: p) i -> structured_opcode b ->
  exists rt is rtb isb, enc_blockty rtb rt /\ enc_instrs f isb is /\
    ((b = x02 /\ p = rtb ++ isb ++ [x0b] /\ i = I_Block rt is) \/ (b = x03 /\ p = rtb ++ isb ++ [x0b] /\ i = I_Loop rt is) \/
     (b = x04 /\ p = rtb ++ isb ++ [x0b] /\ i = I_If rt is []) \/
     (b = x04 /\ exists is2 is2b, enc_instrs f is2b is2 /\ p = rtb ++ isb ++ [x05] ++ is2b ++ [x0b] /\ i = I_If rt is is2)).
Proof.
  intros H S. remember (b :: p) as l eqn:E. destruct H; injection E as <- <-.
  - destruct (proj2 (plain_head _ _ H) S). - destruct (proj2 (index_head _ _ _ H) S). - destruct (proj2 (memarg_head _ _ _ _ H) S).
  - exfalso; revert S; not_in. - exfalso; revert S; not_in. - exfalso; revert S; not_in. - exfalso; revert S; not_in.
  - exfalso; revert S; not_in. - exfalso; revert S; not_in. - exfalso; revert S; not_in. - exfalso; revert S; not_in.
  - exists rt, is, rtb, isb. split; [assumption|]. split; [assumption|]. left. auto.
  - exists rt, is, rtb, isb. split; [assumption|]. split; [assumption|]. right; left. auto.
  - exists rt, is, rtb, isb. split; [assumption|]. split; [assumption|]. right; right; left. auto.
  - exists rt, is1, rtb, is1b. split; [assumption|]. split; [assumption|]. right; right; right. split; [reflexivity|]. eauto.
Qed.
Lemma nonempty f p i : enc_instr f p i -> exists b q, p = b :: q.
Proof. intros H. apply enc_instr_length in H. destruct p as [|b q]; [cbn in H; lia|eauto]. Qed.
Definition term (t : byte) : Prop := t = x0b \/ t = x05.

Lemma agree_code :
  (forall p2 i2, enc2_instr fd p2 i2 -> forall p1 r1 r2 i1, enc_instr W p1 i1 -> p1 ++ r1 = p2 ++ r2 ->
     p1 = p2 /\ i2 = later_instr i1) /\
  (forall p2 is2, enc2_instrs fd p2 is2 -> forall p1 t1 t2 r1 r2 is1, enc_instrs W p1 is1 -> term t1 -> term t2 ->
     p1 ++ t1 :: r1 = p2 ++ t2 :: r2 -> p1 = p2 /\ t1 = t2 /\ r1 = r2 /\ is2 = later_expr is1).
Proof.
  apply enc2_instr_instrs_ind.
  - intros i bs S H p1 r1 r2 i1 H1 EQ.
    assert (H' : enc_instr W bs i) by (revert H; apply w_instr_instrs; cbn; auto).
    destruct (exact_prefix_free _ _ exact_instr_top p1 bs r1 r2 i1 i (or_introl H1) (or_introl H') EQ) as [-> ->].
    split; [reflexivity|]. destruct i; try reflexivity; discriminate S.
  - intros bt is tb isb B _ IH p1 r1 r2 i1 H1 EQ. destruct (nonempty _ _ _ H1) as (b & q & ->). cbn [app] in EQ. injection EQ as -> EQ.
    destruct (head_structured _ _ _ _ H1) as (rt & is1 & rtb & isb1 & B1 & I1 & [(_ & -> & ->)|[(C & _)|[(C & _)|(C & _)]]]); try discriminate;
      [left; reflexivity|].
    rewrite <- !app_assoc in EQ. destruct (agree_blockty anything _ _ _ _ _ _ I B1 B EQ) as [-> ->]. apply app_inv_head in EQ.
    destruct (IH isb1 x0b x0b r1 r2 is1 I1) as (-> & _ & _ & ->); [left; reflexivity..|exact EQ|]. auto.
  - intros bt is tb isb B _ IH p1 r1 r2 i1 H1 EQ. destruct (nonempty _ _ _ H1) as (b & q & ->). cbn [app] in EQ. injection EQ as -> EQ.
    destruct (head_structured _ _ _ _ H1) as (rt & is1 & rtb & isb1 & B1 & I1 & [(C & _)|[(_ & -> & ->)|[(C & _)|(C & _)]]]); try discriminate;
      [right; left; reflexivity|].
    rewrite <- !app_assoc in EQ. destruct (agree_blockty anything _ _ _ _ _ _ I B1 B EQ) as [-> ->]. apply app_inv_head in EQ.
    destruct (IH isb1 x0b x0b r1 r2 is1 I1) as (-> & _ & _ & ->); [left; reflexivity..|exact EQ|]. auto.
  - intros bt is tb isb B _ IH p1 r1 r2 i1 H1 EQ. destruct (nonempty _ _ _ H1) as (b & q & ->). cbn [app] in EQ. injection EQ as -> EQ.
    destruct (head_structured _ _ _ _ H1) as (rt & is1 & rtb & isb1 & B1 & I1 & [(C & _)|[(C & _)|[(_ & -> & ->)|(_ & is2' & b2' & I2 & -> & ->)]]]); try discriminate;
      [right; right; left; reflexivity| |].
    + rewrite <- !app_assoc in EQ. destruct (agree_blockty anything _ _ _ _ _ _ I B1 B EQ) as [-> ->]. apply app_inv_head in EQ.
      destruct (IH isb1 x0b x0b r1 r2 is1 I1) as (-> & _ & _ & ->); [left; reflexivity..|exact EQ|]. auto.
    + rewrite <- !app_assoc in EQ. destruct (agree_blockty anything _ _ _ _ _ _ I B1 B EQ) as [-> ->]. apply app_inv_head in EQ.
      destruct (IH isb1 x05 x0b (b2' ++ [x0b] ++ r1) r2 is1 I1) as (_ & C & _); [right; reflexivity|left; reflexivity|exact EQ|discriminate].
  - intros bt is is' tb isb isb' B _ IH _ IH' p1 r1 r2 i1 H1 EQ. destruct (nonempty _ _ _ H1) as (b & q & ->). cbn [app] in EQ. injection EQ as -> EQ.
    destruct (head_structured _ _ _ _ H1) as (rt & is1 & rtb & isb1 & B1 & I1 & [(C & _)|[(C & _)|[(_ & -> & ->)|(_ & is2' & b2' & I2 & -> & ->)]]]); try discriminate;
      [right; right; left; reflexivity| |].
    + rewrite <- !app_assoc in EQ. cbn [app] in EQ. rewrite <- !app_assoc in EQ.
      destruct (agree_blockty anything _ _ _ _ _ _ I B1 B EQ) as [-> ->]. apply app_inv_head in EQ.
      destruct (IH isb1 x0b x05 r1 (isb' ++ [x0b] ++ r2) is1 I1) as (_ & C & _); [left; reflexivity|right; reflexivity|exact EQ|discriminate].
    + cbn [app] in EQ. repeat (rewrite <- !app_assoc in EQ; cbn [app] in EQ).
      destruct (agree_blockty anything _ _ _ _ _ _ I B1 B EQ) as [-> ->]. apply app_inv_head in EQ.
      destruct (IH isb1 x05 x05 (b2' ++ x0b :: r1) (isb' ++ x0b :: r2) is1 I1) as (-> & _ & EQ' & ->); [right; reflexivity..|exact EQ|].
      destruct (IH' b2' x0b x0b r1 r2 is2' I2) as (-> & _ & _ & ->); [left; reflexivity..|exact EQ'|]. auto.
  - intros ts b _ p1 r1 r2 i1 H1 EQ. destruct (nonempty _ _ _ H1) as (c & q & ->). injection EQ as -> _. destruct (head_old _ _ _ _ H1); cbv; auto.
  - intros x b _ p1 r1 r2 i1 H1 EQ. destruct (nonempty _ _ _ H1) as (c & q & ->). injection EQ as -> _. destruct (head_old _ _ _ _ H1); cbv; auto.
  - intros x b _ p1 r1 r2 i1 H1 EQ. destruct (nonempty _ _ _ H1) as (c & q & ->). injection EQ as -> _. destruct (head_old _ _ _ _ H1); cbv; auto 6.
  - intros op O p1 r1 r2 i1 H1 EQ. destruct (nonempty _ _ _ H1) as (c & q & ->). injection EQ as -> _.
    destruct (head_old _ _ _ _ H1). unfold new_opcode, extend_opcode in *. cbn. intuition auto.
  - intros t b _ p1 r1 r2 i1 H1 EQ. destruct (nonempty _ _ _ H1) as (c & q & ->). injection EQ as -> _. destruct (head_old _ _ _ _ H1); cbv; auto 20.
  - intros p1 r1 r2 i1 H1 EQ. destruct (nonempty _ _ _ H1) as (c & q & ->). injection EQ as -> _. destruct (head_old _ _ _ _ H1); cbv; auto 20.
  - intros x b _ p1 r1 r2 i1 H1 EQ. destruct (nonempty _ _ _ H1) as (c & q & ->). injection EQ as -> _. destruct (head_old _ _ _ _ H1); cbv; auto 20.
  - intros op imm O p1 r1 r2 i1 H1 EQ. destruct (nonempty _ _ _ H1) as (c & q & ->). injection EQ as -> _.
    destruct (head_old _ _ _ _ H1). unfold new_opcode. cbn. destruct O as [-> | ->]; auto 20.
  - intros p1 t1 t2 r1 r2 is1 H1 T1 T2 EQ. destruct H1 as [|i is ib isb H1 H1'].
    + injection EQ as -> ->. auto.
    + exfalso. destruct (nonempty _ _ _ H1) as (c & q & ->). injection EQ as -> _. apply (head_old _ _ _ _ H1).
      destruct T2 as [-> | ->]; cbv; auto.
  - intros i is ib isb H IH H' IH' p1 t1 t2 r1 r2 is1 H1 T1 T2 EQ. rewrite <- app_assoc in EQ. destruct H1 as [|i1 is1 ib1 isb1 H1 H1'].
    + exfalso. cbn [app] in EQ.
      assert (HH : exists b q, ib = b :: q /\ b <> x0b /\ b <> x05).
      { destruct H.
        - destruct (nonempty _ _ _ H0) as (b & q & ->). exists b, q. split; [reflexivity|].
          pose proof (head_old _ _ _ _ H0) as N. split; intros ->; apply N; cbv; auto.
        - eexists _, _; split; [reflexivity|]; split; discriminate.
        - eexists _, _; split; [reflexivity|]; split; discriminate.
        - eexists _, _; split; [reflexivity|]; split; discriminate.
        - eexists _, _; split; [reflexivity|]; split; discriminate.
        - eexists _, _; split; [reflexivity|]; split; discriminate.
        - eexists _, _; split; [reflexivity|]; split; discriminate.
        - eexists _, _; split; [reflexivity|]; split; discriminate.
        - eexists _, _; split; [reflexivity|].
          match goal with X : extend_opcode _ |- _ => repeat destruct X as [X|X]; subst; split; discriminate end.
        - eexists _, _; split; [reflexivity|]; split; discriminate.
        - eexists _, _; split; [reflexivity|]; split; discriminate.
        - eexists _, _; split; [reflexivity|]; split; discriminate.
        - eexists _, _; split; [reflexivity|].
          match goal with X : _ \/ _ |- _ => destruct X as [-> | ->]; split; discriminate end. }
      destruct HH as (b & q & -> & N1 & N2). injection EQ as -> _. destruct T1; congruence.
    + rewrite <- app_assoc in EQ. destruct (IH _ _ _ _ H1 EQ) as [-> ->]. apply app_inv_head in EQ.
      destruct (IH' _ _ _ _ _ _ H1' T1 T2 EQ) as (-> & -> & -> & ->). auto.
Qed.
Lemma agree_expr P : agree P (enc_expr W) (enc2_expr fd) later_expr.
Proof.
  intros p1 p2 r1 r2 a b _ (i1 & -> & H1) (i2 & -> & H2) EQ. rewrite <- !app_assoc in EQ.
  destruct (proj2 agree_code _ _ H2 i1 x0b x0b r1 r2 a H1 (or_introl eq_refl) (or_introl eq_refl) EQ) as (-> & _ & _ & ->). auto.
Qed.

(** ** Components *)
Lemma agree_importdesc P : agree P (enc_importdesc W) (enc2_importdesc fd) later_importdesc.
Proof.
  intros p1 p2 r1 r2 a b _ H1 H2 EQ. destruct a, b; cbn in H1, H2; destruct H1 as (b1 & -> & H1), H2 as (b2 & -> & H2); try discriminate;
    injection EQ as EQ.
  - destruct (agree_u32 anything _ _ _ _ _ _ I H1 H2 EQ) as [-> ->]. auto.
  - destruct (agree_tablety anything _ _ _ _ _ _ I H1 H2 EQ) as [-> ->]. auto.
  - destruct (agree_memty anything _ _ _ _ _ _ I H1 H2 EQ) as [-> ->]. auto.
  - destruct (agree_globalty anything _ _ _ _ _ _ I H1 H2 EQ) as [-> ->]. auto.
Qed.
Lemma agree_import P : agree P (enc_import W) (enc2_import fd) later_import.
Proof.
  intros p1 p2 r1 r2 [a1 a2 a3] [b1 b2 b3] _ (m1 & n1 & d1 & -> & M1 & N1 & D1) (m2 & n2 & d2 & -> & M2 & N2 & D2) EQ. cbn in *.
  rewrite <- !app_assoc in EQ.
  destruct (agree_name anything _ _ _ _ _ _ I M1 M2 EQ) as [-> ->]. apply app_inv_head in EQ.
  destruct (agree_name anything _ _ _ _ _ _ I N1 N2 EQ) as [-> ->]. apply app_inv_head in EQ.
  destruct (agree_importdesc anything _ _ _ _ _ _ I D1 D2 EQ) as [-> ->]. auto.
Qed.
Lemma agree_global P : agree P (enc_global W) (enc2_global fd) later_global.
Proof.
  intros p1 p2 r1 r2 [a1 a2] [b1 b2] _ (t1 & e1 & -> & T1 & E1) (t2 & e2 & -> & T2 & E2) EQ. cbn in *. rewrite <- !app_assoc in EQ.
  destruct (agree_globalty anything _ _ _ _ _ _ I T1 T2 EQ) as [-> ->]. apply app_inv_head in EQ.
  destruct (agree_expr anything _ _ _ _ _ _ I E1 E2 EQ) as [-> ->]. auto.
Qed.
Lemma agree_table P : agree P (enc_table W) (enc2_tablety fd) (fun t => later_tablety (tab_ty t)).
Proof. intros p1 p2 r1 r2 a b _ H1 H2. exact (agree_tablety anything _ _ _ _ _ _ I H1 H2). Qed.
Lemma agree_mem P : agree P (enc_mem W) (enc_memty fd) mem_ty.
Proof. intros p1 p2 r1 r2 a b _ H1 H2. exact (agree_memty anything _ _ _ _ _ _ I H1 H2). Qed.
Lemma agree_start P : agree P (enc_start W) (enc_u32 fd) st_func.
Proof. intros p1 p2 r1 r2 a b _ H1 H2. exact (agree_u32 anything _ _ _ _ _ _ I H1 H2). Qed.
Definition first_table (e : elem) : Prop := el_table e = 0.
Definition first_mem (d : data) : Prop := da_mem d = 0.
Lemma agree_elem : agree first_table (enc_elem W) (enc2_elem fd) later_elem.
Proof.
  intros p1 p2 r1 r2 [t o i] b Z (xb & ob & ib & -> & X1 & O1 & I1) H2 EQ. unfold first_table in Z. cbn in *. subst t.
  destruct H2; rewrite <- !app_assoc in EQ;
    match goal with F : enc_u32 fd _ _ |- _ => destruct (agree_u32 anything _ _ _ _ _ _ I X1 F EQ) as [-> C] end; try discriminate C.
  apply app_inv_head in EQ.
  destruct (agree_expr anything _ _ _ _ _ _ I O1 H0 EQ) as [-> ->]. apply app_inv_head in EQ.
  destruct (agree_vec_any _ _ _ (agree_u32 anything) _ _ _ _ _ _ I I1 H1 EQ) as [-> ->]. rewrite map_id. auto.
Qed.
Lemma agree_data : agree first_mem (enc_data W) (enc2_data fd) later_data.
Proof.
  intros p1 p2 r1 r2 [t o i] b Z (xb & ob & ib & -> & X1 & O1 & I1) H2 EQ. unfold first_mem in Z. cbn in *. subst t.
  destruct H2; rewrite <- !app_assoc in EQ;
    match goal with F : enc_u32 fd _ _ |- _ => destruct (agree_u32 anything _ _ _ _ _ _ I X1 F EQ) as [-> C] end; try discriminate C.
  apply app_inv_head in EQ.
  destruct (agree_expr anything _ _ _ _ _ _ I O1 H0 EQ) as [-> ->]. apply app_inv_head in EQ.
  destruct (agree_vec_any _ _ _ (agree_byte anything) _ _ _ _ _ _ I I1 H1 EQ) as [-> ->]. rewrite map_id. auto.
Qed.
Definition later_code (c : code) : code2 := (map W_num (fst c), later_expr (snd c)).
Lemma agree_run P : agree P (enc_run W) (enc2_run fd) (fun r => (fst r, W_num (snd r))).
Proof.
  intros p1 p2 r1 r2 [n t] [n' t'] _ (nb & tb & -> & N1 & T1) (nb' & tb' & -> & N2 & T2) EQ. cbn in *. rewrite <- !app_assoc in EQ.
  destruct (agree_u32 anything _ _ _ _ _ _ I N1 N2 EQ) as [-> ->]. apply app_inv_head in EQ.
  destruct (agree_valty anything _ _ _ _ _ _ I T1 T2 EQ) as [-> ->]. auto.
Qed.
Lemma map_repeat' {A B} (f : A -> B) x n : map f (repeat x n) = repeat (f x) n.
Proof. induction n; cbn; congruence. Qed.
Lemma expand_runs_map rs : expand_runs (map (fun r : u32 * valty => (fst r, W_num (snd r))) rs) = map W_num (expand_runs rs).
Proof.
  unfold expand_runs. induction rs as [|[n t] rs IH]; [reflexivity|]. cbn [map flat_map fst snd]. rewrite map_app, map_repeat', IH. reflexivity.
Qed.
Lemma agree_func P : agree P (enc_func W) (enc2_func fd) later_code.
Proof.
  intros p1 p2 r1 r2 [l e] [l' e'] _ (rb & eb & runs & -> & R1 & L1 & _ & E1) (rb' & eb' & runs' & -> & R2 & L2 & _ & E2) EQ. cbn in *.
  rewrite <- !app_assoc in EQ.
  destruct (agree_vec_any _ _ _ (agree_run anything) _ _ _ _ _ _ I R1 R2 EQ) as [-> ->]. apply app_inv_head in EQ.
  destruct (agree_expr anything _ _ _ _ _ _ I E1 E2 EQ) as [-> ->]. subst. rewrite expand_runs_map. auto.
Qed.
Lemma agree_all_custom : agree_all anything (enc_custom W) (enc_custom fd) (fun c => c).
Proof.
  intros bs [n p] [n' p'] _ (nb & -> & N1) (nb' & EQ & N2). cbn in *.
  destruct (agree_name anything _ _ _ _ _ _ I N1 N2 EQ) as [-> ->]. apply app_inv_head in EQ. subst. reflexivity.
Qed.

(** ** Sections *)
Definition later_section (s : section) : section2 :=
  match s with
  | S_Custom c => S2_custom c
  | S_Type v => S2_type (map later_functy v)
  | S_Import v => S2_import (map later_import v)
  | S_Function v => S2_function v
  | S_Table v => S2_table (map (fun t => later_tablety (tab_ty t)) v)
  | S_Memory v => S2_memory (map mem_ty v)
  | S_Global v => S2_global (map later_global v)
  | S_Export v => S2_export v
  | S_Start v => S2_start (st_func v)
  | S_Element v => S2_element (map later_elem v)
  | S_Code v => S2_code (map later_code v)
  | S_Data v => S2_data (map later_data v)
  end.
Definition firsts (s : section) : Prop :=
  match s with S_Element v => Forall first_table v | S_Data v => Forall first_mem v | _ => True end.
(** what two readings of a section have in common *)
Definition alike (s : section) (s2 : section2) : Prop :=
  (firsts s -> s2 = later_section s) /\
  (s2 = later_section s \/ (exists v v2, s = S_Element v /\ s2 = S2_element v2) \/ (exists v v2, s = S_Data v /\ s2 = S2_data v2)).
Lemma alike_later s : alike s (later_section s). Proof. split; auto. Qed.
Lemma sections_alike p1 p2 r1 r2 s s2 : enc_section W p1 s -> enc2_section fd p2 s2 -> p1 ++ r1 = p2 ++ r2 -> p1 = p2 /\ alike s s2.
Proof.
  intros H1 H2 EQ. destruct s, s2; cbn in H1, H2; destruct H1 as (b1 & -> & H1), H2 as (b2 & -> & H2); try discriminate; injection EQ as EQ.
  - destruct (agree_sized _ _ _ _ agree_all_custom _ _ _ _ _ _ I H1 H2 EQ) as [-> ->]. split; [reflexivity|apply alike_later].
  - destruct (agree_sized _ _ _ _ (agree_to_all _ _ _ _ (agree_vec_any _ _ _ (agree_functy anything))) _ _ _ _ _ _ I H1 H2 EQ) as [-> ->].
    split; [reflexivity|apply (alike_later (S_Type _))].
  - destruct (agree_sized _ _ _ _ (agree_to_all _ _ _ _ (agree_vec_any _ _ _ (agree_import anything))) _ _ _ _ _ _ I H1 H2 EQ) as [-> ->].
    split; [reflexivity|apply (alike_later (S_Import _))].
  - destruct (agree_sized _ _ _ _ (agree_to_all _ _ _ _ (agree_vec_any _ _ _ (agree_u32 anything))) _ _ _ _ _ _ I H1 H2 EQ) as [-> ->].
    rewrite map_id. split; [reflexivity|apply (alike_later (S_Function _))].
  - destruct (agree_sized _ _ _ _ (agree_to_all _ _ _ _ (agree_vec_any _ _ _ (agree_table anything))) _ _ _ _ _ _ I H1 H2 EQ) as [-> ->].
    split; [reflexivity|apply (alike_later (S_Table _))].
  - destruct (agree_sized _ _ _ _ (agree_to_all _ _ _ _ (agree_vec_any _ _ _ (agree_mem anything))) _ _ _ _ _ _ I H1 H2 EQ) as [-> ->].
    split; [reflexivity|apply (alike_later (S_Memory _))].
  - destruct (agree_sized _ _ _ _ (agree_to_all _ _ _ _ (agree_vec_any _ _ _ (agree_global anything))) _ _ _ _ _ _ I H1 H2 EQ) as [-> ->].
    split; [reflexivity|apply (alike_later (S_Global _))].
  - destruct (agree_sized _ _ _ _ (agree_to_all _ _ _ _ (agree_vec_any _ _ _ (agree_export anything))) _ _ _ _ _ _ I H1 H2 EQ) as [-> ->].
    rewrite map_id. split; [reflexivity|apply (alike_later (S_Export _))].
  - destruct (agree_sized _ _ _ _ (agree_to_all _ _ _ _ (agree_start anything)) _ _ _ _ _ _ I H1 H2 EQ) as [-> ->].
    split; [reflexivity|apply (alike_later (S_Start _))].
  - destruct (sized_same _ _ _ _ _ _ _ _ H1 H2 EQ) as (-> & c & C1 & C2). split; [reflexivity|]. split; [|right; left; eauto].
    intros F. cbn in F. cbn [later_section]. f_equal. exact (agree_to_all _ _ _ _ (agree_vec _ _ _ _ agree_elem) c _ _ F C1 C2).
  - destruct (agree_sized _ _ _ _ (agree_to_all _ _ _ _ (agree_vec_any _ _ _ (agree_sized _ _ _ _ (agree_to_all _ _ _ _ (agree_func anything))))) _ _ _ _ _ _ I H1 H2 EQ) as [-> ->].
    split; [reflexivity|apply (alike_later (S_Code _))].
  - destruct (sized_same _ _ _ _ _ _ _ _ H1 H2 EQ) as (-> & c & C1 & C2). split; [reflexivity|]. split; [|right; right; eauto].
    intros F. cbn in F. cbn [later_section]. f_equal. exact (agree_to_all _ _ _ _ (agree_vec _ _ _ _ agree_data) c _ _ F C1 C2).
Qed.
Lemma section_nonempty p s : enc_section W p s -> p <> [].
Proof. destruct s; cbn; intros (b & -> & _); discriminate. Qed.
Lemma section2_nonempty p s : enc2_section fd p s -> p <> [].
Proof. destruct s; cbn; intros (b & -> & _); discriminate. Qed.
Lemma lists_alike body secs secs2 : enc_list (enc_section W) body secs -> enc_list (enc2_section fd) body secs2 -> Forall2 alike secs secs2.
Proof.
  intros (c1 & F1 & E1) (c2 & F2 & E2). rewrite E1 in E2. clear E1 body. revert c2 secs2 F2 E2.
  induction F1 as [|p s c1 secs H F1 IH]; intros c2 secs2 F2 E2.
  - destruct F2 as [|p2 s2 c2 secs2 H2 F2]; [constructor|]. cbn in E2. destruct p2; [|discriminate]. destruct (section2_nonempty _ _ H2 eq_refl).
  - destruct F2 as [|p2 s2 c2 secs2 H2 F2].
    + cbn in E2. apply app_eq_nil in E2. destruct (section_nonempty _ _ H (proj1 E2)).
    + cbn [concat] in E2. destruct (sections_alike _ _ _ _ _ _ H H2 E2) as [-> A]. apply app_inv_head in E2. constructor; eauto.
Qed.

(** ** Modules *)
Lemma flat_map_map {A B C} (f : B -> list C) (g : A -> B) l : flat_map f (map g l) = flat_map (fun x => f (g x)) l.
Proof. induction l; cbn; congruence. Qed.
Lemma map_flat_map {A B C} (f : B -> C) (g : A -> list B) l : map f (flat_map g l) = flat_map (fun x => map f (g x)) l.
Proof. induction l; cbn; [reflexivity|]. rewrite map_app. congruence. Qed.
Lemma flat_map_ext' {A B} (f g : A -> list B) l : (forall x, f x = g x) -> flat_map f l = flat_map g l.
Proof. intros E. induction l; cbn; [reflexivity|]. rewrite E. congruence. Qed.
Lemma combine_map_r {A B C} (f : B -> C) (xs : list A) ys : combine xs (map f ys) = map (fun p => (fst p, f (snd p))) (combine xs ys).
Proof. revert ys. induction xs; intros [|y ys]; cbn; [reflexivity..|]. rewrite IHxs. reflexivity. Qed.
Lemma later_module_of secs : module2_of (map later_section secs) = later_module (module_of secs).
Proof.
  unfold module2_of, later_module, module_of; cbn [m_types m_funcs m_tables m_mems m_globals m_elem m_data m_start m_imports m_exports]. f_equal.
  - rewrite flat_map_map, map_flat_map. apply flat_map_ext'. intros []; reflexivity.
  - unfold pair_funcs2, pair_funcs. rewrite !flat_map_map.
    replace (flat_map (fun x => sec2_typeidxs (later_section x)) secs) with (flat_map sec_typeidxs secs)
      by (apply flat_map_ext'; intros []; reflexivity).
    replace (flat_map (fun x => sec2_codes (later_section x)) secs) with (map later_code (flat_map sec_codes secs))
      by (rewrite map_flat_map; apply flat_map_ext'; intros []; reflexivity).
    rewrite combine_map_r, !map_map. reflexivity.
  - rewrite flat_map_map, map_flat_map. apply flat_map_ext'. intros []; reflexivity.
  - rewrite flat_map_map, map_flat_map. apply flat_map_ext'. intros []; reflexivity.
  - rewrite flat_map_map, map_flat_map. apply flat_map_ext'. intros []; reflexivity.
  - rewrite flat_map_map, map_flat_map. apply flat_map_ext'. intros []; reflexivity.
  - rewrite flat_map_map, map_flat_map. apply flat_map_ext'. intros []; reflexivity.
  - rewrite flat_map_map. induction secs as [|[] secs IH]; try exact IH; reflexivity.
  - rewrite flat_map_map, map_flat_map. apply flat_map_ext'. intros []; reflexivity.
  - rewrite flat_map_map. apply flat_map_ext'. intros []; reflexivity.
  - rewrite flat_map_map. induction secs as [|[] secs IH]; try exact IH; reflexivity.
Qed.
Lemma module_readings bs m m2 : p_module bs = (Ok m, []) -> enc2_module fd bs m2 ->
  exists secs secs2, m = module_of secs /\ m2 = module2_of secs2 /\ Forall2 alike secs secs2.
Proof.
  intros P (body2 & secs2 & E2 & L2 & _ & _ & _ & ->). apply module_exact in P. destruct P as [_ (body & secs & E & L & _ & _ & ->)].
  rewrite E in E2. apply app_inv_head in E2. subst body2. exists secs, secs2. split; [reflexivity|]. split; [reflexivity|].
  exact (lists_alike body secs secs2 L L2).
Qed.
Lemma read_same bs m m2 : p_module bs = (Ok m, []) -> enc2_module fd bs m2 ->
  (forall e, In e (m_elem m) -> el_table e = 0) -> (forall d, In d (m_data m) -> da_mem d = 0) -> m2 = later_module m.
Proof.
  intros P E HE HD. destruct (module_readings bs m m2 P E) as (secs & secs2 & -> & -> & F). rewrite <- later_module_of. f_equal.
  cbn in HE, HD. clear P E. induction F as [|s s2 secs secs2 A F IH]; [reflexivity|]. cbn [map]. cbn in HE, HD. f_equal.
  - apply A. destruct s; try exact I; cbn in *; apply Forall_forall; intros x X; [apply HE|apply HD]; apply in_or_app; left; exact X.
  - apply IH; intros x X; (apply HE || apply HD); apply in_or_app; right; exact X.
Qed.
Lemma read_or bs m m2 : p_module bs = (Ok m, []) -> enc2_module fd bs m2 ->
  m2 = later_module m \/ (exists e, In e (m_elem m) /\ el_table e <> 0) \/ (exists d, In d (m_data m) /\ da_mem d <> 0).
Proof.
  intros P E.
  destruct (Exists_dec (fun e => el_table e <> 0) (m_elem m)) as [X|X].
  { intros e. destruct (N.eq_dec (el_table e) 0); [right; congruence|left; assumption]. }
  { apply Exists_exists in X. auto. }
  destruct (Exists_dec (fun d => da_mem d <> 0) (m_data m)) as [Y|Y].
  { intros d. destruct (N.eq_dec (da_mem d) 0); [right; congruence|left; assumption]. }
  { apply Exists_exists in Y. auto. }
  left. apply (read_same bs m m2 P E).
  - intros e H. destruct (N.eq_dec (el_table e) 0); [assumption|]. destruct X. apply Exists_exists. eauto.
  - intros d H. destruct (N.eq_dec (da_mem d) 0); [assumption|]. destruct Y. apply Exists_exists. eauto.
Qed.
(** all but the segments *)
Lemma alike_rest s s2 : alike s s2 ->
  sec2_types s2 = sec2_types (later_section s) /\ sec2_imports s2 = sec2_imports (later_section s) /\
  sec2_typeidxs s2 = sec2_typeidxs (later_section s) /\ sec2_codes s2 = sec2_codes (later_section s) /\
  sec2_tables s2 = sec2_tables (later_section s) /\ sec2_mems s2 = sec2_mems (later_section s) /\
  sec2_globals s2 = sec2_globals (later_section s) /\ sec2_exports s2 = sec2_exports (later_section s) /\
  sec2_starts s2 = sec2_starts (later_section s) /\ sec2_datacounts s2 = sec2_datacounts (later_section s).
Proof. intros (_ & [-> |[(v & v2 & -> & ->)|(v & v2 & -> & ->)]]); repeat split; reflexivity. Qed.
Lemma flat_map_alike {B} (f : section2 -> list B) secs secs2 : (forall s s2, alike s s2 -> f s2 = f (later_section s)) ->
  Forall2 alike secs secs2 -> flat_map f secs2 = flat_map f (map later_section secs).
Proof. intros H F. induction F as [|s s2 secs secs2 A F IH]; [reflexivity|]. cbn. rewrite (H _ _ A), IH. reflexivity. Qed.
Lemma read_rest bs m m2 : p_module bs = (Ok m, []) -> enc2_module fd bs m2 -> except_segments m2 = except_segments (later_module m).
Proof.
  intros P E. destruct (module_readings bs m m2 P E) as (secs & secs2 & -> & -> & F). rewrite <- later_module_of.
  unfold except_segments, module2_of. cbn.
  rewrite (flat_map_alike sec2_types secs secs2), (flat_map_alike sec2_imports secs secs2), (flat_map_alike sec2_typeidxs secs secs2),
    (flat_map_alike sec2_codes secs secs2), (flat_map_alike sec2_tables secs secs2), (flat_map_alike sec2_mems secs secs2),
    (flat_map_alike sec2_globals secs secs2), (flat_map_alike sec2_exports secs secs2), (flat_map_alike sec2_starts secs secs2),
    (flat_map_alike sec2_datacounts secs secs2); try exact F; try reflexivity; intros s s2 A; apply (alike_rest s s2 A).
Qed.
End Later.

(** ** Modules of 1.0 are modules of 2.0 *)
Section Embed.
Variable fd : fdialect.
Definition embeds {A B} (P : A -> Prop) (E : format A) (E2 : format B) (j : A -> B) : Prop := forall bs a, P a -> E bs a -> E2 bs (j a).
Lemma emb_vec {A B} P (E : format A) (E2 : format B) j : embeds P E E2 j -> embeds (Forall P) (enc_vec fd E) (enc_vec fd E2) (map j).
Proof.
  intros G bs xs FP (n & es & -> & N & c & F & ->). exists n, (concat c). rewrite map_length. split; [reflexivity|]. split; [exact N|].
  exists c. split; [|reflexivity]. clear N. induction F as [|p x c xs H F IH]; [constructor|]. inversion FP; subst. constructor; auto.
Qed.
Lemma forall_anything {A} (l : list A) : Forall anything l. Proof. apply Forall_forall. intros x _. exact I. Qed.
Lemma emb_sized {A B} P (E : format A) (E2 : format B) j : embeds P E E2 j -> embeds P (enc_sized fd E) (enc_sized fd E2) j.
Proof. intros G bs x Px (n & c & -> & N & H). exists n, c. eauto. Qed.
Lemma emb_valty : embeds anything enc_valty enc2_valty W_num. Proof. intros bs t _ H. exact H. Qed.
Lemma emb_functy : embeds anything (enc_functy fd) (enc2_functy fd) later_functy.
Proof.
  intros bs t _ (ps & rs & -> & P1 & P2). exists ps, rs.
  split; [reflexivity|]. split; (apply (emb_vec _ _ _ _ emb_valty); [apply forall_anything|assumption]).
Qed.
Lemma emb_tablety : embeds anything (enc_tablety fd) (enc2_tablety fd) later_tablety.
Proof. intros bs t _ (lb & -> & _ & L). exists [x70], lb. split; [reflexivity|]. split; [reflexivity|exact L]. Qed.
Lemma emb_globalty : embeds anything enc_globalty enc2_globalty later_globalty. Proof. intros bs t _ H. exact H. Qed.
Lemma emb_blockty : embeds anything enc_blockty (enc2_blockty fd) later_blockty.
Proof. intros bs t _ [[-> ->]|(v & -> & ->)]; reflexivity. Qed.
Lemma emb_code :
  (forall bs i, enc_instr fd bs i -> enc2_instr fd bs (later_instr i)) /\
  (forall bs is, enc_instrs fd bs is -> enc2_instrs fd bs (later_expr is)).
Proof.
  apply enc_instr_instrs_ind.
  - intros i op H. assert (S : structured i = false) by (destruct i; try reflexivity; discriminate).
    replace (later_instr i) with (J_old i) by (destruct i; try reflexivity; discriminate). apply enc2_old; [exact S|]. apply enc_plain, H.
  - intros i op x xb H U. assert (S : structured i = false) by (destruct i; try reflexivity; discriminate).
    replace (later_instr i) with (J_old i) by (destruct i; try reflexivity; discriminate). apply enc2_old; [exact S|]. eapply enc_index; eassumption.
  - intros i op a o ab ob H U V. assert (S : structured i = false) by (destruct i; try reflexivity; discriminate).
    replace (later_instr i) with (J_old i) by (destruct i; try reflexivity; discriminate). apply enc2_old; [exact S|]. eapply enc_memarg; eassumption.
  - intros. apply enc2_old; [reflexivity|]. constructor; assumption.
  - intros. apply enc2_old; [reflexivity|]. constructor; assumption.
  - intros. apply enc2_old; [reflexivity|]. constructor; assumption.
  - intros. apply enc2_old; [reflexivity|]. constructor; assumption.
  - intros. apply enc2_old; [reflexivity|]. constructor; assumption.
  - intros. apply enc2_old; [reflexivity|]. constructor; assumption.
  - intros. apply enc2_old; [reflexivity|]. constructor; assumption.
  - intros. apply enc2_old; [reflexivity|]. constructor; assumption.
  - intros. cbn. apply enc2_block; [apply emb_blockty; [exact I|assumption]|assumption].
  - intros. cbn. apply enc2_loop; [apply emb_blockty; [exact I|assumption]|assumption].
  - intros. cbn. apply enc2_if; [apply emb_blockty; [exact I|assumption]|assumption].
  - intros. cbn. apply enc2_if_else; [apply emb_blockty; [exact I|assumption]|assumption|assumption].
  - constructor.
  - intros. cbn. constructor; assumption.
Qed.
Lemma emb_expr : embeds anything (enc_expr fd) (enc2_expr fd) later_expr.
Proof. intros bs e _ (isb & -> & H). exists isb. split; [reflexivity|]. apply emb_code, H. Qed.
Lemma emb_import : embeds anything (enc_import fd) (enc2_import fd) later_import.
Proof.
  intros bs [mo na d] _ (mb & nb & db & -> & M & N & D). exists mb, nb, db. split; [reflexivity|]. split; [exact M|]. split; [exact N|].
  destruct d; cbn in *; destruct D as (b & -> & D); exists b; (split; [reflexivity|]); try exact D. apply emb_tablety; [exact I|exact D].
Qed.
Lemma emb_global : embeds anything (enc_global fd) (enc2_global fd) later_global.
Proof. intros bs g _ (tb & eb & -> & T & E). exists tb, eb. split; [reflexivity|]. split; [exact T|]. apply emb_expr; [exact I|exact E]. Qed.
Lemma emb_elem : embeds first_table (enc_elem fd) (enc2_elem fd) later_elem.
Proof.
  intros bs [t o i] Z (xb & ob & ib & -> & X & O & Y). unfold first_table in Z. cbn in *. subst t. unfold later_elem. cbn.
  apply el2_0; [exact X|apply emb_expr; [exact I|exact O]|exact Y].
Qed.
Lemma emb_data : embeds first_mem (enc_data fd) (enc2_data fd) later_data.
Proof.
  intros bs [t o i] Z (xb & ob & ib & -> & X & O & Y). unfold first_mem in Z. cbn in *. subst t. unfold later_data. cbn.
  apply da2_0; [exact X|apply emb_expr; [exact I|exact O]|exact Y].
Qed.
Lemma emb_run : embeds anything (enc_run fd) (enc2_run fd) (fun r => (fst r, W_num (snd r))).
Proof. intros bs [n t] _ (nb & tb & -> & N & T). exists nb, tb. auto. Qed.
Lemma emb_func : embeds anything (enc_func fd) (enc2_func fd) later_code.
Proof.
  intros bs [l e] _ (rb & eb & runs & -> & R & L & K & E). cbn in *. exists rb, eb, (map (fun r => (fst r, W_num (snd r))) runs).
  split; [reflexivity|]. split; [apply (emb_vec _ _ _ _ emb_run); [apply forall_anything|exact R]|].
  split; [subst l; rewrite expand_runs_map; reflexivity|]. split; [cbn; rewrite map_length; exact K|]. apply emb_expr; [exact I|exact E].
Qed.
Lemma emb_section : embeds firsts (enc_section fd) (enc2_section fd) later_section.
Proof.
  intros bs s F H. destruct s; cbn in *; destruct H as (b & -> & H); exists b; (split; [reflexivity|]).
  - exact H.
  - exact (emb_sized _ _ _ _ (emb_vec _ _ _ _ emb_functy) b _ (forall_anything _) H).
  - exact (emb_sized _ _ _ _ (emb_vec _ _ _ _ emb_import) b _ (forall_anything _) H).
  - exact H.
  - refine (emb_sized _ _ _ (map (fun t => later_tablety (tab_ty t))) (emb_vec anything (enc_table fd) _ _ _) b _ (forall_anything _) H).
    intros bs t _ T. exact (emb_tablety bs (tab_ty t) I T).
  - refine (emb_sized _ _ _ (map mem_ty) (emb_vec anything (enc_mem fd) _ _ _) b _ (forall_anything _) H). intros bs t _ T. exact T.
  - exact (emb_sized _ _ _ _ (emb_vec _ _ _ _ emb_global) b _ (forall_anything _) H).
  - exact H.
  - exact H.
  - exact (emb_sized _ _ _ _ (emb_vec _ _ _ _ emb_elem) b _ F H).
  - exact (emb_sized _ _ _ _ (emb_vec _ _ _ _ (emb_sized _ _ _ _ emb_func)) b _ (forall_anything _) H).
  - exact (emb_sized _ _ _ _ (emb_vec _ _ _ _ emb_data) b _ F H).
Qed.
Definition shift (n : N) : N := if n <? 10 then n else n + 1.
Lemma shift_increasing l : forall lo, increasing lo l -> increasing (shift lo) (map shift l).
Proof.
  induction l as [|x l IH]; intros lo H; [exact I|]. destruct H as [H1 H2]. cbn [map increasing]. split; [|apply IH, H2].
  unfold shift. destruct (N.ltb_spec lo 10), (N.ltb_spec x 10); lia.
Qed.
Lemma positions secs : filter (fun n => negb (n =? 0)) (map section2_pos (map later_section secs))
  = map shift (map section_id (filter (fun s => negb (is_custom s)) secs)).
Proof. induction secs as [|s secs IH]; [reflexivity|]. destruct s; cbn; rewrite IH; reflexivity. Qed.
Lemma old_is_later bs m : ~ fd_missing_code fd -> enc_module fd bs m ->
  (forall e, In e (m_elem m) -> el_table e = 0) -> (forall d, In d (m_data m) -> da_mem d = 0) -> enc2_module fd bs (later_module m).
Proof.
  intros NC (body & secs & -> & (c & F & ->) & O & C & ->) HE HD. exists (concat c), (map later_section secs). split; [reflexivity|].
  split; [|split; [|split; [|split]]].
  - exists c. split; [|reflexivity]. cbn in HE, HD. clear O C. induction F as [|p s c secs H F IH]; [constructor|].
    cbn [map]. cbn in HE, HD. constructor.
    + apply emb_section; [|exact H].
      destruct s; try exact I; cbn in *; apply Forall_forall; intros x X; [apply HE|apply HD]; apply in_or_app; left; exact X.
    + apply IH; intros x X; (apply HE || apply HD); apply in_or_app; right; exact X.
  - unfold ordered2. rewrite positions. exact (shift_increasing _ 0 O).
  - destruct C as [C|[C _]]; [|destruct (NC C)]. rewrite !flat_map_map.
    replace (flat_map (fun x => sec2_typeidxs (later_section x)) secs) with (flat_map sec_typeidxs secs)
      by (apply flat_map_ext'; intros []; reflexivity).
    replace (flat_map (fun x => sec2_codes (later_section x)) secs) with (map later_code (flat_map sec_codes secs))
      by (rewrite map_flat_map; apply flat_map_ext'; intros []; reflexivity).
    rewrite map_length. exact C.
  - intros n H. apply in_map_iff in H. destruct H as ([] & H & _); discriminate.
  - symmetry. apply later_module_of.
Qed.
End Embed.
Lemma old_modules bs m : enc_module wasm10_format bs m ->
  (forall e, In e (m_elem m) -> el_table e = 0) -> (forall d, In d (m_data m) -> da_mem d = 0) -> enc2_module wasm20_format bs (later_module m).
Proof.
  intros H. apply old_is_later; [intros []|]. revert H. apply w_module; cbn; auto.
Qed.
