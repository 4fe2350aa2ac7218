(** Facts about the instruction parser: binary/instr.rs *)
From Coq Require Import Lia ZifyN ZifyNat.
From Verif Require Import ParserInstr SpecFormat ParserMeta TypesProof.
Open Scope N_scope.

(** ** The opcode [match] preserves every relation closed under the combinators. *)
Section Closure.
Variable R : forall A, parser A -> parser A -> Prop.
Arguments R {A}.
Hypothesis R_ret : forall A (a : A), R (ret a) (ret a).
Hypothesis R_fail : forall A e, R (@fail A e) (@fail A e).
Hypothesis R_bind : forall A B (p p' : parser A) (f f' : A -> parser B),
  R p p' -> (forall a, R (f a) (f' a)) -> R (bind p f) (bind p' f').
Hypothesis R_u32 : R p_u32 p_u32.
Hypothesis R_i32 : R p_i32 p_i32.
Hypothesis R_i64 : R p_i64 p_i64.
Hypothesis R_f32 : R p_f32 p_f32.
Hypothesis R_f64 : R p_f64 p_f64.
Hypothesis R_retval : R p_retval p_retval.
Hypothesis R_vec : R (p_vec p_u32) (p_vec p_u32).
Variables sub sub' : parser (list instr * instr).
Hypothesis R_sub : R sub sub'.

Lemma closed_expr_of : R (p_expr_of sub) (p_expr_of sub').
Proof.
  unfold p_expr_of. apply R_bind; [assumption|]. intros [e i].
  destruct i; first [apply R_ret | apply R_fail].
Qed.
Lemma closed_if_of : R (p_if_of sub) (p_if_of sub').
Proof.
  unfold p_if_of. apply R_bind; [assumption|]. intros rt. apply R_bind; [assumption|].
  intros [b1 n1]. apply R_bind.
  - destruct (is_else n1); [assumption|apply R_ret].
  - intros [b2 n2]. destruct (is_end n2); [apply R_ret|apply R_fail].
Qed.
Lemma closed_opcode b : R (p_opcode sub b) (p_opcode sub' b).
Proof.
  pose proof closed_expr_of. pose proof closed_if_of.
  destruct b; unfold p_opcode, p_labelidx, p_funcidx, p_typeidx, p_tableidx, p_localidx, p_globalidx, p_memidx;
  first [ apply R_ret | apply R_fail | assumption
        | apply R_bind; [assumption|intros a]; first [apply R_ret|apply R_bind; [assumption|intros a']; apply R_ret]].
Qed.
End Closure.

(** ** The iterator is left at a suffix *)
Lemma suffixing_opcode sub b : suffixing sub -> suffixing (p_opcode sub b).
Proof.
  intros S. refine (closed_opcode (fun A p _ => suffixing p) _ _ _ _ _ _ _ _ _ _ (sub) (sub) _ b).
  - exact @suffixing_ret.
  - exact @suffixing_fail.
  - exact (fun A B p _ f _ => suffixing_bind p f).
  - exact suffixing_u32.
  - apply suffixing_signed.
  - apply suffixing_signed.
  - apply suffixing_float.
  - apply suffixing_float.
  - exact suffixing_retval.
  - apply suffixing_vec, suffixing_u32.
  - assumption.
Qed.
Lemma suffixing_instr_sub fuel :
  suffixing (p_instr fuel) /\ forall acc, suffixing (p_subexpr fuel acc).
Proof.
  induction fuel as [|f [IH1 IH2]]; cbn [p_instr p_subexpr].
  - split; [|intros acc]; intros bs; exists []; reflexivity.
  - split.
    + apply suffixing_bind; [apply suffixing_byte|]. intros b.
      apply suffixing_opcode, IH2.
    + intros acc. apply suffixing_bind; [assumption|]. intros i.
      destruct i; first [apply suffixing_ret | apply IH2].
Qed.
Lemma suffixing_instr fuel : suffixing (p_instr fuel). Proof. apply suffixing_instr_sub. Qed.
Lemma suffixing_subexpr fuel acc : suffixing (p_subexpr fuel acc). Proof. apply suffixing_instr_sub. Qed.
Lemma suffixing_expr_of sub : suffixing sub -> suffixing (p_expr_of sub).
Proof.
  intros S. apply (closed_expr_of (fun A p _ => suffixing p) (@suffixing_ret) (fun A e => suffixing_fail e)
    (fun A B p _ f _ => suffixing_bind p f) sub sub S).
Qed.
Lemma suffixing_expr : suffixing p_expr.
Proof. intros bs. unfold p_expr. apply suffixing_expr_of. apply suffixing_subexpr. Qed.
Lemma suffixing_instr_top : suffixing p_instr_top.
Proof. intros bs. unfold p_instr_top. apply suffixing_instr. Qed.

(** ** Fuel is enough: no panic and no lack of fuel *)
Definition bsafe (n : nat) {A} (p : parser A) : Prop :=
  forall bs, (length bs <= n)%nat ->
    (fst (p bs) <> Panic /\ fst (p bs) <> OutOfFuel) /\ (length (snd (p bs)) <= length bs)%nat.
Lemma bsafe_bind n {A B} (p : parser A) (f : A -> parser B) :
  bsafe n p -> (forall a, bsafe n (f a)) -> bsafe n (bind p f).
Proof.
  intros P F bs L. unfold bind. specialize (P bs L).
  destruct (p bs) as [[a|e| |] r]; cbn [fst snd] in *; try tauto.
  - destruct (F a r) as [X Y]; [lia|]. split; [assumption|lia].
  - split; [split; discriminate|tauto].
Qed.
Lemma bsafe_of n {A} (p : parser A) : safe p -> suffixing p -> bsafe n p.
Proof. intros S T bs L. split; [apply S|]. apply suffixing_length; assumption. Qed.

Lemma safe_i32 : safe p_i32. Proof. apply safe_signed; lia. Qed.
Lemma safe_i64 : safe p_i64. Proof. apply safe_signed; lia. Qed.

Lemma progress_instr fuel : progress (p_instr fuel).
Proof.
  destruct fuel; cbn [p_instr]; [intros bs a r H; discriminate|].
  intros bs a r H. apply bind_ok in H. destruct H as (b & r0 & H1 & H2).
  destruct bs as [|c bs]; [discriminate|]. cbn in H1. injection H1 as -> ->.
  assert (S : suffixing (p_instr (S fuel))) by apply suffixing_instr.
  cbn [p_instr] in S. pose proof (suffixing_length _ (b :: r0) S) as L.
  assert (T : suffixing (p_opcode (p_subexpr fuel []) b)).
  { apply suffixing_opcode, suffixing_subexpr. }
  pose proof (suffixing_length _ r0 T) as L2. rewrite H2 in L2. cbn in *. lia.
Qed.

Lemma bsafe_opcode n sub b : bsafe n sub -> bsafe n (p_opcode sub b).
Proof.
  intros S. refine (closed_opcode (fun A p _ => bsafe n p) _ _ _ _ _ _ _ _ _ _ (sub) (sub) _ b).
  - intros A a. apply bsafe_of; [apply safe_ret|apply suffixing_ret].
  - intros A a. apply bsafe_of; [apply safe_fail|apply suffixing_fail].
  - exact (fun A B p _ f _ => bsafe_bind n p f).
  - apply bsafe_of; [apply safe_u32|apply suffixing_u32].
  - apply bsafe_of; [apply safe_i32|apply suffixing_signed].
  - apply bsafe_of; [apply safe_i64|apply suffixing_signed].
  - apply bsafe_of; [apply safe_float|apply suffixing_float].
  - apply bsafe_of; [apply safe_float|apply suffixing_float].
  - apply bsafe_of; [apply safe_retval|apply suffixing_retval].
  - apply bsafe_of; [apply safe_vec, safe_u32|apply suffixing_vec, suffixing_u32].
  - assumption.
Qed.

Lemma bsafe_instr_sub fuel : forall n,
  ((2 * n + 1 <= fuel)%nat -> bsafe n (p_instr fuel)) /\
  ((2 * n + 2 <= fuel)%nat -> forall acc, bsafe n (p_subexpr fuel acc)).
Proof.
  induction fuel as [|f IH]; intros n; cbn [p_instr p_subexpr]; split; try lia.
  - intros L bs LB. unfold bind. destruct bs as [|b bs]; cbn [p_byte].
    + cbn. repeat split; try discriminate; lia.
    + cbn [length] in LB. destruct n as [|n]; [lia|].
      destruct (bsafe_opcode n (p_subexpr f []) b) with (bs := bs) as [X Y];
        [apply IH; lia|lia|]. split; [assumption|cbn [length]; lia].
  - intros L acc bs LB. unfold bind.
    destruct (proj1 (IH n) ltac:(lia) bs LB) as [X Y].
    destruct (p_instr f bs) as [[i|e| |] r] eqn:E; cbn [fst snd] in *; try tauto.
    + apply progress_instr in E. destruct n as [|n]; [lia|].
      assert (Z : forall acc, bsafe n (p_subexpr f acc)) by (apply IH; lia).
      destruct i; try (cbn; repeat split; try discriminate; lia);
      match goal with |- context [p_subexpr f ?a] => destruct (Z a r ltac:(lia)) as [U V] end;
      (split; [assumption|lia]).
    + repeat split; try discriminate; lia.
Qed.

Lemma safe_instr_top : safe p_instr_top.
Proof.
  intros bs. apply (proj1 (bsafe_instr_sub (fuel_for (length bs)) (length bs))).
  - unfold fuel_for; lia.
  - reflexivity.
Qed.
Lemma safe_expr : safe p_expr.
Proof.
  intros bs. unfold p_expr.
  refine (proj1 (closed_expr_of (fun A p _ => bsafe (length bs) p) _ _ _
    (p_subexpr (fuel_for (length bs)) []) (p_subexpr (fuel_for (length bs)) []) _ bs (le_n _))).
  - intros A a. apply bsafe_of; [apply safe_ret|apply suffixing_ret].
  - intros A a. apply bsafe_of; [apply safe_fail|apply suffixing_fail].
  - exact (fun A B p _ f _ => bsafe_bind (length bs) p f).
  - apply (proj2 (bsafe_instr_sub (fuel_for (length bs)) (length bs))). unfold fuel_for; lia.
Qed.

(** ** Soundness *)
Definition terminator (tb : list byte) (t : instr) : Prop :=
  (tb = [x0b] /\ t = I_End) \/ (tb = [x05] /\ t = I_Else).
Definition enc_tok (pre : list byte) (i : instr) : Prop :=
  enc_instr whasm_format pre i \/ terminator pre i.
Definition enc_sub (pre : list byte) (x : list instr * instr) : Prop :=
  exists p tb, pre = p ++ tb /\ enc_instrs whasm_format p (fst x) /\ terminator tb (snd x).

Definition sound {A} (p : parser A) (E : format A) : Prop :=
  forall bs a rest, p bs = (Ok a, rest) -> exists pre, bs = pre ++ rest /\ E pre a.
Lemma sound_expr_of sub : sound sub enc_sub -> sound (p_expr_of sub) (enc_expr whasm_format).
Proof.
  intros S bs e rest H. unfold p_expr_of in H. apply bind_ok in H.
  destruct H as ([e' t] & r0 & H1 & H2). apply S in H1.
  destruct H1 as (pre & -> & p & tb & -> & E & [[-> T]|[-> T]]); cbn [fst snd] in *; subst t.
  - cbn in H2. injection H2 as -> ->. exists (p ++ [x0b]). split; [reflexivity|]. exists p. auto.
  - cbn in H2. discriminate.
Qed.

Ltac u32_sound :=
  repeat match goal with
  | H : bind _ _ _ = (Ok _, _) |- _ => apply bind_ok in H; destruct H as (? & ? & ? & ?)
  | H : p_u32 _ = (Ok _, _) |- _ => apply exact_u32 in H; destruct H as (? & -> & ?)
  | H : p_vec p_u32 _ = (Ok _, _) |- _ =>
      apply (exact_vec _ _ exact_u32) in H; destruct H as (? & -> & ?)
  | H : p_i32 _ = (Ok _, _) |- _ => apply exact_i32 in H; destruct H as (? & -> & ?)
  | H : p_i64 _ = (Ok _, _) |- _ => apply exact_i64 in H; destruct H as (? & -> & ?)
  | H : p_f32 _ = (Ok _, _) |- _ => apply (exact_float 4) in H; destruct H as (? & -> & ?)
  | H : p_f64 _ = (Ok _, _) |- _ => apply (exact_float 8) in H; destruct H as (? & -> & ?)
  | H : p_retval _ = (Ok _, _) |- _ => apply exact_retval in H; destruct H as (? & -> & ?)
  | H : ret _ _ = (Ok _, _) |- _ => unfold ret in H; injection H as <- <-
  end.

Lemma reserved_whasm bs v : enc_u32 whasm_format bs v -> enc_reserved whasm_format bs v.
Proof. intros H. split; [assumption|exact I]. Qed.

Lemma sound_opcode sub b : sound sub enc_sub -> sound (p_opcode sub b) (fun pre i => enc_tok (b :: pre) i).
Proof.
  intros S bs i rest H. pose proof (sound_expr_of sub S) as SE.
  destruct b; unfold p_opcode, p_labelidx, p_funcidx, p_typeidx, p_tableidx, p_localidx, p_globalidx, p_memidx in H;
  try discriminate H;
  try (unfold ret in H; injection H as <- <-; exists []; split; [reflexivity|];
       left; apply enc_plain; reflexivity).
  all: try (u32_sound; eexists; (split; [reflexivity|]); left; eapply enc_index; [reflexivity|assumption]).
  all: try (u32_sound; eexists; (split; [apply app_assoc|]); left; eapply enc_memarg; [reflexivity|assumption|assumption]).
  - (* block *) u32_sound. apply SE in H0. destruct H0 as (p & -> & isb & -> & E).
    eexists. split; [apply app_assoc|]. left. apply enc_block; assumption.
  - (* loop *) u32_sound. apply SE in H0. destruct H0 as (p & -> & isb & -> & E).
    eexists. split; [apply app_assoc|]. left. apply enc_loop; assumption.
  - (* if *) unfold p_if_of in H. apply bind_ok in H. destruct H as (rt & r0 & H0 & H).
    apply exact_retval in H0. destruct H0 as (x1 & -> & HR).
    apply bind_ok in H. destruct H as ([b1 n1] & r1 & H1 & H).
    apply bind_ok in H. destruct H as ([b2 n2] & r2 & H2 & H3).
    apply S in H1. destruct H1 as (p & -> & p1 & tb & -> & E1 & [[-> T]|[-> T]]); cbn [fst snd] in *; subst n1.
    + cbn [is_else] in H2. unfold ret in H2. injection H2 as <- <- <-. cbn [is_end] in H3.
      unfold ret in H3. injection H3 as <- <-.
      exists (x1 ++ p1 ++ [x0b]). split; [rewrite app_assoc; reflexivity|].
      left. apply enc_if; assumption.
    + cbn [is_else] in H2. apply S in H2.
      destruct H2 as (p & -> & p2 & tb & -> & E2 & [[-> T]|[-> T]]); cbn [fst snd] in *; subst n2;
        cbn [is_end] in H3; [|discriminate].
      unfold ret in H3. injection H3 as <- <-.
      exists (x1 ++ p1 ++ [x05] ++ p2 ++ [x0b]). split; [rewrite <- !app_assoc; reflexivity|].
      left. apply enc_if_else; assumption.
  - (* else *) unfold ret in H. injection H as <- <-. exists []. split; [reflexivity|].
    right. right. auto.
  - (* end *) unfold ret in H. injection H as <- <-. exists []. split; [reflexivity|].
    right. left. auto.
  - (* br_table *) u32_sound. eexists. split; [apply app_assoc|]. left. apply enc_br_table; assumption.
  - (* call_indirect *) u32_sound. eexists. split; [apply app_assoc|]. left.
    apply enc_call_indirect; auto using reserved_whasm.
  - u32_sound. eexists. split; [reflexivity|]. left. apply enc_memory_size; auto using reserved_whasm.
  - u32_sound. eexists. split; [reflexivity|]. left. apply enc_memory_grow; auto using reserved_whasm.
  - u32_sound. eexists. split; [reflexivity|]. left. apply enc_i32_const; assumption.
  - u32_sound. eexists. split; [reflexivity|]. left. apply enc_i64_const; assumption.
  - u32_sound. eexists. split; [reflexivity|]. left. apply enc_f32_const; assumption.
  - u32_sound. eexists. split; [reflexivity|]. left. apply enc_f64_const; assumption.
Qed.

Lemma sound_instr_sub fuel :
  sound (p_instr fuel) enc_tok /\
  forall acc, sound (p_subexpr fuel acc) (fun pre x =>
    exists is, fst x = acc ++ is /\ enc_sub pre (is, snd x)).
Proof.
  induction fuel as [|f [IH1 IH2]]; cbn [p_instr p_subexpr].
  - split; [|intros acc]; intros bs a rest H; discriminate.
  - split.
    + intros bs i rest H. apply bind_ok in H. destruct H as (b & r0 & H1 & H2).
      apply exact_byte in H1. destruct H1 as (pre & -> & ->).
      apply sound_opcode in H2.
      * destruct H2 as (pre & -> & H2). exists (b :: pre). auto.
      * intros bs x rest' H. apply IH2 in H. destruct H as (pre & -> & is & E & H).
        exists pre. split; [reflexivity|]. destruct x as [is' t]. cbn in *. subst is'. assumption.
    + intros acc bs [is t] rest H. apply bind_ok in H. destruct H as (i & r0 & H1 & H2).
      apply IH1 in H1. destruct H1 as (pre & -> & H1).
      assert (T : terminator pre i -> exists pre0, pre ++ r0 = pre0 ++ rest /\
        exists is0, is = acc ++ is0 /\ enc_sub pre0 (is0, t)).
      { intros T. assert (X : ret (acc, i) r0 = (Ok (is, t), rest)) by
          (destruct T as [[-> ->]|[-> ->]]; exact H2).
        unfold ret in X. injection X as <- <- <-. exists pre. split; [reflexivity|].
        exists []. rewrite app_nil_r. split; [reflexivity|]. exists [], pre.
        split; [reflexivity|]. split; [constructor|assumption]. }
      destruct H1 as [H1|H1]; [|apply T; assumption].
      assert (X : p_subexpr f (acc ++ [i]) r0 = (Ok (is, t), rest)).
      { destruct i; try exact H2; inversion H1; subst; discriminate. }
      apply IH2 in X. destruct X as (pre0 & -> & is0 & E & p & tb & -> & H3 & H4).
      cbn [fst snd] in *. exists (pre ++ p ++ tb). split; [rewrite <- !app_assoc; reflexivity|].
      exists (i :: is0). split; [rewrite E, <- app_assoc; reflexivity|].
      exists (pre ++ p), tb. split; [apply app_assoc|]. split; [constructor; assumption|assumption].
Qed.

(** ** Completeness *)
Lemma complete_u32 xb x r : enc_u32 whasm_format xb x -> p_u32 (xb ++ r) = (Ok x, r).
Proof. intros H. apply exact_u32. eauto. Qed.
Lemma complete_vec_u32 xb x r : enc_vec whasm_format (enc_u32 whasm_format) xb x ->
  p_vec p_u32 (xb ++ r) = (Ok x, r).
Proof. intros H. apply (exact_vec _ _ exact_u32). eauto. Qed.
Lemma complete_i32 xb x r : enc_s whasm_format 32 xb x -> p_i32 (xb ++ r) = (Ok x, r).
Proof. intros H. apply exact_i32. eauto. Qed.
Lemma complete_i64 xb x r : enc_s whasm_format 64 xb x -> p_i64 (xb ++ r) = (Ok x, r).
Proof. intros H. apply exact_i64. eauto. Qed.
Lemma complete_f32 xb x r : enc_float 4 xb x -> p_f32 (xb ++ r) = (Ok x, r).
Proof. intros H. apply (exact_float 4). eauto. Qed.
Lemma complete_f64 xb x r : enc_float 8 xb x -> p_f64 (xb ++ r) = (Ok x, r).
Proof. intros H. apply (exact_float 8). eauto. Qed.
Lemma complete_retval xb x r : enc_blockty xb x -> p_retval (xb ++ r) = (Ok x, r).
Proof. intros H. apply exact_retval. eauto. Qed.

Lemma bind_run {A B} (p : parser A) (f : A -> parser B) bs a r o :
  p bs = (Ok a, r) -> f a r = o -> bind p f bs = o.
Proof. intros H1 H2. unfold bind. rewrite H1. assumption. Qed.

Scheme enc_instr_mind := Induction for enc_instr Sort Prop
  with enc_instrs_mind := Induction for enc_instrs Sort Prop.
Combined Scheme enc_instr_instrs_ind from enc_instr_mind, enc_instrs_mind.

Lemma enc_instr_length fd pre i : enc_instr fd pre i -> (1 <= length pre)%nat.
Proof. intros H; destruct H; cbn [length]; lia. Qed.
Lemma enc_instr_not_term fd pre i : enc_instr fd pre i -> i <> I_End /\ i <> I_Else.
Proof. intros H; split; intros ->; inversion H; discriminate. Qed.

Lemma complete_instr_sub :
  (forall pre i, enc_instr whasm_format pre i ->
    forall fuel r, (2 * length pre + 1 <= fuel)%nat -> p_instr fuel (pre ++ r) = (Ok i, r)) /\
  (forall pre is, enc_instrs whasm_format pre is ->
    forall fuel acc tb t r, terminator tb t -> (2 * length pre + 2 <= fuel)%nat ->
      p_subexpr fuel acc (pre ++ tb ++ r) = (Ok (acc ++ is, t), r)).
Proof.
  assert (U : forall fuel b bs, p_instr (S fuel) (b :: bs) = p_opcode (p_subexpr fuel []) b bs)
    by reflexivity.
  apply enc_instr_instrs_ind.
  - intros i op H fuel r L. destruct fuel as [|f]; [cbn in L; lia|]. cbn [app]. rewrite U.
    destruct i; try discriminate H; cbn [plain_opcode] in H; injection H as <-; reflexivity.
  - intros i op x xb H E fuel r L. destruct fuel as [|f]; [cbn in L; lia|]. cbn [app]. rewrite U.
    apply complete_u32 with (r := r) in E.
    destruct i; try discriminate H; cbn [index_opcode] in H; injection H as <- <-;
    (eapply bind_run; [exact E|reflexivity]).
  - intros i op al off ab ob H E1 E2 fuel r L. destruct fuel as [|f]; [cbn in L; lia|].
    cbn [app]. rewrite U, <- app_assoc.
    apply complete_u32 with (r := ob ++ r) in E1. apply complete_u32 with (r := r) in E2.
    destruct i; try discriminate H; cbn [memarg_opcode] in H; injection H as <- <- <-;
    (eapply bind_run; [exact E1|eapply bind_run; [exact E2|reflexivity]]).
  - intros ls l lsb lb E1 E2 fuel r L. destruct fuel as [|f]; [cbn in L; lia|].
    cbn [app]. rewrite U, <- app_assoc.
    eapply bind_run; [apply complete_vec_u32; exact E1|eapply bind_run; [apply complete_u32; exact E2|reflexivity]].
  - intros ty tab tyb tabb E1 [E2 _] fuel r L. destruct fuel as [|f]; [cbn in L; lia|].
    cbn [app]. rewrite U, <- app_assoc.
    eapply bind_run; [apply complete_u32; exact E1|eapply bind_run; [apply complete_u32; exact E2|reflexivity]].
  - intros m mb [E _] fuel r L. destruct fuel as [|f]; [cbn in L; lia|]. cbn [app]. rewrite U.
    eapply bind_run; [apply complete_u32; exact E|reflexivity].
  - intros m mb [E _] fuel r L. destruct fuel as [|f]; [cbn in L; lia|]. cbn [app]. rewrite U.
    eapply bind_run; [apply complete_u32; exact E|reflexivity].
  - intros n nb E fuel r L. destruct fuel as [|f]; [cbn in L; lia|]. cbn [app]. rewrite U.
    eapply bind_run; [apply complete_i32; exact E|reflexivity].
  - intros n nb E fuel r L. destruct fuel as [|f]; [cbn in L; lia|]. cbn [app]. rewrite U.
    eapply bind_run; [apply complete_i64; exact E|reflexivity].
  - intros n nb E fuel r L. destruct fuel as [|f]; [cbn in L; lia|]. cbn [app]. rewrite U.
    eapply bind_run; [apply complete_f32; exact E|reflexivity].
  - intros n nb E fuel r L. destruct fuel as [|f]; [cbn in L; lia|]. cbn [app]. rewrite U.
    eapply bind_run; [apply complete_f64; exact E|reflexivity].
  - intros rt is rtb isb E1 E2 IH fuel r L. destruct fuel as [|f]; [cbn in L; lia|].
    cbn [length] in L. rewrite !app_length in L. cbn [length] in L.
    cbn [app]. rewrite U, <- !app_assoc.
    eapply bind_run; [apply complete_retval; exact E1|].
    eapply bind_run; [|reflexivity].
    eapply bind_run; [apply IH; [left; auto|lia]|reflexivity].
  - intros rt is rtb isb E1 E2 IH fuel r L. destruct fuel as [|f]; [cbn in L; lia|].
    cbn [length] in L. rewrite !app_length in L. cbn [length] in L.
    cbn [app]. rewrite U, <- !app_assoc.
    eapply bind_run; [apply complete_retval; exact E1|].
    eapply bind_run; [|reflexivity].
    eapply bind_run; [apply IH; [left; auto|lia]|reflexivity].
  - intros rt is rtb isb E1 E2 IH fuel r L. destruct fuel as [|f]; [cbn in L; lia|].
    cbn [length] in L. rewrite !app_length in L. cbn [length] in L.
    cbn [app]. rewrite U, <- !app_assoc.
    change (p_opcode (p_subexpr f []) x04) with (p_if_of (p_subexpr f [])).
    eapply bind_run; [apply complete_retval; exact E1|].
    eapply bind_run; [apply IH; [left; auto|lia]|]. reflexivity.
  - intros rt is1 is2 rtb is1b is2b E1 E2 IH1 E3 IH2 fuel r L. destruct fuel as [|f]; [cbn in L; lia|].
    cbn [length] in L. rewrite !app_length in L. cbn [length] in L.
    cbn [app]. rewrite U, <- !app_assoc.
    change (p_opcode (p_subexpr f []) x04) with (p_if_of (p_subexpr f [])).
    eapply bind_run; [apply complete_retval; exact E1|].
    change ((x05 :: is2b ++ [x0b]) ++ r) with ([x05] ++ (is2b ++ [x0b]) ++ r).
    eapply bind_run; [apply IH1; [right; auto|lia]|]. cbn [is_else].
    eapply bind_run; [rewrite <- app_assoc; apply IH2; [left; auto|lia]|reflexivity].
  - intros fuel acc tb t r T L. destruct fuel as [|[|f]]; [cbn in L; lia|cbn in L; lia|].
    rewrite app_nil_r. destruct T as [[-> ->]|[-> ->]]; reflexivity.
  - intros i is ib isb E1 IH1 E2 IH2 fuel acc tb t r T L. destruct fuel as [|f]; [cbn in L; lia|].
    rewrite app_length in L. pose proof (enc_instr_length _ _ _ E1) as LI.
    cbn [p_subexpr]. rewrite <- app_assoc. eapply bind_run; [apply IH1; lia|].
    assert (X : p_subexpr f (acc ++ [i]) (isb ++ tb ++ r) = (Ok (acc ++ i :: is, t), r)).
    { rewrite (IH2 f (acc ++ [i]) tb t r T) by lia. rewrite <- app_assoc. reflexivity. }
    destruct (enc_instr_not_term _ _ _ E1) as [N1 N2].
    destruct i; try exact X; congruence.
Qed.

(** ** Exactness *)
Lemma exact_expr : exact p_expr (enc_expr whasm_format).
Proof.
  intros bs e rest. split.
  - intros H. unfold p_expr in H. apply sound_expr_of in H; [assumption|].
    intros bs' x rest' H'. apply sound_instr_sub in H'. destruct H' as (pre & -> & is & E & H').
    exists pre. split; [reflexivity|]. destruct x as [is' t]. cbn in *. subst is'. assumption.
  - intros (pre & -> & isb & -> & E). unfold p_expr.
    rewrite <- app_assoc. eapply bind_run.
    + apply (proj2 complete_instr_sub _ _ E); [left; auto|].
      unfold fuel_for. rewrite app_length. lia.
    + reflexivity.
Qed.
Lemma exact_instr_top : exact p_instr_top enc_tok.
Proof.
  intros bs i rest. split.
  - intros H. apply sound_instr_sub in H. assumption.
  - intros (pre & -> & [E|[[-> ->]|[-> ->]]]); [|reflexivity|reflexivity].
    unfold p_instr_top. apply (proj1 complete_instr_sub _ _ E). unfold fuel_for. rewrite app_length. lia.
Qed.
Lemma local_ok_expr : local_ok p_expr. Proof. eapply exact_local_ok, exact_expr. Qed.
Lemma local_ok_instr_top : local_ok p_instr_top. Proof. eapply exact_local_ok, exact_instr_top. Qed.

(** ** Errors: with fixed fuel, then independence of the fuel *)
Definition local {A} (p : parser A) : Prop := local_ok p /\ local_err p.
Lemma local_bind {A B} (p : parser A) (f : A -> parser B) :
  local p -> (forall a, local (f a)) -> local (bind p f).
Proof.
  intros [P1 P2] F. split.
  - apply local_ok_bind; [assumption|]. intros; apply F.
  - apply local_err_bind; [assumption|assumption|]. intros; apply F.
Qed.
Lemma local_ret {A} (a : A) : local (ret a). Proof. split; [apply local_ok_ret|apply local_err_ret]. Qed.
Lemma local_fail {A} e : local (@fail A e). Proof. split; [apply local_ok_fail|apply local_err_fail]. Qed.
Lemma local_out_of_fuel {A} : local (@out_of_fuel A).
Proof. split; intros bs x r H; discriminate. Qed.
Lemma local_u32 : local p_u32. Proof. split; [apply local_ok_u32|apply local_err_u32]. Qed.
Lemma local_instr_sub fuel :
  local (p_instr fuel) /\ forall acc, local (p_subexpr fuel acc).
Proof.
  induction fuel as [|f [IH1 IH2]]; cbn [p_instr p_subexpr].
  - split; intros; apply local_out_of_fuel.
  - split.
    + apply local_bind; [split; [apply local_ok_byte|apply local_err_byte]|]. intros b.
      refine (closed_opcode (fun A p _ => local p) _ _ _ _ _ _ _ _ _ _ (p_subexpr f []) (p_subexpr f []) _ b).
      * exact @local_ret.
      * exact @local_fail.
      * exact (fun A B p _ f _ => local_bind p f).
      * exact local_u32.
      * split; [apply local_ok_signed; lia|apply local_err_signed].
      * split; [apply local_ok_signed; lia|apply local_err_signed].
      * split; [apply local_ok_float|apply local_err_float].
      * split; [apply local_ok_float|apply local_err_float].
      * split; [apply local_ok_retval|apply local_err_retval].
      * split; [apply local_ok_vec, local_ok_u32|apply local_err_vec; [apply local_ok_u32|apply local_err_u32]].
      * apply IH2.
    + intros acc. apply local_bind; [assumption|]. intros i.
      destruct i; first [apply local_ret | apply IH2].
Qed.

Definition fuel_le {A} (p q : parser A) : Prop :=
  forall bs, fst (p bs) <> OutOfFuel -> q bs = p bs.
Lemma fuel_le_refl {A} (p : parser A) : fuel_le p p. Proof. intros bs _; reflexivity. Qed.
Lemma fuel_le_bind {A B} (p p' : parser A) (f f' : A -> parser B) :
  fuel_le p p' -> (forall a, fuel_le (f a) (f' a)) -> fuel_le (bind p f) (bind p' f').
Proof.
  intros P F bs H. unfold bind in *. rewrite P.
  - destruct (p bs) as [[a|e| |] r]; try reflexivity. apply F. assumption.
  - intros X. destruct (p bs) as [[a|e| |] r]; try discriminate. cbn in H. congruence.
Qed.
Lemma fuel_mono fuel : forall fuel', (fuel <= fuel')%nat ->
  fuel_le (p_instr fuel) (p_instr fuel') /\ forall acc, fuel_le (p_subexpr fuel acc) (p_subexpr fuel' acc).
Proof.
  induction fuel as [|f IH]; intros fuel' L.
  - split; [|intros acc]; intros bs H; cbn in H; congruence.
  - destruct fuel' as [|f']; [lia|]. destruct (IH f' ltac:(lia)) as [IH1 IH2]. cbn [p_instr p_subexpr]. split.
    + apply fuel_le_bind; [apply fuel_le_refl|]. intros b.
      apply (closed_opcode (fun A p q => fuel_le p q));
        first [exact (fun A a => fuel_le_refl _) | exact @fuel_le_bind | apply fuel_le_refl | apply IH2].
    + intros acc. apply fuel_le_bind; [assumption|]. intros i.
      destruct i; first [apply fuel_le_refl | apply IH2].
Qed.

Lemma local_expr_of sub : local sub -> local (p_expr_of sub).
Proof.
  intros S. apply (closed_expr_of (fun A p _ => local p) (@local_ret) (@local_fail)
    (fun A B p _ f _ => local_bind p f) sub sub S).
Qed.
Lemma fuel_le_expr_of sub sub' : fuel_le sub sub' -> fuel_le (p_expr_of sub) (p_expr_of sub').
Proof.
  intros S. apply (closed_expr_of (fun A p q => fuel_le p q));
    first [exact (fun A a => fuel_le_refl _) | exact @fuel_le_bind | exact S].
Qed.
Lemma local_err_expr : local_err p_expr.
Proof.
  intros bs e r H. unfold p_expr in H.
  destruct (local_expr_of _ (proj2 (local_instr_sub (fuel_for (length bs))) [])) as [_ LE].
  destruct (LE bs e r H) as [X|X]; [left; assumption|right]. intros tl.
  eapply eq_trans; [|exact (X tl)]. unfold p_expr. apply fuel_le_expr_of.
  - apply fuel_mono. unfold fuel_for. rewrite app_length. lia.
  - intros Y. pose proof (X tl) as Z. rewrite (surjective_pairing (_ (bs ++ tl))) in Z. congruence.
Qed.
Lemma local_err_instr_top : local_err p_instr_top.
Proof.
  intros bs e r H. unfold p_instr_top in H.
  destruct (proj1 (local_instr_sub (fuel_for (length bs)))) as [_ LE].
  destruct (LE bs e r H) as [X|X]; [left; assumption|right]. intros tl.
  eapply eq_trans; [|exact (X tl)]. unfold p_instr_top. apply fuel_mono.
  - unfold fuel_for. rewrite app_length. lia.
  - intros Y. pose proof (X tl) as Z. rewrite (surjective_pairing (_ (bs ++ tl))) in Z. congruence.
Qed.
