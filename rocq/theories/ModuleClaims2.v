(** More lemmas behind the property theorems about instructions and modules. *)
From Coq Require Import String Lia ZifyN ZifyNat.
From Verif Require Import ParserModule SpecFormat SpecCode SpecEncoder SpecReserved ParserMeta TypesProof InstrProof ModuleProof
  SectionsProof CodeProof DialectProof EncodeProof ElementSpec ModuleClaims.
Open Scope N_scope.

(** C10 *)
Lemma code_exact : forall bs rest,
  (forall e, p_expr bs = (Ok e, rest) <-> exists pre, bs = pre ++ rest /\ enc_expr whasm_format pre e) /\
  (forall i, p_instr_top bs = (Ok i, rest) <->
     exists pre, bs = pre ++ rest /\
       (enc_instr whasm_format pre i \/ (pre = [x05] /\ i = I_Else) \/ (pre = [x0b] /\ i = I_End))).
Proof.
  intros bs rest. split; intros x; [apply exact_expr|]. rewrite (exact_instr_top bs x rest).
  unfold enc_tok, terminator. split; intros (pre & -> & H); exists pre; (split; [reflexivity|]); tauto.
Qed.

(** C11 *)
Lemma parsed_nested bs rest e : p_expr bs = (Ok e, rest) -> well_nested e.
Proof.
  intros H. apply exact_expr in H. destruct H as (pre & _ & b & _ & H). eapply enc_well_nested, H.
Qed.
Lemma parsed_module_nested bs rest m e : p_module bs = (Ok m, rest) -> In e (module_exprs m) -> well_nested e.
Proof.
  intros H I. apply module_exact in H. destruct H as [_ H].
  destruct (module_exprs_enc _ _ _ _ H I) as [b B]. eapply enc_well_nested, B.
Qed.

(** C12 *)
Lemma reserved_bytes b tl :
  (reserved_opcode b -> p_instr_top (b :: tl) = (Err (InvalidVariantId b "instr::Instr"), tl)) /\
  ((forall t, b <> valty_byte t) -> p_valty (b :: tl) = (Err (InvalidVariantId b "ty::Val"), tl)) /\
  (b <> x40 -> (forall t, b <> valty_byte t) -> p_retval (b :: tl) = (Err (InvalidVariantId b "ty::Val"), tl)) /\
  (b <> x60 -> p_functy (b :: tl) = (Err (InvalidVariantId b "ty::Func"), tl)) /\
  (b <> x00 -> b <> x01 -> p_limits (b :: tl) = (Err (InvalidVariantId b "ty::Limits"), tl)) /\
  (b <> x70 -> p_elemty (b :: tl) = (Err (InvalidVariantId b "ty::Elem"), tl)) /\
  ((forall m, b <> mut_byte m) -> p_mut (b :: tl) = (Err (InvalidVariantId b "ty::Mut"), tl)) /\
  (3 < Byte.to_N b -> p_importdesc (b :: tl) = (Err (InvalidVariantId b "module::desc::Import"), tl)) /\
  (3 < Byte.to_N b -> p_exportdesc (b :: tl) = (Err (InvalidVariantId b "module::desc::Export"), tl)).
Proof.
  repeat split.
  - unfold reserved_opcode. intros H. destruct b; try reflexivity; exfalso; cbv in H; intuition congruence.
  - intros H. destruct b; try reflexivity; exfalso;
      [apply (H T_F64)|apply (H T_F32)|apply (H T_I64)|apply (H T_I32)]; reflexivity.
  - intros N H. destruct b; try reflexivity; exfalso; try congruence;
      [apply (H T_F64)|apply (H T_F32)|apply (H T_I64)|apply (H T_I32)]; reflexivity.
  - intros H. destruct b; try reflexivity. congruence.
  - intros H0 H1. destruct b; try reflexivity; congruence.
  - intros H. destruct b; try reflexivity. congruence.
  - intros H. destruct b; try reflexivity; exfalso; [apply (H Const)|apply (H Var)]; reflexivity.
  - intros H. destruct b; try reflexivity; cbv in H; congruence.
  - intros H. destruct b; try reflexivity; cbv in H; congruence.
Qed.
(** every other byte begins an instruction *)
Lemma assigned_opcodes b : ~ reserved_opcode b -> exists tl i, p_instr_top (b :: tl) = (Ok i, []).
Proof.
  unfold reserved_opcode. intros H.
  destruct b; try (exfalso; apply H; cbv; intuition congruence); clear H;
  first
    [ exists []; eexists; vm_compute; reflexivity
    | exists [x00]; eexists; vm_compute; reflexivity
    | exists [x00; x00]; eexists; vm_compute; reflexivity
    | exists [x40; x0b]; eexists; vm_compute; reflexivity
    | exists [x00; x00; x00; x00]; eexists; vm_compute; reflexivity
    | exists [x00; x00; x00; x00; x00; x00; x00; x00]; eexists; vm_compute; reflexivity ].
Qed.

Lemma subexpr_prefix pre is : enc_instrs whasm_format pre is -> forall fuel acc tl k,
  (2 * length pre + k <= fuel)%nat -> (2 <= k)%nat ->
  exists fuel', p_subexpr fuel acc (pre ++ tl) = p_subexpr fuel' (acc ++ is) tl /\ (k <= fuel')%nat.
Proof.
  induction 1 as [|i is ib isb E F IH]; intros fuel acc tl k L K.
  - exists fuel. rewrite app_nil_r. cbn [length] in L. split; [reflexivity|lia].
  - rewrite app_length in L. pose proof (enc_instr_length _ _ _ E) as NE.
    destruct fuel as [|f]; [lia|]. cbn [p_subexpr]. unfold bind. rewrite <- app_assoc.
    rewrite (proj1 complete_instr_sub _ _ E) by lia.
    assert (NT : i <> I_End /\ i <> I_Else) by (eapply enc_instr_not_term, E).
    destruct (IH f (acc ++ [i]) tl k) as (f' & H1 & H2); [lia|lia|].
    exists f'. split; [|assumption]. rewrite <- app_assoc in H1. cbn [app] in H1. rewrite <- H1.
    destruct i; try reflexivity; destruct NT; congruence.
Qed.

Lemma blockty_run rtb rt : enc_blockty rtb rt -> forall tl, p_retval (rtb ++ tl) = (Ok rt, tl).
Proof. intros E tl. apply exact_retval. eauto. Qed.
Lemma subexpr_reserved p b tl : code_prefix whasm_format p -> reserved_opcode b -> forall fuel acc,
  (2 * length p + 2 <= fuel)%nat ->
  p_subexpr fuel acc (p ++ b :: tl) = (Err (InvalidVariantId b "instr::Instr"), tl).
Proof.
  intros P R.
  assert (RB : forall f, p_instr (S f) (b :: tl) = (Err (InvalidVariantId b "instr::Instr"), tl)).
  { intros f. destruct (reserved_bytes b tl) as [H _]. specialize (H R). unfold p_instr_top, fuel_for in H.
    cbn [length Nat.mul Nat.add] in H. cbn [p_instr] in *. unfold bind in *. cbn [p_byte] in *.
    revert H. unfold reserved_opcode in R. destruct b; try reflexivity; exfalso; cbv in R; intuition congruence. }
  assert (SUB : forall f acc, p_subexpr (S f) acc = (next <- p_instr f ;;
    match next with I_End | I_Else => ret (acc, next) | _ => p_subexpr f (acc ++ [next]) end)) by reflexivity.
  assert (RT : forall rtb rt, enc_blockty rtb rt -> length rtb = 1%nat).
  { intros rtb rt [[-> _]|(t & -> & _)]; reflexivity. }
  assert (SUBERR : forall f acc bs e r, p_instr f bs = (Err e, r) -> p_subexpr (S f) acc bs = (Err e, r)).
  { intros f acc bs e r H. rewrite SUB. unfold bind. rewrite H. reflexivity. }
  assert (INS2 : forall f bs, p_instr (S f) (x02 :: bs) = (a <- p_retval ;; e <- p_expr_of (p_subexpr f []) ;; ret (I_Block a e)) bs) by reflexivity.
  assert (INS3 : forall f bs, p_instr (S f) (x03 :: bs) = (a <- p_retval ;; e <- p_expr_of (p_subexpr f []) ;; ret (I_Loop a e)) bs) by reflexivity.
  assert (INS4 : forall f bs, p_instr (S f) (x04 :: bs) = p_if_of (p_subexpr f []) bs) by reflexivity.
  induction P as [isb is E|isb is rtb rt p E B P IH|isb is rtb rt p E B P IH|isb is rtb rt p E B P IH|isb is rtb rt b1 is1 p E B E1 P IH];
    intros fuel acc L.
  - destruct (subexpr_prefix _ _ E fuel acc (b :: tl) 2) as (f & -> & K); [lia|lia|].
    destruct f as [|[|f]]; [lia|lia|]. rewrite (SUB (S f)). unfold bind. rewrite RB. reflexivity.
  - rewrite app_length in L. cbn [length] in L. rewrite app_length, (RT _ _ B) in L. rewrite <- app_assoc. cbn [app].
    rewrite <- app_assoc.
    destruct (subexpr_prefix _ _ E fuel acc (x02 :: rtb ++ p ++ b :: tl) (2 * length p + 4)) as (f & -> & K); [lia|lia|].
    destruct f as [|[|f]]; [lia|lia|]. apply SUBERR. rewrite INS2. unfold bind.
    rewrite (blockty_run _ _ B). unfold p_expr_of, bind. rewrite IH by lia. reflexivity.
  - rewrite app_length in L. cbn [length] in L. rewrite app_length, (RT _ _ B) in L. rewrite <- app_assoc. cbn [app].
    rewrite <- app_assoc.
    destruct (subexpr_prefix _ _ E fuel acc (x03 :: rtb ++ p ++ b :: tl) (2 * length p + 4)) as (f & -> & K); [lia|lia|].
    destruct f as [|[|f]]; [lia|lia|]. apply SUBERR. rewrite INS3. unfold bind.
    rewrite (blockty_run _ _ B). unfold p_expr_of, bind. rewrite IH by lia. reflexivity.
  - rewrite app_length in L. cbn [length] in L. rewrite app_length, (RT _ _ B) in L. rewrite <- app_assoc. cbn [app].
    rewrite <- app_assoc.
    destruct (subexpr_prefix _ _ E fuel acc (x04 :: rtb ++ p ++ b :: tl) (2 * length p + 4)) as (f & -> & K); [lia|lia|].
    destruct f as [|[|f]]; [lia|lia|]. apply SUBERR. rewrite INS4. unfold p_if_of, bind.
    rewrite (blockty_run _ _ B). rewrite IH by lia. reflexivity.
  - rewrite app_length in L. cbn [length] in L. rewrite !app_length, (RT _ _ B) in L. cbn [length] in L.
    rewrite <- app_assoc. cbn [app]. rewrite <- !app_assoc. cbn [app].
    destruct (subexpr_prefix _ _ E fuel acc (x04 :: rtb ++ b1 ++ x05 :: p ++ b :: tl) (2 * length p + 2 * length b1 + 4)) as (f & -> & K); [lia|lia|].
    destruct f as [|[|f]]; [lia|lia|]. apply SUBERR. rewrite INS4. unfold p_if_of, bind.
    rewrite (blockty_run _ _ B).
    change (b1 ++ x05 :: p ++ b :: tl) with (b1 ++ [x05] ++ (p ++ b :: tl)).
    rewrite (proj2 complete_instr_sub _ _ E1) with (t := I_Else); [|right; auto|lia].
    cbn [is_else app]. rewrite IH by lia. reflexivity.
Qed.
Lemma expr_reserved p b tl : code_prefix whasm_format p -> reserved_opcode b ->
  p_expr (p ++ b :: tl) = (Err (InvalidVariantId b "instr::Instr"), tl).
Proof.
  intros P R. unfold p_expr, p_expr_of, bind, fuel_for. rewrite (subexpr_reserved p b tl P R); [reflexivity|].
  rewrite app_length. lia.
Qed.

(** C15 *)
Lemma round_trip m : representable m -> p_module (encode m) = (Ok m, []).
Proof. intros R. apply module_exact. split; [reflexivity|]. apply encode_whasm. assumption. Qed.

(** C14 *)
Lemma official_parses bs m : enc_module wasm10_format bs m -> p_module bs = (Ok m, []).
Proof. intros H. apply module_exact. split; [reflexivity|]. apply official_whasm. assumption. Qed.

(** C18 *)
Definition orphan : list byte := preamble ++ [x01; x04; x01; x60; x00; x00; x03; x02; x01; x00].
Lemma missing_code : exists (m : module) (ts : list typeidx) (secs : list section), p_module orphan = (Ok m, []) /\
  enc_module whasm_format orphan m /\ enc_list (enc_section whasm_format) (skipn 8 orphan) secs /\
  In (S_Function ts) secs /\ ts <> [] /\ m_funcs m = [].
Proof.
  destruct (p_module orphan) as [o r] eqn:E. vm_compute in E. injection E as <- <-.
  eexists. exists [0], [S_Type [mkFuncTy [] []]; S_Function [0]].
  split; [reflexivity|]. split; [|split; [|split; [|split]]].
  - apply (module_exact orphan _ []). vm_compute. reflexivity.
  - exists [[x01; x04; x01; x60; x00; x00]; [x03; x02; x01; x00]]. split; [|reflexivity].
    assert (X : forall b n, (Byte.to_N b <? 128) = true -> Byte.to_N b = n -> n < 2 ^ 32 -> enc_u32 whasm_format [b] n).
    { intros b n L <- H. assert (P : p_u32 [b] = (Ok (Byte.to_N b), [])) by (destruct b; try discriminate L; vm_compute; reflexivity).
      apply exact_u32 in P. destruct P as (pre & E & P). rewrite app_nil_r in E. subst. exact P. }
    constructor; [|constructor; [|constructor]].
    + eexists. split; [reflexivity|]. exists [x04], [x01; x60; x00; x00]. split; [reflexivity|]. split; [apply X; reflexivity|].
      exists [x01], [x60; x00; x00]. split; [reflexivity|]. split; [apply X; reflexivity|].
      exists [[x60; x00; x00]]. split; [|reflexivity]. constructor; [|constructor].
      exists [x00], [x00]. split; [reflexivity|].
      split; (exists [x00], []; split; [reflexivity|]; split; [apply X; reflexivity|]; exists []; split; [constructor|reflexivity]).
    + eexists. split; [reflexivity|]. exists [x02], [x01; x00]. split; [reflexivity|]. split; [apply X; reflexivity|].
      exists [x01], [x00]. split; [reflexivity|]. split; [apply X; reflexivity|].
      exists [[x00]]. split; [|reflexivity]. constructor; [|constructor]. apply X; reflexivity.
  - cbn. auto.
  - discriminate.
  - reflexivity.
Qed.

(** C19 *)
Lemma total_outcome {A} (p : parser A) bs : safe p -> (exists a r, p bs = (Ok a, r)) \/ (exists e r, p bs = (Err e, r)).
Proof.
  intros S. destruct (S bs) as [S1 S2]. destruct (p bs) as [[a|e| |] r]; cbn in *; try contradiction; eauto.
Qed.
Lemma parse_total : (forall bs, (exists m r, p_module bs = (Ok m, r)) \/ (exists e r, p_module bs = (Err e, r))) /\
  (forall A (p : parser A) bs, element A p -> (exists a r, p bs = (Ok a, r)) \/ (exists e r, p bs = (Err e, r))).
Proof.
  split; intros; apply total_outcome; [apply safe_module|apply element_safe; assumption].
Qed.

(** C20 *)
Lemma parse_local : (forall A (p : parser A), element A p -> suffixing p /\ local_ok p /\ local_err p) /\ suffixing p_module.
Proof. split; [apply element_local|apply suffixing_module]. Qed.

(** C22 *)
Lemma preamble_checks bs :
  ((length bs < 4)%nat -> p_module bs = (Err UnexpectedEndOfFile, [])) /\
  ((4 <= length bs)%nat -> firstn 4 bs <> [x00; x61; x73; x6d] -> p_module bs = (Err InvalidPreambleMagic, skipn 4 bs)) /\
  (firstn 4 bs = [x00; x61; x73; x6d] -> (length bs < 8)%nat -> p_module bs = (Err UnexpectedEndOfFile, [])) /\
  (firstn 4 bs = [x00; x61; x73; x6d] -> (8 <= length bs)%nat -> firstn 4 (skipn 4 bs) <> [x01; x00; x00; x00] ->
     p_module bs = (Err InvalidPreambleVersion, skipn 8 bs)).
Proof.
  split; [apply module_short|]. split; [apply module_magic|].
  assert (SP : firstn 4 bs = [x00; x61; x73; x6d] -> bs = [x00; x61; x73; x6d] ++ skipn 4 bs).
  { intros H. rewrite <- H. symmetry. apply firstn_skipn. }
  split.
  - intros H L. rewrite (SP H). apply module_version_short. rewrite skipn_length. lia.
  - intros H L V. rewrite (SP H) at 1. rewrite module_version; [|rewrite skipn_length; lia|assumption].
    f_equal. do 4 (destruct bs as [|? bs]; [cbn in L; lia|]). reflexivity.
Qed.

(** C23 *)
Definition bomb : list byte := preamble
  ++ [x01; x04; x01; x60; x00; x00] ++ [x03; x02; x01; x00]
  ++ [x0a; x0a; x01; x08; x01; xff; xff; xff; xff; x0f; x7f; x0b].
Lemma u32_run bs n : p_u32 bs = (Ok n, []) -> enc_u32 whasm_format bs n.
Proof. intros P. apply exact_u32 in P. destruct P as (pre & E & P). rewrite app_nil_r in E. subst. exact P. Qed.
Lemma bomb_read : exists ls, N.of_nat (length ls) = 2 ^ 32 - 1 /\
  p_module bomb = (Ok (mkModule [mkFuncTy [] []] [mkFunc 0 ls []] [] [] [] [] [] None [] []), []).
Proof.
  assert (L : exists ls, N.of_nat (length ls) = 2 ^ 32 - 1 /\ ls = expand_runs [(2 ^ 32 - 1, T_I32)]).
  { eexists. split; [|reflexivity]. unfold expand_runs. cbn [flat_map fst snd]. rewrite app_nil_r, repeat_length, N2Nat.id. reflexivity. }
  destruct L as (ls & L & E).
  exists ls. split; [exact L|].
  change (mkModule _ _ _ _ _ _ _ _ _ _) with (module_of [S_Type [mkFuncTy [] []]; S_Function [0]; S_Code [(ls, [])]]).
  apply module_exact. split; [reflexivity|]. eexists. eexists. split; [reflexivity|]. split; [|split; [|split; [|reflexivity]]].
  2: { vm_compute. repeat split. }
  2: { left. reflexivity. }
  exists [[x01; x04; x01; x60; x00; x00]; [x03; x02; x01; x00];
    [x0a; x0a; x01; x08; x01; xff; xff; xff; xff; x0f; x7f; x0b]]. split; [|reflexivity].
  constructor; [|constructor; [|constructor; [|constructor]]].
  - eexists. split; [reflexivity|]. exists [x04], [x01; x60; x00; x00]. split; [reflexivity|]. split; [apply u32_run; reflexivity|].
    exists [x01], [x60; x00; x00]. split; [reflexivity|]. split; [apply u32_run; reflexivity|].
    exists [[x60; x00; x00]]. split; [|reflexivity]. constructor; [|constructor].
    exists [x00], [x00]. split; [reflexivity|].
    split; (exists [x00], []; split; [reflexivity|]; split; [apply u32_run; reflexivity|]; exists []; split; [constructor|reflexivity]).
  - eexists. split; [reflexivity|]. exists [x02], [x01; x00]. split; [reflexivity|]. split; [apply u32_run; reflexivity|].
    exists [x01], [x00]. split; [reflexivity|]. split; [apply u32_run; reflexivity|].
    exists [[x00]]. split; [|reflexivity]. constructor; [|constructor]. apply u32_run; reflexivity.
  - eexists. split; [reflexivity|]. exists [x0a], [x01; x08; x01; xff; xff; xff; xff; x0f; x7f; x0b].
    split; [reflexivity|]. split; [apply u32_run; reflexivity|].
    exists [x01], [x08; x01; xff; xff; xff; xff; x0f; x7f; x0b]. split; [reflexivity|]. split; [apply u32_run; reflexivity|].
    eexists. split; [constructor; [|constructor]|rewrite concat_cons, app_nil_r; reflexivity].
    exists [x08], [x01; xff; xff; xff; xff; x0f; x7f; x0b]. split; [reflexivity|]. split; [apply u32_run; reflexivity|].
    exists [x01; xff; xff; xff; xff; x0f; x7f], [x0b], [(2 ^ 32 - 1, T_I32)]. split; [reflexivity|].
    split; [|split; [exact E|split; [exact I|]]].
    + exists [x01], [xff; xff; xff; xff; x0f; x7f]. split; [reflexivity|]. split; [apply u32_run; reflexivity|].
      exists [[xff; xff; xff; xff; x0f; x7f]]. split; [|reflexivity]. constructor; [|constructor].
      exists [xff; xff; xff; xff; x0f], [x7f]. split; [reflexivity|]. split; [apply u32_run; reflexivity|reflexivity].
    + exists []. split; [reflexivity|constructor].
Qed.
Lemma locals_bomb : length bomb = 30%nat /\
  exists m f, p_module bomb = (Ok m, []) /\ m_funcs m = [f] /\ N.of_nat (length (fn_locals f)) = 2 ^ 32 - 1.
Proof.
  split; [reflexivity|]. destruct bomb_read as (ls & L & P). eexists. eexists. split; [exact P|]. split; [reflexivity|exact L].
Qed.
Lemma times_length {A} (p : parser A) n : progress p -> forall bs v r, p_times n p bs = (Ok v, r) ->
  length v = n /\ (length v + length r <= length bs)%nat.
Proof.
  intros PR. induction n as [|n IH]; intros bs v r H; cbn [p_times] in H.
  - injection H as <- <-. cbn. lia.
  - apply bind_ok in H. destruct H as (a & r1 & H1 & H). apply bind_ok in H. destruct H as (xs & r2 & H2 & H).
    injection H as <- <-. apply PR in H1. apply IH in H2. cbn. lia.
Qed.
Lemma vec_length {A} (p : parser A) bs v r : progress p -> p_vec p bs = (Ok v, r) ->
  vec_reservation bs = Some (N.of_nat (length v)) /\ (length v + length r < length bs)%nat.
Proof.
  intros PR H. unfold p_vec in H. apply bind_ok in H. destruct H as (n & r1 & H1 & H2).
  unfold vec_reservation. rewrite H1. apply times_length in H2; [|assumption].
  apply (progress_unsigned 32) in H1; [|lia]. destruct H2 as [-> H2]. rewrite N2Nat.id. split; [reflexivity|]. lia.
Qed.
Lemma reservation_bound bs n : vec_reservation bs = Some n -> n < 2 ^ 32.
Proof.
  unfold vec_reservation. destruct (p_u32 bs) as [[v|e| |] r] eqn:E; intros [= <-].
  apply exact_u32 in E. destruct E as (pre & _ & [[_ [_ H]] _]). exact H.
Qed.
Lemma locals_bound bs f rest : p_func bs = (Ok f, rest) ->
  2 * N.of_nat (length (fn_locals f)) <= (2 ^ 32 - 1) * N.of_nat (length bs - length rest).
Proof.
  intros H. apply exact_func in H. destruct H as (pre & -> & c & (rb & eb & runs & -> & HV & HL & _ & HE) & ->).
  cbn [fn_locals]. rewrite HL, !app_length.
  destruct HV as (n & es & -> & _ & ch & F & ->).
  assert (G : 2 * N.of_nat (length (expand_runs runs)) <= (2 ^ 32 - 1) * N.of_nat (length (concat ch))).
  { clear -F. induction F as [|b r ch runs (nb & tb & -> & [[H0 [_ H1]] _] & H2) F IH]; [cbn; lia|].
    cbn [concat]. unfold expand_runs in *. cbn [flat_map]. rewrite !app_length, repeat_length.
    rewrite H2. cbn [length]. apply leb_nonempty in H0. unfold u32, fits_u in *.
    assert (fst r <= 2 ^ 32 - 1) by lia. change (2 ^ 32 - 1) with 4294967295 in *.
    set (x := length (flat_map _ runs)) in *. set (y := length (concat ch)) in *. lia. }
  rewrite app_length. nia.
Qed.
