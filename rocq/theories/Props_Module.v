(** Property theorems C10-C25: instructions and modules. *)
From Coq Require Import String.
From Verif Require Import ParserModule SpecFormat SpecCode SpecEncoder SpecReserved SpecParser ElementSpec
  ModuleClaims ModuleClaims2 SectionsProof CodeProof EncodeProof.
Open Scope N_scope.

(** C10 *)
Theorem C10_instr_exact : forall bs rest,
  (forall e, p_expr bs = (Ok e, rest) <-> exists pre, bs = pre ++ rest /\ enc_expr whasm_format pre e) /\
  (forall i, p_instr_top bs = (Ok i, rest) <->
     exists pre, bs = pre ++ rest /\
       (enc_instr whasm_format pre i \/ (pre = [x05] /\ i = I_Else) \/ (pre = [x0b] /\ i = I_End))).
Proof. exact code_exact. Qed.
Print Assumptions C10_instr_exact.
Example C10_example :
  p_expr [x41; x7f; x04; x7f; x20; x03; x05; x28; x02; x08; x0b; x0e; x01; x00; x01; x0b; xaa]
  = (Ok [I_ConstI32 (-1)%Z; I_If [T_I32] [I_LocalGet 3] [I_I32Load 2 8]; I_BrTable [0] 1], [xaa]).
Proof. vm_compute. reflexivity. Qed.

(** C11 *)
Theorem C11_well_nested : forall bs rest,
  (forall e, p_expr bs = (Ok e, rest) -> well_nested e) /\
  (forall m e, p_module bs = (Ok m, rest) -> In e (module_exprs m) -> well_nested e).
Proof. exact (fun bs rest => conj (parsed_nested bs rest) (parsed_module_nested bs rest)). Qed.
Print Assumptions C11_well_nested.
Example C11_example : ~ well_nested [I_Block [] [I_Loop [T_I32] [I_Else]]].
Proof.
  intros (_ & N & _). apply N.
  apply (occurs_inside _ (I_Block [] [I_Loop [T_I32] [I_Else]]) [I_Loop [T_I32] [I_Else]]); [left; reflexivity|left; reflexivity|].
  apply (occurs_inside _ (I_Loop [T_I32] [I_Else]) [I_Else]); [left; reflexivity|left; reflexivity|].
  apply occurs_here. left. reflexivity.
Qed.

(** C12 *)
Theorem C12_reserved_bytes : forall b tl,
  (reserved_opcode b -> p_instr_top (b :: tl) = (Err (InvalidVariantId b "instr::Instr"), tl)) /\
  ((forall t, b <> valty_byte t) -> p_valty (b :: tl) = (Err (InvalidVariantId b "ty::Val"), tl)) /\
  (b <> x40 -> (forall t, b <> valty_byte t) -> p_retval (b :: tl) = (Err (InvalidVariantId b "ty::Val"), tl)) /\
  (b <> x60 -> p_functy (b :: tl) = (Err (InvalidVariantId b "ty::Func"), tl)) /\
  (b <> x00 -> b <> x01 -> p_limits (b :: tl) = (Err (InvalidVariantId b "ty::Limits"), tl)) /\
  (b <> x70 -> p_elemty (b :: tl) = (Err (InvalidVariantId b "ty::Elem"), tl)) /\
  ((forall m, b <> mut_byte m) -> p_mut (b :: tl) = (Err (InvalidVariantId b "ty::Mut"), tl)) /\
  (3 < Byte.to_N b -> p_importdesc (b :: tl) = (Err (InvalidVariantId b "module::desc::Import"), tl)) /\
  (3 < Byte.to_N b -> p_exportdesc (b :: tl) = (Err (InvalidVariantId b "module::desc::Export"), tl)).
Proof. exact reserved_bytes. Qed.
Print Assumptions C12_reserved_bytes.
(** Anywhere in an expression, and for no other byte *)
Theorem C12_reserved_in_code : forall p b tl, code_prefix whasm_format p -> reserved_opcode b ->
  p_expr (p ++ b :: tl) = (Err (InvalidVariantId b "instr::Instr"), tl).
Proof. exact expr_reserved. Qed.
Print Assumptions C12_reserved_in_code.
Theorem C12_assigned_opcodes : forall b, ~ reserved_opcode b -> exists tl i, p_instr_top (b :: tl) = (Ok i, []).
Proof. exact assigned_opcodes. Qed.
Print Assumptions C12_assigned_opcodes.
Example C12_example : p_expr [x41; x05; x02; x40; x1c; x0b] = (Err (InvalidVariantId x1c "instr::Instr"), [x0b]).
Proof. vm_compute. reflexivity. Qed.

(** C13 *)
Theorem C13_module_exact : forall bs m rest,
  p_module bs = (Ok m, rest) <-> rest = [] /\ enc_module whasm_format bs m.
Proof. exact module_exact. Qed.
Print Assumptions C13_module_exact.
(** (module (type (func (param i32) (result i32))) (func (type 0) local.get 0) (export "f" (func 0)))
    with a custom section in the middle *)
Definition small_module : list byte := preamble
  ++ [x01; x06; x01; x60; x01; x7f; x01; x7f]
  ++ [x03; x02; x01; x00]
  ++ [x00; x03; x01; x61; xff]
  ++ [x07; x05; x01; x01; x66; x00; x00]
  ++ [x0a; x08; x01; x06; x01; x02; x7e; x20; x00; x0b].
Example C13_example : p_module small_module =
  (Ok (mkModule [mkFuncTy [T_I32] [T_I32]] [mkFunc 0 [T_I64; T_I64] [I_LocalGet 0]] [] [] [] [] [] None []
        [mkExport [x66] (ED_Func 0)]), []).
Proof. vm_compute. reflexivity. Qed.

(** C14 *)
Theorem C14_official_modules_parse : forall bs m, enc_module wasm10_format bs m -> p_module bs = (Ok m, []).
Proof. exact official_parses. Qed.
Print Assumptions C14_official_modules_parse.
(** a memory of one page *)
Example C14_example : enc_module wasm10_format (preamble ++ [x05; x03; x01; x00; x01])
  (set_mems default_module [mkMem (mkMemTy (mkLimits 1 None))]).
Proof.
  assert (U : forall b n, enc_unsigned 32 [b] n -> enc_u32 wasm10_format [b] n) by (intros b n H; split; [exact H|discriminate]).
  assert (V : forall b n, (Byte.to_N b <? 128) = true -> Byte.to_N b = n -> (n <? 2 ^ 32) = true -> enc_u32 wasm10_format [b] n).
  { intros b n L E F. apply U. apply N.ltb_lt in F. split; [|split; [|exact F]].
    - apply leb_last, N.ltb_lt, L.
    - rewrite <- E. destruct b; try discriminate L; reflexivity. }
  exists [x05; x03; x01; x00; x01], [S_Memory [mkMem (mkMemTy (mkLimits 1 None))]].
  split; [reflexivity|]. split; [|split; [split; [reflexivity|exact I]|split; [left; reflexivity|reflexivity]]].
  exists [[x05; x03; x01; x00; x01]]. split; [|reflexivity]. constructor; [|constructor].
  exists [x03; x01; x00; x01]. split; [reflexivity|]. exists [x03], [x01; x00; x01].
  split; [reflexivity|]. split; [apply V; reflexivity|]. exists [x01], [x00; x01].
  split; [reflexivity|]. split; [apply V; reflexivity|]. exists [[x00; x01]]. split; [|reflexivity].
  constructor; [|constructor]. exists [x01]. split; [reflexivity|apply V; reflexivity].
Qed.

(** C15 *)
Theorem C15_round_trip : forall m, representable m -> p_module (encode m) = (Ok m, []).
Proof. exact round_trip. Qed.
Print Assumptions C15_round_trip.
Theorem C15_encode_official : forall m, representable m -> (forall e, In e (module_exprs m) -> reserved_zero e) ->
  enc_module wasm10_format (encode m) m.
Proof. exact encode_official. Qed.
Print Assumptions C15_encode_official.
Definition sample_module : module :=
  mkModule [mkFuncTy [T_I32; T_F64] []; mkFuncTy [] [T_I64]]
    [mkFunc 1 [T_I32; T_I32; T_F32] [I_Loop [T_I64] [I_ConstI64 (-300)%Z]]; mkFunc 0 [] []]
    [mkTable (mkTableTy (mkLimits 1 (Some 200)) FuncRef)] [mkMem (mkMemTy (mkLimits 1000 None))]
    [mkGlobal (mkGlobalTy Var T_F32) [I_ConstF32 1065353216]] [mkElem 0 [I_ConstI32 0%Z] [1; 0]]
    [mkData 0 [I_ConstI32 8%Z] [xde; xad]] (Some (mkStart 1))
    [mkImport [x61] [xc3; xa9] (ID_Global (mkGlobalTy Const T_I64))] [mkExport [] (ED_Mem 0)].
Example C15_example : p_module (encode sample_module) = (Ok sample_module, []).
Proof. vm_compute. reflexivity. Qed.

(** C16 *)
Theorem C16_section_order : forall b1 secs id rest,
  enc_list (enc_section whasm_format) b1 secs -> ordered secs -> counts_match whasm_format secs ->
  id <> x00 ->
  ((exists s, In s secs /\ is_custom s = false /\ Byte.to_N id <= section_id s) ->
     p_module (preamble ++ b1 ++ id :: rest) = (Err (UnexpectedSectionId id), rest)) /\
  (11 < Byte.to_N id -> p_module (preamble ++ b1 ++ id :: rest) = (Err (InvalidSectionId id), rest)).
Proof. exact order_error. Qed.
Print Assumptions C16_section_order.
Theorem C16_sections_unique : forall bs m rest, p_module bs = (Ok m, rest) ->
  exists body secs, bs = preamble ++ body /\ enc_list (enc_section whasm_format) body secs /\
    NoDup (map section_id (filter (fun s => negb (is_custom s)) secs)).
Proof. exact no_duplicates. Qed.
Print Assumptions C16_sections_unique.
Example C16_example :
  p_module (preamble ++ [x03; x01; x00; x00; x02; x01; x61; x03; x01; x00]) = (Err (UnexpectedSectionId x03), [x01; x00])
  /\ p_module (preamble ++ [x03; x01; x00; x0c; x01; x00]) = (Err (InvalidSectionId x0c), [x01; x00]).
Proof. split; vm_compute; reflexivity. Qed.

(** C17 *)
Theorem C17_custom_transparent : forall b1 secs c cs b2,
  enc_list (enc_section whasm_format) b1 secs -> enc_list (enc_section whasm_format) c (map S_Custom cs) ->
  fst (p_module (preamble ++ b1 ++ c ++ b2)) = fst (p_module (preamble ++ b1 ++ b2)).
Proof. exact custom_transparent. Qed.
Print Assumptions C17_custom_transparent.
Example C17_example :
  fst (p_module (preamble ++ [x03; x02; x01; x07] ++ [x00; x04; x01; x61; xff; xff; x00; x01; x00] ++ [x05; x03; x01; x00; x01]))
  = fst (p_module (preamble ++ [x03; x02; x01; x07] ++ [x05; x03; x01; x00; x01])).
Proof. vm_compute. reflexivity. Qed.

(** C18: the last clause of the property is false of the code ... *)
Theorem C18_missing_code_refuted : exists bs (m : module) (ts : list typeidx) (secs : list section),
  p_module bs = (Ok m, []) /\ enc_module whasm_format bs m /\
  enc_list (enc_section whasm_format) (skipn 8 bs) secs /\
  In (S_Function ts) secs /\ ts <> [] /\ m_funcs m = [].
Proof. exact (ex_intro _ orphan missing_code). Qed.
Print Assumptions C18_missing_code_refuted.
(** (without a code section the declarations are dropped, always) *)
Theorem C18_no_code_partial : forall body secs, enc_list (enc_section whasm_format) body secs -> ordered secs -> ~ has_code secs ->
  p_module (preamble ++ body) = (Ok (module_of secs), []) /\ m_funcs (module_of secs) = [].
Proof. exact no_code. Qed.
Print Assumptions C18_no_code_partial.
(** ... the others hold. *)
Theorem C18_pairing_partial : forall body secs m rest,
  enc_list (enc_section whasm_format) body secs -> p_module (preamble ++ body) = (Ok m, rest) ->
  (forall i f, nth_error (m_funcs m) i = Some f <->
     exists t ls e, nth_error (flat_map sec_typeidxs secs) i = Some t /\
       nth_error (flat_map sec_codes secs) i = Some (ls, e) /\ f = mkFunc t ls e) /\
  (has_code secs -> length (m_funcs m) = length (flat_map sec_typeidxs secs) /\
     length (m_funcs m) = length (flat_map sec_codes secs)).
Proof. exact pairing. Qed.
Print Assumptions C18_pairing_partial.
Theorem C18_wrong_count_partial : forall b1 secs v tl,
  enc_list (enc_section whasm_format) b1 (secs ++ [S_Code v]) -> ordered (secs ++ [S_Code v]) ->
  length v <> length (flat_map sec_typeidxs secs) ->
  p_module (preamble ++ b1 ++ tl) = (Err UnexpectedEndOfFile, tl).
Proof. exact wrong_count. Qed.
Print Assumptions C18_wrong_count_partial.
Example C18_example :
  fst (p_module (preamble ++ [x03; x03; x02; x05; x09] ++ [x0a; x08; x02; x02; x00; x0b; x03; x00; x01; x0b]))
  = Ok (set_funcs default_module [mkFunc 5 [] []; mkFunc 9 [] [I_Nop]])
  /\ p_module (preamble ++ [x03; x03; x02; x05; x09] ++ [x0a; x04; x01; x02; x00; x0b]) = (Err UnexpectedEndOfFile, []).
Proof. split; vm_compute; reflexivity. Qed.

(** C19 *)
Theorem C19_parse_total :
  (forall bs, (exists m r, p_module bs = (Ok m, r)) \/ (exists e r, p_module bs = (Err e, r))) /\
  (forall A (p : parser A) bs, element A p -> (exists a r, p bs = (Ok a, r)) \/ (exists e r, p bs = (Err e, r))).
Proof. exact parse_total. Qed.
Print Assumptions C19_parse_total.
Example C19_example : p_module (preamble ++ [x06; x83; x80; x80; x80; x00; x01; x7b; x00]) = (Err (InvalidVariantId x7b "ty::Val"), [x00]).
Proof. vm_compute. reflexivity. Qed.

(** C20 *)
Theorem C20_parsers_local :
  (forall A (p : parser A), element A p -> suffixing p /\ local_ok p /\ local_err p) /\ suffixing p_module.
Proof. exact parse_local. Qed.
Print Assumptions C20_parsers_local.
Example C20_example : p_global [x7f; x00; x41; x05; x0b] = (Ok (mkGlobal (mkGlobalTy Const T_I32) [I_ConstI32 5%Z]), [])
  /\ p_global [x7f; x00; x41; x05; x0b; x0b; x01] = (Ok (mkGlobal (mkGlobalTy Const T_I32) [I_ConstI32 5%Z]), [x0b; x01]).
Proof. split; vm_compute; reflexivity. Qed.

(** C21 *)
Theorem C21_element_truncation : forall A (p : parser A), element A p -> truncation_safe p.
Proof. exact element_truncation. Qed.
Print Assumptions C21_element_truncation.
Theorem C21_module_truncation : forall body m pre suf,
  p_module (preamble ++ body) = (Ok m, []) -> preamble ++ body = pre ++ suf ->
  (forall b1 secs1, enc_list (enc_section whasm_format) b1 secs1 -> pre <> preamble ++ b1) ->
  exists e r, p_module pre = (Err e, r) /\ early_end e.
Proof. exact module_truncation. Qed.
Print Assumptions C21_module_truncation.
(** all prefixes of [small_module]; the section boundaries are at 8, 16, 20, 25, 32 (and 42) *)
Example C21_example :
  map (fun n => match fst (p_module (firstn n small_module)) with Err _ => false | _ => true end) (seq 0 43)
  = map (fun n => existsb (Nat.eqb n) [8; 16; 20; 25; 32; 42]%nat) (seq 0 43).
Proof. vm_compute. reflexivity. Qed.

(** C22 *)
Theorem C22_preamble : forall bs,
  ((length bs < 4)%nat -> p_module bs = (Err UnexpectedEndOfFile, [])) /\
  ((4 <= length bs)%nat -> firstn 4 bs <> [x00; x61; x73; x6d] -> p_module bs = (Err InvalidPreambleMagic, skipn 4 bs)) /\
  (firstn 4 bs = [x00; x61; x73; x6d] -> (length bs < 8)%nat -> p_module bs = (Err UnexpectedEndOfFile, [])) /\
  (firstn 4 bs = [x00; x61; x73; x6d] -> (8 <= length bs)%nat -> firstn 4 (skipn 4 bs) <> [x01; x00; x00; x00] ->
     p_module bs = (Err InvalidPreambleVersion, skipn 8 bs)).
Proof. exact preamble_checks. Qed.
Print Assumptions C22_preamble.
Example C22_example : p_module [x00; x61; x73; x6e; x01] = (Err InvalidPreambleMagic, [x01])
  /\ p_module [x00; x61; x73; x6d; x02; x00; x00; x00; x09] = (Err InvalidPreambleVersion, [x09]).
Proof. split; vm_compute; reflexivity. Qed.

(** C23: false of the code, a module of 30 bytes has 2^32-1 locals and five bytes make the parser reserve
    a vector of 2^32-1 elements ... *)
Theorem C23_locals_refuted : exists bs m f, length bs = 30%nat /\ p_module bs = (Ok m, []) /\ m_funcs m = [f] /\
  N.of_nat (length (fn_locals f)) = 2 ^ 32 - 1.
Proof.
  exact (match locals_bomb with conj L (ex_intro _ m (ex_intro _ f P)) => ex_intro _ bomb (ex_intro _ m (ex_intro _ f (conj L P))) end).
Qed.
Print Assumptions C23_locals_refuted.
Theorem C23_reservation_refuted : exists bs, length bs = 5%nat /\ vec_reservation bs = Some (2 ^ 32 - 1).
Proof. exact (ex_intro _ [xff; xff; xff; xff; x0f] (conj eq_refl eq_refl)). Qed.
Print Assumptions C23_reservation_refuted.
(** ... these are the bounds that do hold. *)
Theorem C23_locals_partial : forall bs f rest, p_func bs = (Ok f, rest) ->
  2 * N.of_nat (length (fn_locals f)) <= (2 ^ 32 - 1) * N.of_nat (length bs - length rest).
Proof. exact locals_bound. Qed.
Print Assumptions C23_locals_partial.
Theorem C23_vectors_partial : forall A (p : parser A) bs,
  (forall n, vec_reservation bs = Some n -> n < 2 ^ 32) /\
  (forall v r, progress p -> p_vec p bs = (Ok v, r) ->
     vec_reservation bs = Some (N.of_nat (length v)) /\ (length v + length r < length bs)%nat).
Proof. exact (fun A p bs => conj (reservation_bound bs) (vec_length p bs)). Qed.
Print Assumptions C23_vectors_partial.
Example C23_example : match p_func [x02; x90; x4e; x7f; x03; x7c; x0b] with (Ok f, _) => N.of_nat (length (fn_locals f)) | _ => 0 end = 10003.
Proof. vm_compute. reflexivity. Qed.

(** C24 *)
Theorem C24_ranges : forall bs m rest, p_module bs = (Ok m, rest) ->
  Forall (fun n => n < 2 ^ 32) (module_u32s m) /\ Forall utf8 (module_names m) /\
  (forall e, In e (module_exprs m) -> code_in_range e).
Proof. exact (fun bs m rest H => module_range _ _ _ (proj2 (proj1 (module_exact bs m rest) H))). Qed.
Print Assumptions C24_ranges.
Example C24_example : module_u32s sample_module = [1; 0; 1; 200; 1000; 0; 1; 0; 0; 1; 0].
Proof. vm_compute. reflexivity. Qed.

(** C25 *)
Theorem C25_depth_bound : forall bs e rest, p_expr bs = (Ok e, rest) ->
  (3 * depth_expr e + 1 + length rest <= length bs)%nat.
Proof. exact depth_bound. Qed.
Print Assumptions C25_depth_bound.
Theorem C25_depth_unbounded : forall d, exists bs, length bs = (3 * d + 1)%nat /\
  p_expr bs = (Ok (nested_blocks d), []) /\ depth_expr (nested_blocks d) = d.
Proof. exact depth_reached. Qed.
Print Assumptions C25_depth_unbounded.
Example C25_example : p_expr [x02; x40; x03; x40; x0b; x0b; x0b] = (Ok [I_Block [] [I_Loop [] []]], [])
  /\ depth_expr [I_Block [] [I_Loop [] []]] = 2%nat.
Proof. split; vm_compute; reflexivity. Qed.
