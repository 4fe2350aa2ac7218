(** C67: files of WebAssembly 2.0, which share the magic number and the version of 1.0. *)
From Verif Require Import SpecLater SpecVerdict ParserModule LaterProof LaterClaims.
Open Scope N_scope.

(** If a file is a module of 2.0 and whasm reads it, both mean the same module, except for segments, *)
Theorem C67_same_but_segments : forall fd bs m m2, p_module bs = (Ok m, []) -> enc2_module fd bs m2 ->
  except_segments m2 = except_segments (later_module m).
Proof. exact read_rest. Qed.
Print Assumptions C67_same_but_segments.

(** which differ only if whasm reads a table or memory other than the first; *)
Theorem C67_read : forall fd bs m m2, p_module bs = (Ok m, []) -> enc2_module fd bs m2 ->
  m2 = later_module m \/ (exists e, In e (m_elem m) /\ el_table e <> 0) \/ (exists d, In d (m_data m) /\ da_mem d <> 0).
Proof. exact read_or. Qed.
Print Assumptions C67_read.

(** so every module of 2.0 that is accepted means what 2.0 says, if it has one table and memory, *)
Theorem C67_accepted_partial : forall fd bs m m2, p_module bs = (Ok m, []) -> accepted m -> enc2_module fd bs m2 ->
  (tables2 m2 <= 1)%nat -> (mems2 m2 <= 1)%nat -> m2 = later_module m.
Proof. exact read_accepted. Qed.
Print Assumptions C67_accepted_partial.

(** but not with more tables: a file is accepted as a module with another element segment *)
Theorem C67_accepted_refuted : exists bs m m2, p_module bs = (Ok m, []) /\ accepted m /\ enc2_module wasm20_format bs m2 /\ m2 <> later_module m /\
  m_elem m = [mkElem 2 [I_ConstI32 35%Z] (0 :: 9 :: repeat 0 9)] /\
  m2 = mkModule2 [mkFuncTy2 [] []] [] [] [] []
    [mkElem2 R_func (repeat [J_ref_func 0] 9) (M_active 65 [J_old (I_GlobalGet 11)])] [] None
    (repeat (mkImport2 [] [] (ID2_table (mkTableTy2 (mkLimits 0 None) R_func))) 66
     ++ repeat (mkImport2 [] [] (ID2_global (mkGlobalTy2 Const (W_num T_I32)))) 12
     ++ repeat (mkImport2 [] [] (ID2_func 0)) 10) [] None.
Proof. exact misread_witness. Qed.
Print Assumptions C67_accepted_refuted.

(** The format of 2.0 used here includes that of 1.0 *)
Theorem C67_includes_old : forall bs m, enc_module wasm10_format bs m ->
  (forall e, In e (m_elem m) -> el_table e = 0) -> (forall d, In d (m_data m) -> da_mem d = 0) ->
  enc2_module wasm20_format bs (later_module m).
Proof. exact old_modules. Qed.
Print Assumptions C67_includes_old.

(** and keeps modules apart *)
Theorem C67_distinct : forall bs m bs' m', p_module bs = (Ok m, []) -> p_module bs' = (Ok m', []) -> later_module m = later_module m' -> m = m'.
Proof. exact later_distinct. Qed.
Print Assumptions C67_distinct.

(** a block with the type of an index, sign extension, a passive segment, a data count, a reference type: all rejected;
    a file of 1.0 *)
Example C67_example :
  let file l := [x00; x61; x73; x6d; x01; x00; x00; x00; x01; x04; x01; x60; x00; x00; x03; x02; x01; x00] ++ l in
  map (fun l => match p_module (file l) with (Ok _, _) => true | _ => false end)
    [[x0a; x07; x01; x05; x00; x02; x00; x0b; x0b];
     [x0a; x08; x01; x06; x00; x41; x00; xc0; x1a; x0b];
     [x09; x04; x01; x01; x00; x00];
     [x0c; x01; x00];
     [x04; x04; x01; x6f; x00; x00];
     [x0a; x04; x01; x02; x00; x0b]]
  = [false; false; false; false; false; true].
Proof. lazy. reflexivity. Qed.
(** the eight forms of element segments and the three of data segments *)
Example C67_example_segments :
  Forall2 (enc2_elem wasm20_format)
    [[x00; x41; x00; x0b; x01; x05]; [x01; x00; x01; x05]; [x02; x03; x41; x00; x0b; x00; x01; x05]; [x03; x00; x01; x05];
     [x04; x41; x00; x0b; x01; xd0; x70; x0b]; [x05; x6f; x01; xd0; x70; x0b]; [x06; x03; x41; x00; x0b; x70; x01; xd0; x70; x0b];
     [x07; x70; x01; xd0; x70; x0b]]
    [mkElem2 R_func [[J_ref_func 5]] (M_active 0 [J_old (I_ConstI32 0%Z)]); mkElem2 R_func [[J_ref_func 5]] M_passive;
     mkElem2 R_func [[J_ref_func 5]] (M_active 3 [J_old (I_ConstI32 0%Z)]); mkElem2 R_func [[J_ref_func 5]] M_declarative;
     mkElem2 R_func [[J_ref_null R_func]] (M_active 0 [J_old (I_ConstI32 0%Z)]); mkElem2 R_extern [[J_ref_null R_func]] M_passive;
     mkElem2 R_func [[J_ref_null R_func]] (M_active 3 [J_old (I_ConstI32 0%Z)]); mkElem2 R_func [[J_ref_null R_func]] M_declarative] /\
  Forall2 (enc2_data wasm20_format)
    [[x00; x41; x00; x0b; x01; x05]; [x01; x01; x05]; [x02; x03; x41; x00; x0b; x01; x05]]
    [mkData2 [x05] (M_active 0 [J_old (I_ConstI32 0%Z)]); mkData2 [x05] M_passive; mkData2 [x05] (M_active 3 [J_old (I_ConstI32 0%Z)])].
Proof. exact (conj elem_forms data_forms). Qed.
(** a file with one data segment, counted: not read; where the count may be *)
Example C67_example_count :
  enc2_module wasm20_format (preamble ++ [x0c; x01; x01; x0b; x04; x01; x01; x01; x05])
    (mkModule2 [] [] [] [] [] [] [mkData2 [x05] M_passive] None [] [] (Some 1)) /\
  p_module (preamble ++ [x0c; x01; x01; x0b; x04; x01; x01; x01; x05]) = (Err (InvalidSectionId x0c), [x01; x01; x0b; x04; x01; x01; x01; x05]) /\
  ordered2 [S2_element []; S2_custom ([], []); S2_datacount 0; S2_code []; S2_data []] /\
  ~ ordered2 [S2_datacount 0; S2_element []] /\ ~ ordered2 [S2_code []; S2_datacount 0] /\ ~ ordered2 [S2_data []; S2_datacount 0] /\
  ~ ordered2 [S2_datacount 0; S2_datacount 0].
Proof. split; [exact counted|]. split; [lazy; reflexivity|exact data_count_order]. Qed.
