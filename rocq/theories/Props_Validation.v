(** Property theorems C26-C41: the validator. *)
From Coq Require Import Permutation.
From Verif Require Import ValidatorModule SpecVerdict EncodeProof ModuleValidProof SafeProof DialectValidProof ValidityClaims ValidityWitnesses.
Open Scope N_scope.

(** C26 *)
Theorem C26_function_typing : forall c f t, no_pseudo (fn_body f) ->
  ((exists cs, v_func f (c, empty_stacks) = VOk (t, cs)) <-> func_type false false (tenv_of c) f t).
Proof. exact v_func_typing. Qed.
Print Assumptions C26_function_typing.
Theorem C26_ill_typed_rejected : forall c f, no_pseudo (fn_body f) ->
  (forall t, ~ func_type false false (tenv_of c) f t) -> v_func f (c, empty_stacks) = VErr.
Proof. exact v_func_ill_typed. Qed.
Print Assumptions C26_ill_typed_rejected.
(** the second branch of the [if] is unreachable code after [br], where [i32.add] takes anything *)
Example C26_example :
  let c := mkContext [mkFuncTy [T_I32] [T_I32]] [] [] [] [] [] None in
  let cs := (c, empty_stacks) in
  v_func (mkFunc 0 [T_F64] [I_Block [T_I32] [I_LocalGet 0; I_If [T_I32] [I_ConstI32 7%Z] [I_ConstI32 1%Z; I_Br 1; I_I32Add]]]) cs
    = VOk (mkFuncTy [T_I32] [T_I32], cs)
  /\ v_func (mkFunc 0 [T_F64] [I_Block [T_I32] [I_LocalGet 0; I_If [T_I32] [I_ConstI32 7%Z] [I_ConstI32 1%Z; I_Br 1; I_I64Add]]]) cs = VErr
  /\ v_func (mkFunc 0 [T_F64] [I_LocalGet 1]) cs = VErr.
Proof. repeat split; vm_compute; reflexivity. Qed.

(** C27.  The full statement is: if validation accepts a module, every function of the module is well typed
    according to the official rules. *)
Theorem C27_accepted_typed_refuted : exists m mt f, validate m = VOk mt /\ In f (m_funcs m) /\
  forall fts ft, ~ func_type true true (module_env m fts) f ft.
Proof. exact (ex_intro _ over_aligned over_aligned_refutes). Qed.
Print Assumptions C27_accepted_typed_refuted.
Theorem C27_accepted_typed_partial : forall m, accepted m -> (forall f, In f (m_funcs m) -> no_pseudo (fn_body f)) ->
  exists fts, func_space m fts /\
  forall f, In f (m_funcs m) -> natural_alignment (fn_body f) -> exists ft, func_type true true (module_env m fts) f ft.
Proof. exact c27_partial. Qed.
Print Assumptions C27_accepted_typed_partial.
(** over-alignment is the only reason *)
Theorem C27_alignment_only : forall C f ft, func_type false false C f ft ->
  (func_type true true C f ft <-> natural_alignment (fn_body f)).
Proof. exact alignment_only. Qed.
Print Assumptions C27_alignment_only.
Example C27_example : accepted (one_func [T_I32] [I_ConstI32 0%Z; I_I32Load 2 0])
  /\ natural_alignment [I_ConstI32 0%Z; I_I32Load 2 0] /\ ~ natural_alignment [I_ConstI32 0%Z; I_I32Load 3 0].
Proof. exact alignment_example. Qed.
(** the bytes that each instruction accesses, as in its name *)
Example C27_example_widths :
  map (fun i => match load_type i, store_type i with Some (a, n, t), None | None, Some (a, n, t) => Some (a, n, t) | _, _ => None end)
    [I_I32Load 3 9; I_I64Load 3 9; I_F32Load 3 9; I_F64Load 3 9; I_I32Load8S 3 9; I_I32Load8U 3 9; I_I32Load16S 3 9; I_I32Load16U 3 9;
     I_I64Load8S 3 9; I_I64Load8U 3 9; I_I64Load16S 3 9; I_I64Load16U 3 9; I_I64Load32S 3 9; I_I64Load32U 3 9;
     I_I32Store 3 9; I_I64Store 3 9; I_F32Store 3 9; I_F64Store 3 9; I_I32Store8 3 9; I_I32Store16 3 9; I_I64Store8 3 9; I_I64Store16 3 9; I_I64Store32 3 9]
  = map Some
    [(3, 4, T_I32); (3, 8, T_I64); (3, 4, T_F32); (3, 8, T_F64); (3, 1, T_I32); (3, 1, T_I32); (3, 2, T_I32); (3, 2, T_I32);
     (3, 1, T_I64); (3, 1, T_I64); (3, 2, T_I64); (3, 2, T_I64); (3, 4, T_I64); (3, 4, T_I64);
     (3, 4, T_I32); (3, 8, T_I64); (3, 4, T_F32); (3, 8, T_F64); (3, 1, T_I32); (3, 2, T_I32); (3, 1, T_I64); (3, 2, T_I64); (3, 4, T_I64)].
Proof. reflexivity. Qed.

(** C28.  The full statement is: if a function is well typed according to the official rules, it is accepted. *)
Theorem C28_typed_accepted_refuted : exists m, valid_module wasm10_validity m /\ validate m = VErr.
Proof. exact (ex_intro _ own_branch own_branch_refutes). Qed.
Print Assumptions C28_typed_accepted_refuted.
Theorem C28_typed_accepted_partial : forall c f t, func_type true true (tenv_of c) f t -> no_own_jump (fn_body f) ->
  exists cs, v_func f (c, empty_stacks) = VOk (t, cs).
Proof. exact c28. Qed.
Print Assumptions C28_typed_accepted_partial.
(** such branches are the only reason *)
Theorem C28_own_label_only : forall c f t, func_type true true (tenv_of c) f t ->
  ((exists cs, v_func f (c, empty_stacks) = VOk (t, cs)) <-> no_own_jump (fn_body f)).
Proof. exact c28_only_own_jumps. Qed.
Print Assumptions C28_own_label_only.
Example C28_example : ~ no_own_jump [I_Block [] [I_Loop [] [I_Br 2]]] /\ no_own_jump [I_Block [] [I_Loop [] [I_Br 1]]].
Proof. exact own_jump_example. Qed.

(** C29 *)
Theorem C29_validate_total : forall m, (exists mt, validate m = VOk mt) \/ validate m = VErr.
Proof. exact validate_total. Qed.
Print Assumptions C29_validate_total.
(** the arithmetic on labels is exact on 64-bit hosts, so the model of label lookup is faithful there *)
Theorem C29_label_64_bits : forall checks s i, i < 2 ^ 32 -> N.of_nat (length (frames s)) < 2 ^ 63 ->
  v_labelidx s i = (slot <-- label_slot checks 64 i (N.of_nat (length (frames s))) ;;
                    match nth_error (rev (frames s)) (N.to_nat slot) with Some fr => VOk fr | None => VPanic end).
Proof. exact v_labelidx_slot. Qed.
Print Assumptions C29_label_64_bits.
(** but not on 32-bit hosts: [br 4294967295] panics, with and without overflow checks, and only that label does *)
Theorem C29_label_32_bits_refuted : exists i, i < 2 ^ 32 /\
  forall checks len, 0 < len < 2 ^ 32 -> label_slot checks 32 i len = VPanic.
Proof. exact label_32_refutes. Qed.
Print Assumptions C29_label_32_bits_refuted.
Theorem C29_label_32_bits_partial : forall checks i len, i < 2 ^ 32 -> 0 < len < 2 ^ 32 ->
  (label_slot checks 32 i len = VPanic <-> i = 2 ^ 32 - 1).
Proof. exact label_slot_32. Qed.
Print Assumptions C29_label_32_bits_partial.
Example C29_example : validate (one_func [] [I_Else; I_End; I_End; I_Br 4294967295; I_Drop]) = VErr
  /\ label_slot true 32 4294967295 1 = VPanic /\ label_slot true 32 1 3 = VOk 1.
Proof. repeat split; vm_compute; reflexivity. Qed.

(** C30 *)
Theorem C30_no_dangling_index : forall m, accepted m -> no_dangling m.
Proof. exact accepted_no_dangling. Qed.
Print Assumptions C30_no_dangling_index.
Example C30_example : accepted sample_valid /\ ~ accepted (with_exports sample_valid [mkExport [] (ED_Func 2)]).
Proof. exact sample_valid_accepted. Qed.

Example C30_example_jumps : jumps_inside [I_Block [] [I_Br 0; I_Loop [] [I_Br 1]]] /\ ~ jumps_inside [I_Br 0] /\ ~ jumps_inside [I_Block [] [I_BrTable [0] 1]].
Proof. exact jumps_out. Qed.

(** C31 *)
Theorem C31_external_types : forall m mt, validate m = VOk mt ->
  exists fts, func_space m fts /\
    Forall2 (import_type (module_env m fts)) (m_imports m) (map ext_of (mt_imports mt)) /\
    Forall2 (export_type (module_env m fts)) (m_exports m) (map ext_of (mt_exports mt)).
Proof. exact validate_externals. Qed.
Print Assumptions C31_external_types.
Example C31_example : validate sample_valid = VOk (mkModuleTypes
  [X_Global (mkGlobalTy Const T_I32); X_Func (mkFuncTy [T_F64] []); X_Global (mkGlobalTy Var T_I64)]
  [X_Func (mkFuncTy [] [T_I64]); X_Func (mkFuncTy [T_F64] []); X_Global (mkGlobalTy Var T_F32)]).
Proof. vm_compute. reflexivity. Qed.

(** C32 *)
Theorem C32_export_names_unique : forall m, accepted m -> NoDup (map ex_name (m_exports m)).
Proof. exact export_names_unique. Qed.
Print Assumptions C32_export_names_unique.
Theorem C32_export_renaming : forall m exs', map ex_desc exs' = map ex_desc (m_exports m) -> accepted m ->
  (accepted (with_exports m exs') <-> NoDup (map ex_name exs')).
Proof. exact export_renaming. Qed.
Print Assumptions C32_export_renaming.
Example C32_example :
  accepted (with_exports sample_valid [mkExport [x61] (ED_Func 0); mkExport [x61; x00] (ED_Func 0)])
  /\ validate (with_exports sample_valid [mkExport [x62] (ED_Func 0); mkExport [x61] (ED_Global 0); mkExport [x62] (ED_Func 1)]) = VErr.
Proof. split; [eexists|]; vm_compute; reflexivity. Qed.

(** C33 *)
Theorem C33_start_type : forall m s, accepted (with_start m (Some s)) <->
  accepted (with_start m None) /\ exists fts, func_space m fts /\ at_index fts (st_func s) (mkFuncTy [] []).
Proof. exact start_iff. Qed.
Print Assumptions C33_start_type.
Example C33_example : accepted (with_start (one_func [] []) (Some (mkStart 0)))
  /\ validate (with_start (one_func [T_I32] [I_ConstI32 0%Z]) (Some (mkStart 0))) = VErr
  /\ validate (with_start (one_func [] []) (Some (mkStart 1))) = VErr.
Proof. split; [eexists|split]; vm_compute; reflexivity. Qed.

(** C34.  The full statement is: a table type is accepted exactly when [limits_ok (2 ^ 32)], a memory type exactly
    when [limits_ok (2 ^ 16)]. *)
Theorem C34_table_limits : forall t, Forall (fun n => n < 2 ^ 32) (limits_u32s (tt_lim t)) ->
  (v_tablety t = VOk tt <-> limits_ok (2 ^ 32) (tt_lim t)).
Proof. exact table_limits. Qed.
Print Assumptions C34_table_limits.
Theorem C34_memory_limits_refuted : exists l, limits_ok (2 ^ 16) l /\ v_memty (mkMemTy l) = VErr.
Proof. exact (ex_intro _ all_pages all_pages_refutes). Qed.
Print Assumptions C34_memory_limits_refuted.
Theorem C34_memory_limits_partial : forall t, v_memty t = VOk tt <-> limits_ok (2 ^ 16 - 1) (mt_lim t).
Proof. exact v_memty_iff. Qed.
Print Assumptions C34_memory_limits_partial.
Example C34_example : v_memty (mkMemTy (mkLimits 65535 (Some 65535))) = VOk tt /\ v_memty (mkMemTy (mkLimits 3 (Some 2))) = VErr
  /\ v_tablety (mkTableTy (mkLimits 4294967295 None) FuncRef) = VOk tt.
Proof. repeat split; vm_compute; reflexivity. Qed.

(** C35.  The full statement is: an accepted module has at most one table and at most one memory. *)
Theorem C35_one_table_memory_refuted : exists m, accepted m /\ length (table_space m) = 2%nat /\ length (mem_space m) = 2%nat.
Proof. exact (ex_intro _ (many 1) (many_refutes 1)). Qed.
Print Assumptions C35_one_table_memory_refuted.
Theorem C35_any_number : forall n, exists m, accepted m /\ length (table_space m) = S n /\ length (mem_space m) = S n.
Proof. exact (fun n => ex_intro _ (many n) (many_refutes n)). Qed.
Print Assumptions C35_any_number.
Theorem C35_one_table_memory_partial : forall m, accepted m -> (length (m_tables m) <= 1)%nat /\ (length (m_mems m) <= 1)%nat.
Proof. exact one_table_mem. Qed.
Print Assumptions C35_one_table_memory_partial.
Example C35_example : accepted (many 2) /\
  validate (mkModule [] [] [] [mkMem (mkMemTy page); mkMem (mkMemTy page)] [] [] [] None [] []) = VErr.
Proof. split; [eexists|]; vm_compute; reflexivity. Qed.

(** C36.  The full statement is: the initialiser of a global of an accepted module is a constant expression of the
    global's type over the imported globals. *)
Theorem C36_global_init_refuted : exists m mt g, validate m = VOk mt /\ In g (m_globals m) /\
  ~ init_ok (globals_env (imported_globals (m_imports m))) (glob_init g) (gt_val (glob_ty g)).
Proof. exact (ex_intro _ self_init self_init_refutes). Qed.
Print Assumptions C36_global_init_refuted.
Theorem C36_imported_global_refuted : exists m, valid_module wasm10_validity m /\
  (forall f, In f (m_funcs m) -> no_own_jump (fn_body f)) /\ limits_u32 m /\ small_memories m /\ validate m = VErr.
Proof. exact (ex_intro _ imported_init imported_init_refutes'). Qed.
Print Assumptions C36_imported_global_refuted.
Theorem C36_global_init_partial : forall m g, accepted m -> In g (m_globals m) ->
  init_ok (globals_env (map glob_ty (m_globals m))) (glob_init g) (gt_val (glob_ty g)) /\
  (no_global_get (glob_init g) -> init_ok (globals_env (imported_globals (m_imports m))) (glob_init g) (gt_val (glob_ty g))).
Proof. exact global_init. Qed.
Print Assumptions C36_global_init_partial.
Example C36_example : validate (mkModule [] [] [] [] [mkGlobal (mkGlobalTy Const T_I32) [I_ConstI32 1%Z; I_ConstI32 2%Z]] [] [] None [] []) = VErr
  /\ validate (mkModule [] [] [] [] [mkGlobal (mkGlobalTy Var T_I32) [I_GlobalGet 0]] [] [] None [] []) = VErr
  /\ accepted (mkModule [] [] [] [] [mkGlobal (mkGlobalTy Var T_I64) [I_ConstI64 (-5)%Z]] [] [] None [] []).
Proof. split; [|split; [|eexists]]; vm_compute; reflexivity. Qed.

(** C37 *)
Theorem C37_element_segments : forall m es, accepted (with_elem m es) <->
  accepted (with_elem m []) /\ exists fts, func_space m fts /\ Forall (elem_ok (module_env m fts)) es.
Proof. exact elem_iff. Qed.
Print Assumptions C37_element_segments.
Theorem C37_data_segments : forall m ds, accepted (with_data m ds) <->
  accepted (with_data m []) /\ exists fts, func_space m fts /\ Forall (data_ok (module_env m fts)) ds.
Proof. exact data_iff. Qed.
Print Assumptions C37_data_segments.
Example C37_example : accepted (with_data sample_valid [mkData 0 [I_GlobalGet 0] [x01]; mkData 0 [I_ConstI32 1%Z] []])
  /\ validate (with_data sample_valid [mkData 0 [I_GlobalGet 1] [x01]]) = VErr
  /\ validate (with_elem sample_valid [mkElem 0 [I_ConstI32 0%Z] [0; 2]]) = VErr.
Proof. split; [eexists|split]; vm_compute; reflexivity. Qed.

(** C38 *)
Theorem C38_functions_independent : forall m c fs, context_from m = VOk c ->
  ((exists r, v_each v_func fs (c, empty_stacks) = VOk r) <->
   Forall (fun f => exists t, v_func f (c, empty_stacks) = VOk (t, (c, empty_stacks))) fs).
Proof. exact funcs_independent. Qed.
Print Assumptions C38_functions_independent.
(** modules that agree but for code: mixing their functions *)
Theorem C38_functions_mix : forall m fs gs, map fn_ty fs = map fn_ty (m_funcs m) -> map fn_ty gs = map fn_ty (m_funcs m) ->
  accepted (with_funcs m fs) -> accepted (with_funcs m gs) ->
  forall hs, map fn_ty hs = map fn_ty (m_funcs m) -> (forall h, In h hs -> In h fs \/ In h gs) -> accepted (with_funcs m hs).
Proof. exact funcs_mix. Qed.
Print Assumptions C38_functions_mix.
(** modules that agree but for the contents of functions, globals and segments: mixing these *)
Theorem C38_contents_mix : forall m fs gs es ds fs' gs' es' ds',
  map fn_ty fs = map fn_ty (m_funcs m) -> map fn_ty fs' = map fn_ty (m_funcs m) ->
  map glob_ty gs = map glob_ty (m_globals m) -> map glob_ty gs' = map glob_ty (m_globals m) ->
  accepted (with_contents m fs gs es ds) -> accepted (with_contents m fs' gs' es' ds') ->
  forall fs2 gs2 es2 ds2, map fn_ty fs2 = map fn_ty (m_funcs m) -> map glob_ty gs2 = map glob_ty (m_globals m) ->
  (forall x, In x fs2 -> In x fs \/ In x fs') -> (forall x, In x gs2 -> In x gs \/ In x gs') ->
  (forall x, In x es2 -> In x es \/ In x es') -> (forall x, In x ds2 -> In x ds \/ In x ds') ->
  accepted (with_contents m fs2 gs2 es2 ds2).
Proof. exact contents_mix. Qed.
Print Assumptions C38_contents_mix.
Theorem C38_segment_order :
  (forall m es, Permutation (m_elem m) es -> forall mt, validate m = VOk mt <-> validate (with_elem m es) = VOk mt) /\
  (forall m ds, Permutation (m_data m) ds -> forall mt, validate m = VOk mt <-> validate (with_data m ds) = VOk mt).
Proof. exact (conj elem_permutation data_permutation). Qed.
Print Assumptions C38_segment_order.
(** the locals of the first function are not visible in the second *)
Example C38_example : validate (mkModule [mkFuncTy [] []] [mkFunc 0 [T_I32] [I_LocalGet 0; I_Drop]; mkFunc 0 [] [I_LocalGet 0; I_Drop]] [] [] [] [] [] None [] []) = VErr
  /\ accepted (mkModule [mkFuncTy [] []] [mkFunc 0 [T_I32] [I_LocalGet 0; I_Drop; I_Unreachable]; mkFunc 0 [] []] [] [] [] [] [] None [] []).
Proof. split; [|eexists]; vm_compute; reflexivity. Qed.

(** C39 *)
Theorem C39_global_set_mutable : forall m f x, accepted m -> In f (m_funcs m) -> occurs (I_GlobalSet x) (fn_body f) ->
  exists g, at_index (global_space m) x g /\ gt_mut g = Var.
Proof. exact global_set_mutable. Qed.
Print Assumptions C39_global_set_mutable.
Theorem C39_no_global_set_in_init : forall m e x, accepted m -> In e (init_exprs m) -> ~ occurs (I_GlobalSet x) e.
Proof. exact init_no_set. Qed.
Print Assumptions C39_no_global_set_in_init.
(** dead code is checked too *)
Example C39_example : let m b := mkModule [mkFuncTy [] []] [mkFunc 0 [] b] [] [] [mkGlobal (mkGlobalTy Const T_I32) [I_ConstI32 1%Z]] [] [] None
                                   [mkImport [] [] (ID_Global (mkGlobalTy Var T_I32))] [] in
  accepted (m [I_Unreachable; I_Block [] [I_ConstI32 2%Z; I_GlobalSet 0]])
  /\ validate (m [I_Unreachable; I_Block [] [I_ConstI32 2%Z; I_GlobalSet 1]]) = VErr.
Proof. split; [eexists|]; vm_compute; reflexivity. Qed.

(** C40 *)
Theorem C40_validation_exact : forall m, (forall f, In f (m_funcs m) -> no_pseudo (fn_body f)) ->
  (accepted m <-> valid_module whasm_validity m).
Proof. exact c40_iff. Qed.
Print Assumptions C40_validation_exact.
Theorem C40_accepted_official : forall m, accepted m ->
  (forall f, In f (m_funcs m) -> no_pseudo (fn_body f) /\ natural_alignment (fn_body f)) ->
  (forall g, In g (m_globals m) -> no_global_get (glob_init g)) ->
  (length (table_space m) <= 1)%nat -> (length (mem_space m) <= 1)%nat ->
  valid_module wasm10_validity m.
Proof. exact c40_sound. Qed.
Print Assumptions C40_accepted_official.
Theorem C40_official_accepted : forall m, valid_module wasm10_validity m ->
  (forall f, In f (m_funcs m) -> no_own_jump (fn_body f)) ->
  (forall g, In g (m_globals m) -> no_global_get (glob_init g)) ->
  limits_u32 m -> small_memories m ->
  accepted m.
Proof. exact c40_complete. Qed.
Print Assumptions C40_official_accepted.
Example C40_example : valid_module wasm10_validity sample_valid.
Proof. exact sample_valid_official. Qed.

(** C41.  The full statement is: a module with [End] or [Else] in an expression is rejected. *)
Theorem C41_no_stray_end : forall m e, accepted m -> In e (module_exprs m) -> ~ occurs I_End e.
Proof. exact no_end. Qed.
Print Assumptions C41_no_stray_end.
Theorem C41_stray_else_refuted : exists m mt f, validate m = VOk mt /\ In f (m_funcs m) /\ occurs I_Else (fn_body f).
Proof. exact (ex_intro _ stray_else stray_else_refutes). Qed.
Print Assumptions C41_stray_else_refuted.
Theorem C41_stray_else_partial : forall m e, accepted m -> In e (init_exprs m) -> ~ occurs I_Else e.
Proof. exact no_else_in_init. Qed.
Print Assumptions C41_stray_else_partial.
Example C41_example : validate (one_func [] [I_End]) = VErr /\ validate (one_func [] [I_End; I_Unreachable; I_End]) = VErr
  /\ validate (one_func [] [I_Block [] [I_End]; I_Nop]) = VErr.
Proof. repeat split; vm_compute; reflexivity. Qed.
