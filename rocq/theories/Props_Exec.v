(** Property theorems C47-C48: what acceptance means for execution. *)
From Verif Require Import SpecExec SpecDeviations SpecVerdict SpecEdit ParserModule InstProof ExecDemo.
Open Scope N_scope.

(** C47: calling any function of an instance of an accepted file, in any store that fits the module, gives results
    of the function's type, traps or does not end *)
Theorem C47_files_safe : forall bs m, p_module bs = (Ok m, []) -> accepted m ->
  exists fts, func_space m fts /\ forall M imported others st, machine_ok M ->
    let fs := instance_funcs m fts imported others in
    let C := module_env m fts in
    map finst_type imported = firstn (length (imported_funcs (m_imports m))) fts ->
    Forall (host_ok C (length fs)) imported -> Forall (host_ok C (length fs)) others ->
    store_ok C (length fs) st -> safe_call (M:=M) C (m_types m) fs st.
Proof. exact file_safe. Qed.
Print Assumptions C47_files_safe.
(** the same for module values without pseudo instructions *)
Theorem C47_values_safe : forall m, accepted m -> (forall f, In f (m_funcs m) -> no_pseudo (fn_body f)) ->
  exists fts, func_space m fts /\ forall M imported others st, machine_ok M ->
    let fs := instance_funcs m fts imported others in
    let C := module_env m fts in
    map finst_type imported = firstn (length (imported_funcs (m_imports m))) fts ->
    Forall (host_ok C (length fs)) imported -> Forall (host_ok C (length fs)) others ->
    store_ok C (length fs) st -> safe_call (M:=M) C (m_types m) fs st.
Proof. exact accepted_safe. Qed.
Print Assumptions C47_values_safe.
(** which is needed: an accepted value with a stray [Else] *)
Theorem C47_pseudo_stuck : exists m f, accepted m /\ In f (m_funcs m) /\
  forall M fs st, exec M (m_types m) fs 5 [] [] (I_Block [T_I32] (fn_body f)) (mkConf [] [] st) = R_Stuck \/ mach_num M (I_ConstI32 1%Z) [] = None.
Proof. exact stray_else_stuck. Qed.
Print Assumptions C47_pseudo_stuck.
(** a machine as required exists, programs run on it, and rejected code does get stuck *)
Example C47_example_machine : machine_ok demo_machine.
Proof. exact demo_machine_ok. Qed.
Example C47_example_run : accepted fac_module /\
  seen_run (invoke demo_machine (m_types fac_module) fac_funcs 40 1 [mkValue T_I32 6] fac_store) =
    Some ([mkValue T_I32 720], [[0; 0; 0; 106; 0; 0; 0; 0; 0; 0; 0; 0; 0; 0; 0; 0]]).
Proof. split; [eexists|]; vm_compute; reflexivity. Qed.
Example C47_example_stuck :
  map bad_call [[I_I32Add]; [I_ConstI64 1%Z]; [I_ConstI32 1%Z; I_LocalSet 0]; [I_Br 3]; [I_ConstI32 1%Z; I_ConstI32 1%Z]; [I_ConstI32 0%Z; I_I32Load 2 0]; [I_Call 1]]
  = repeat true 7.
Proof. vm_compute. reflexivity. Qed.
(** what is not safe: getting stuck, assigning an immutable global, and spoiling the store *)
Example C47_example_unsafe :
  ~ safe_call one_env [] [@F_Wasm demo_machine (mkFuncTy [] []) (mkFunc 0 [] [I_Drop])] one_global /\
  ~ safe_call one_env [] [@F_Wasm demo_machine (mkFuncTy [] []) (mkFunc 0 [] [I_ConstI32 2%Z; I_GlobalSet 0])] one_global /\
  ~ safe_call one_env [] [host (fun _ => mkStore [] [] [])] one_global /\
  ~ safe_call one_env [] [host (fun _ => mkStore [mkValue T_I64 1] [] [])] one_global /\
  safe_call one_env [] [host (fun st => st)] one_global.
Proof. exact unsafe_calls. Qed.

(** C48; full statement: that of the partial theorem without its hypothesis on initialisers; false *)
Theorem C48_instantiate_refuted : exists m, accepted m /\ (forall f, In f (m_funcs m) -> no_pseudo (fn_body f)) /\
  forall M n (imp : store M) fs fuel, imports_fit m n imp -> instantiate m imp fs fuel = Inst_Stuck.
Proof. exact self_init_stuck. Qed.
Print Assumptions C48_instantiate_refuted.
Theorem C48_instantiate_partial : forall m, accepted m -> (forall f, In f (m_funcs m) -> no_pseudo (fn_body f)) ->
  inits_fit m ->
  exists fts, func_space m fts /\ forall M imported others imp fuel, machine_ok M ->
    let fs := instance_funcs m fts imported others in
    let C := module_env m fts in
    map finst_type imported = firstn (length (imported_funcs (m_imports m))) fts ->
    Forall (host_ok C (length fs)) imported -> Forall (host_ok C (length fs)) others ->
    imports_fit (M:=M) m (length fs) imp ->
    match instantiate m imp fs fuel with
    | Inst_Ok st => store_ok C (length fs) st
    | Inst_Fail | Inst_Fuel => True
    | Inst_Stuck => False
    end.
Proof. exact accepted_instantiates. Qed.
Print Assumptions C48_instantiate_partial.
(** in particular for accepted files that are valid by the specification *)
Theorem C48_official : forall bs m, p_module bs = (Ok m, []) -> accepted m -> valid_module wasm10_validity m ->
  exists fts, func_space m fts /\ forall M imported others imp fuel, machine_ok M ->
    let fs := instance_funcs m fts imported others in
    let C := module_env m fts in
    map finst_type imported = firstn (length (imported_funcs (m_imports m))) fts ->
    Forall (host_ok C (length fs)) imported -> Forall (host_ok C (length fs)) others ->
    imports_fit (M:=M) m (length fs) imp ->
    match instantiate m imp fs fuel with
    | Inst_Ok st => store_ok C (length fs) st
    | Inst_Fail | Inst_Fuel => True
    | Inst_Stuck => False
    end.
Proof. exact official_instantiates. Qed.
Print Assumptions C48_official.
(** an initialiser that reads a global that is not imported always gets stuck *)
Theorem C48_unfit_stuck : forall m g x M n (imp : store M) fs fuel, In g (m_globals m) -> glob_init g = [I_GlobalGet x] ->
  (length (imported_globals (m_imports m)) <= N.to_nat x)%nat -> imports_fit m n imp -> instantiate m imp fs fuel = Inst_Stuck.
Proof. exact unfit_init_stuck. Qed.
Print Assumptions C48_unfit_stuck.
(** an element segment changes the entries that it is for, and no table gets longer or shorter *)
Theorem C48_segments : forall tb v xs tb', write_elem tb v xs = Some tb' -> forall k,
  nth_error tb' k = match Nat.ltb k (N.to_nat (bits_of v)), nth_error xs (k - N.to_nat (bits_of v)) with
                    | false, Some x => Some (Some (N.to_nat x))
                    | _, _ => nth_error tb k
                    end.
Proof. exact segment_written. Qed.
Print Assumptions C48_segments.
Theorem C48_tables : forall M m (imp : store M) fs fuel st, m_start m = None -> instantiate m imp fs fuel = Inst_Ok st ->
  map (@length _) (s_tables st) = map (@length _) (s_tables imp) ++ map (fun t => N.to_nat (lim_min (tt_lim (tab_ty t)))) (m_tables m).
Proof. exact tables_sized. Qed.
Print Assumptions C48_tables.
(** element and data segments, globals and the start function *)
Example C48_example :
  seen_store (instantiate fac_module empty_store fac_funcs 30) =
    Some ([mkValue T_I32 120], [[None; None; Some 0%nat; Some 2%nat]], [[0; 0; 0; 100; 0; 0; 0; 0; 0; 0; 0; 0; 0; 0; 0; 0]]).
Proof. vm_compute. reflexivity. Qed.
(** machines on which arithmetic traps are covered *)
Example C47_example_trap : machine_ok trapping_machine /\
  mach_num trapping_machine I_I32DivS [mkValue T_I32 6; mkValue T_I32 3] = None /\
  match invoke trapping_machine [mkFuncTy [] []] [@F_Wasm trapping_machine (mkFuncTy [] []) (mkFunc 0 [] [I_ConstI32 6%Z; I_ConstI32 3%Z; I_I32DivS; I_Drop])] 9 0 []
    (mkStore [] [] []) with R_Trap => true | _ => false end = true.
Proof. split; [exact trapping_machine_ok|]. split; [reflexivity|vm_compute; reflexivity]. Qed.
(** an initialiser has one value *)
Example C48_example_init : map (eval_init (M := demo_machine) (mkStore [mkValue T_I64 5] [] []))
    [[]; [I_ConstI32 1%Z]; [I_ConstI32 1%Z; I_ConstI32 2%Z]; [I_GlobalGet 0]; [I_GlobalGet 1]; [I_Unreachable]]
  = [None; Some (mkValue T_I32 1); None; Some (mkValue T_I64 5); None; None].
Proof. vm_compute. reflexivity. Qed.
