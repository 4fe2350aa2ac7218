(** Property theorems C92: a block to which no branch goes can be dissolved. *)
From Verif Require Import SpecDissolve SpecVerdict SpecExec ParserModule DissolveProof ExecDemo.
Open Scope N_scope.

(** C92: code in which the code of a block is in the place of the block, with the labels outside one closer, is valid if it was valid with the block ... *)
Theorem C92_official : forall m fs ty locals p rt b gs, never_left b ->
  valid_module wasm10_validity (with_body m fs ty locals (put p [I_Block rt b]) gs) ->
  valid_module wasm10_validity (with_body m fs ty locals (put p (map (freed 0) b)) gs).
Proof. exact dissolve_official. Qed.
Print Assumptions C92_official.
(** ... and accepted if it was accepted *)
Theorem C92_accepted : forall m fs ty locals p rt b gs, let before := with_body m fs ty locals (put p [I_Block rt b]) gs in
  (forall f, In f (m_funcs before) -> no_pseudo (fn_body f)) -> never_left b -> accepted before ->
  accepted (with_body m fs ty locals (put p (map (freed 0) b)) gs).
Proof. exact dissolve_accepted. Qed.
Print Assumptions C92_accepted.
(** Every call that ends, ends the same without the block, with the same fuel *)
Theorem C92_same : forall m fs ty locals p rt b gs, never_left b ->
  let before := with_body m fs ty locals (put p [I_Block rt b]) gs in
  let after := with_body m fs ty locals (put p (map (freed 0) b)) gs in
  forall (M : machine) fts (imported others : list (finst M)) fuel a args st,
  let r := invoke M (m_types m) (instance_funcs before fts imported others) fuel a args st in r <> R_Stuck -> r <> R_Fuel ->
  invoke M (m_types m) (instance_funcs after fts imported others) fuel a args st = r.
Proof. exact dissolve_same. Qed.
Print Assumptions C92_same.
(** A call that ends without the block ends with it, the same or stuck, with at most twice the fuel and one more *)
Theorem C92_back : forall m fs ty locals p rt b gs, never_left b ->
  let before := with_body m fs ty locals (put p [I_Block rt b]) gs in
  let after := with_body m fs ty locals (put p (map (freed 0) b)) gs in
  forall (M : machine) fts (imported others : list (finst M)) fuel a args st,
  let r := invoke M (m_types m) (instance_funcs after fts imported others) fuel a args st in r <> R_Fuel ->
  let fuel' := (1 + 2 * fuel)%nat in
  invoke M (m_types m) (instance_funcs before fts imported others) fuel' a args st = r \/
  invoke M (m_types m) (instance_funcs before fts imported others) fuel' a args st = R_Stuck.
Proof. exact dissolve_back. Qed.
Print Assumptions C92_back.
(** Instantiating does the same *)
Theorem C92_instantiates : forall m fs ty locals p rt b gs, never_left b ->
  let before := with_body m fs ty locals (put p [I_Block rt b]) gs in
  let after := with_body m fs ty locals (put p (map (freed 0) b)) gs in
  forall (M : machine) fts (imported others : list (finst M)) imp fuel,
  let r := instantiate before imp (instance_funcs before fts imported others) fuel in r <> Inst_Stuck -> r <> Inst_Fuel ->
  instantiate after imp (instance_funcs after fts imported others) fuel = r.
Proof. exact dissolve_instantiates. Qed.
Print Assumptions C92_instantiates.
(** So the calls of functions of an accepted module end with and without the block with the same results, and the same of them do not end *)
Theorem C92_runs : forall m fs ty locals p rt b gs, never_left b ->
  let before := with_body m fs ty locals (put p [I_Block rt b]) gs in
  let after := with_body m fs ty locals (put p (map (freed 0) b)) gs in
  (forall f, In f (m_funcs before) -> no_pseudo (fn_body f)) -> accepted before ->
  exists fts, func_space before fts /\ func_space after fts /\ forall M imported others st, machine_ok M ->
    let fs1 := instance_funcs before fts imported others in
    let fs2 := instance_funcs after fts imported others in
    let C := module_env before fts in
    map finst_type imported = firstn (length (imported_funcs (m_imports m))) fts ->
    Forall (host_ok C (length fs1)) imported -> Forall (host_ok C (length fs1)) others -> store_ok C (length fs1) st ->
    forall a f args r, nth_error fs1 a = Some f -> map type_of args = ft_params (finst_type f) -> r <> R_Fuel ->
      (exists fuel, invoke M (m_types m) fs1 fuel a args st = r) <-> (exists fuel, invoke M (m_types m) fs2 fuel a args st = r).
Proof. exact dissolve_runs. Qed.
Print Assumptions C92_runs.

(** In a block with a 5 on its stack: the block [inner92] leaves the outer one with the argument if that is not 0, and otherwise gives 10, to which the 5
    is added *)
Definition inner92 : expr :=
  [I_LocalGet 0; I_LocalGet 0; I_BrIf 1; I_ConstI32 10%Z; I_I32Add; I_Block [] [I_Loop [] [I_ConstI32 7%Z; I_ConstI32 0%Z; I_BrIf 3; I_Drop; I_Br 1]]].
Definition outer92 : place := P_block [] [T_I32] (P_at [I_ConstI32 5%Z] [I_I32Add]) [].
Definition around92 (e : expr) : module := with_body {| m_types := [mkFuncTy [T_I32] [T_I32]]; m_funcs := []; m_tables := []; m_mems := []; m_globals := [];
  m_elem := []; m_data := []; m_start := None; m_imports := []; m_exports := [] |} [] 0 [] (put outer92 e) [].
Definition verdict92 (m : module) : bool := match validate m with VOk _ => true | _ => false end.
Definition run92 (m : module) (a : N) : option (list value * list (list N)) :=
  seen_run (invoke demo_machine (m_types m) (instance_funcs m [mkFuncTy [T_I32] [T_I32]] [] []) 30 0 [mkValue T_I32 a] empty_store).
Example C92_example : existsb (goes_to 0) inner92 = false /\
  map (freed 0) inner92 =
    [I_LocalGet 0; I_LocalGet 0; I_BrIf 0; I_ConstI32 10%Z; I_I32Add; I_Block [] [I_Loop [] [I_ConstI32 7%Z; I_ConstI32 0%Z; I_BrIf 2; I_Drop; I_Br 1]]] /\
  verdict92 (around92 [I_Block [T_I32] inner92]) = true /\ verdict92 (around92 (map (freed 0) inner92)) = true /\
  run92 (around92 [I_Block [T_I32] inner92]) 0 = Some ([mkValue T_I32 15], []) /\ run92 (around92 (map (freed 0) inner92)) 0 = Some ([mkValue T_I32 15], []) /\
  run92 (around92 [I_Block [T_I32] inner92]) 2 = Some ([mkValue T_I32 2], []) /\ run92 (around92 (map (freed 0) inner92)) 2 = Some ([mkValue T_I32 2], []).
Proof. repeat split; vm_compute; reflexivity. Qed.
(** A table of branches *)
Example C92_example_table : map (freed 1) [I_BrTable [0; 2; 5] 3; I_Br 0] = [I_BrTable [0; 1; 4] 2; I_Br 0] /\
  goes_to 1 (I_BrTable [0; 2; 5] 1) = true /\ goes_to 1 (I_BrTable [0; 1; 5] 3) = true /\ goes_to 1 (I_Loop [] [I_Br 2]) = true /\ goes_to 1 (I_Loop [] [I_Br 1]) = false.
Proof. repeat split; reflexivity. Qed.
(** Wrong ways: a branch to the block then goes to the block around it; labels that stay do not fit; and the block cannot always be put back, as its code
    may use what is on the stack around it *)
Example C92_example_wrong :
  let leaves := [I_ConstI32 1%Z; I_Br 0] in
  let uses := [I_Drop; I_ConstI32 1%Z; I_ConstI32 2%Z] in
  existsb (goes_to 0) leaves = true /\ run92 (around92 [I_Block [T_I32] leaves]) 0 = Some ([mkValue T_I32 6], []) /\
  verdict92 (around92 (map (freed 0) leaves)) = true /\ run92 (around92 (map (freed 0) leaves)) 0 = Some ([mkValue T_I32 1], []) /\
  verdict92 (around92 inner92) = false /\
  existsb (goes_to 0) uses = false /\ verdict92 (around92 (map (freed 0) uses)) = true /\ verdict92 (around92 [I_Block [T_I32; T_I32] uses]) = false /\
  run92 (around92 (map (freed 0) uses)) 0 = Some ([mkValue T_I32 3], []) /\ run92 (around92 [I_Block [T_I32; T_I32] uses]) 0 = None.
Proof. repeat split; vm_compute; reflexivity. Qed.
