(** Property theorems C89: a call can be replaced by the body of the function that is called. *)
From Verif Require Import SpecInline SpecVerdict SpecExec ParserModule InlineProof InlineExecProof ExecDemo.
Open Scope N_scope.

(** C89: replacing a call of a function of the module by its body, wherever the call is, keeps an officially valid module valid ... *)
Theorem C89_official : forall m fs ty locals p gs x t g ft,
  let before := with_body m fs ty locals (put p [I_Call x]) gs in
  own_func before x t g -> at_index (m_types m) ty ft -> valid_module wasm10_validity before ->
  valid_module wasm10_validity (with_body m fs ty (locals ++ ft_params t ++ fn_locals g)
    (put p (inlined (N.of_nat (length (ft_params ft) + length locals)) t g)) gs).
Proof. exact inline_official. Qed.
Print Assumptions C89_official.
(** ... and an accepted one accepted *)
Theorem C89_accepted : forall m fs ty locals p gs x t g ft,
  let before := with_body m fs ty locals (put p [I_Call x]) gs in
  (forall f, In f (m_funcs before) -> no_pseudo (fn_body f)) ->
  own_func before x t g -> at_index (m_types m) ty ft -> accepted before ->
  accepted (with_body m fs ty (locals ++ ft_params t ++ fn_locals g)
    (put p (inlined (N.of_nat (length (ft_params ft) + length locals)) t g)) gs).
Proof. exact inline_accepted. Qed.
Print Assumptions C89_accepted.
(** with the variables already there, and the function called still being there, exactly the same is accepted *)
Theorem C89_exactly : forall m fs ty pre p gs x t g ft,
  let locals := pre ++ ft_params t ++ fn_locals g in
  let with_code e := with_body m fs ty locals (put p e) gs in
  (forall f, In f (m_funcs (with_code [])) -> no_pseudo (fn_body f)) ->
  own_func (with_code [I_Call x]) x t g -> In g (fs ++ gs) -> at_index (m_types m) ty ft ->
  (accepted (with_code [I_Call x]) <-> accepted (with_code (inlined (N.of_nat (length (ft_params ft) + length pre)) t g))).
Proof. exact inline_iff. Qed.
Print Assumptions C89_exactly.
(** Every call of every function does the same afterwards, with the same fuel, unless it got stuck before *)
Theorem C89_same : forall m fs ty locals p gs x t g ft (M : machine) fts (imported others : list (finst M)) fuel a args st,
  let before := with_body m fs ty locals (put p [I_Call x]) gs in
  let after := with_body m fs ty (locals ++ ft_params t ++ fn_locals g)
                 (put p (inlined (N.of_nat (length (ft_params ft) + length locals)) t g)) gs in
  own_func before x t g -> at_index (m_types m) ty ft ->
  knows_zero M ->
  func_space before fts -> length imported = length (imported_funcs (m_imports m)) ->
  invoke M (m_types m) (instance_funcs before fts imported others) fuel a args st <> R_Stuck ->
  invoke M (m_types m) (instance_funcs after fts imported others) fuel a args st =
    invoke M (m_types m) (instance_funcs before fts imported others) fuel a args st.
Proof. exact inline_same. Qed.
Print Assumptions C89_same.
(** and so does instantiating the module, which may call its start function *)
Theorem C89_instantiates : forall m fs ty locals p gs x t g ft (M : machine) fts (imported others : list (finst M)) imp fuel,
  let before := with_body m fs ty locals (put p [I_Call x]) gs in
  let after := with_body m fs ty (locals ++ ft_params t ++ fn_locals g)
                 (put p (inlined (N.of_nat (length (ft_params ft) + length locals)) t g)) gs in
  own_func before x t g -> at_index (m_types m) ty ft ->
  knows_zero M ->
  func_space before fts -> length imported = length (imported_funcs (m_imports m)) ->
  instantiate before imp (instance_funcs before fts imported others) fuel <> Inst_Stuck ->
  instantiate after imp (instance_funcs after fts imported others) fuel = instantiate before imp (instance_funcs before fts imported others) fuel.
Proof. exact inline_instantiates. Qed.
Print Assumptions C89_instantiates.
(** No call of an instance of an accepted module gets stuck *)
Theorem C89_runs : forall m fs ty locals p gs x t g ft,
  let before := with_body m fs ty locals (put p [I_Call x]) gs in
  let after := with_body m fs ty (locals ++ ft_params t ++ fn_locals g)
                 (put p (inlined (N.of_nat (length (ft_params ft) + length locals)) t g)) gs in
  own_func before x t g -> at_index (m_types m) ty ft ->
  (forall f, In f (m_funcs before) -> no_pseudo (fn_body f)) -> accepted before ->
  exists fts, func_space before fts /\ func_space after fts /\ forall M imported others st, machine_ok M ->
    knows_zero M ->
    let fs1 := instance_funcs before fts imported others in
    let fs2 := instance_funcs after fts imported others in
    let C := module_env before fts in
    map finst_type imported = firstn (length (imported_funcs (m_imports m))) fts ->
    Forall (host_ok C (length fs1)) imported -> Forall (host_ok C (length fs1)) others -> store_ok C (length fs1) st ->
    forall fuel a f args, nth_error fs1 a = Some f -> map type_of args = ft_params (finst_type f) ->
      invoke M (m_types m) fs2 fuel a args st = invoke M (m_types m) fs1 fuel a args st.
Proof. exact inline_runs. Qed.
Print Assumptions C89_runs.

(** The function called: a - b if a is not 0, which is returned from inside of a block, and otherwise b + 5, by way of a variable of its own *)
Definition callee_type : functy := mkFuncTy [T_I32; T_I32] [T_I32].
Definition callee : func := mkFunc 0 [T_I32]
  [I_LocalGet 0; I_If [] [I_LocalGet 0; I_LocalGet 1; I_I32Sub; I_Return] [];
   I_LocalGet 2; I_LocalGet 1; I_I32Add; I_ConstI32 5%Z; I_I32Add; I_LocalTee 2].
(** Its caller calls it in a loop, as often as the argument says, each time with 0 and the result of the time before *)
Definition caller_place : place :=
  P_loop [] [] (P_at [I_ConstI32 0%Z; I_LocalGet 1] [I_LocalSet 1; I_LocalGet 0; I_ConstI32 1%Z; I_I32Sub; I_LocalTee 0; I_BrIf 0]) [I_LocalGet 1].
Definition around : module := {| m_types := [callee_type; mkFuncTy [T_I32] [T_I32]]; m_funcs := []; m_tables := []; m_mems := []; m_globals := [];
  m_elem := []; m_data := []; m_start := None; m_imports := []; m_exports := [] |}.
Definition calling (locals : list valty) (e : expr) : module := with_body around [callee] 1 locals (put caller_place e) [].
Definition verdict (m : module) : bool := match validate m with VOk _ => true | _ => false end.
Definition fts89 : list functy := [callee_type; mkFuncTy [T_I32] [T_I32]].
Definition run89 (m : module) (a : nat) (args : list N) : option (list value * list (list N)) :=
  seen_run (invoke demo_machine (m_types m) (instance_funcs m fts89 [] []) 30 a (map (mkValue T_I32) args) empty_store).

Example C89_example_code : inlined 2 callee_type callee =
  [I_LocalSet 3; I_LocalSet 2; I_ConstI32 0%Z; I_LocalSet 4;
   I_Block [T_I32]
     [I_LocalGet 2; I_If [] [I_LocalGet 2; I_LocalGet 3; I_I32Sub; I_Br 1] [];
      I_LocalGet 4; I_LocalGet 3; I_I32Add; I_ConstI32 5%Z; I_I32Add; I_LocalTee 4]].
Proof. reflexivity. Qed.
Example C89_example_own : own_func (calling [T_I32] [I_Call 0]) 0 callee_type callee.
Proof. exists 0%nat. repeat split; reflexivity. Qed.
Example C89_example_machine : knows_zero demo_machine.
Proof. split; reflexivity. Qed.
Example C89_example_accepted : verdict (calling [T_I32] [I_Call 0]) = true /\
  verdict (calling [T_I32; T_I32; T_I32; T_I32] (inlined 2 callee_type callee)) = true.
Proof. split; vm_compute; reflexivity. Qed.
Example C89_example_runs : run89 (calling [T_I32] [I_Call 0]) 0 [9; 2] = Some ([mkValue T_I32 7], []) /\
  run89 (calling [T_I32] [I_Call 0]) 1 [3] = Some ([mkValue T_I32 15], []) /\
  run89 (calling [T_I32; T_I32; T_I32; T_I32] (inlined 2 callee_type callee)) 1 [3] = Some ([mkValue T_I32 15], []).
Proof. split; [|split]; vm_compute; reflexivity. Qed.
(** Wrong ways: without setting variables to zero another time, with the arguments the other way around, with the variables of the caller (which then does
    not end), returning from the caller; without the variables, or with others, it is not even accepted *)
Example C89_example_wrong :
  run89 (calling [T_I32; T_I32; T_I32; T_I32] ([I_LocalSet 3; I_LocalSet 2] ++ skipn 4 (inlined 2 callee_type callee))) 1 [3] = Some ([mkValue T_I32 35], []) /\
  run89 (calling [T_I32; T_I32; T_I32; T_I32] ([I_LocalSet 2; I_LocalSet 3] ++ skipn 2 (inlined 2 callee_type callee))) 1 [3] = Some ([mkValue T_I32 5], []) /\
  run89 (calling [T_I32; T_I32; T_I32; T_I32] (inlined 0 callee_type callee)) 1 [3] = None /\
  run89 (calling [T_I32; T_I32; T_I32; T_I32] (inlined 2 callee_type callee ++ [I_Return])) 1 [3] = Some ([mkValue T_I32 5], []) /\
  verdict (calling [T_I32] (inlined 2 callee_type callee)) = false /\
  verdict (calling [T_I32; T_I32; T_I32; T_I64] (inlined 2 callee_type callee)) = false.
Proof. repeat split; vm_compute; reflexivity. Qed.
