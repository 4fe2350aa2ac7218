(** Property theorems C93: a loop to which no branch goes is a block. *)
From Verif Require Import SpecDissolve SpecSame SpecVerdict SpecExec ParserModule LoopProof ExecDemo.
Open Scope N_scope.

(** C93: a loop to which no branch goes may be written as a block, and such a block as a loop: a module is valid with the one exactly if it is with the
    other ... *)
Theorem C93_official : forall m fs ty locals p rt b gs, never_left b ->
  valid_module wasm10_validity (with_body m fs ty locals (put p [I_Loop rt b]) gs) <->
  valid_module wasm10_validity (with_body m fs ty locals (put p [I_Block rt b]) gs).
Proof. exact loop_official. Qed.
Print Assumptions C93_official.
(** ... and accepted with the one exactly if it is with the other *)
Theorem C93_accepted : forall m fs ty locals p rt b gs,
  (forall f, In f (fs ++ gs) -> no_pseudo (fn_body f)) -> no_pseudo (put p [I_Block rt b]) -> never_left b ->
  accepted (with_body m fs ty locals (put p [I_Loop rt b]) gs) <-> accepted (with_body m fs ty locals (put p [I_Block rt b]) gs).
Proof. exact loop_accepted. Qed.
Print Assumptions C93_accepted.
(** With the same fuel the two do the same in every configuration, also when they get stuck or the fuel is used up *)
Theorem C93_exec : forall M types (fs : list (finst M)) fuel labels ret rt b c, never_left b ->
  exec M types fs fuel labels ret (I_Loop rt b) c = exec M types fs fuel labels ret (I_Block rt b) c.
Proof. exact loop_exec. Qed.
Print Assumptions C93_exec.
(** So every call of a function of an instance gives the same *)
Theorem C93_runs : forall m fs ty locals p gs M fts (imported others : list (finst M)) rt b a args st r, never_left b ->
  gives (fun fuel => invoke M (m_types m) (instance_funcs (with_body m fs ty locals (put p [I_Loop rt b]) gs) fts imported others) fuel a args st) r <->
  gives (fun fuel => invoke M (m_types m) (instance_funcs (with_body m fs ty locals (put p [I_Block rt b]) gs) fts imported others) fuel a args st) r.
Proof. exact loop_runs. Qed.
Print Assumptions C93_runs.

(** In a block with a 5 on its stack: [inner93] leaves that block with the argument if it is not 0, and otherwise gives 10, to which the 5 is added; there
    are branches to a block and a loop inside *)
Definition inner93 : expr :=
  [I_LocalGet 0; I_LocalGet 0; I_BrIf 1; I_ConstI32 10%Z; I_I32Add; I_Block [] [I_Loop [] [I_ConstI32 0%Z; I_BrIf 0; I_ConstI32 0%Z; I_BrTable [1; 0] 1]]].
Definition outer93 : place := P_block [] [T_I32] (P_at [I_ConstI32 5%Z] [I_I32Add]) [].
Definition around93 (e : expr) : module := with_body {| m_types := [mkFuncTy [T_I32] [T_I32]]; m_funcs := []; m_tables := []; m_mems := []; m_globals := [];
  m_elem := []; m_data := []; m_start := None; m_imports := []; m_exports := [] |} [] 0 [] (put outer93 e) [].
Definition verdict93 (m : module) : bool := match validate m with VOk _ => true | _ => false end.
Definition run93 (m : module) (a : N) : option (list value * list (list N)) :=
  seen_run (invoke demo_machine (m_types m) (instance_funcs m [mkFuncTy [T_I32] [T_I32]] [] []) 30 0 [mkValue T_I32 a] empty_store).
Example C93_example : existsb (goes_to 0) inner93 = false /\
  verdict93 (around93 [I_Block [T_I32] inner93]) = true /\ verdict93 (around93 [I_Loop [T_I32] inner93]) = true /\
  run93 (around93 [I_Block [T_I32] inner93]) 0 = Some ([mkValue T_I32 15], []) /\ run93 (around93 [I_Loop [T_I32] inner93]) 0 = Some ([mkValue T_I32 15], []) /\
  run93 (around93 [I_Block [T_I32] inner93]) 2 = Some ([mkValue T_I32 2], []) /\ run93 (around93 [I_Loop [T_I32] inner93]) 2 = Some ([mkValue T_I32 2], []).
Proof. repeat split; vm_compute; reflexivity. Qed.
(** One less, until the argument is 0 *)
Definition counts93 : expr := [I_LocalGet 0; I_ConstI32 1%Z; I_I32Sub; I_LocalTee 0; I_BrIf 0].
(** With a branch to it the two differ: in validity when there are results, and in that the loop begins again *)
Example C93_example_wrong :
  existsb (goes_to 0) [I_Br 0] = true /\ verdict93 (around93 [I_Block [T_I32] [I_Br 0]]) = false /\ verdict93 (around93 [I_Loop [T_I32] [I_Br 0]]) = true /\
  existsb (goes_to 0) [I_BrTable [1] 0] = true /\ existsb (goes_to 0) [I_Block [] [I_Br 1]] = true /\
  verdict93 (around93 [I_Block [] [I_Br 0]; I_ConstI32 1%Z]) = true /\ verdict93 (around93 [I_Loop [] [I_Br 0]; I_ConstI32 1%Z]) = true /\
  run93 (around93 [I_Block [] [I_Br 0]; I_ConstI32 1%Z]) 3 = Some ([mkValue T_I32 6], []) /\ run93 (around93 [I_Loop [] [I_Br 0]; I_ConstI32 1%Z]) 3 = None /\
  run93 (around93 [I_Block [] counts93; I_LocalGet 0]) 3 = Some ([mkValue T_I32 7], []) /\
  run93 (around93 [I_Loop [] counts93; I_LocalGet 0]) 3 = Some ([mkValue T_I32 5], []).
Proof. repeat split; vm_compute; reflexivity. Qed.
