(** Property theorems C94: simpler code for short pieces of code. *)
From Verif Require Import SpecSimpler SpecSame SpecVerdict SpecExec ParserModule SimplerProof ExecDemo.
Open Scope N_scope.

(** C94: with the simpler code, anywhere in a function, a valid module stays valid ... *)
Theorem C94_official : forall m fs ty locals p e1 e2 gs, simpler e1 e2 ->
  valid_module wasm10_validity (with_body m fs ty locals (put p e1) gs) -> valid_module wasm10_validity (with_body m fs ty locals (put p e2) gs).
Proof. exact simpler_official. Qed.
Print Assumptions C94_official.
(** ... and an accepted one stays accepted *)
Theorem C94_accepted : forall m fs ty locals p e1 e2 gs, let before := with_body m fs ty locals (put p e1) gs in
  (forall f, In f (m_funcs before) -> no_pseudo (fn_body f)) -> simpler e1 e2 -> accepted before -> accepted (with_body m fs ty locals (put p e2) gs).
Proof. exact simpler_accepted. Qed.
Print Assumptions C94_accepted.
(** With the same fuel, which is not none, the simpler code does in every configuration what the other does, if that does not get stuck; so it also runs on
    without end where the other does *)
Theorem C94_exec : forall M types (fs : list (finst M)) fuel labels ret e1 e2 c, simpler e1 e2 ->
  run_seq M (exec M types fs (S fuel) labels ret) e1 c <> R_Stuck ->
  run_seq M (exec M types fs (S fuel) labels ret) e2 c = run_seq M (exec M types fs (S fuel) labels ret) e1 c.
Proof. exact simpler_exec. Qed.
Print Assumptions C94_exec.
(** So the simpler code does whatever the other does ... *)
Theorem C94_does : forall M types e1 e2, simpler e1 e2 -> does_as M types e1 e2.
Proof. exact simpler_does. Qed.
Print Assumptions C94_does.
(** ... and so every call of a function of an instance gives what it gave *)
Theorem C94_runs : forall m fs ty locals p gs M fts (imported others : list (finst M)) e1 e2 a args st r, simpler e1 e2 ->
  gives (fun fuel => invoke M (m_types m) (instance_funcs (with_body m fs ty locals (put p e1) gs) fts imported others) fuel a args st) r ->
  gives (fun fuel => invoke M (m_types m) (instance_funcs (with_body m fs ty locals (put p e2) gs) fts imported others) fuel a args st) r.
Proof. exact simpler_runs. Qed.
Print Assumptions C94_runs.

(** A function of one argument and one variable; the code is in a block and may leave it, with 40 on the stack of the block, to which 2 is added *)
Definition outer94 : place := P_block [] [T_I32] (P_at [I_ConstI32 40%Z; I_LocalGet 0] [I_LocalGet 1]) [I_ConstI32 2%Z; I_I32Add].
Definition around94 (e : expr) : module := with_body {| m_types := [mkFuncTy [T_I32] [T_I32]]; m_funcs := []; m_tables := []; m_mems := []; m_globals := [];
  m_elem := []; m_data := []; m_start := None; m_imports := []; m_exports := [] |} [] 0 [T_I32] (put outer94 e) [].
Definition verdict94 (m : module) : bool := match validate m with VOk _ => true | _ => false end.
Definition run94 (m : module) (a : N) : option (list value * list (list N)) :=
  seen_run (invoke demo_machine (m_types m) (instance_funcs m [mkFuncTy [T_I32] [T_I32]] [] []) 30 0 [mkValue T_I32 a] empty_store).
Definition both94 (e : expr) : bool * option (list value) := (verdict94 (around94 e), option_map fst (run94 (around94 e) 3)).
(** A table whose last entries are the default leaves the block with 40, step by step as a branch *)
Example C94_example_table :
  simpler [I_BrTable ([0] ++ [0]) 0] [I_BrTable [0] 0] /\ simpler [I_BrTable ([] ++ [0]) 0] [I_BrTable [] 0] /\ simpler [I_BrTable [] 0] [I_Drop; I_Br 0] /\
  map both94 [[I_BrTable [0; 0] 0]; [I_BrTable [0] 0]; [I_BrTable [] 0]; [I_Drop; I_Br 0]] = repeat (true, Some [mkValue T_I32 42]) 4.
Proof. split; [apply simp_table|]. split; [apply (simp_table [])|]. split; [apply simp_table_empty|]. vm_compute. reflexivity. Qed.
(** The argument is put into the variable, after which the 40 is dropped *)
Example C94_example_vars :
  simpler [I_LocalTee 1; I_Drop] [I_LocalSet 1] /\ simpler [I_LocalTee 1; I_LocalSet 1] [I_LocalSet 1] /\ simpler [I_LocalTee 1; I_LocalTee 1] [I_LocalTee 1] /\
  map (fun e => both94 (e ++ [I_Drop])) [[I_LocalTee 1; I_Drop]; [I_LocalTee 1; I_LocalSet 1]; [I_LocalSet 1]; [I_LocalGet 1; I_Drop; I_LocalSet 1]]
    = repeat (true, Some [mkValue T_I32 5]) 4 /\
  map (fun e => both94 (e ++ [I_Drop; I_Drop])) [[I_LocalTee 1; I_LocalTee 1]; [I_LocalTee 1]] = repeat (true, Some [mkValue T_I32 5]) 2.
Proof. split; [apply simp_tee_drop|]. split; [apply simp_tee_set|]. split; [apply simp_tee_tee|]. split; vm_compute; reflexivity. Qed.
(** An [if] with one code in both branches, and one with none *)
Example C94_example_if : let b := [I_ConstI32 7%Z; I_LocalSet 1; I_LocalGet 1; I_Br 0] in
  simpler [I_If [T_I32] b b] [I_Drop; I_Block [T_I32] b] /\ simpler [I_If [] [] []] [I_Drop] /\
  map (fun e => both94 (e ++ [I_Drop; I_Drop])) [[I_If [T_I32] b b]; [I_Drop; I_Block [T_I32] b]] = repeat (true, Some [mkValue T_I32 9]) 2 /\
  map (fun e => both94 (e ++ [I_Drop])) [[I_If [] [] []]; [I_Drop]; [I_Block [] []; I_Drop]; [I_Loop [] []; I_Drop]] = repeat (true, Some [mkValue T_I32 2]) 4.
Proof. intros b. split; [apply simp_if|]. split; [apply simp_if_empty|]. split; vm_compute; reflexivity. Qed.
(** Not the other way: what is dropped need not be a condition.  And a table cannot lose an entry that is not the default *)
Example C94_example_wrong :
  both94 [I_Drop; I_ConstF32 5; I_Drop; I_Drop] = (true, Some [mkValue T_I32 2]) /\ both94 [I_Drop; I_ConstF32 5; I_If [] [] []; I_Drop] = (false, None) /\
  both94 [I_Drop; I_Block [] [I_LocalGet 1; I_BrTable [0] 0]; I_Drop] = (true, Some [mkValue T_I32 2]) /\
  both94 [I_Drop; I_Block [] [I_Block [] [I_LocalGet 1; I_BrTable [0] 1]; I_ConstI32 9%Z; I_LocalSet 1]; I_Drop] = (true, Some [mkValue T_I32 11]) /\
  both94 [I_Drop; I_Block [] [I_Block [] [I_LocalGet 1; I_BrTable [] 1]; I_ConstI32 9%Z; I_LocalSet 1]; I_Drop] = (true, Some [mkValue T_I32 2]).
Proof. repeat split; vm_compute; reflexivity. Qed.
