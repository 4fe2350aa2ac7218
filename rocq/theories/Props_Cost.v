(** C73: the time that validation takes. *)
From Verif Require Import SpecTyping SpecEncoder SpecCost ParserModule ValidatorCost CostProof CostFileProof.
Open Scope nat_scope.

(** Counting does not change what is modelled elsewhere *)
Theorem C73_same : forall m, fst (k_module m) = validate m.
Proof. exact steps_same. Qed.
Print Assumptions C73_same.
(** The steps for an accepted module follow from its text, *)
Theorem C73_exact : forall m, (forall x, In x (module_exprs m) -> no_pseudo x) ->
  forall mt, validate m = VOk mt -> validation_steps m = module_time m.
Proof. exact steps_exact. Qed.
Print Assumptions C73_exact.
(** and no module takes more. *)
Theorem C73_bound : forall m, (forall x, In x (module_exprs m) -> no_pseudo x) -> validation_steps m <= module_time m.
Proof. exact steps_bound. Qed.
Print Assumptions C73_bound.
(** No more than the square of the length of the file, and one for each local variable that it declares *)
Theorem C73_file : forall bs m r, p_module bs = (Ok m, r) -> validation_steps m <= length bs * length bs + declared m.
Proof. exact steps_file. Qed.
Print Assumptions C73_file.
(** There are files for which the steps do grow with the square, *)
Theorem C73_square : forall k, (N.of_nat k < 2 ^ 30)%N ->
  p_module (encode (slow k)) = (Ok (slow k), []) /\ validate (slow k) = VOk (mkModuleTypes [] []) /\ declared (slow k) = 0 /\
  length (encode (slow k)) <= 3 * k + 69 /\ validation_steps (slow k) = k * k + 3 * k + 11.
Proof. exact slow_file. Qed.
Print Assumptions C73_square.
(** so that a fixed number of steps for each byte is not enough. *)
Theorem C73_not_linear : forall c, (N.of_nat c < 2 ^ 20)%N -> exists bs m mt,
  p_module bs = (Ok m, []) /\ validate m = VOk mt /\ declared m = 0 /\ c * length bs < validation_steps m.
Proof. exact not_linear. Qed.
Print Assumptions C73_not_linear.

Open Scope N_scope.
(** One of everything *)
Definition busy_body : expr :=
  [I_Block [T_I32] [I_LocalGet 0; I_LocalGet 0; I_BrIf 0; I_LocalGet 0; I_LocalGet 0; I_BrTable [0; 0] 0];
   I_If [T_I32] [I_ConstI32 1%Z] [I_ConstI32 2%Z]; I_LocalTee 2; I_ConstI64 3%Z; I_Call 2;
   I_Loop [] [I_ConstI32 0%Z; I_BrIf 0; I_Block [] [I_Br 0]];
   I_ConstF32 0; I_ConstI32 0%Z; I_CallIndirect 2 0; I_ConstI32 1%Z; I_ConstI32 0%Z; I_Select; I_Drop;
   I_ConstI32 0%Z; I_ConstI32 4%Z; I_I32Load 0 0; I_I32Store 0 0;
   I_MemSize 0; I_MemGrow 0; I_GlobalSet 1; I_GlobalGet 0; I_GlobalGet 0; I_I32Add; I_Return; I_Unreachable].
Definition busy : module := mkModule
  [mkFuncTy [T_I32; T_I64] [T_I32]; mkFuncTy [] []; mkFuncTy [T_F32] []]
  [mkFunc 1 [] [I_Nop]; mkFunc 0 [T_I32; T_F32] busy_body]
  [mkTable (mkTableTy (mkLimits 1 None) FuncRef)] [mkMem (mkMemTy (mkLimits 1 None))]
  [mkGlobal (mkGlobalTy Var T_I32) [I_ConstI32 7%Z]]
  [mkElem 0 [I_GlobalGet 0] [1; 2; 1]] [mkData 0 [I_ConstI32 0%Z] []] (Some (mkStart 1))
  [mkImport [] [] (ID_Global (mkGlobalTy Const T_I32)); mkImport [] [] (ID_Func 2)] [mkExport [] (ED_Func 2)].
Example C73_example : p_module (encode busy) = (Ok busy, []) /\ (exists mt, validate busy = VOk mt) /\
  validation_steps busy = 205%nat /\ module_time busy = 205%nat /\ length (encode busy) = 185%nat /\ declared busy = 2%nat.
Proof.
  split; [vm_compute; reflexivity|]. split; [eexists; vm_compute; reflexivity|]. repeat split; vm_compute; reflexivity.
Qed.
(** A module that is rejected at its first instruction *)
Definition hasty : module := mkModule [mkFuncTy [] []] [mkFunc 0 [] (I_Drop :: busy_body)] [] [] [] [] [] None [] [].
Example C73_example_rejected : validate hasty = VErr /\ validation_steps hasty = 10%nat /\ module_time hasty = 132%nat.
Proof. repeat split; vm_compute; reflexivity. Qed.
(** A small file that declares many local variables *)
Definition roomy : module := mkModule [mkFuncTy [] []] [mkFunc 0 (repeat T_I64 1000) []] [] [] [] [] [] None [] [].
Example C73_example_locals : length (encode roomy) = 27%nat /\ p_module (encode roomy) = (Ok roomy, []) /\
  validation_steps roomy = 1009%nat /\ declared roomy = 1000%nat.
Proof. repeat split; vm_compute; reflexivity. Qed.
