(** C82: the memory that validation asks for, request by request. *)
From Verif Require Import SpecTyping SpecCode SpecEncoder ParserModule ValidatorAlloc SpecRequests RequestsProof.
Open Scope N_scope.

(** While an accepted module is validated, these requests are made, in this order; the same on all hosts, *)
Theorem C82_exact : forall m, (forall x, In x (module_exprs m) -> no_pseudo x /\ code_in_range x) ->
  forall checks bits mt, 32 <= bits -> h_validate checks bits m = VOk mt -> checking checks bits m = module_asks m.
Proof. exact requests_exact. Qed.
Print Assumptions C82_exact.
(** and for a rejected one the list breaks off *)
Theorem C82_begin : forall m, (forall x, In x (module_exprs m) -> no_pseudo x /\ code_in_range x) ->
  forall checks bits, 32 <= bits -> exists more, module_asks m = checking checks bits m ++ more.
Proof. exact requests_begin. Qed.
Print Assumptions C82_begin.
(** Hence an allocator lets a valid module pass exactly if it grants all of them, *)
Theorem C82_host : forall m, (forall x, In x (module_exprs m) -> no_pseudo x /\ code_in_range x) ->
  forall allows checks bits mt, 32 <= bits ->
  (validate_within allows checks bits m = VOk mt <-> h_validate checks bits m = VOk mt /\ forall e, In e (module_asks m) -> allows e = true).
Proof. exact requests_host. Qed.
Print Assumptions C82_host.
(** and if it does, then the result is the one without want of memory, also for a rejected module *)
Theorem C82_enough : forall m, (forall x, In x (module_exprs m) -> no_pseudo x /\ code_in_range x) ->
  forall allows checks bits, 32 <= bits -> (forall e, In e (module_asks m) -> allows e = true) ->
  validate_within allows checks bits m = h_validate checks bits m.
Proof. exact requests_enough. Qed.
Print Assumptions C82_enough.
(** For files nothing needs to be assumed *)
Theorem C82_file : forall bs m r, p_module bs = (Ok m, r) -> forall checks bits, 32 <= bits ->
  (exists more, module_asks m = checking checks bits m ++ more) /\
  forall mt, h_validate checks bits m = VOk mt -> checking checks bits m = module_asks m.
Proof. exact requests_file. Qed.
Print Assumptions C82_file.

(** One of everything: every kind of import and definition; code with all the ways to take and to give operands, some of it unreachable *)
Definition asking_body : expr :=
  [I_LocalGet 0; I_LocalGet 0; I_Block [T_I32] [I_ConstI32 1%Z; I_LocalGet 0; I_BrIf 0; I_LocalGet 0; I_BrTable [0] 0; I_Select; I_ConstI64 0%Z; I_Call 0; I_I32Add];
   I_If [T_I64] [I_ConstI64 1%Z; I_Br 0; I_I64Add] [I_Loop [T_I64] [I_ConstI32 0%Z; I_BrIf 0; I_ConstI64 2%Z]]; I_Drop;
   I_ConstI64 7%Z; I_ConstI32 0%Z; I_CallIndirect 0 0; I_I32Load 2 0; I_LocalTee 0; I_MemGrow 0; I_GlobalSet 1; I_Nop;
   I_MemSize 0; I_GlobalGet 0; I_I64Store 3 0; I_GlobalGet 0; I_Return; I_Unreachable; I_Drop].
Definition asking : module :=
  mkModule [mkFuncTy [T_I64] [T_I32]; mkFuncTy [T_I32] [T_I64]]
    [mkFunc 1 [T_I32; T_F32] asking_body; mkFunc 0 [] [I_ConstI32 0%Z]]
    [] [mkMem (mkMemTy (mkLimits 1 None))] [mkGlobal (mkGlobalTy Var T_I32) [I_ConstI32 5%Z]]
    [mkElem 0 [I_ConstI32 1%Z] [0; 1]] [mkData 0 [I_ConstI32 2%Z] []] None
    [mkImport [] [] (ID_Func 0); mkImport [] [] (ID_Table (mkTableTy (mkLimits 2 None) FuncRef)); mkImport [] [] (ID_Global (mkGlobalTy Const T_I64))]
    [mkExport [] (ED_Func 1)].
Example C82_example : p_module (encode asking) = (Ok asking, []) /\ (exists mt, validate asking = VOk mt) /\
  (forall checks bits, In bits [32; 64] -> checking checks bits asking = module_asks asking) /\
  module_asks asking =
  [Hold V_Ref 2; Hold V_Ref 1; Hold V_Ref 1; Hold V_Ref 1; Hold V_Ref 2; Hold V_Ref 3; Hold V_Ref 1; Hold V_Ref 1; Hold V_Ref 2; Hold V_Ref 1;
   Reserve V_Ref 3; Hold V_Frame 1; Hold V_Operand 1; Hold V_Operand 2;
   Hold V_Frame 2; Hold V_Operand 3; Hold V_Operand 4; Hold V_Operand 3; Hold V_Operand 4; Hold V_Operand 3; Hold V_Operand 4; Hold V_Operand 4; Hold V_Operand 3; Hold V_Operand 3;
   Hold V_Frame 2; Hold V_Operand 3; Hold V_Operand 3;
   Hold V_Frame 2; Hold V_Frame 3; Hold V_Operand 3; Hold V_Operand 3; Hold V_Operand 3; Hold V_Operand 3;
   Hold V_Operand 3; Hold V_Operand 4; Hold V_Operand 3; Hold V_Operand 3; Hold V_Operand 3; Hold V_Operand 3; Hold V_Operand 3; Hold V_Operand 4; Hold V_Operand 3;
   Reserve V_Ref 1; Hold V_Frame 1; Hold V_Operand 1; Hold V_Frame 1; Hold V_Operand 1; Hold V_Frame 1; Hold V_Operand 1; Hold V_Frame 1; Hold V_Operand 1;
   Reserve V_External 3; Reserve V_External 1; Reserve V_Ref 1].
Proof.
  split; [vm_compute; reflexivity|]. split; [eexists; vm_compute; reflexivity|]. split; [|vm_compute; reflexivity].
  intros [] bits [<-|[<-|[]]]; vm_compute; reflexivity.
Qed.
(** A module that is rejected at the second operand of [i32.add] *)
Definition refused : module := mkModule [mkFuncTy [] []] [mkFunc 0 [T_I32] [I_LocalGet 0; I_ConstF32 0; I_I32Add; I_Drop]] [] [] [] [] [] None [] [].
Example C82_example_refused : forall checks bits, In bits [32; 64] -> h_validate checks bits refused = VErr /\
  checking checks bits refused = [Hold V_Ref 1; Hold V_Ref 1; Reserve V_Ref 1; Hold V_Frame 1; Hold V_Operand 1; Hold V_Operand 2] /\
  module_asks refused = checking checks bits refused ++ [Hold V_Operand 1; Reserve V_External 0; Reserve V_External 0; Reserve V_Ref 0].
Proof. intros [] bits [<-|[<-|[]]]; vm_compute; auto. Qed.
(** An allocator that has room for three operands but not for four *)
Definition three (e : event) : bool := match e with Hold V_Operand n => n <=? 3 | _ => true end.
Example C82_example_host : validate_within three true 64 asking = VPanic /\ In (Hold V_Operand 4) (module_asks asking) /\
  validate_within three true 64 refused = VErr /\ forallb three (module_asks refused) = true.
Proof. vm_compute. tauto. Qed.
(** The hypothesis on code cannot be dropped: a stray [else] pushes a frame *)
Definition stray : module := mkModule [mkFuncTy [] []] [mkFunc 0 [] [I_Else]] [] [] [] [] [] None [] [].
Example C82_example_pseudo : validate stray = VOk (mkModuleTypes [] []) /\ checking true 64 stray <> module_asks stray.
Proof. vm_compute. split; [reflexivity|discriminate]. Qed.
