(** C70: the memory that validation uses. *)
From Coq Require Import Lia.
From Verif Require Import SpecTyping SpecEncoder SpecStorage ParserModule StorageProof StorageFileProof StorageExactProof ProgramProof.
Open Scope N_scope.

(** Writing down the requests does not change what is modelled elsewhere, *)
Theorem C70_same : forall checks bits m, fst (w_validate checks bits m) = h_validate checks bits m.
Proof. exact storage_same. Qed.
Print Assumptions C70_same.
(** and want of memory makes validation crash; it never gives another result *)
Theorem C70_outcome : forall allows checks bits m,
  validate_within allows checks bits m = VPanic \/ validate_within allows checks bits m = h_validate checks bits m.
Proof. exact storage_outcome. Qed.
Print Assumptions C70_outcome.

(** What can be asked for, whether or not the module is accepted, *)
Theorem C70_each : forall m, (forall x, In x (module_exprs m) -> well_nested x) ->
  forall checks bits e, In e (checking checks bits m) -> storage_ok m e.
Proof. exact storage_each. Qed.
Print Assumptions C70_each.
(** in terms of the length of a file, *)
Theorem C70_file : forall bs m r, p_module bs = (Ok m, r) ->
  forall checks bits e, In e (checking checks bits m) -> file_storage_ok (N.of_nat (length bs)) m e.
Proof. exact storage_file. Qed.
Print Assumptions C70_file.
(** and what is asked for, if the module is accepted *)
Theorem C70_exact : forall m, (forall x, In x (module_exprs m) -> well_nested x) ->
  forall checks bits mt, h_validate checks bits m = VOk mt ->
  forall e, notable e -> (In e (checking checks bits m) <-> storage_ok m e).
Proof. exact storage_exact. Qed.
Print Assumptions C70_exact.

(** The bound on operands cannot be improved by more than one: valid modules pile them up *)
Theorem C70_piles_up : forall n, validate (pile n) = VOk (mkModuleTypes [] []) /\
  (forall k, storage_ok (pile n) (Hold V_Operand k) <-> k <= N.of_nat n + 1) /\
  forall checks bits k, 1 <= k <= N.of_nat n -> In (Hold V_Operand k) (checking checks bits (pile n)).
Proof. exact pile_up_sharp. Qed.
Print Assumptions C70_piles_up.

(** On a host: validation that comes to an end had room for everything, *)
Theorem C70_needs : forall h allows checks bits m mt, answers h allows -> (forall x, In x (module_exprs m) -> well_nested x) ->
  validate_within allows checks bits m = VOk mt ->
  h_validate checks bits m = VOk mt /\
  (forall f t, In f (m_funcs m) -> at_index (m_types m) (fn_ty f) t -> (count (ft_params t) + count (fn_locals f)) * h_size h V_Ref <= h_limit h) /\
  (forall x, In x (module_exprs m) -> (N.of_nat (depth_expr x) + 1) * h_size h V_Frame <= h_limit h) /\
  count (m_imports m) * h_size h V_External <= h_limit h /\ count (m_exports m) * h_size h V_External <= h_limit h.
Proof. exact storage_needs. Qed.
Print Assumptions C70_needs.
(** and a host with room for so much does not crash for want of memory *)
Theorem C70_enough : forall h allows checks bits bs m r, p_module bs = (Ok m, r) -> answers h allows ->
  (forall k, (2 * N.of_nat (length bs) + 8) * h_size h k <= h_limit h) ->
  (forall f, In f (m_funcs m) -> (N.of_nat (length bs) + N.of_nat (length (fn_locals f))) * h_size h V_Ref <= h_limit h) ->
  validate_within allows checks bits m = h_validate checks bits m.
Proof. exact validation_fits. Qed.
Print Assumptions C70_enough.

(** an import, a parameter, two local variables; [if (block (br_if)) else (operands in a row, the last one from a block)], an export, a global *)
Definition stored : module :=
  mkModule [mkFuncTy [T_I32] []; mkFuncTy [] [T_I32]]
    [mkFunc 0 [T_I64; T_I64] [I_LocalGet 0; I_If [] [I_Block [] [I_LocalGet 0; I_BrIf 1]] [I_ConstI64 1%Z; I_ConstI64 2%Z; I_Block [T_I64] [I_ConstI64 3%Z]; I_Drop; I_Drop; I_Drop]; I_Call 0; I_Drop]]
    [] [] [mkGlobal (mkGlobalTy Const T_I64) [I_ConstI64 5%Z]] [] [] None
    [mkImport [] [] (ID_Func 1)] [mkExport [] (ED_Func 1)].
Example C70_example : forall checks bits, In bits [32; 64] ->
  checking checks bits stored =
  [Hold V_Ref 2; Hold V_Ref 1; Hold V_Ref 2; Hold V_Ref 1; Hold V_Ref 1;
   Reserve V_Ref 3; Hold V_Frame 1; Hold V_Operand 1; Hold V_Frame 2; Hold V_Frame 3; Hold V_Operand 1; Hold V_Frame 2;
   Hold V_Operand 1; Hold V_Operand 2; Hold V_Frame 3; Hold V_Operand 3; Hold V_Operand 3; Hold V_Operand 1; Hold V_Frame 1; Hold V_Operand 1;
   Reserve V_External 1; Reserve V_External 1; Reserve V_Ref 1] /\
  fst (w_validate checks bits stored) = VOk (mkModuleTypes [X_Func (mkFuncTy [] [T_I32])] [X_Func (mkFuncTy [T_I32] [])]) /\
  validate_within (fun e => match e with Hold V_Frame n => n <=? 2 | _ => true end) checks bits stored = VPanic.
Proof. intros [] bits [<-|[<-|[]]]; vm_compute; auto. Qed.
(** files: 200 constants; its vectors stay below the length of the file *)
Example C70_example_file :
  length (encode (pile 200)) = 427%nat /\ p_module (encode (pile 200)) = (Ok (pile 200), []) /\
  In (Hold V_Operand 200) (checking false 64 (pile 200)) /\ ~ file_storage_ok 427 (pile 200) (Hold V_Operand 428) /\
  ~ file_storage_ok 427 (pile 200) (Reserve V_External 428).
Proof.
  split; [vm_compute; reflexivity|]. split; [vm_compute; reflexivity|]. split; [apply pile_up; lia|]. cbn. split; lia.
Qed.
