(** Property theorems C50: the verdict on code with stray [Else]. *)
From Verif Require Import ValidatorModule SpecElse SpecVerdict ValidityWitnesses ElseProof.
Open Scope N_scope.

(** C50: function by function *)
Theorem C50_function_verdict : forall c f t, (exists cs, v_func f (c, empty_stacks) = VOk (t, cs)) <->
  ~ occurs I_End (fn_body f) /\ Forall (fun g => func_type false false (tenv_of c) g t) (func_alternatives f).
Proof. exact func_else. Qed.
Print Assumptions C50_function_verdict.
(** C50: for every module; the rules apply to each choice of alternatives *)
Theorem C50_module_verdict : forall m, accepted m <->
  (forall f, In f (m_funcs m) -> ~ occurs I_End (fn_body f)) /\
  (forall gs, Forall2 (fun f g => In g (func_alternatives f)) (m_funcs m) gs -> valid_module whasm_validity (with_funcs m gs)).
Proof. exact module_else. Qed.
Print Assumptions C50_module_verdict.
(** C50: the alternatives are ordinary code *)
Theorem C50_alternatives_plain : forall f g, ~ occurs I_End (fn_body f) -> In g (func_alternatives f) -> no_pseudo (fn_body g).
Proof. exact alternatives_clean. Qed.
Print Assumptions C50_alternatives_plain.
(** C50: code without pseudo instructions has one alternative, itself *)
Theorem C50_plain_unchanged : forall f, no_pseudo (fn_body f) -> func_alternatives f = [f].
Proof. exact plain_alternatives. Qed.
Print Assumptions C50_plain_unchanged.
Example C50_example :
  (* the second alternative of a loop branches out of it *)
  func_alternatives (mkFunc 0 [] [I_ConstI32 1%Z; I_Else; I_Loop [T_I32] [I_Br 0; I_Else; I_ConstI32 2%Z; I_Br 0]])
  = [mkFunc 0 [] [I_ConstI32 1%Z]; mkFunc 0 [] [I_Loop [T_I32] [I_Br 0]; I_Drop; I_Block [T_I32] [I_ConstI32 2%Z; I_Br 0]]]
  /\ accepted (one_func [T_I32] [I_ConstI32 1%Z; I_Else; I_Loop [T_I32] [I_Br 0; I_Else; I_ConstI32 2%Z; I_Br 0]])
  /\ validate (one_func [T_I32] [I_ConstI32 1%Z; I_Else; I_Loop [T_I32] [I_Br 0; I_Else; I_Br 0]]) = VErr
  /\ validate (one_func [T_I32] [I_ConstI32 1%Z; I_Else; I_ConstI64 2%Z]) = VErr.
Proof. split; [reflexivity|]. split; [eexists; vm_compute; reflexivity|]. split; vm_compute; reflexivity. Qed.
