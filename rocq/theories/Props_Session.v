(** C71, C72: validation of parts, in a context of the caller. *)
From Verif Require Import ValidatorState SpecSession SpecVerdict SpecTyping SessionProof.

(** No sequence of public calls on one context panics, whatever they are applied to and whichever of them fail,
    if the frames are in order at the beginning; they stay so *)
Theorem C71_no_panic : forall ks cs, settled (snd cs) ->
  Forall (fun r => r <> VPanic) (fst (perform_all ks cs)) /\ settled (snd (after ks cs)).
Proof. exact session_safe. Qed.
Print Assumptions C71_no_panic.

(** They are so in a new context.  The fields are public: otherwise there can be a panic *)
Theorem C71_unsettled_refuted : exists k cs, fst (perform k cs) = VPanic.
Proof. exact (ex_intro _ _ (ex_intro _ _ (unsettled_panics default_context))). Qed.
Print Assumptions C71_unsettled_refuted.

(** One call on an instruction does what it does within a module *)
Theorem C71_instr : forall c i s,
  (forall s', v_instr c i s = VOk s' <-> t_instr c i s = (VOk tt, s')) /\ (v_instr c i s = VPanic <-> fst (t_instr c i s) = VPanic).
Proof. exact instr_same. Qed.
Print Assumptions C71_instr.

(** A module is accepted iff a context can be built from it, in which its parts are accepted one after another (the globals in
    a context with nothing but the globals), and it has no more than one table and memory and no two exports of one name *)
Theorem C71_module : forall m, accepted m <->
  all_ok (building m) default_vctx /\ all_ok (parts m) (after (building m) default_vctx) /\
  all_ok (map On_Global (m_globals m)) (after [Use_Globals (m_globals m)] default_vctx) /\
  (length (m_tables m) <= 1)%nat /\ (length (m_mems m) <= 1)%nat /\ NoDup (map ex_name (m_exports m)).
Proof. exact module_calls. Qed.
Print Assumptions C71_module.

(** The calls that only look: which of them accept, and that they change nothing *)
Theorem C71_reading : forall k cs P, criterion k cs = Some P -> (accepts k cs <-> P) /\ snd (perform k cs) = cs.
Proof. exact reading_calls. Qed.
Print Assumptions C71_reading.

(** The calls on the stacks: whether they succeed, and what they leave *)
Theorem C71_stacks : forall k c s (b : bool) s', on_stacks k -> settled s -> (perform k (c, s) = (if b then VOk tt else VErr, (c, s')) <-> does k s b s').
Proof. exact stack_calls. Qed.
Print Assumptions C71_stacks.

Example C71_example_settled : settled empty_stacks /\ settled (mkStacks [Val T_I32; Unknown] [mkFrame [] [] 1 true; mkFrame [] [] 1 false; mkFrame [] [] 0 false]) /\
  ~ settled (mkStacks [Unknown] [mkFrame [] [] 0 false; mkFrame [] [] 1 false]).
Proof.
  split; [repeat constructor|]. split; [repeat constructor|]. intros H. inversion H as [|? ? _ R]; subst. apply settled_wf in H. destruct H as [_ [H _]]. inversion H.
Qed.
Example C71_example_stacks : let f := mkFrame [] [T_I32; T_I64] 1 false in
  does Unreachable (mkStacks [Val T_I32; Val T_F32; Unknown] [f]) true (mkStacks [Unknown] [mkFrame [] [T_I32; T_I64] 1 true]) /\
  does Pop_Frame (mkStacks [Val T_I64; Val T_I32; Unknown] [f; f]) true (mkStacks [Unknown] [f]) /\
  does Pop_Frame (mkStacks [Val T_I64; Val T_F32; Val T_I32; Unknown] [f]) false (mkStacks [Val T_I32; Unknown] [f]).
Proof.
  cbv zeta. split; [apply (does_unreachable [Val T_I32; Val T_F32] [Unknown]); reflexivity|]. split.
  - set (frs0 := [mkFrame [] [T_I32; T_I64] 1 false; mkFrame [] [T_I32; T_I64] 1 false]). apply (does_pop_frame _ (mkFrame [] [T_I32; T_I64] 1 false)); [|reflexivity].
    apply (does_pops [T_I32] T_I64 _ (mkStacks [Val T_I32; Unknown] frs0)); [apply does_pop_equal; discriminate|].
    apply (does_pops [] T_I32 _ (mkStacks [Unknown] frs0)); [apply does_pop_equal; discriminate|apply does_pops_none].
  - set (frs0 := [mkFrame [] [T_I32; T_I64] 1 false]). apply (does_pop_frame_short _ (mkFrame [] [T_I32; T_I64] 1 false)).
    apply (does_pops [T_I32] T_I64 _ (mkStacks [Val T_F32; Val T_I32; Unknown] frs0)); [apply does_pop_equal; discriminate|].
    apply (does_pops_stop [] T_I32). apply does_pop_other; discriminate.
Qed.
(** Results and remains of some calls: of two operands, one is gone when the types do not fit; the frame of a block stays when
    its body fails; what was pushed before a failure stays in the context *)
Example C71_example : let c := mkContext [mkFuncTy [T_I32] []] [] [] [] [] [] None in
  perform_all [Push_Frame [] []; Push_Operands [T_I32; T_I64]; On_Instr I_I32Add; On_Instr (I_Block [] [I_Drop]); Unreachable;
      Use_Funcs [mkFunc 0 [] []; mkFunc 1 [] []]; On_FuncIdx 0; On_LabelIdx 0; Pop_Frame; Pop_Frame; Pop_Operand Unknown] (c, empty_stacks) =
  ([VOk tt; VOk tt; VErr; VErr; VOk tt; VErr; VOk tt; VOk tt; VOk tt; VErr; VOk tt],
   (mkContext [mkFuncTy [T_I32] []] [mkFuncTy [T_I32] []] [] [] [] [] None, mkStacks [] [mkFrame [] [] 0 false])).
Proof. vm_compute. reflexivity. Qed.

(** Each of these calls with what is accepted and what is not *)
Example C71_example_reading : let f := mkFuncTy [] [] in let g := mkFuncTy [T_I32] [] in
  let cs := (mkContext [f; g; f] [g; f] [mkTableTy (mkLimits 0 None) FuncRef] [] [] [T_I32] None, mkStacks [] [mkFrame [] [] 0 false; mkFrame [] [] 0 false]) in
  fst (perform_all [On_TypeIdx 2; On_TypeIdx 3; On_FuncIdx 1; On_FuncIdx 2; On_TableIdx 0; On_TableIdx 1; On_MemIdx 0; On_GlobalIdx 0; On_LocalIdx 0;
      On_LocalIdx 1; On_LabelIdx 0; On_LabelIdx 1; On_Start (mkStart 0); On_Start (mkStart 1); On_Start (mkStart 2); On_FuncTy (mkFuncTy [T_I32; T_F32] [T_I32]);
      On_FuncTy (mkFuncTy [] [T_I32; T_I32]); On_Limits (mkLimits 3 None); On_Limits (mkLimits 3 (Some 2%N));
      On_MemTy (mkMemTy (mkLimits 65536 None)); On_MemTy (mkMemTy (mkLimits 1 (Some 65535%N))); On_Module default_module; On_Module (mkModule [f] [mkFunc 0 [] [I_Drop]] [] [] [] [] [] None [] [])] cs) =
  [VOk tt; VErr; VOk tt; VErr; VOk tt; VErr; VErr; VErr; VOk tt; VErr; VOk tt; VErr; VErr; VOk tt; VErr; VOk tt; VErr; VOk tt; VErr; VErr; VOk tt; VOk tt; VErr].
Proof. vm_compute. reflexivity. Qed.

(** What is accepted after the validation of other components, with whatever results, is accepted by itself *)
Theorem C72_sound : forall c ks k, Forall component ks -> component k ->
  accepts k (after ks (c, empty_stacks)) -> accepts k (c, empty_stacks).
Proof. exact session_sound. Qed.
Print Assumptions C72_sound.

(** When none of them failed, the converse holds *)
Theorem C72_complete : forall c ks k, Forall component ks -> component k -> all_ok ks (c, empty_stacks) ->
  (accepts k (after ks (c, empty_stacks)) <-> accepts k (c, empty_stacks)).
Proof. exact session_complete. Qed.
Print Assumptions C72_complete.

(** Once a function has failed (not for want of its type), nothing with code is accepted in the context any more *)
Theorem C72_stuck : forall c f ks k, no_pseudo (fn_body f) -> (N.to_nat (fn_ty f) < length (c_types c))%nat -> ~ accepts (On_Func f) (c, empty_stacks) ->
  Forall component ks -> component k -> with_code k -> ~ accepts k (after (On_Func f :: ks) (c, empty_stacks)).
Proof. exact func_stuck. Qed.
Print Assumptions C72_stuck.

(** so that a context cannot be used again after a failure *)
Theorem C72_reuse_refuted : exists c f g, component (On_Func f) /\ component (On_Func g) /\ ~ accepts (On_Func f) (c, empty_stacks) /\
  accepts (On_Func g) (c, empty_stacks) /\ ~ accepts (On_Func g) (after [On_Func f] (c, empty_stacks)).
Proof. exact reuse_refuted. Qed.
Print Assumptions C72_reuse_refuted.

(** With pseudo instructions something invalid can be accepted after a failure *)
Theorem C72_pseudo_refuted : exists c f g, component (On_Func f) /\ ~ accepts (On_Func f) (c, empty_stacks) /\
  ~ accepts (On_Func g) (c, empty_stacks) /\ accepts (On_Func g) (after [On_Func f] (c, empty_stacks)).
Proof. exact ending_refutes. Qed.
Print Assumptions C72_pseudo_refuted.

(** and local indices of the function that failed *)
Theorem C72_locals_refuted : exists c f x, component (On_Func f) /\
  ~ accepts (On_LocalIdx x) (c, empty_stacks) /\ accepts (On_LocalIdx x) (after [On_Func f] (c, empty_stacks)).
Proof. exact locals_refute. Qed.
Print Assumptions C72_locals_refuted.

(** A function without its type, one that is accepted, an element segment whose functions do not exist, data, a global with two
    initial values, the same data again, a table, and the function again *)
Example C72_example : let c := mkContext [mkFuncTy [T_I32] [T_I32]] [] [mkTableTy (mkLimits 0 None) FuncRef] [mkMemTy (mkLimits 1 None)] [] [] None in
  let f := mkFunc 0 [T_I64] [I_LocalGet 0; I_LocalGet 0; I_I32Add] in let d := mkData 0 [I_ConstI32 7%Z] [] in
  fst (perform_all [On_Func (mkFunc 1 [] []); On_Func f; On_Elem (mkElem 0 [I_ConstI32 0%Z] [0%N]); On_Data d;
      On_Global (mkGlobal (mkGlobalTy Const T_I32) [I_ConstI32 1%Z; I_ConstI32 2%Z]); On_Data d; On_Table (mkTable (mkTableTy (mkLimits 2 (Some 3%N)) FuncRef)); On_Func f] (c, empty_stacks)) =
  [VErr; VOk tt; VErr; VOk tt; VErr; VErr; VOk tt; VErr].
Proof. vm_compute. reflexivity. Qed.
