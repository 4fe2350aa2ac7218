(** Property theorems C76: validation stops at the first instruction that cannot be part of valid code. *)
From Verif Require Import SpecVerdict SpecBeginning SpecTyping SpecRefs ValidatorCost ValidatorState DialectValidProof ValidityClaims BeginningProof.

(** Of every beginning of a body, either some body that begins so is well typed (up to alignment and branches to the label of the
    function, C27 and C28), or every body that begins so is rejected, after the same number of steps, leaving the same behind:
    what follows is not looked at. *)
Theorem C76_settled : forall c ty locals p e, begins p e -> no_pseudo e ->
  (exists e' t, begins p e' /\ func_type false false (tenv_of c) (mkFunc ty locals e') t) \/
  (exists n cs, forall e', begins p e' ->
    k_func (mkFunc ty locals e') (c, empty_stacks) = (VErr, n) /\ t_func (mkFunc ty locals e') (c, empty_stacks) = (VErr, cs)).
Proof. exact body_settled. Qed.
Print Assumptions C76_settled.
(** If no body that begins so is well typed in WebAssembly 1.0, validation does not get past the beginning. *)
Theorem C76_prompt : forall c ty locals p e, begins p e -> no_pseudo e -> natural_alignment e ->
  (forall e' t, begins p e' -> ~ func_type true true (tenv_of c) (mkFunc ty locals e') t) ->
  exists n cs, forall e', begins p e' ->
    k_func (mkFunc ty locals e') (c, empty_stacks) = (VErr, n) /\ t_func (mkFunc ty locals e') (c, empty_stacks) = (VErr, cs).
Proof. exact body_prompt. Qed.
Print Assumptions C76_prompt.

Open Scope N_scope.
Definition some_c : context := mkContext [mkFuncTy [T_I32] [T_I32]] [] [] [] [] [] None.
(** the second operand of [i32.add] in the second branch of an [if] inside a block *)
Definition hopeless : beginning :=
  B_block [I_Nop] [T_I32] (B_else [I_LocalGet 0] [T_I32] [I_ConstI32 7%Z] (B_here [I_ConstI32 1%Z; I_ConstI64 2%Z; I_I32Add])).
Definition short : list instr := [I_Nop; I_Block [T_I32] [I_LocalGet 0; I_If [T_I32] [I_ConstI32 7%Z] [I_ConstI32 1%Z; I_ConstI64 2%Z; I_I32Add]]].
Definition long : list instr :=
  [I_Nop; I_Block [T_I32] [I_LocalGet 0; I_If [T_I32] [I_ConstI32 7%Z] [I_ConstI32 1%Z; I_ConstI64 2%Z; I_I32Add; I_Drop; I_Br 1]; I_LocalGet 9]; I_End; I_Return].
Example C76_example :
  begins hopeless short /\ begins hopeless long /\
  k_func (mkFunc 0 [] short) (some_c, empty_stacks) = (VErr, 23%nat) /\ k_func (mkFunc 0 [] long) (some_c, empty_stacks) = (VErr, 23%nat) /\
  length (operands (snd (snd (t_func (mkFunc 0 [] short) (some_c, empty_stacks))))) = 1%nat /\
  t_func (mkFunc 0 [] short) (some_c, empty_stacks) = t_func (mkFunc 0 [] long) (some_c, empty_stacks) /\
  (forall e' t, begins hopeless e' -> ~ func_type false false (tenv_of some_c) (mkFunc 0 [] e') t).
Proof.
  assert (B1 : begins hopeless short)
    by (apply (begins_block [I_Nop] [T_I32] _ _ []), (begins_else [I_LocalGet 0] [T_I32] _ _ _ []), (begins_here [I_ConstI32 1%Z; I_ConstI64 2%Z; I_I32Add] [])).
  assert (B2 : begins hopeless long)
    by (apply (begins_block [I_Nop] [T_I32] _ _ [I_End; I_Return]), (begins_else [I_LocalGet 0] [T_I32] _ _ _ [I_LocalGet 9]), (begins_here [I_ConstI32 1%Z; I_ConstI64 2%Z; I_I32Add] [I_Drop; I_Br 1])).
  split; [exact B1|]. split; [exact B2|]. do 4 (split; [vm_compute; reflexivity|]).
  intros e' t B T. pose proof (func_typed_no_pseudo _ _ _ _ _ T) as N. apply v_func_typing in T as (cs & T); [|exact N].
  inversion B as [|? ? ? b ? B'| | |]; subst. inversion B' as [| | | |? ? ? ? d ? B'']; subst. inversion B''; subst. cbn in T. discriminate T.
Qed.
(** without the premise on alignment: no body that begins with an over-aligned load is well typed, but validation goes on *)
Example C76_example_alignment :
  let c := mkContext [mkFuncTy [] []] [] [] [mkMemTy (mkLimits 1 None)] [] [] None in
  let load := [I_ConstI32 0%Z; I_I32Load 3 0] in
  (forall e' t, begins (B_here load) e' -> ~ func_type true true (tenv_of c) (mkFunc 0 [] e') t) /\
  fst (k_func (mkFunc 0 [] (load ++ [I_Drop])) (c, empty_stacks)) <> VErr /\
  k_func (mkFunc 0 [] (load ++ [])) (c, empty_stacks) <> k_func (mkFunc 0 [] (load ++ [I_Nop])) (c, empty_stacks).
Proof.
  cbv zeta. repeat split; [|vm_compute; discriminate|vm_compute; discriminate].
  intros e' t B T. inversion B; subst. destruct T as [_ T]. apply alignment_iff in T as [_ N].
  specialize (N (I_I32Load 3 0) 3 4 T_I32). cbn [fn_body] in N.
  assert (A : alignment_ok 3 4) by (apply N; [apply occurs_here; right; left; reflexivity|left; reflexivity]). vm_compute in A. apply A. reflexivity.
Qed.
