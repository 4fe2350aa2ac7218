(** Property theorems C78: replacing code in accepted functions. *)
From Verif Require Import SpecReplace SpecVerdict SpecModule SpecTyping ValidatorModule ReplaceProof.

(** with these labels around it, [e2] can take the place of [e1] in every function of this type and these locals exactly if it has
    all the types of [e1] *)
Theorem C78_replace : forall c ty ft locals labels e1 e2, at_index (c_types c) ty ft -> no_pseudo e2 ->
  ((forall p, labels_at p [] = labels -> no_pseudo (put p e1) -> body_accepted c ty locals (put p e1) -> body_accepted c ty locals (put p e2)) <->
   (forall ts ts', seq_type false (inside c ft locals labels) e1 ts ts' -> seq_type false (inside c ft locals labels) e2 ts ts')).
Proof. exact replaceable_iff. Qed.
Print Assumptions C78_replace.
(** instances: [nop] can be put in and taken out anywhere *)
Theorem C78_nop : forall c ty locals p, no_pseudo (put p []) ->
  (body_accepted c ty locals (put p [I_Nop]) <-> body_accepted c ty locals (put p [])).
Proof. exact nop_anywhere. Qed.
Print Assumptions C78_nop.
Theorem C78_tee : forall c ty locals p x, no_pseudo (put p []) ->
  (body_accepted c ty locals (put p [I_LocalTee x]) <-> body_accepted c ty locals (put p [I_LocalSet x; I_LocalGet x])).
Proof. exact tee_anywhere. Qed.
Print Assumptions C78_tee.
(** the branches of an [if] can be exchanged *)
Theorem C78_if : forall c ty locals p rt a b, no_pseudo (put p [I_If rt a b]) ->
  (body_accepted c ty locals (put p [I_If rt a b]) <-> body_accepted c ty locals (put p [I_I32Eqz; I_If rt b a])).
Proof. exact if_anywhere. Qed.
Print Assumptions C78_if.
(** code after a jump can be removed *)
Theorem C78_dead : forall c ty locals p j e, diverts j -> no_pseudo (put p (j :: e)) ->
  body_accepted c ty locals (put p (j :: e)) -> body_accepted c ty locals (put p [j]).
Proof. exact dead_anywhere. Qed.
Print Assumptions C78_dead.
(** the same in a function of a module *)
Theorem C78_module : forall m fs ty locals p gs e1 e2,
  (forall f, In f (m_funcs (with_body m fs ty locals (put p e1) gs)) -> no_pseudo (fn_body f)) ->
  (forall fts ft ts ts', func_space (with_body m fs ty locals (put p e1) gs) fts -> at_index (m_types m) ty ft ->
     seq_type false (inside_module m fts ft locals (labels_at p [])) e1 ts ts' -> seq_type false (inside_module m fts ft locals (labels_at p [])) e2 ts ts') ->
  accepted (with_body m fs ty locals (put p e1) gs) -> accepted (with_body m fs ty locals (put p e2) gs).
Proof. exact module_replace. Qed.
Print Assumptions C78_module.
Theorem C78_module_dead : forall m fs ty locals p gs j e, diverts j ->
  (forall f, In f (m_funcs (with_body m fs ty locals (put p (j :: e)) gs)) -> no_pseudo (fn_body f)) ->
  accepted (with_body m fs ty locals (put p (j :: e)) gs) -> accepted (with_body m fs ty locals (put p [j]) gs).
Proof. exact module_dead. Qed.
Print Assumptions C78_module_dead.

Open Scope N_scope.
Definition C78_accepts (body : list instr) : bool :=
  match v_func (mkFunc 0 [T_I64] body) (mkContext [mkFuncTy [T_I32] [T_I32]] [] [] [] [] [] None, empty_stacks) with VOk _ => true | _ => false end.
(** inside an [if] in a block; a local of another type and code that takes more are rejected there.  Code after a jump
    can be wrong: removing it is safe, putting it in is not *)
Example C78_example :
  let p := P_block [I_Nop] [T_I32] (P_then [I_LocalGet 0] [T_I32] (P_at [I_ConstI32 5%Z] [I_Br 1]) [I_ConstI32 6%Z] []) [] in
  labels_at p [] = [[T_I32]; [T_I32]] /\
  map (fun e => C78_accepts (put p e))
    [[]; [I_Nop]; [I_LocalTee 0]; [I_LocalSet 0; I_LocalGet 0]; [I_LocalTee 1]; [I_Drop]; [I_Br 0]; [I_Br 0; I_I64Eqz]; [I_Br 0; I_ConstI64 0%Z]; [I_I32Eqz; I_If [T_I32] [I_ConstI32 1%Z] [I_ConstI32 2%Z]]] =
    [true; true; true; true; false; false; true; true; false; true].
Proof. repeat split; vm_compute; reflexivity. Qed.
(** a call into the function before it; what follows the return is removed *)
Example C78_example_module :
  let m := mkModule [mkFuncTy [] [T_I64]; mkFuncTy [T_I64] []] [] [] [] [] [] [] None [] [] in
  let at_ e := validate (with_body m [mkFunc 0 [] [I_ConstI64 1%Z]] 1 [] (put (P_loop [] [] (P_at [I_Call 0] []) []) e) [mkFunc 1 [] []]) in
  (exists mt, at_ [I_Return; I_Call 1; I_I32Eqz; I_Drop] = VOk mt) /\ (exists mt, at_ [I_Return] = VOk mt) /\ (exists mt, at_ [I_LocalSet 0] = VOk mt) /\
  at_ [] = VErr /\ at_ [I_Return; I_Call 2; I_Call 3] = VErr.
Proof. repeat split; try eexists; vm_compute; reflexivity. Qed.
