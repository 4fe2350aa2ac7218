(** Property theorems C90: code that does the same can be exchanged. *)
From Verif Require Import SpecSame SpecVerdict ParserModule SameProof ExecDemo.
Open Scope N_scope.

(** C90: if [e2] does whatever [e1] does (and whatever it may do when that is stuck or does not end), then with [e2] in the place of
    [e1], anywhere in a function of a module, every call of a function of an instance gives what it gave *)
Theorem C90_runs : forall m fs ty locals p gs M fts (imported others : list (finst M)) e1 e2 a args st r, does_as M (m_types m) e1 e2 ->
  gives (fun fuel => invoke M (m_types m) (instance_funcs (with_body m fs ty locals (put p e1) gs) fts imported others) fuel a args st) r ->
  gives (fun fuel => invoke M (m_types m) (instance_funcs (with_body m fs ty locals (put p e2) gs) fts imported others) fuel a args st) r.
Proof. exact same_runs. Qed.
Print Assumptions C90_runs.
Theorem C90_both : forall m fs ty locals p gs M fts (imported others : list (finst M)) e1 e2 a args st r, does_same M (m_types m) e1 e2 ->
  gives (fun fuel => invoke M (m_types m) (instance_funcs (with_body m fs ty locals (put p e1) gs) fts imported others) fuel a args st) r <->
  gives (fun fuel => invoke M (m_types m) (instance_funcs (with_body m fs ty locals (put p e2) gs) fts imported others) fuel a args st) r.
Proof. exact same_both. Qed.
Print Assumptions C90_both.
(** A call that ends with some fuel has the same result with more *)
Theorem C90_more : forall M types (fs : list (finst M)) n m a args st,
  invoke M types fs n a args st <> R_Fuel -> (n <= m)%nat -> invoke M types fs m a args st = invoke M types fs n a args st.
Proof. exact more_fuel. Qed.
Print Assumptions C90_more.
(** The exchanges of C78 are exchanges of code that does the same *)
Theorem C90_nop : forall M types, does_same M types [I_Nop] [].
Proof. exact nop_same. Qed.
Print Assumptions C90_nop.
Theorem C90_tee : forall M types x, does_same M types [I_LocalTee x] [I_LocalSet x; I_LocalGet x].
Proof. exact tee_same. Qed.
Print Assumptions C90_tee.
Theorem C90_if : forall M types rt a b, eqz_right M -> does_same M types [I_If rt a b] [I_I32Eqz; I_If rt b a].
Proof. exact if_same. Qed.
Print Assumptions C90_if.
Theorem C90_dead : forall M types j e, diverts j -> does_same M types (j :: e) [j].
Proof. exact dead_same. Qed.
Print Assumptions C90_dead.
(** others *)
Theorem C90_const : forall M types i t, machine_ok M -> plain_type i = Some ([], [t]) -> does_same M types [i; I_Drop] [].
Proof. exact const_same. Qed.
Print Assumptions C90_const.
Theorem C90_getset : forall M types x, does_as M types [I_LocalGet x; I_LocalSet x] [].
Proof. exact getset_as. Qed.
Print Assumptions C90_getset.

Example C90_example_machine : eqz_right demo_machine.
Proof.
  intros v T. eexists. split; [reflexivity|]. split; [reflexivity|]. cbn. unfold is_zero. cbn [bits_of]. destruct (bits_of v =? 0); reflexivity.
Qed.
(** the loop of the module of C47, with the condition negated by [nop], [tee], exchanged branches and code after a jump *)
Definition loop_place : place :=
  P_block [I_ConstI32 1%Z; I_LocalSet 1] [] (P_loop [] [] (P_at [I_LocalGet 0]
    [I_LocalGet 0; I_LocalGet 1; I_I32Mul; I_LocalSet 1; I_LocalGet 0; I_ConstI32 1%Z; I_I32Sub; I_LocalSet 0; I_Br 0]) []) [I_LocalGet 1].
Definition looping (e : expr) : module := with_body fac_module [mkFunc 0 [] fac_body] 0 [T_I32] (put loop_place e) [mkFunc 1 [] []].
Definition run90 (e : expr) (x : N) : option (list value * list (list N)) :=
  seen_run (invoke demo_machine (m_types fac_module) (instance_funcs (looping e) fac_fts [] []) 30 1 [mkValue T_I32 x] fac_store).
Definition value90 (e : expr) (x : N) : option (list value) := option_map fst (run90 e x).
Example C90_example_runs :
  map (fun e => value90 e 5)
    [[I_If [] [] [I_Br 2]]; [I_I32Eqz; I_If [] [I_Br 2] []]; [I_LocalTee 0; I_If [] [] [I_Br 2]]; [I_LocalSet 0; I_LocalGet 0; I_Nop; I_If [] [] [I_Br 2]];
     [I_If [] [] [I_Br 2; I_Unreachable; I_LocalGet 7]]; [I_ConstF64 3; I_Drop; I_If [] [I_LocalGet 1; I_LocalSet 1] [I_Br 2]]]
  = repeat (Some [mkValue T_I32 120]) 6.
Proof. vm_compute. reflexivity. Qed.
(** other code, which does something else *)
Example C90_example_wrong :
  map (fun e => value90 e 5)
    [[I_If [] [I_Br 2] []]; [I_I32Eqz; I_If [] [] [I_Br 2]]; [I_LocalTee 1; I_If [] [] [I_Br 2]]; [I_If [] [] [I_Br 1]]]
  = [Some [mkValue T_I32 1]; Some [mkValue T_I32 1]; Some [mkValue T_I32 0]; None].
Proof. vm_compute. reflexivity. Qed.
(** Not the same: code that traps; code that is stuck where the other is not; code after something that is not a jump *)
Example C90_example_not :
  ~ does_as demo_machine [] [] [I_Unreachable] /\ ~ does_as demo_machine [] [] [I_LocalGet 0; I_LocalSet 0] /\
  ~ does_as demo_machine [] [I_ConstI32 1%Z; I_Drop] [I_ConstI32 1%Z] /\ ~ does_as demo_machine [] [I_Nop; I_Unreachable] [I_Nop].
Proof.
  pose (c := @mkConf demo_machine [] [] empty_store). split; [|split; [|split]].
  - apply (not_as _ _ _ _ [] [] [] c (R_Normal c) R_Trap); try (intros n; reflexivity); discriminate.
  - apply (not_as _ _ _ _ [] [] [] c (R_Normal c) R_Stuck); try (intros n; reflexivity); discriminate.
  - apply (not_as _ _ _ _ [] [] [] c (R_Normal c) (R_Normal (mkConf [mkValue T_I32 1] [] empty_store))); try (intros n; reflexivity); discriminate.
  - apply (not_as _ _ _ _ [] [] [] c R_Trap (R_Normal c)); try (intros n; reflexivity); discriminate.
Qed.
