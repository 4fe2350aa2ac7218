(** Property theorems C91: the numbers of the variables of a function do not matter. *)
From Coq Require Import Permutation.
From Verif Require Import SpecVars SpecVerdict SpecExec ParserModule VarsProof ExecDemo.
Open Scope N_scope.

(** C91: if the variables that a function names get other numbers under which there are variables of the same types (or none, where there were none),
    the verdict is the same, whatever the function is ... *)
Theorem C91_verdict : forall m fs ty L L' body gs ft r, at_index (m_types m) ty ft -> same_typed r (ft_params ft ++ L) (ft_params ft ++ L') body ->
  validate (with_body m fs ty L' (map (renamed r) body) gs) = validate (with_body m fs ty L body gs).
Proof. exact vars_verdict. Qed.
Print Assumptions C91_verdict.
(** ... and so is validity *)
Theorem C91_official : forall m fs ty L L' body gs ft r, at_index (m_types m) ty ft -> same_typed r (ft_params ft ++ L) (ft_params ft ++ L') body ->
  valid_module wasm10_validity (with_body m fs ty L body gs) <-> valid_module wasm10_validity (with_body m fs ty L' (map (renamed r) body) gs).
Proof. exact vars_official. Qed.
Print Assumptions C91_official.
(** If in addition variables that are different stay different, and the parameters stay, every call of every function of an instance does the same, with
    the same fuel *)
Theorem C91_same : forall m fs ty L L' body gs ft r, at_index (m_types m) ty ft -> same_typed r (ft_params ft ++ L) (ft_params ft ++ L') body ->
  kept_apart r (N.of_nat (length (ft_params ft))) body ->
  let before := with_body m fs ty L body gs in
  let after := with_body m fs ty L' (map (renamed r) body) gs in
  forall (M : machine) fts (imported others : list (finst M)) fuel a args st,
  func_space before fts -> length imported = length (imported_funcs (m_imports m)) ->
  invoke M (m_types m) (instance_funcs after fts imported others) fuel a args st =
    invoke M (m_types m) (instance_funcs before fts imported others) fuel a args st.
Proof. exact vars_same. Qed.
Print Assumptions C91_same.
(** and so does instantiating the module *)
Theorem C91_instantiates : forall m fs ty L L' body gs ft r, at_index (m_types m) ty ft -> same_typed r (ft_params ft ++ L) (ft_params ft ++ L') body ->
  kept_apart r (N.of_nat (length (ft_params ft))) body ->
  let before := with_body m fs ty L body gs in
  let after := with_body m fs ty L' (map (renamed r) body) gs in
  forall (M : machine) fts (imported others : list (finst M)) imp fuel,
  func_space before fts -> length imported = length (imported_funcs (m_imports m)) ->
  instantiate after imp (instance_funcs after fts imported others) fuel = instantiate before imp (instance_funcs before fts imported others) fuel.
Proof. exact vars_instantiates. Qed.
Print Assumptions C91_instantiates.
(** Variables that are not named can be left out *)
Theorem C91_unused : forall m fs ty A D B body gs ft,
  let n := N.of_nat (length (ft_params ft) + length A) in
  let k := N.of_nat (length D) in
  at_index (m_types m) ty ft -> (forall x, In x (flat_map vars_of body) -> x < n \/ n + k <= x) ->
  let before := with_body m fs ty (A ++ D ++ B) body gs in
  let after := with_body m fs ty (A ++ B) (map (renamed (closed_up n k)) body) gs in
  validate after = validate before /\
  forall M fts (imported others : list (finst M)) fuel a args st, func_space before fts -> length imported = length (imported_funcs (m_imports m)) ->
    invoke M (m_types m) (instance_funcs after fts imported others) fuel a args st =
      invoke M (m_types m) (instance_funcs before fts imported others) fuel a args st.
Proof. exact vars_unused. Qed.
Print Assumptions C91_unused.
(** They can be declared in any order *)
Theorem C91_reordered : forall m fs ty L L' gs ft, at_index (m_types m) ty ft -> Permutation L L' -> exists r, forall body,
  let before := with_body m fs ty L body gs in
  let after := with_body m fs ty L' (map (renamed r) body) gs in
  validate after = validate before /\
  forall M fts (imported others : list (finst M)) fuel a args st, func_space before fts -> length imported = length (imported_funcs (m_imports m)) ->
    invoke M (m_types m) (instance_funcs after fts imported others) fuel a args st =
      invoke M (m_types m) (instance_funcs before fts imported others) fuel a args st.
Proof. exact vars_reordered. Qed.
Print Assumptions C91_reordered.

(** Of one argument a: variable 1 becomes a + 3, variable 4 becomes 10; the result is variable 4 - variable 1.  Variable 2 is not named. *)
Definition body91 : expr :=
  [I_LocalGet 0; I_ConstI32 3%Z; I_I32Add; I_LocalSet 1; I_Block [] [I_ConstI32 10%Z; I_LocalSet 4]; I_ConstI64 1%Z; I_LocalSet 3; I_LocalGet 4; I_LocalGet 1; I_I32Sub].
Definition around91 : module := {| m_types := [mkFuncTy [T_I32] [T_I32]]; m_funcs := []; m_tables := []; m_mems := []; m_globals := [];
  m_elem := []; m_data := []; m_start := None; m_imports := []; m_exports := [] |}.
Definition with91 (L : list valty) (e : expr) : module := with_body around91 [] 0 L e [].
Definition verdict91 (m : module) : bool := match validate m with VOk _ => true | _ => false end.
Definition run91 (m : module) (a : N) : option (list value * list (list N)) :=
  seen_run (invoke demo_machine (m_types m) (instance_funcs m [mkFuncTy [T_I32] [T_I32]] [] []) 30 0 [mkValue T_I32 a] empty_store).
(** 1 to 4, 3 to 2, 4 to 1 *)
Definition turn (x : N) : N := if x =? 0 then 0 else if x =? 3 then 2 else 5 - x.
Example C91_example : verdict91 (with91 [T_I32; T_F32; T_I64; T_I32] body91) = true /\ run91 (with91 [T_I32; T_F32; T_I64; T_I32] body91) 2 = Some ([mkValue T_I32 5], []) /\
  map (renamed turn) body91 = [I_LocalGet 0; I_ConstI32 3%Z; I_I32Add; I_LocalSet 4; I_Block [] [I_ConstI32 10%Z; I_LocalSet 1]; I_ConstI64 1%Z; I_LocalSet 2;
    I_LocalGet 1; I_LocalGet 4; I_I32Sub] /\
  verdict91 (with91 [T_I32; T_I64; T_F32; T_I32] (map (renamed turn) body91)) = true /\
  run91 (with91 [T_I32; T_I64; T_F32; T_I32] (map (renamed turn) body91)) 2 = Some ([mkValue T_I32 5], []).
Proof. repeat split; vm_compute; reflexivity. Qed.
Example C91_example_fits : same_typed turn [T_I32; T_I32; T_F32; T_I64; T_I32] [T_I32; T_I32; T_I64; T_F32; T_I32] body91 /\ kept_apart turn 1 body91.
Proof.
  split; [|split].
  - intros x H. cbn in H. repeat destruct H as [<-|H]; try reflexivity. contradiction.
  - intros x y H H'. cbn in H, H'. repeat destruct H as [<-|H]; try contradiction; repeat destruct H' as [<-|H']; try contradiction; vm_compute; congruence.
  - intros x H. cbn in H. repeat destruct H as [<-|H]; try contradiction; vm_compute; congruence.
  - intros x H. cbn in H. repeat destruct H as [<-|H]; try contradiction; vm_compute; congruence.
Qed.
Example C91_example_unused : run91 (with91 [T_I32; T_I64; T_I32] (map (renamed (closed_up 2 1)) body91)) 2 = Some ([mkValue T_I32 5], []) /\
  map (closed_up 2 1) [0; 1; 3; 4] = [0; 1; 2; 3].
Proof. split; vm_compute; reflexivity. Qed.
(** Wrong ways: with two variables in one place it is accepted, but does something else; so it is with a variable in the place of the parameter; with
    the types in another order it is not accepted *)
Example C91_example_wrong :
  let one x := if x =? 4 then 1 else x in
  let zeroth x := if x =? 4 then 0 else x in
  verdict91 (with91 [T_I32; T_F32; T_I64] (map (renamed one) body91)) = true /\
  run91 (with91 [T_I32; T_F32; T_I64] (map (renamed one) body91)) 2 = Some ([mkValue T_I32 0], []) /\
  run91 (with91 [T_I32; T_F32; T_I64] (map (renamed zeroth) [I_LocalGet 4])) 2 = Some ([mkValue T_I32 2], []) /\
  run91 (with91 [T_I32; T_F32; T_I64; T_I32] [I_LocalGet 4]) 2 = Some ([mkValue T_I32 0], []) /\
  verdict91 (with91 [T_I32; T_F32; T_I64; T_I32] (map (renamed turn) body91)) = false.
Proof. repeat split; vm_compute; reflexivity. Qed.
