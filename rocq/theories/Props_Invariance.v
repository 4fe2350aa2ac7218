(** Property theorems C54 and C55: what the verdict does not depend on. *)
From Verif Require Import Cli SpecSkeleton SpecLink SpecVerdict SkeletonProof LinkProof ReorderProof.
Open Scope N_scope.

(** C54: constants, immediates of loads and stores, bytes and names do not matter, beyond the equality of export names *)
Theorem C54_skeleton : forall m m', skeleton m = skeleton m' ->
  (NoDup (map ex_name (m_exports m)) <-> NoDup (map ex_name (m_exports m'))) -> validate m = validate m'.
Proof. exact verdict_skeleton. Qed.
Print Assumptions C54_skeleton.
(** ... and neither do they for the exit status of the tool *)
Theorem C54_files : forall args fs fs',
  (forall name, fs name = fs' name \/ exists b b' m m', fs name = Contents b /\ fs' name = Contents b' /\
    fst (p_module b) = Ok m /\ fst (p_module b') = Ok m' /\ skeleton m = skeleton m' /\
    (NoDup (map ex_name (m_exports m)) <-> NoDup (map ex_name (m_exports m')))) ->
  forall c, (exists msgs, cli args fs = Exit c msgs) <-> (exists msgs, cli args fs' = Exit c msgs).
Proof. exact files_skeleton. Qed.
Print Assumptions C54_files.
Definition dressed (n : Z) (k : N) (x : byte) : module :=
  mkModule [mkFuncTy [] []] [mkFunc 0 [] [I_Block [] [I_ConstI32 n; I_ConstI32 (n + 1)%Z; I_I32Store k (k + 7)]]] [] [mkMem (mkMemTy (mkLimits 1 None))]
    [mkGlobal (mkGlobalTy Var T_F64) [I_ConstF64 k]] [] [mkData 0 [I_ConstI32 n] [x; x]] None
    [mkImport [x] [x00] (ID_Func 0)] [mkExport [x] (ED_Func 1); mkExport [x; x] (ED_Mem 0)].
Example C54_example : skeleton (dressed 5 2 x61) = skeleton (dressed (-8) 90 x7a) /\ dressed 5 2 x61 <> dressed (-8) 90 x7a
  /\ validate (dressed 5 2 x61) = VOk (mkModuleTypes [X_Func (mkFuncTy [] [])] [X_Func (mkFuncTy [] []); X_Mem (mkMemTy (mkLimits 1 None))]).
Proof. repeat split; try discriminate; vm_compute; reflexivity. Qed.
(** nothing of the immediates is left, in any access to memory *)
Definition accesses (a o : N) : list instr :=
  [I_I32Load a o; I_I64Load a o; I_F32Load a o; I_F64Load a o; I_I32Load8S a o; I_I32Load8U a o; I_I32Load16S a o; I_I32Load16U a o;
   I_I64Load8S a o; I_I64Load8U a o; I_I64Load16S a o; I_I64Load16U a o; I_I64Load32S a o; I_I64Load32U a o;
   I_I32Store a o; I_I64Store a o; I_F32Store a o; I_F64Store a o; I_I32Store8 a o; I_I32Store16 a o; I_I64Store8 a o; I_I64Store16 a o; I_I64Store32 a o].
Example C54_example_accesses : forall a o i, map bare (accesses a o) = map bare (accesses 0 0) /\
  (In i (accesses a o) -> bare i <> i -> a <> 0 \/ o <> 0) /\ ((load_type i <> None \/ store_type i <> None) -> exists a' o', In i (accesses a' o')).
Proof.
  intros a o i. split; [reflexivity|]. split.
  - intros I B. destruct (N.eq_dec a 0) as [->|]; [|left; assumption]. destruct (N.eq_dec o 0) as [->|]; [|right; assumption].
    exfalso. apply B. repeat (destruct I as [<-|I]; [reflexivity|]). destruct I.
  - intros H. destruct i; try (exfalso; destruct H as [H|H]; apply H; reflexivity); eexists; eexists; cbn; repeat (first [left; reflexivity|right]).
Qed.

(** C55: a module whose components all come from accepted modules, renumbered consistently, is accepted *)
Theorem C55_assembly : forall parts m', assembled parts m' ->
  (forall m r, In (m, r) parts -> accepted m /\ fits r m m') ->
  (length (m_tables m') <= 1)%nat -> (length (m_mems m') <= 1)%nat -> NoDup (map ex_name (m_exports m')) ->
  accepted m'.
Proof. exact assembly. Qed.
Print Assumptions C55_assembly.
Theorem C55_put_together : forall m1 m2, accepted m1 -> accepted m2 -> m_imports m1 = [] -> m_imports m2 = [] ->
  (accepted (put_together m1 m2) <->
   (length (m_tables m1) + length (m_tables m2) <= 1)%nat /\ (length (m_mems m1) + length (m_mems m2) <= 1)%nat /\
   NoDup (map ex_name (m_exports m1) ++ map ex_name (m_exports m2))).
Proof. exact put_together_iff. Qed.
Print Assumptions C55_put_together.
(** the order of definitions, segments, imports and exports makes no difference *)
Theorem C55_reordered : forall r r' m m', undoes r' r -> reordered r m m' -> (accepted m <-> accepted m').
Proof. exact reordered_verdict. Qed.
Print Assumptions C55_reordered.
(** two functions exchanged, with the call, the start function and the types they refer to *)
Definition two_functions : module :=
  mkModule [mkFuncTy [] []; mkFuncTy [T_I32] [T_I64]] [mkFunc 0 [] [I_ConstI32 3%Z; I_Call 1; I_Drop]; mkFunc 1 [] [I_LocalGet 0; I_I64ExtendI32S]]
    [] [] [] [] [] (Some (mkStart 0)) [] [mkExport [x66] (ED_Func 1)].
Definition exchanged : module :=
  mkModule [mkFuncTy [T_I32] [T_I64]; mkFuncTy [] []] [mkFunc 0 [] [I_LocalGet 0; I_I64ExtendI32S]; mkFunc 1 [] [I_ConstI32 3%Z; I_Call 0; I_Drop]]
    [] [] [] [] [] (Some (mkStart 1)) [] [mkExport [x67] (ED_Func 0)].
Definition flip : renumbering := mkRenumbering (fun x => 1 - x) (fun x => 1 - x) (fun x => x) (fun x => x) (fun x => x) (fun x => x).
Example C55_example : assembled [(two_functions, flip)] exchanged /\ fits flip two_functions exchanged /\ accepted two_functions.
Proof.
  split; [|split; [|eexists; vm_compute; reflexivity]].
  - constructor; cbn; try tauto.
    + intros t T. exists two_functions, flip. cbn. tauto.
    + intros f [<-|[<-|[]]]; exists two_functions, flip; [exists (mkFunc 1 [] [I_LocalGet 0; I_I64ExtendI32S])|exists (mkFunc 0 [] [I_ConstI32 3%Z; I_Call 1; I_Drop])]; cbn; auto.
    + intros s [= <-]. exists two_functions, flip, (mkStart 0). cbn; auto.
    + intros e [<-|[]]. exists two_functions, flip, (mkExport [x66] (ED_Func 1)). cbn; auto.
  - constructor; cbn; intros x t E; try (apply at_index_none in E; contradiction); apply at_index_two in E as [[-> ->]|[-> ->]]; reflexivity.
Qed.
Example C55_example_together : accepted (put_together two_functions (with_exports exchanged [])) /\ m_start (put_together exchanged two_functions) = Some (mkStart 1)
  /\ nth_error (m_funcs (put_together two_functions exchanged)) 3 = Some (mkFunc 3 [] [I_ConstI32 3%Z; I_Call 2; I_Drop]).
Proof. split; [eexists|split]; vm_compute; reflexivity. Qed.
Definition swap (x : N) : N := match x with 0 => 1 | 1 => 0 | _ => x end.
Lemma swap_swap x : swap (swap x) = x.
Proof. destruct x as [|[p|p|]]; reflexivity. Qed.
Definition swapping : renumbering := mkRenumbering swap swap (fun x => x) (fun x => x) (fun x => x) (fun x => x).
Example C55_example_reordered : undoes swapping swapping /\ reordered swapping two_functions (with_exports exchanged [mkExport [x66] (ED_Func 0)]).
Proof.
  split; [split; intros x; apply swap_swap + reflexivity|].
  constructor; cbn; try reflexivity; try apply perm_swap.
  constructor; cbn; intros x t E; try (apply at_index_none in E; contradiction); apply at_index_two in E as [[-> ->]|[-> ->]]; reflexivity.
Qed.
