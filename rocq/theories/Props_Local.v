(** C69: the verdict depends on the components and on what their indices denote. *)
From Verif Require Import SpecLocal LocalProof.
Open Scope N_scope.

(** A module is accepted exactly if each component is one of an accepted module, up to indices that denote the same, and there are not
    too many tables and memories, and no two exports of the same name. *)
Theorem C69_local : forall m, accepted m <->
  composed m /\ (length (m_tables m) <= 1)%nat /\ (length (m_mems m) <= 1)%nat /\ NoDup (map ex_name (m_exports m)).
Proof. exact accepted_local. Qed.
Print Assumptions C69_local.

(** So definitions that nothing uses can be removed, *)
Theorem C69_removal : forall k m, closed k m -> accepted m -> accepted (without k m).
Proof. exact without_ok. Qed.
Print Assumptions C69_removal.

(** and of types that occur more than once any occurrence can be used, in accepted modules and in others. *)
Theorem C69_types : forall g m, (forall x, nth_error (m_types m) (N.to_nat (g x)) = nth_error (m_types m) (N.to_nat x)) ->
  validate (retyped g m) = validate m.
Proof. exact retyped_verdict. Qed.
Print Assumptions C69_types.

(** a type, a function and a global in the middle are removed; the call, the segment and the exports follow *)
Definition before : module :=
  mkModule [mkFuncTy [T_F32] []; mkFuncTy [] []; mkFuncTy [T_I32] [T_I64]]
    [mkFunc 1 [] [I_ConstI32 3%Z; I_Call 3; I_Drop]; mkFunc 0 [] [I_LocalGet 0; I_Drop; I_Call 1]; mkFunc 2 [] [I_LocalGet 0; I_I64ExtendI32S; I_GlobalGet 2; I_Drop]]
    [mkTable (mkTableTy (mkLimits 4 None) FuncRef)] [mkMem (mkMemTy (mkLimits 1 None))] [mkGlobal (mkGlobalTy Const T_F32) [I_ConstF32 0]; mkGlobal (mkGlobalTy Const T_I32) [I_ConstI32 1%Z]]
    [mkElem 0 [I_GlobalGet 2] [0; 3]] [mkData 0 [I_GlobalGet 2] [x61]] (Some (mkStart 1)) [mkImport [] [x61] (ID_Func 1); mkImport [] [x62] (ID_Global (mkGlobalTy Const T_I64))] [mkExport [x66] (ED_Func 3); mkExport [x67] (ED_Global 2); mkExport [x74] (ED_Table 0); mkExport [x6d] (ED_Mem 0)].
Definition after : module :=
  mkModule [mkFuncTy [] []; mkFuncTy [T_I32] [T_I64]]
    [mkFunc 0 [] [I_ConstI32 3%Z; I_Call 2; I_Drop]; mkFunc 1 [] [I_LocalGet 0; I_I64ExtendI32S; I_GlobalGet 1; I_Drop]]
    [mkTable (mkTableTy (mkLimits 4 None) FuncRef)] [mkMem (mkMemTy (mkLimits 1 None))] [mkGlobal (mkGlobalTy Const T_I32) [I_ConstI32 1%Z]]
    [mkElem 0 [I_GlobalGet 1] [0; 2]] [mkData 0 [I_GlobalGet 1] [x61]] (Some (mkStart 1)) [mkImport [] [x61] (ID_Func 0); mkImport [] [x62] (ID_Global (mkGlobalTy Const T_I64))] [mkExport [x66] (ED_Func 2); mkExport [x67] (ED_Global 1); mkExport [x74] (ED_Table 0); mkExport [x6d] (ED_Mem 0)].
Definition unused (s : space) (x : N) : bool :=
  match s with S_Type => negb (x =? 0) | S_Func => negb (x =? 2) | S_Global => negb (x =? 1) | _ => true end.
Example C69_example : without unused before = after /\ accepted before /\ accepted after /\
  (* a function that is used is removed *)
  validate (without (fun s x => match s with S_Func => negb (x =? 3) | _ => true end) before) = VErr.
Proof. split; [reflexivity|]. split; [|split]; [eexists; vm_compute; reflexivity..|vm_compute; reflexivity]. Qed.
Lemma flat_uses e s x : Forall (fun i => children i = []) e -> code_uses e s x -> In (s, x) (flat_map refs e).
Proof.
  intros F (j & O & R). apply in_flat_map. exists j. split; [|exact R]. inversion O as [? J|i sub ? J C ?]; subst; [exact J|].
  rewrite (proj1 (Forall_forall _ _) F _ J) in C. destruct C.
Qed.
Example C69_example_closed : closed unused before.
Proof.
  assert (U : forall e s x, Forall (fun i => children i = []) e -> code_uses e s x -> Forall (fun p => stays unused before (fst p) (snd p) = true) (flat_map refs e) ->
    stays unused before s x = true).
  { intros e s x F C A. apply (flat_uses _ _ _ F) in C. exact (proj1 (Forall_forall _ _) A _ C). }
  assert (G : forall x e, Forall (fun i => children i = []) e -> Forall (fun i => match i with I_GlobalGet _ => False | _ => True end) e -> ~ occurs (I_GlobalGet x) e).
  { intros x e F A O. inversion O as [? J|i sub ? J C ?]; subst; [exact (proj1 (Forall_forall _ _) A _ J)|].
    rewrite (proj1 (Forall_forall _ _) F _ J) in C. destruct C. }
  constructor; cbn.
  - intros f s x [<-|[<-|[]]] [[-> ->]|C]; try reflexivity; (eapply U; [|exact C|]); cbn; repeat constructor.
  - intros g x [<-|[]] O. exfalso. eapply G; [| |exact O]; repeat constructor.
  - intros e s x [<-|[]] [[-> ->]|[[-> [<-|[<-|[]]]]|C]]; try reflexivity. eapply U; [|exact C|]; cbn; repeat constructor.
  - intros d s x [<-|[]] [[-> ->]|C]; try reflexivity. eapply U; [|exact C|]; cbn; repeat constructor.
  - intros st s x [= <-] [-> ->]. reflexivity.
  - intros i s x [<-|[<-|[]]] [-> D]; try discriminate D. injection D as <-. reflexivity.
  - intros e s x [<-|[<-|[<-|[<-|[]]]]] [-> ->]; reflexivity.
Qed.
(** a type twice *)
Example C69_example_types :
  let m t := mkModule [mkFuncTy [] []; mkFuncTy [] []] [mkFunc t [] [I_Call 0; I_ConstI32 0%Z; I_CallIndirect t 0]] [mkTable (mkTableTy (mkLimits 4 None) FuncRef)] [] [] [] [] None [] [] in
  retyped (fun x => 1 - x) (m 0) = m 1 /\ accepted (m 1) /\ accepted (m 0).
Proof. split; [reflexivity|]. split; eexists; vm_compute; reflexivity. Qed.
