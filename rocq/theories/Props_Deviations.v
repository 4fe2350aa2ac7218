(** Property theorems C53: the complete list of differences between the verdict of the code and the official one. *)
From Coq Require Import Lia.
From Verif Require Import ParserModule SpecDeviations SpecVerdict DeviationProof.
Open Scope N_scope.

(** C53: an accepted module is officially valid exactly when it satisfies what the code does not check *)
Theorem C53_accepted_exact : forall m, accepted m -> (forall f, In f (m_funcs m) -> no_pseudo (fn_body f)) ->
  (valid_module wasm10_validity m <-> unchecked m).
Proof. exact accepted_exact. Qed.
Print Assumptions C53_accepted_exact.
(** C53: an officially valid module is accepted exactly when it satisfies what the code checks in addition *)
Theorem C53_official_exact : forall m, valid_module wasm10_validity m -> limits_u32 m -> (accepted m <-> overchecked m).
Proof. exact official_exact. Qed.
Print Assumptions C53_official_exact.
(** C53: for modules from files *)
Theorem C53_files_exact : forall bs m, p_module bs = (Ok m, []) ->
  (accepted m -> (valid_module wasm10_validity m <-> unchecked m)) /\
  (valid_module wasm10_validity m -> (accepted m <-> overchecked m)) /\
  (accepted m /\ valid_module wasm10_validity m <-> accepted m /\ unchecked m) /\
  (accepted m /\ valid_module wasm10_validity m <-> valid_module wasm10_validity m /\ overchecked m).
Proof. exact files_exact. Qed.
Print Assumptions C53_files_exact.

(** an imported global and one initialised with [global.get 0]: the code reads index 0 as the module's own global, the
    specification as the imported one *)
Definition getter (imported own : valty) : module :=
  mkModule [] [] [] [] [mkGlobal (mkGlobalTy Const own) [I_GlobalGet 0]] [] [] None [mkImport [] [] (ID_Global (mkGlobalTy Const imported))] [].
Example C53_example :
  (* both verdicts agree by accident *)
  accepted (getter T_I32 T_I32) /\ unchecked (getter T_I32 T_I32)
  (* accepted, and invalid because of the type of the imported global *)
  /\ accepted (getter T_I64 T_I32) /\ ~ unchecked (getter T_I64 T_I32)
  (* two imported memories; a memory of 65536 pages; a branch to the label of the function *)
  /\ accepted (mkModule [] [] [] [] [] [] [] None [mkImport [] [] (ID_Mem (mkMemTy (mkLimits 1 None))); mkImport [] [] (ID_Mem (mkMemTy (mkLimits 1 None)))] [])
  /\ ~ overchecked (mkModule [] [] [] [mkMem (mkMemTy (mkLimits 65536 None))] [] [] [] None [] [])
  /\ ~ overchecked (mkModule [mkFuncTy [] []] [mkFunc 0 [] [I_Br 0]] [] [] [] [] [] None [] []).
Proof.
  split; [eexists; vm_compute; reflexivity|]. split.
  { split; [intros f []|]. split; [|split; cbn; lia]. intros g x [<-|[]] [= <-]. exists (mkGlobalTy Const T_I32). repeat split. }
  split; [eexists; vm_compute; reflexivity|]. split.
  { intros (_ & R & _). destruct (R _ 0 (or_introl eq_refl) eq_refl) as (g & A & _ & T). injection A as <-. discriminate T. }
  split; [eexists; vm_compute; reflexivity|]. split.
  - intros (_ & _ & S). inversion S as [|? ? F]; subst. inversion F as [|? ? L]; subst. vm_compute in L. discriminate L.
  - intros (J & _). specialize (J _ (or_introl eq_refl)). apply (J 0%nat). apply jump_here with (i := I_Br 0); left; reflexivity.
Qed.
