(** Property theorems C86: a module can be linked statically to one that exports what it imports. *)
From Verif Require Import SpecStatic SpecVerdict LinkProof StaticProof.
Open Scope N_scope.

(** C86: the linked module is accepted, unless there are too many tables or memories, or two exports of one name *)
Theorem C86_linked : forall lib m, accepted lib -> accepted m -> supplied lib m ->
  (accepted (linked lib m) <->
   (length (m_tables lib) + length (m_tables m) <= 1)%nat /\ (length (m_mems lib) + length (m_mems m) <= 1)%nat /\
   NoDup (map ex_name (m_exports lib) ++ map ex_name (m_exports m))).
Proof. exact linked_iff. Qed.
Print Assumptions C86_linked.
(** what [exported] finds is what the library exports under the name *)
Theorem C86_exported : forall lib n d, accepted lib -> (exported n (m_exports lib) = Some d <-> In (mkExport n d) (m_exports lib)).
Proof. exact exported_iff. Qed.
Print Assumptions C86_exported.
(** an import is replaced by the export of its name ... *)
Theorem C86_imports : forall lib m ims1 i ims2 d, m_imports m = ims1 ++ i :: ims2 -> exported (im_name i) (m_exports lib) = Some d ->
  match im_desc i with
  | ID_Func _ => rn_func (linking lib m) (N.of_nat (length (imported_funcs ims1))) = index_of d
  | ID_Table _ => rn_table (linking lib m) (N.of_nat (length (imported_tables ims1))) = index_of d
  | ID_Mem _ => rn_mem (linking lib m) (N.of_nat (length (imported_mems ims1))) = index_of d
  | ID_Global _ => rn_global (linking lib m) (N.of_nat (length (imported_globals ims1))) = index_of d
  end.
Proof. exact import_place. Qed.
Print Assumptions C86_imports.
(** ... and the definitions are found under their new indices *)
Theorem C86_funcs : forall lib m x f, at_index (m_funcs m) x f ->
  exists y, rn_func (linking lib m) (N.of_nat (length (imported_funcs (m_imports m))) + x) = N.of_nat (length (imported_funcs (m_imports lib))) + y /\
    at_index (m_funcs (linked lib m)) y (renumber_func (linking lib m) f).
Proof. exact own_func. Qed.
Print Assumptions C86_funcs.
Theorem C86_globals : forall lib m x g, at_index (m_globals m) x g ->
  exists y, rn_global (linking lib m) (N.of_nat (length (imported_globals (m_imports m))) + x) = N.of_nat (length (imported_globals (m_imports lib))) + y /\
    rn_init (linking lib m) x = y /\ at_index (m_globals (linked lib m)) y (renumber_global (linking lib m) g).
Proof. exact own_global. Qed.
Print Assumptions C86_globals.
Theorem C86_tables : forall lib m x t, at_index (m_tables m) x t ->
  exists y, rn_table (linking lib m) (N.of_nat (length (imported_tables (m_imports m))) + x) = N.of_nat (length (imported_tables (m_imports lib))) + y /\
    at_index (m_tables (linked lib m)) y t.
Proof. exact own_table. Qed.
Print Assumptions C86_tables.
Theorem C86_mems : forall lib m x t, at_index (m_mems m) x t ->
  exists y, rn_mem (linking lib m) (N.of_nat (length (imported_mems (m_imports m))) + x) = N.of_nat (length (imported_mems (m_imports lib))) + y /\
    at_index (m_mems (linked lib m)) y t.
Proof. exact own_mem. Qed.
Print Assumptions C86_mems.
(** any module put together from accepted ones is accepted, if every reference still leads to something of the same type *)
Theorem C86_assembly : forall parts m', assembled parts m' ->
  (forall m r, In (m, r) parts -> accepted m /\ resolves r m m') ->
  (length (m_tables m') <= 1)%nat -> (length (m_mems m') <= 1)%nat -> NoDup (map ex_name (m_exports m')) ->
  accepted m'.
Proof. exact resolved_assembly. Qed.
Print Assumptions C86_assembly.

(** A library with an import of its own and a table, a memory and a variable to share; a module that uses them *)
Definition page : memty := mkMemTy (mkLimits 1 None).
Definition slots : tablety := mkTableTy (mkLimits 2 (Some 2)) FuncRef.
Definition sum : functy := mkFuncTy [T_I32; T_I32] [T_I32].
Definition library : module :=
  mkModule [mkFuncTy [] []; sum] [mkFunc 1 [] [I_LocalGet 0; I_LocalGet 1; I_I32Add; I_Call 0]] [mkTable slots] [mkMem page]
    [mkGlobal (mkGlobalTy Var T_I32) [I_ConstI32 7%Z]] [mkElem 0 [I_ConstI32 0%Z] [1]] [] None
    [mkImport [x65] [x66] (ID_Func 0)]
    [mkExport [x6d] (ED_Mem 0); mkExport [x73] (ED_Func 1); mkExport [x76] (ED_Global 0); mkExport [x74] (ED_Table 0); mkExport [x66] (ED_Func 0)].
Definition user : module :=
  mkModule [sum; mkFuncTy [] []] [mkFunc 1 [] [I_GlobalGet 0; I_I32Load 2 0; I_GlobalGet 1; I_Call 0; I_GlobalSet 0; I_Call 1]] [] []
    [mkGlobal (mkGlobalTy Const T_I32) [I_ConstI32 9%Z]] [mkElem 0 [I_ConstI32 1%Z] [0; 1]] [] (Some (mkStart 1))
    [mkImport [x6c] [x76] (ID_Global (mkGlobalTy Var T_I32)); mkImport [x6c] [x73] (ID_Func 0); mkImport [x6c] [x6d] (ID_Mem page);
     mkImport [x6c] [x74] (ID_Table slots)]
    [mkExport [x67] (ED_Func 1)].
Example C86_example : accepted library /\ accepted user /\ supplied library user /\ accepted (linked library user) /\
  nth_error (m_funcs (linked library user)) 1 =
    Some (mkFunc 3 [] [I_GlobalGet 0; I_I32Load 2 0; I_GlobalGet 1; I_Call 1; I_GlobalSet 0; I_Call 2]) /\
  m_start (linked library user) = Some (mkStart 2) /\ nth_error (m_elem (linked library user)) 1 = Some (mkElem 0 [I_ConstI32 1%Z] [1; 2]) /\
  m_imports (linked library user) = [mkImport [x65] [x66] (ID_Func 0)].
Proof.
  split; [eexists; vm_compute; reflexivity|]. split; [eexists; vm_compute; reflexivity|].
  split; [|split; [eexists; vm_compute; reflexivity|repeat split; vm_compute; reflexivity]].
  intros i [<-|[<-|[<-|[<-|[]]]]]; eexists; (split; [vm_compute; reflexivity|]); cbn; try reflexivity. exists 1, sum. repeat split; reflexivity.
Qed.
(** An import that is supplied with another type: the modules are accepted, the linked one is not. *)
Definition other_user : module :=
  mkModule [mkFuncTy [] []] [mkFunc 0 [] [I_Call 0]] [] [] [] [] [] None [mkImport [x6c] [x73] (ID_Func 0)] [].
Example C86_example_type : accepted other_user /\ ~ supplied library other_user /\ validate (linked library other_user) = VErr.
Proof.
  split; [eexists; vm_compute; reflexivity|split; [|vm_compute; reflexivity]].
  intros S. destruct (S _ (or_introl eq_refl)) as (d & D & U). vm_compute in D. injection D as <-.
  destruct U as (t' & ft & A & B & C). unfold at_index in *. vm_compute in A. injection A as <-. vm_compute in B. injection B as <-. vm_compute in C. discriminate C.
Qed.
