(** Witnesses for the properties of the validator that do not hold. *)
From Coq Require Import Lia.
From Verif Require Import ValidatorModule SpecVerdict EncodeProof TypingProof ModuleValidProof SafeProof DialectValidProof ValidityClaims.
Open Scope N_scope.

Lemma occurs_cases j e : occurs j e -> In j e \/ exists i sub, In i e /\ In sub (children i) /\ occurs j sub.
Proof. intros O. inversion O; subst; [left; assumption|right; eauto]. Qed.

Definition page : limits := mkLimits 1 None.
(** a memory, and a function of type [] -> ts with the given body *)
Definition one_func (ts : list valty) (body : expr) : module :=
  mkModule [mkFuncTy [] ts] [mkFunc 0 [] body] [] [mkMem (mkMemTy page)] [] [] [] None [] [].

(** ** C27: an i32.load aligned to eight bytes *)
Definition over_aligned : module := one_func [T_I32] [I_ConstI32 0%Z; I_I32Load 3 0].
Lemma over_aligned_refutes : exists mt f, validate over_aligned = VOk mt /\ In f (m_funcs over_aligned) /\
  forall fts ft, ~ func_type true true (module_env over_aligned fts) f ft.
Proof.
  eexists; exists (mkFunc 0 [] [I_ConstI32 0%Z; I_I32Load 3 0]). split; [vm_compute; reflexivity|]. split; [left; reflexivity|].
  intros fts ft [_ T]. apply (proj1 (alignment_iff _ _ _ _)) in T as [_ N].
  assert (A : alignment_ok 3 4).
  { apply (N (I_I32Load 3 0) 3 4 T_I32); [apply occurs_here; right; left; reflexivity|left; reflexivity]. }
  apply A. reflexivity.
Qed.

(** ** C28: a branch to the function's own label *)
Definition own_branch : module := one_func [] [I_Br 0].
Ltac plain_module :=
  match goal with |- module_type _ _ _ _ _ => constructor end;
  cbn -[N.pow]; repeat (apply Forall_cons || apply Forall_nil || apply Forall2_cons || apply Forall2_nil); try discriminate.
Lemma own_branch_refutes : valid_module wasm10_validity own_branch /\ validate own_branch = VErr.
Proof.
  split; [|vm_compute; reflexivity]. exists [mkFuncTy [] []], [], []. plain_module.
  - reflexivity.
  - unfold functype_ok. cbn. lia.
  - exists (mkFuncTy [] []). split; [reflexivity|]. unfold expr_type. cbn [fn_body func_env].
    apply (S_snoc true _ [] (I_Br 0) [] [] [] []); [constructor|]. cbn. apply (T_br true _ 0 [] [] []). reflexivity.
  - cbn. split; [discriminate|intros x [=]].
  - lia.
  - lia.
  - constructor.
Qed.

(** ** C34 *)
Definition all_pages : limits := mkLimits 65536 (Some 65536).
Lemma all_pages_refutes : limits_ok (2 ^ 16) all_pages /\ v_memty (mkMemTy all_pages) = VErr.
Proof. split; [|reflexivity]. split; [discriminate|]. intros x [= <-]. split; discriminate. Qed.

(** ** C35: any number of memories and tables *)
Definition many (n : nat) : module :=
  mkModule [] [] [mkTable (mkTableTy page FuncRef)] [mkMem (mkMemTy page)] [] [] [] None
    (repeat (mkImport [] [] (ID_Table (mkTableTy page FuncRef))) n ++ repeat (mkImport [] [] (ID_Mem (mkMemTy page))) n) [].
Lemma many_sizes n : length (table_space (many n)) = S n /\ length (mem_space (many n)) = S n.
Proof.
  unfold table_space, mem_space, many. cbn [m_imports m_tables m_mems map]. unfold imported_tables, imported_mems.
  rewrite !flat_map_app, !app_length. cbn [length].
  assert (A : forall (B : Type) (f : import -> list B) i k, length (flat_map f (repeat i k)) = (k * length (f i))%nat).
  { intros B f i k. induction k as [|k IH]; [reflexivity|]. cbn [repeat flat_map]. rewrite app_length, IH. lia. }
  rewrite !A. cbn [length im_desc]. lia.
Qed.
Lemma many_accepted n : accepted (many n).
Proof.
  apply c40_iff; [intros f []|]. 
  exists [], (repeat (Ext_Table (mkTableTy page FuncRef)) n ++ repeat (Ext_Mem (mkMemTy page)) n), [].
  assert (L : limits_ok (2 ^ 32 - 1) page) by (split; [discriminate|intros x [=]]).
  assert (L2 : limits_ok (2 ^ 16 - 1) page) by (split; [discriminate|intros x [=]]).
  constructor; cbn -[N.pow N.sub repeat]; try constructor; try constructor; try discriminate; try assumption.
  - unfold func_space, func_index, many. cbn [m_imports m_funcs map]. rewrite app_nil_r. unfold imported_funcs. rewrite flat_map_app.
    assert (A : forall i k, im_desc i = ID_Table (mkTableTy page FuncRef) \/ im_desc i = ID_Mem (mkMemTy page) ->
      flat_map (fun i0 => match im_desc i0 with ID_Func x => [x] | _ => [] end) (repeat i k) = []).
    { intros i k E. induction k as [|k IH]; [reflexivity|]. cbn [repeat flat_map]. rewrite IH. destruct E as [-> | ->]; reflexivity. }
    rewrite !A; [constructor|right; reflexivity|left; reflexivity].
  - apply Forall2_app.
    + clear - L. induction n; constructor; [split; [reflexivity|exact L]|assumption].
    + clear - L2. induction n; constructor; [split; [reflexivity|exact L2]|assumption].
Qed.
Lemma many_refutes : forall n, accepted (many n) /\ length (table_space (many n)) = S n /\ length (mem_space (many n)) = S n.
Proof. intros n. split; [apply many_accepted|apply many_sizes]. Qed.

(** ** C36: a global initialised with itself, and an imported global that is not found *)
Definition self_global : global := mkGlobal (mkGlobalTy Const T_I32) [I_GlobalGet 0].
Definition self_init : module := mkModule [] [] [] [] [self_global] [] [] None [] [].
Lemma self_init_refutes : exists mt g, validate self_init = VOk mt /\ In g (m_globals self_init) /\
  ~ init_ok (globals_env (imported_globals (m_imports self_init))) (glob_init g) (gt_val (glob_ty g)).
Proof.
  eexists; exists self_global. split; [vm_compute; reflexivity|]. split; [left; reflexivity|].
  intros [CE _]. unfold const_expr in CE. rewrite Forall_forall in CE. destruct (CE _ (or_introl eq_refl)) as (g & A & _). discriminate A.
Qed.
Definition imported_init : module :=
  mkModule [] [] [] [] [mkGlobal (mkGlobalTy Const T_F64) [I_ConstF64 0]; mkGlobal (mkGlobalTy Var T_I32) [I_GlobalGet 0]] [] [] None
    [mkImport [] [] (ID_Global (mkGlobalTy Const T_I32))] [].
Lemma imported_init_refutes : valid_module wasm10_validity imported_init /\ validate imported_init = VErr.
Proof.
  split; [|vm_compute; reflexivity]. exists [], [Ext_Global (mkGlobalTy Const T_I32)], []. plain_module.
  - split.
    + constructor; [exact I|constructor].
    + apply (S_snoc true _ [] (I_ConstF64 0) [] [] [] [T_F64]); [constructor|apply T_plain; reflexivity].
  - split.
    + constructor; [|constructor]. exists (mkGlobalTy Const T_I32). split; reflexivity.
    + apply (S_snoc true _ [] (I_GlobalGet 0) [] [] [] [T_I32]); [constructor|]. apply (T_global_get true _ 0 (mkGlobalTy Const T_I32)). reflexivity.
  - split; [reflexivity|exact I].
  - lia.
  - lia.
  - constructor.
Qed.

(** ** C41 *)
Definition stray_else : module := one_func [T_I32] [I_ConstI32 1%Z; I_Else; I_ConstI32 2%Z].
Lemma stray_else_refutes : exists mt f, validate stray_else = VOk mt /\ In f (m_funcs stray_else) /\ occurs I_Else (fn_body f).
Proof.
  eexists; eexists. split; [vm_compute; reflexivity|]. split; [left; reflexivity|]. apply occurs_here. right; left; reflexivity.
Qed.

(** ** Examples *)
Lemma imported_init_refutes' : valid_module wasm10_validity imported_init /\
  (forall f, In f (m_funcs imported_init) -> no_own_jump (fn_body f)) /\ limits_u32 imported_init /\ small_memories imported_init /\ validate imported_init = VErr.
Proof.
  destruct imported_init_refutes as [A B]. repeat split; try assumption; [intros f []|constructor|constructor].
Qed.
Lemma alignment_example : accepted (one_func [T_I32] [I_ConstI32 0%Z; I_I32Load 2 0])
  /\ natural_alignment [I_ConstI32 0%Z; I_I32Load 2 0] /\ ~ natural_alignment [I_ConstI32 0%Z; I_I32Load 3 0].
Proof.
  split; [eexists; vm_compute; reflexivity|]. split.
  - intros j a n t O L. apply (occurs_cases j [I_ConstI32 0%Z; I_I32Load 2 0]) in O as [[<-|[<-|[]]]|(i & sub & [<-|[<-|[]]] & S & _)]; try contradiction S.
    + destruct L; discriminate.
    + destruct L as [L|L]; [|discriminate]. injection L as <- <- <-. discriminate.
  - intros N. assert (A : alignment_ok 3 4).
    { apply (N (I_I32Load 3 0) 3 4 T_I32); [apply occurs_here; right; left; reflexivity|left; reflexivity]. }
    apply A. reflexivity.
Qed.
Lemma own_jump_example : ~ no_own_jump [I_Block [] [I_Loop [] [I_Br 2]]] /\ no_own_jump [I_Block [] [I_Loop [] [I_Br 1]]].
Proof.
  split.
  - intros N. apply (N 2%nat). eapply jump_inside; [left; reflexivity|left; reflexivity|].
    eapply jump_inside; [left; reflexivity|left; reflexivity|]. apply (jump_here (I_Br 2)); left; reflexivity.
  - intros d J. inversion J as [i l e I B|d1 i sub l e I S J1]; subst; destruct I as [<-|[]]; [contradiction B|].
    destruct S as [<-|[]]. inversion J1 as [i l e I B|d2 i sub l e I S J2]; subst; destruct I as [<-|[]]; [contradiction B|].
    destruct S as [<-|[]]. inversion J2 as [i l e I B|d3 i sub l e I S J3]; subst; destruct I as [<-|[]]; [|contradiction S].
    destruct B as [B|[]]. discriminate B.
Qed.
(** imports of three kinds interleaved; function 1 and globals 2, 3 are defined here *)
Definition sample_valid : module :=
  mkModule [mkFuncTy [T_F64] []; mkFuncTy [] [T_I64]]
    [mkFunc 1 [T_I32] [I_LocalGet 0; I_If [] [I_ConstF32 0; I_GlobalSet 2] []; I_ConstF64 0; I_Call 0; I_GlobalGet 1]]
    [mkTable (mkTableTy (mkLimits 0 (Some 10)) FuncRef)] [mkMem (mkMemTy page)]
    [mkGlobal (mkGlobalTy Var T_F32) [I_ConstF32 0]; mkGlobal (mkGlobalTy Const T_I32) [I_ConstI32 (-1)%Z]]
    [mkElem 0 [I_ConstI32 0%Z] [1; 0]] [mkData 0 [I_GlobalGet 0] [x00; x01]] None
    [mkImport [x61] [x62] (ID_Global (mkGlobalTy Const T_I32)); mkImport [x61] [] (ID_Func 0);
     mkImport [] [] (ID_Global (mkGlobalTy Var T_I64))]
    [mkExport [x66] (ED_Func 1); mkExport [x67] (ED_Func 0); mkExport [x68] (ED_Global 2)].
Lemma sample_valid_accepted : accepted sample_valid /\ ~ accepted (with_exports sample_valid [mkExport [] (ED_Func 2)]).
Proof.
  split; [eexists; vm_compute; reflexivity|]. intros [mt A]. vm_compute in A. discriminate A.
Qed.
Lemma sample_valid_official : valid_module wasm10_validity sample_valid.
Proof.
  apply c40_sound.
  - apply sample_valid_accepted.
  - intros f [<-|[]]. cbn [fn_body].
    assert (LEAVES : forall j, occurs j [I_LocalGet 0; I_If [] [I_ConstF32 0; I_GlobalSet 2] []; I_ConstF64 0; I_Call 0; I_GlobalGet 1] ->
      In j [I_LocalGet 0; I_If [] [I_ConstF32 0; I_GlobalSet 2] []; I_ConstF64 0; I_Call 0; I_GlobalGet 1; I_ConstF32 0; I_GlobalSet 2]).
    { intros j O. apply occurs_cases in O as [O|(i & sub & [<-|[<-|[<-|[<-|[<-|[]]]]]] & S & O)]; try contradiction S.
      - cbn in *. intuition.
      - destruct S as [<-|[<-|[]]]; apply occurs_cases in O as [O|(i & sub & I & S & O)].
        + cbn in *. intuition.
        + destruct I as [<-|[<-|[]]]; contradiction S.
        + contradiction O.
        + contradiction I. }
    split; [split; intros O; apply LEAVES in O; cbn in O; intuition discriminate|].
    intros j a n t O L. apply LEAVES in O. cbn in O. intuition (subst; discriminate).
  - intros g [<-|[<-|[]]] x O; (apply occurs_cases in O as [[E|[]]|(i & sub & [<-|[]] & S & _)]; [discriminate E|contradiction S]).
  - cbn. lia.
  - cbn. lia.
Qed.

(** branches inside, and to the end of the code or beyond *)
Lemma jumps_out : jumps_inside [I_Block [] [I_Br 0; I_Loop [] [I_Br 1]]] /\ ~ jumps_inside [I_Br 0] /\ ~ jumps_inside [I_Block [] [I_BrTable [0] 1]].
Proof.
  split; [|split].
  - intros d l J. inversion J as [i l0 e0 I T|d0 i sub l0 e0 I S J1]; subst; destruct I as [<-|[]]; [destruct T|].
    destruct S as [<-|[]]. inversion J1 as [i l0 e0 I T|d1 i sub l0 e0 I S J2]; subst; destruct I as [<-|[<-|[]]]; try (destruct S; fail); try (destruct T; fail).
    + destruct T as [<-|[]]. reflexivity.
    + destruct S as [<-|[]]. inversion J2 as [i l0 e0 I T|d2 i sub l0 e0 I S J3]; subst; destruct I as [<-|[]]; [|destruct S].
      destruct T as [<-|[]]. reflexivity.
  - intros H. specialize (H 0%nat 0 (jump_here (I_Br 0) 0 [I_Br 0] (or_introl eq_refl) (or_introl eq_refl))). discriminate H.
  - intros H. assert (J : jump 1 1 [I_Block [] [I_BrTable [0] 1]]).
    { eapply jump_inside; [left; reflexivity|left; reflexivity|]. eapply jump_here; [left; reflexivity|right; left; reflexivity]. }
    specialize (H _ _ J). discriminate H.
Qed.
