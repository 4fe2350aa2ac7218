(** C79: the verdict of the code compared with validity in WebAssembly 2.0.  [P] is any typing of the instructions with a
    prefix byte, and [own] says whether offsets see the module's own globals. *)
From Coq Require Import Lia.
From Verif Require Import ParserModule SpecLaterValid SpecVerdict LaterValidProof.
Open Scope N_scope.

(** C79: an accepted module is valid in 2.0 exactly when it satisfies what the code does not check *)
Theorem C79_accepted : forall P own m, accepted m -> (forall f, In f (m_funcs m) -> well_nested (fn_body f)) ->
  (valid2 P own (later_module m) <-> unchecked2 own m).
Proof. exact accepted_exact2. Qed.
Print Assumptions C79_accepted.
(** C79: a module that is valid in 2.0 is accepted exactly when it satisfies what the code checks in addition *)
Theorem C79_official : forall P own m, valid2 P own (later_module m) -> (forall f, In f (m_funcs m) -> well_nested (fn_body f)) ->
  (accepted m <-> overchecked2 m).
Proof. exact official_exact2. Qed.
Print Assumptions C79_official.
(** C79: for modules from files *)
Theorem C79_files : forall P own bs m, p_module bs = (Ok m, []) ->
  (accepted m -> (valid2 P own (later_module m) <-> unchecked2 own m)) /\
  (valid2 P own (later_module m) -> (accepted m <-> overchecked2 m)).
Proof. exact files_exact2. Qed.
Print Assumptions C79_files.
(** C79: for files that are modules of 2.0 with one table and memory *)
Theorem C79_files_later : forall P own fd bs m m2, p_module bs = (Ok m, []) -> enc2_module fd bs m2 ->
  (tables2 m2 <= 1)%nat -> (mems2 m2 <= 1)%nat ->
  (accepted m -> (valid2 P own m2 <-> unchecked2 own m)) /\
  (valid2 P own m2 -> (accepted m <-> overchecked2 m /\ m2 = later_module m)).
Proof. exact files2_exact. Qed.
Print Assumptions C79_files_later.

(** a [br_table] with labels of two types after [unreachable]; an offset that reads the module's own global; a load that
    claims more than its natural alignment *)
Definition two_types : module := mkModule [mkFuncTy [] []]
  [mkFunc 0 [] [I_Block [T_I32] [I_Block [T_F32] [I_Unreachable; I_BrTable [0] 1]; I_Drop; I_ConstI32 0%Z]; I_Drop]] [] [] [] [] [] None [] [].
Definition own_offset : module := mkModule [mkFuncTy [] []] [mkFunc 0 [] []] [mkTable (mkTableTy (mkLimits 1 None) FuncRef)] []
  [mkGlobal (mkGlobalTy Const T_I32) [I_ConstI32 0%Z]] [mkElem 0 [I_GlobalGet 0] [0; 0]] [] None [] [mkExport [] (ED_Func 0)].
Definition aligned (a : N) : module := mkModule [mkFuncTy [] []] [mkFunc 0 [] [I_ConstI32 0%Z; I_I32Load a 0; I_Drop]] []
  [mkMem (mkMemTy (mkLimits 1 None))] [] [] [] None [] [].
Definition no_prefixed : env2 -> byte -> list byte -> list opd -> list opd -> Prop := fun _ _ _ _ _ => False.
Example C79_example_labels : valid2 no_prefixed false (later_module two_types) /\ ~ accepted two_types /\ ~ func_tables_agree two_types (hd (mkFunc 0 [] []) (m_funcs two_types)).
Proof.
  split; [|split].
  - exists [mkFuncTy2 [] []]. assert (F : Forall (func2_ok no_prefixed (module_env2 (later_module two_types) [mkFuncTy2 [] []])) (m2_funcs (later_module two_types)));
      [|constructor; [repeat constructor|exact F|constructor|constructor|constructor|constructor|constructor|discriminate|constructor|constructor|cbn; lia|constructor]].
    constructor; [|constructor]. exists (mkFuncTy2 [] []). split; [reflexivity|]. exists []. split; [|constructor].
    set (C := func_env2 _ _ _).
    apply (S2_snoc no_prefixed C [J_block (B_val (W_num T_I32)) [J_block (B_val (W_num T_F32)) [J_old I_Unreachable; J_old (I_BrTable [0] 1)]; J_old I_Drop; J_old (I_ConstI32 0%Z)]]
      (J_old I_Drop) [] [] [Opd (W_num T_I32)] [Opd (W_num T_I32)] []); [|repeat constructor; right; reflexivity|apply T2_drop].
    refine (S2_snoc no_prefixed C [] _ [] [] [] [] [Opd (W_num T_I32)] _ _ _); [constructor|constructor|].
    apply (T2_block no_prefixed C _ _ [] [W_num T_I32]); [split; reflexivity|].
    refine (S2_snoc no_prefixed _ [J_block (B_val (W_num T_F32)) [J_old I_Unreachable; J_old (I_BrTable [0] 1)]; J_old I_Drop] _ _ [] [] [] _ _ _ _); [|constructor|apply (T2_plain _ _ _ [] [T_I32]); reflexivity].
    refine (S2_snoc no_prefixed _ [J_block (B_val (W_num T_F32)) [J_old I_Unreachable; J_old (I_BrTable [0] 1)]] _ _ [] [Opd (W_num T_F32)] _ _ _ _ _); [|repeat constructor; right; reflexivity|apply T2_drop].
    refine (S2_snoc no_prefixed _ [] _ [] [] [] [] [Opd (W_num T_F32)] _ _ _); [constructor|constructor|].
    apply (T2_block no_prefixed _ _ _ [] [W_num T_F32]); [split; reflexivity|].
    refine (S2_snoc no_prefixed _ [J_old I_Unreachable] _ _ [] [Bot; Opd (W_num T_I32)] [Bot; Opd (W_num T_I32)] _ _ _ _).
    + refine (S2_snoc no_prefixed _ [] _ [] [] [] [] _ _ _ _); [constructor|constructor|apply T2_unreachable].
    + constructor; [left; reflexivity|]. constructor; [right; reflexivity|constructor].
    + apply (T2_br_table no_prefixed _ [0] 1 [Bot] []). constructor; [|constructor; [|constructor]].
      * exists [W_num T_F32]. split; [reflexivity|]. constructor; [left; reflexivity|constructor].
      * exists [W_num T_I32]. split; [reflexivity|]. constructor; [left; reflexivity|constructor].
  - intros [mt E]. vm_compute in E. discriminate E.
  - intros H. specialize (H (mkFuncTy [] []) eq_refl). cbn in H. inversion H as [|? ? A _]; subst. cbn in A. destruct A as [(_ & A & _) _].
    discriminate (A 0 [T_I32] [T_F32] (or_introl eq_refl) eq_refl eq_refl).
Qed.
Example C79_example_offset : accepted own_offset /\ valid2 no_prefixed true (later_module own_offset) /\ ~ valid2 no_prefixed false (later_module own_offset).
Proof.
  assert (A : accepted own_offset) by (eexists; vm_compute; reflexivity).
  assert (W : forall f, In f (m_funcs own_offset) -> well_nested (fn_body f)).
  { intros f [<-|[]]. split; [|split].
    - intros H. inversion H as [? I|? ? ? I]; destruct I.
    - intros H. inversion H as [? I|? ? ? I]; destruct I.
    - intros j rt H. inversion H as [? I|? ? ? I]; destruct I. }
  split; [exact A|]. split.
  - apply (C79_accepted no_prefixed true own_offset A W). split; [|split; [|split]].
    + intros f [<-|[]] j a n t H. inversion H as [? I|? ? ? I]; destruct I.
    + intros g x [<-|[]]. discriminate.
    + discriminate.
    + cbn. lia.
  - intros V. apply (C79_accepted no_prefixed false own_offset A W) in V as (_ & _ & V & _).
    destruct (V eq_refl [I_GlobalGet 0] 0 (or_introl eq_refl) eq_refl) as (g & E & _). discriminate E.
Qed.
Example C79_example_aligned : accepted (aligned 3) /\ ~ valid2 no_prefixed false (later_module (aligned 3))
  /\ accepted (aligned 2) /\ valid2 no_prefixed false (later_module (aligned 2)).
Proof.
  assert (W : forall a f, In f (m_funcs (aligned a)) -> well_nested (fn_body f)).
  { intros a f [<-|[]]. split; [|split].
    - intros H. inversion H as [? I|? ? ? I J]; subst; [destruct I as [E|[E|[E|[]]]]; discriminate E|destruct I as [<-|[<-|[<-|[]]]]; destruct J].
    - intros H. inversion H as [? I|? ? ? I J]; subst; [destruct I as [E|[E|[E|[]]]]; discriminate E|destruct I as [<-|[<-|[<-|[]]]]; destruct J].
    - intros j rt H E. inversion H as [? I|? ? ? I J]; subst; destruct I as [<-|[<-|[<-|[]]]]; (discriminate E || destruct J). }
  assert (A : accepted (aligned 3)) by (eexists; vm_compute; reflexivity).
  assert (B : accepted (aligned 2)) by (eexists; vm_compute; reflexivity).
  split; [exact A|]. split; [|split; [exact B|]].
  - intros V. apply (C79_accepted no_prefixed false _ A (W 3)) in V as (V & _). specialize (V _ (or_introl eq_refl) (I_I32Load 3 0) 3 4 T_I32).
    assert (alignment_ok 3 4) as X; [|vm_compute in X; apply X; reflexivity]. apply V; [constructor; right; left; reflexivity|left; reflexivity].
  - apply (C79_accepted no_prefixed false _ B (W 2)). split; [|split; [|split]].
    + intros f [<-|[]] j a n t H E. inversion H as [? I|? ? ? I J]; subst; [|destruct I as [<-|[<-|[<-|[]]]]; destruct J].
      destruct I as [<-|[<-|[<-|[]]]]; destruct E as [E|E]; try discriminate E.
      injection E as <- <- <-. vm_compute. discriminate.
    + intros g x [].
    + intros _ e x [].
    + cbn. lia.
Qed.
