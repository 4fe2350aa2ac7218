(** Memory used by validation (C70): what is asked for when a module is accepted. *)
From Coq Require Import Lia.
From Verif Require Import SpecTyping SpecRefs EncodeProof TypingProof SafeProof ValidityClaims ModuleClaims2 HostProof StorageProof SpecStorage.
Open Scope list_scope.
Open Scope N_scope.

Lemma wb_ok {A B} (p : vw A) (f : A -> vw B) b : fst (w_bind p f) = VOk b ->
  exists a, fst p = VOk a /\ fst (f a) = VOk b /\ snd (w_bind p f) = snd p ++ snd (f a).
Proof.
  destruct p as [[a| |] l]; cbn [w_bind fst snd]; try discriminate. destruct (f a) as [r l'] eqn:F. cbn [fst snd]. intros ->. exists a.
  rewrite F. auto.
Qed.
Definition frame_in (k : nat) (l : list event) : Prop := In (Hold V_Frame (N.of_nat k)) l.
Definition climbs checks bits c i : Prop := ~ occurs I_End [i] -> forall s s', fst (w_instr checks bits c i s) = VOk s' ->
  length (frames s') = length (frames s) /\
  forall k, (length (frames s) < k <= length (frames s) + depth i)%nat -> frame_in k (snd (w_instr checks bits c i s)).
Lemma no_end_in e i : ~ occurs I_End e -> In i e -> ~ occurs I_End [i].
Proof.
  intros H I O. apply H. inversion O as [? X|y sub ? X C O']; subst; destruct X as [<-|[]].
  - apply occurs_here. exact I.
  - eapply occurs_inside; eassumption.
Qed.
Lemma no_end_child i sub : ~ occurs I_End [i] -> In sub (children i) -> ~ occurs I_End sub.
Proof. intros H I O. apply H. eapply occurs_inside; [left; reflexivity|exact I|exact O]. Qed.
Lemma climbs_seq checks bits c e : Forall (climbs checks bits c) e -> ~ occurs I_End e -> forall s s', fst (w_seq (w_instr checks bits c) e s) = VOk s' ->
  length (frames s') = length (frames s) /\
  forall k, (length (frames s) < k <= length (frames s) + depth_expr e)%nat -> frame_in k (snd (w_seq (w_instr checks bits c) e s)).
Proof.
  intros F. induction F as [|i e Hi _ IH]; intros NE s s'; cbn [w_seq].
  - cbn. intros [= <-]. split; [reflexivity|]. intros k K. lia.
  - intros H. apply wb_ok in H as (s1 & H1 & H2 & ->). destruct (Hi (no_end_in _ _ NE (or_introl eq_refl)) _ _ H1) as [L1 K1].
    destruct (IH (fun O => NE ltac:(inversion O; [apply occurs_here; right; assumption|eapply occurs_inside; [right; eassumption|eassumption|eassumption]])) _ _ H2) as [L2 K2].
    split; [congruence|]. intros k K. unfold depth_expr in K. cbn [map list_max fold_right] in K. change (fold_right Nat.max 0%nat (map depth e)) with (depth_expr e) in K.
    apply in_or_app. destruct (Nat.le_gt_cases k (length (frames s) + depth i)) as [C|C]; [left; apply K1; lia|right; apply K2; rewrite L1; lia].
Qed.
Lemma leaf_climbs checks bits c i s s' : i <> I_End -> children i = [] -> block_type i = None -> h_instr checks bits c i s = VOk s' -> length (frames s') = length (frames s).
Proof.
  intros NE C B H. assert (V : ends i = O) by (destruct i; try reflexivity; try discriminate B; congruence).
  assert (G : v_instr c i s = VOk s' -> length (frames s') = length (frames s)) by (intros G; apply counts_instr in G; lia).
  destruct i; cbn [h_instr] in H; try (apply G; exact H); try discriminate B.
  - apply vbind_ok in H as (fr & _ & H). apply vbind_ok in H as (s1 & H1 & H). apply pops_frames in H1. apply unreachable_frames in H. congruence.
  - apply vbind_ok in H as (fr & _ & H). apply vbind_ok in H as (s1 & H1 & H). apply vbind_ok in H as (s2 & H2 & H). apply pops_frames in H1, H2.
    apply vok_inj in H. subst s'. rewrite push_operands_frames. congruence.
  - apply vbind_ok in H as (fr & _ & H). apply vbind_ok in H as (u & _ & H). apply vbind_ok in H as (s1 & H1 & H). apply vbind_ok in H as (s2 & H2 & H).
    apply pops_frames in H1, H2. apply unreachable_frames in H. congruence.
Qed.
Lemma climbs_any checks bits c i : climbs checks bits c i.
Proof.
  induction i as [i IH] using instr_children_ind. intros NE s s' H.
  assert (SQ : forall sub, In sub (children i) -> forall s s', fst (w_seq (w_instr checks bits c) sub s) = VOk s' ->
    length (frames s') = length (frames s) /\
    forall k, (length (frames s) < k <= length (frames s) + depth_expr sub)%nat -> frame_in k (snd (w_seq (w_instr checks bits c) sub s))).
  { intros sub I. apply climbs_seq; [apply IH, I|exact (no_end_child _ _ NE I)]. }
  clear IH. assert (NE' : i <> I_End) by (intros ->; apply NE, occurs_here; left; reflexivity).
  assert (C : (children i = [] /\ block_type i = None) \/ block_type i <> None) by (destruct i; cbn; auto; right; discriminate).
  destruct C as [[C B]|B].
  { rewrite fst_instr in H. split; [eapply leaf_climbs; eassumption|]. assert (depth i = O) as -> by (destruct i; try reflexivity; discriminate B). intros k K. lia. }
  assert (X : (exists rt b, i = I_Block rt b) \/ (exists rt b, i = I_Loop rt b) \/ (exists rt b d, i = I_If rt b d))
    by (destruct i; try (exfalso; apply B; reflexivity); eauto 6).
  destruct X as [(rt & b & ->)|[(rt & b & ->)|(rt & b & d & ->)]]; clear B NE NE'.
  - cbn [w_instr] in *. apply wb_ok in H as (s1 & H1 & H & ->). apply wb_ok in H as (s2 & H2 & H3 & ->).
    destruct (SQ b (or_introl eq_refl) _ _ H2) as [L2 K2]. rewrite fst_end in H3. apply end_frames in H3.
    cbn in H1. injection H1 as <-. cbn [push_frame frames length] in L2, K2. split; [lia|]. intros k K. cbn [depth] in K. fold (depth_expr b) in K.
    cbn [w_push_frame w_bind w_note w_run snd app]. destruct (Nat.eq_dec k (S (length (frames s)))) as [->|N].
    + left. f_equal. unfold count. lia.
    + right. apply in_or_app. left. apply K2. lia.
  - cbn [w_instr] in *. apply wb_ok in H as (s1 & H1 & H & ->). apply wb_ok in H as (s2 & H2 & H3 & ->).
    destruct (SQ b (or_introl eq_refl) _ _ H2) as [L2 K2]. rewrite fst_end in H3. apply end_frames in H3.
    cbn in H1. injection H1 as <-. cbn [push_frame frames length] in L2, K2. split; [lia|]. intros k K. cbn [depth] in K. fold (depth_expr b) in K.
    cbn [w_push_frame w_bind w_note w_run snd app]. destruct (Nat.eq_dec k (S (length (frames s)))) as [->|N].
    + left. f_equal. unfold count. lia.
    + right. apply in_or_app. left. apply K2. lia.
  - cbn [w_instr] in *. apply wb_ok in H as (s0 & H0 & H & ->). cbn [w_run fst snd app] in *. apply pops_frames in H0.
    apply wb_ok in H as (s1 & H1 & H & ->). apply wb_ok in H as (s2 & H2 & H & ->).
    destruct (SQ b (or_introl eq_refl) _ _ H2) as [L2 K2].
    apply wb_ok in H as (s3 & H3 & H & ->). rewrite fst_else in H3. apply else_frames in H3.
    apply wb_ok in H as (s4 & H4 & H5 & ->). destruct (SQ d (or_intror (or_introl eq_refl)) _ _ H4) as [L4 K4]. rewrite fst_end in H5. apply end_frames in H5.
    cbn in H1. injection H1 as <-. cbn [push_frame frames length] in L2, K2. rewrite H0 in L2, K2. split; [lia|]. intros k K. cbn [depth] in K.
    fold (depth_expr b) in K. fold (depth_expr d) in K.
    cbn [w_push_frame w_bind w_note w_run snd app]. destruct (Nat.eq_dec k (S (length (frames s)))) as [->|N].
    + left. f_equal. unfold count. rewrite H0. lia.
    + right. apply in_or_app. destruct (Nat.le_gt_cases k (S (length (frames s)) + depth_expr b)) as [X|X]; [left; apply K2; lia|].
      right. apply in_or_app. right. apply in_or_app. left. apply K4. lia.
Qed.

(** ** Components *)
Definition reached (x : expr) (l : list event) : Prop := forall k, (1 <= k <= S (depth_expr x))%nat -> frame_in k l.
Lemma low_empty s : low 0 0 s -> frames s = [].
Proof. intros (_ & F & _). destruct (frames s); [reflexivity|cbn in F; lia]. Qed.
Lemma func_reached checks bits f cs r : ~ occurs I_End (fn_body f) -> low 0 0 (snd cs) -> fst (w_func checks bits f cs) = VOk r ->
  reached (fn_body f) (snd (w_func checks bits f cs)) /\
  exists t, at_index (c_types (fst cs)) (fn_ty f) t /\ In (Reserve V_Ref (count (ft_params t) + count (fn_locals f))) (snd (w_func checks bits f cs)).
Proof.
  destruct cs as [c s]. cbn [fst snd]. intros NE L H. remember (snd (w_func checks bits f (c, s))) as l eqn:EL. unfold w_func in H. apply low_empty in L.
  apply wb_ok in H as (t & HT & H & EQ). apply (eq_trans EL) in EQ. subst l. clear EL. unfold vctx in *. apply v_lookup_ok in HT. apply wb_ok in H as (u & _ & H & ->). apply wb_ok in H as (s1 & H1 & H & ->).
  apply wb_ok in H as (s2 & H2 & _ & ->). cbn in H1. injection H1 as <-.
  apply climbs_seq in H2 as [_ K]; [|apply Forall_forall; intros i _; apply climbs_any|exact NE]. cbn [w_run snd app].
  cbn [push_frame frames length] in K. rewrite L in K. cbn [length] in K. split.
  - intros k X. right. cbn [w_push_frame w_bind w_note w_run snd app]. destruct (Nat.eq_dec k 1) as [->|N].
    + left. unfold count. rewrite L. reflexivity.
    + right. apply in_or_app. left. apply K. lia.
  - exists t. split; [exact HT|]. left. reflexivity.
Qed.
Lemma const_flat c e : forall s s', v_constexpr c e s = VOk s' -> depth_expr e = O.
Proof.
  induction e as [|i e IH]; intros s s'; cbn [v_constexpr]; [reflexivity|]. intros H. apply vbind_ok in H as (u & H1 & H). apply vbind_ok in H as (s1 & _ & H).
  apply IH in H. apply const_slim in H1 as [_ D]. unfold depth_expr in *. cbn [map list_max fold_right]. change (fold_right Nat.max 0%nat (map depth e)) with (list_max (map depth e)). lia.
Qed.
Lemma body_reached checks bits r e cs cs' : low 0 0 (snd cs) -> fst (w_const_body checks bits r e cs) = VOk cs' ->
  reached e (snd (w_const_body checks bits r e cs)).
Proof.
  destruct cs as [c s]. cbn [snd]. intros L H. apply low_empty in L. remember (snd (w_const_body checks bits r e (c, s))) as l eqn:EL. unfold w_const_body in H. apply wb_ok in H as (s1 & H1 & H & EQ). apply (eq_trans EL) in EQ. subst l. clear EL. unfold vctx in *. apply wb_ok in H as (s2 & H2 & _ & _).
  rewrite fst_constexpr in H2. apply const_flat in H2. intros k K. rewrite H2 in K. assert (k = 1%nat) as -> by lia.
  cbn [w_push_frame w_bind w_note w_run snd app]. left. unfold count. rewrite L. reflexivity.
Qed.
Lemma each_in {A B} (Inv : vctx -> Prop) (w : A -> vctx -> vw (B * vctx)) xs :
  (forall x cs r, In x xs -> Inv cs -> fst (w x cs) = VOk r -> Inv (snd r)) -> forall cs r, Inv cs -> fst (w_each w xs cs) = VOk r ->
  Inv (snd r) /\ forall x, In x xs -> exists cs' r', Inv cs' /\ fst (w x cs') = VOk r' /\ incl (snd (w x cs')) (snd (w_each w xs cs)).
Proof.
  induction xs as [|x xs IH]; intros HI cs r V H; cbn [w_each] in *; [cbn in H; injection H as <-; split; [exact V|intros x []]|].
  apply wb_ok in H as (r1 & H1 & H & ->). apply wb_ok in H as (r2 & H2 & H3 & ->). cbn in H3. injection H3 as <-.
  pose proof (HI x _ _ (or_introl eq_refl) V H1) as V1. destruct (IH (fun y cs r I => HI y cs r (or_intror I)) _ _ V1 H2) as [V2 E]. split; [exact V2|].
  intros y [<-|I].
  - exists cs, r1. split; [exact V|]. split; [exact H1|]. apply incl_appl, incl_refl.
  - destruct (E y I) as (cs' & r' & X1 & X2 & X3). exists cs', r'. split; [exact X1|]. split; [exact X2|]. apply incl_appr, incl_appl, X3.
Qed.
Lemma trip_result {A} E (Q : A -> Prop) w a : trip E Q w -> fst w = VOk a -> Q a.
Proof. intros [_ H]. apply H. Qed.

Theorem storage_exact m : (forall x, In x (module_exprs m) -> well_nested x) -> forall checks bits mt, h_validate checks bits m = VOk mt ->
  forall e, notable e -> (In e (checking checks bits m) <-> storage_ok m e).
Proof.
  intros W checks bits mt V e NT. split; [apply storage_each, W|]. rewrite <- storage_same in V. unfold checking.
  assert (G : Forall (fun x => reached x (snd (w_validate checks bits m))) (module_exprs m) /\
    (forall f, In f (m_funcs m) -> exists t, at_index (m_types m) (fn_ty f) t /\ In (Reserve V_Ref (count (ft_params t) + count (fn_locals f))) (snd (w_validate checks bits m))) /\
    In (Reserve V_Ref (count (m_exports m))) (snd (w_validate checks bits m)) /\
    In (Reserve V_External (count (m_exports m))) (snd (w_validate checks bits m)) /\
    In (Reserve V_External (count (m_imports m))) (snd (w_validate checks bits m))).
  2: { destruct G as (G1 & G2 & G3 & G4 & G5). rewrite Forall_forall in G1. destruct e as [k n|k n|n]; [| |intros []]; destruct k; cbn [storage_ok notable] in *; try contradiction.
    - intros [->|(f & t & F & T & ->)]; [exact G3|]. destruct (G2 f F) as (t' & T' & R). unfold at_index in *. rewrite T in T'. injection T' as <-. exact R.
    - intros [->| ->]; assumption.
    - intros (x & X & L). specialize (G1 x X (N.to_nat n)). unfold frame_in in G1. rewrite N2Nat.id in G1. apply G1. lia. }
  assert (ST : forall f, In f (m_funcs m) -> slim_code (fn_body f)).
  { intros f I. apply (expr_slim m); [exact W|]. apply in_or_app. left. apply in_map. exact I. }
  remember (snd (w_validate checks bits m)) as l eqn:EL. unfold w_validate in V.
  apply wb_ok in V as (c & Hc & V & EQ). apply (eq_trans EL) in EQ. subst l. clear EL. pose proof (trip_result _ _ _ _ (context_storage m) Hc) as D.
  apply wb_ok in V as (cg & Hcg & V & ->).
  apply wb_ok in V as (r1 & H1 & V & ->). cbn [w_run fst] in H1.
  assert (S1 : settled m (snd r1)).
  { apply types_slim in H1 as [E1 F]. rewrite E1. rewrite Forall_forall in F. split; [apply D|]. split; [split; cbn [fst]|].
    - rewrite (d_types _ _ _ _ _ _ D). exact F.
    - intros t T. apply F. apply (d_funcs _ _ _ _ _ _ D). exact T.
    - repeat split; try constructor. }
  apply wb_ok in V as (r2 & H2 & V & ->).
  destruct (each_in (settled m) (w_func checks bits) (m_funcs m) (fun f cs r I S E => trip_result _ _ _ _ (func_storage checks bits m f cs I (ST f I) S) E) _ _ S1 H2) as [S2 E2].
  apply wb_ok in V as (r3 & H3 & V & ->). cbn [w_run fst] in H3. apply tables_same in H3.
  apply wb_ok in V as (r4 & H4 & V & ->). cbn [w_run fst] in H4. apply mems_same in H4.
  assert (S4 : settled m (snd r4)) by (rewrite H4, H3; exact S2). clear H3 H4.
  apply wb_ok in V as (r5 & H5 & V & ->).
  set (Inv := fun cs : vctx => c_types (fst cs) = [] /\ slim_ctx (fst cs) /\ low 0 0 (snd cs)).
  assert (IG : Inv (cg, empty_stacks)).
  { cbn in Hcg. injection Hcg as <-.
    assert (Z : forall l c, c_types c = [] /\ c_funcs c = [] -> let c' := fold_left (fun c g => push_global c (glob_ty g)) l c in c_types c' = [] /\ c_funcs c' = []).
    { intros l. induction l as [|x l IH]; intros c1 H; cbn [fold_left]; [exact H|]. apply IH. exact H. }
    destruct (Z (m_globals m) default_context (conj eq_refl eq_refl)) as [Z1 Z2]. unfold Inv, use_globals, slim_ctx. cbn [fst snd]. rewrite Z1, Z2.
    split; [reflexivity|]. split; [split; intros t []|]. repeat split; constructor. }
  destruct (each_in Inv (w_global checks bits) (m_globals m)) with (cs := (cg, empty_stacks)) (r := r5) as [_ E5]; [|exact IG|exact H5|].
  { intros g cs r I (X1 & X2 & X3) E. unfold w_global in E. apply wb_ok in E as (u & _ & E & _). apply wb_ok in E as (cs' & E & E' & _). cbn in E'. injection E' as <-.
    refine (trip_result _ _ _ _ (body_storage checks bits m [] _ _ _ _ _ X1 X2 X3) E); [|cbn; lia].
    unfold module_exprs. rewrite !in_app_iff. right. left. apply in_map. exact I. }
  apply wb_ok in V as (r6 & H6 & V & ->).
  destruct (each_in (settled m) (w_elem checks bits) (m_elem m)) with (cs := snd r4) (r := r6) as [S6 E6]; [|exact S4|exact H6|].
  { intros g cs r I (X1 & X2 & X3) E. unfold w_elem in E. apply wb_ok in E as (u & _ & E & _). destruct (negb (elemty_eqb (tt_elem u) FuncRef)); [discriminate E|].
    apply wb_ok in E as (cs' & E & E' & _). apply wb_ok in E' as (u' & _ & E' & _). cbn in E'. injection E' as <-.
    refine (trip_result _ _ _ _ (body_storage checks bits m (m_types m) _ _ _ _ _ X1 X2 X3) E); [|cbn; lia].
    unfold module_exprs. rewrite !in_app_iff. right. right. left. apply in_map. exact I. }
  apply wb_ok in V as (r7 & H7 & V & ->).
  destruct (each_in (settled m) (w_data checks bits) (m_data m)) with (cs := snd r6) (r := r7) as [S7 E7]; [|exact S6|exact H7|].
  { intros g cs r I (X1 & X2 & X3) E. unfold w_data in E. apply wb_ok in E as (u & _ & E & _).
    apply wb_ok in E as (cs' & E & E' & _). cbn in E'. injection E' as <-.
    refine (trip_result _ _ _ _ (body_storage checks bits m (m_types m) _ _ _ _ _ X1 X2 X3) E); [|cbn; lia].
    unfold module_exprs. rewrite !in_app_iff. right. right. right. apply in_map. exact I. }
  apply wb_ok in V as (cs8 & _ & V & ->). apply wb_ok in V as (u9 & _ & V & ->). apply wb_ok in V as (ims & _ & V & ->). apply wb_ok in V as (u10 & _ & V & ->).
  apply wb_ok in V as (exs & _ & V & ->). cbv zeta in V |- *.
  destruct (negb (Nat.leb (length (m_tables m)) 1)); [discriminate V|]. destruct (negb (Nat.leb (length (m_mems m)) 1)); [discriminate V|].
  apply wb_ok in V as (u11 & _ & _ & ->). cbn [w_run w_note snd app].
  split; [|split; [|repeat split; repeat (rewrite !in_app_iff || cbn [In]); tauto]].
  - rewrite Forall_forall. intros x X k K. unfold frame_in. unfold module_exprs in X. rewrite !in_app_iff, !in_map_iff in X.
    destruct X as [(y & <- & I)|[(y & <- & I)|[(y & <- & I)|(y & <- & I)]]].
    + destruct (E2 y I) as (cs' & r' & (_ & _ & L) & R & IN). destruct (func_reached checks bits y cs' r') as [F _]; [|exact L|exact R|].
      { apply (W (fn_body y)). apply in_or_app. left. apply in_map. exact I. }
      apply F, IN in K. rewrite !in_app_iff. tauto.
    + destruct (E5 y I) as (cs' & r' & (_ & _ & L) & R & IN). unfold w_global in R, IN. apply wb_ok in R as (u & _ & R & EQ). rewrite EQ in IN. apply wb_ok in R as (cs'' & R & _ & EQ2). rewrite EQ2 in IN.
      apply body_reached in R; [|exact L]. assert (J : frame_in k (snd (w_each (w_global checks bits) (m_globals m) (cg, empty_stacks)))) by (apply IN; cbn [w_run snd app]; apply in_or_app; left; apply R; exact K).
      rewrite !in_app_iff. unfold frame_in in J. tauto.
    + destruct (E6 y I) as (cs' & r' & (_ & _ & L) & R & IN). unfold w_elem in R, IN. apply wb_ok in R as (u & _ & R & EQ). rewrite EQ in IN. destruct (negb (elemty_eqb (tt_elem u) FuncRef)); [discriminate R|].
      apply wb_ok in R as (cs'' & R & _ & EQ2). rewrite EQ2 in IN.
      apply body_reached in R; [|exact L]. assert (J : frame_in k (snd (w_each (w_elem checks bits) (m_elem m) (snd r4)))) by (apply IN; cbn [w_run snd app]; apply in_or_app; left; apply R; exact K).
      rewrite !in_app_iff. unfold frame_in in J. tauto.
    + destruct (E7 y I) as (cs' & r' & (_ & _ & L) & R & IN). unfold w_data in R, IN. apply wb_ok in R as (u & _ & R & EQ). rewrite EQ in IN. apply wb_ok in R as (cs'' & R & _ & EQ2). rewrite EQ2 in IN.
      apply body_reached in R; [|exact L]. assert (J : frame_in k (snd (w_each (w_data checks bits) (m_data m) (snd r6)))) by (apply IN; cbn [w_run snd app]; apply in_or_app; left; apply R; exact K).
      rewrite !in_app_iff. unfold frame_in in J. tauto.
  - intros f I. destruct (E2 f I) as (cs' & r' & (T & _ & L) & R & IN). destruct (func_reached checks bits f cs' r') as [_ (t & A & J)]; [|exact L|exact R|].
    { apply (W (fn_body f)). apply in_or_app. left. apply in_map. exact I. }
    rewrite T in A. exists t. split; [exact A|]. apply IN in J. rewrite !in_app_iff. tauto.
Qed.

(** ** Operands that pile up *)
Fixpoint rising (from n : nat) : list event :=
  match n with O => [] | S n' => Hold V_Operand (N.of_nat (S from)) :: rising (S from) n' end.
Lemma rising_in n : forall from k, (from < k <= from + n)%nat -> In (Hold V_Operand (N.of_nat k)) (rising from n).
Proof.
  induction n as [|n IH]; intros from k K; [lia|]. cbn [rising]. destruct (Nat.eq_dec k (S from)) as [->|N]; [left; reflexivity|right; apply IH; lia].
Qed.
Lemma pile_seq checks bits c fr n : forall ops, f_height fr = O -> exists s',
  w_seq (w_instr checks bits c) (repeat (I_ConstI32 0%Z) n ++ [I_Unreachable]) (mkStacks ops [fr]) = (VOk s', rising (length ops) n) /\
  s_unreachable (mkStacks [] [fr]) = VOk s'.
Proof.
  induction n as [|n IH]; intros ops H0.
  - cbn. unfold truncate. rewrite H0, Nat.sub_0_r, skipn_all. eexists. split; [reflexivity|]. reflexivity.
  - destruct (IH (Val T_I32 :: ops) H0) as (s' & E & U). exists s'. split; [|exact U]. cbn [repeat app w_seq].
    change (w_instr checks bits c (I_ConstI32 0%Z) (mkStacks ops [fr])) with
      (VOk (mkStacks (Val T_I32 :: ops) [fr]), [Hold V_Operand (N.of_nat (S (length ops)))]). cbn [w_bind]. rewrite E. reflexivity.
Qed.
Lemma pile_size n : list_sum (map size (repeat (I_ConstI32 0%Z) n)) = n.
Proof. induction n as [|n IH]; [reflexivity|]. cbn [repeat map list_sum fold_right size]. change (fold_right Nat.add 0%nat) with list_sum. rewrite IH. reflexivity. Qed.
Theorem pile_up n : validate (pile n) = VOk (mkModuleTypes [] []) /\ (forall f, In f (m_funcs (pile n)) -> size_expr (fn_body f) = S n) /\
  forall checks bits k, 1 <= k <= N.of_nat n -> In (Hold V_Operand k) (checking checks bits (pile n)).
Proof.
  assert (G : forall checks bits, w_validate checks bits (pile n) = (VOk (mkModuleTypes [] []),
    [Hold V_Ref 1; Hold V_Ref 1; Reserve V_Ref 0; Hold V_Frame 1] ++ rising 0 n ++ [Reserve V_External 0; Reserve V_External 0; Reserve V_Ref 0])).
  { intros checks bits. unfold w_validate.
    change (w_context (pile n)) with (VOk (mkContext [mkFuncTy [] []] [mkFuncTy [] []] [] [] [] [] None), [Hold V_Ref 1; Hold V_Ref 1]).
    cbn [w_bind]. change (w_grown (use_globals (m_globals (pile n)) default_context) (length (m_globals (pile n)))) with (VOk default_context, @nil event).
    cbn [w_bind]. set (c := mkContext [mkFuncTy [] []] [mkFuncTy [] []] [] [] [] [] None).
    change (w_run (v_each v_type_item (m_types (pile n)) (c, empty_stacks))) with (VOk ([tt], (c, empty_stacks)), @nil event). cbn [w_bind snd app].
    assert (F : w_each (w_func checks bits) (m_funcs (pile n)) (c, empty_stacks) = (VOk ([mkFuncTy [] []], (c, empty_stacks)), Reserve V_Ref 0 :: Hold V_Frame 1 :: rising 0 n)).
    { cbn [pile m_funcs w_each]. unfold w_func. change (w_run (v_typeidx c (fn_ty {| fn_ty := 0; fn_locals := []; fn_body := repeat (I_ConstI32 0%Z) n ++ [I_Unreachable] |}))) with (VOk (mkFuncTy [] []), @nil event).
      cbn [w_bind w_note w_push_frame w_run ft_params ft_results fn_locals fn_body app]. cbn [push_frame empty_stacks frames operands length].
      destruct (pile_seq checks bits (set_locals (set_ret c (Some [])) []) (mkFrame [] [] 0 false) n [] eq_refl) as (s' & E & U).
      change (push_frame [] [] empty_stacks) with (mkStacks [] [mkFrame [] [] 0 false]). cbn [length] in E. rewrite E. cbn in U. injection U as <-. cbn. rewrite !app_nil_r. reflexivity. }
    rewrite F. cbn [w_bind snd]. cbn. rewrite <- ?app_assoc. reflexivity. }
  split; [|split].
  - pose proof (f_equal fst (G true 64)) as E. rewrite storage_same in E. cbn [fst] in E. rewrite <- E. symmetry. apply host_64. intros x X. cbn in X. destruct X as [<-|[]]. intros j O.
    assert (J : j = I_ConstI32 0%Z \/ j = I_Unreachable).
    { clear - O. inversion O as [? I|y sub ? I S O']; subst; rewrite in_app_iff in I.
      - destruct I as [I|[<-|[]]]; [apply repeat_spec in I|]; auto.
      - destruct I as [I|[<-|[]]]; [apply repeat_spec in I; subst y|]; destruct S. }
    destruct J as [->| ->]; (split; [constructor|]); cbn; [lia|exact I].
  - intros f [<-|[]]. cbn [fn_body]. unfold size_expr. rewrite map_app, list_sum_app, pile_size. cbn. lia.
  - intros checks bits k K. unfold checking. rewrite G. cbn [snd]. apply in_or_app. right. apply in_or_app. left.
    rewrite <- (N2Nat.id k). apply rising_in. lia.
Qed.

(** ** Hosts *)
Theorem storage_needs h allows checks bits m mt : answers h allows -> (forall x, In x (module_exprs m) -> well_nested x) ->
  validate_within allows checks bits m = VOk mt ->
  h_validate checks bits m = VOk mt /\
  (forall f t, In f (m_funcs m) -> at_index (m_types m) (fn_ty f) t -> (count (ft_params t) + count (fn_locals f)) * h_size h V_Ref <= h_limit h) /\
  (forall x, In x (module_exprs m) -> (N.of_nat (depth_expr x) + 1) * h_size h V_Frame <= h_limit h) /\
  count (m_imports m) * h_size h V_External <= h_limit h /\ count (m_exports m) * h_size h V_External <= h_limit h.
Proof.
  intros [HT _] W V. rewrite validate_within_eq in V. destruct (forallb _ _) eqn:E; [|discriminate]. split; [exact V|]. rewrite forallb_forall in E.
  pose proof (storage_exact m W checks bits mt V) as X.
  assert (G : forall e, notable e -> storage_ok m e -> ~ too_big h e).
  { intros e N S B. apply (X e N) in S. apply E in S. rewrite (HT e B) in S. discriminate. }
  split; [|split; [|split]].
  - intros f t F T. apply N.nlt_ge. apply (G (Reserve V_Ref _) I). right. eauto.
  - intros x J. apply N.nlt_ge. refine (G (Hold V_Frame _) _ _); [cbn; lia|]. exists x. split; [exact J|lia].
  - apply N.nlt_ge. apply (G (Reserve V_External _) I). left. reflexivity.
  - apply N.nlt_ge. apply (G (Reserve V_External _) I). right. reflexivity.
Qed.

Lemma pile_bound n k : storage_ok (pile n) (Hold V_Operand k) <-> k <= N.of_nat n + 1.
Proof.
  assert (S : size_expr (repeat (I_ConstI32 0%Z) n ++ [I_Unreachable]) = S n).
  { unfold size_expr. rewrite map_app, list_sum_app, pile_size. cbn. lia. }
  cbn [storage_ok]. split.
  - intros (x & I & L). cbn in I. destruct I as [<-|[]]. rewrite S in L. lia.
  - intros L. eexists. split; [cbn; left; reflexivity|]. rewrite S. lia.
Qed.
Theorem pile_up_sharp n : validate (pile n) = VOk (mkModuleTypes [] []) /\
  (forall k, storage_ok (pile n) (Hold V_Operand k) <-> k <= N.of_nat n + 1) /\
  forall checks bits k, 1 <= k <= N.of_nat n -> In (Hold V_Operand k) (checking checks bits (pile n)).
Proof. destruct (pile_up n) as (A & _ & B). split; [exact A|]. split; [intros k; apply pile_bound|exact B]. Qed.
