(** The verdict depends on the components and on what their indices denote. *)
From Coq Require Import Lia.
From Verif Require Import SpecLocal EncodeProof TypingProof ModuleValidProof ValidityClaims InitProof SkeletonProof LinkProof.
Open Scope N_scope.

(** [ctx_fits], for some indices *)
Record ctx_kept (P : space -> N -> Prop) (r : renumbering) (c c' : context) : Prop := {
  ck_types : forall x t, P S_Type x -> at_index (c_types c) x t -> at_index (c_types c') (rn_type r x) t;
  ck_funcs : forall x t, P S_Func x -> at_index (c_funcs c) x t -> at_index (c_funcs c') (rn_func r x) t;
  ck_tables : forall x t, P S_Table x -> at_index (c_tables c) x t -> at_index (c_tables c') (rn_table r x) t;
  ck_mems : forall x t, P S_Mem x -> at_index (c_mems c) x t -> at_index (c_mems c') (rn_mem r x) t;
  ck_globals : forall x t, P S_Global x -> at_index (c_globals c) x t -> at_index (c_globals c') (rn_global r x) t;
  ck_locals : c_locals c' = c_locals c;
  ck_ret : c_ret c' = c_ret c;
}.
Lemma memidx_zero_kept P r c c' : ctx_kept P r c c' -> P S_Mem 0 -> forall t, v_memidx c 0 = VOk t -> exists t', v_memidx c' 0 = VOk t'.
Proof.
  intros F P0 t H. apply v_lookup_ok in H. apply (ck_mems _ _ _ _ F _ _ P0) in H. unfold v_memidx, at_index in *.
  destruct (c_mems c') as [|t' l]; [destruct (N.to_nat (rn_mem r 0)); discriminate|]. exists t'. apply v_lookup_ok. reflexivity.
Qed.
Lemma uses_in (P : space -> N -> Prop) e b i : In i e -> In b (children i) -> (forall s x, code_uses e s x -> P s x) ->
  forall s x, code_uses b s x -> P s x.
Proof. intros I B H s x (j & O & R). apply H. exists j. split; [|exact R]. exact (occurs_inside j i b e I B O). Qed.
Lemma uses_one P i : (forall s x, code_uses [i] s x -> P s x) -> forall s x, In (s, x) (refs i) -> P s x.
Proof. intros H s x R. apply H. exists i. split; [apply occurs_here; left; reflexivity|exact R]. Qed.
Lemma v_seq_kept (P : space -> N -> Prop) v v' (g : instr -> instr) b :
  Forall (fun i => (forall s x, code_uses [i] s x -> P s x) -> forall s s', v i s = VOk s' -> v' (g i) s = VOk s') b ->
  (forall s x, code_uses b s x -> P s x) ->
  forall s s', v_seq v b s = VOk s' -> v_seq v' (map g b) s = VOk s'.
Proof.
  induction 1 as [|i b E F IH]; intros U s s' H; [exact H|]. cbn [map v_seq] in *. apply vbind_ok in H as (s1 & H1 & H).
  assert (U1 : forall s x, code_uses [i] s x -> P s x).
  { intros sp x (j & O & R). apply U. exists j. split; [|exact R]. inversion O as [? J|? ? ? J ? ?]; subst.
    - apply occurs_here. destruct J as [<-|[]]. left; reflexivity.
    - destruct J as [<-|[]]. eapply occurs_inside; [left; reflexivity|eassumption|assumption]. }
  rewrite (E U1 _ _ H1). cbn [vbind]. apply IH; [|exact H]. intros sp x (j & O & R). apply U. exists j. split; [|exact R].
  inversion O as [? J|? ? ? J ? ?]; subst; [apply occurs_here; right; exact J|eapply occurs_inside; [right; exact J|eassumption|assumption]].
Qed.
Lemma v_instr_kept P r c c' : ctx_kept P r c c' -> forall i, (forall s x, code_uses [i] s x -> P s x) ->
  forall s s', v_instr c i s = VOk s' -> v_instr c' (renumber r i) s = VOk s'.
Proof.
  intros F. induction i as [i IH] using instr_children_ind. intros U s s' H.
  assert (UC : forall b, In b (children i) -> forall s x, code_uses b s x -> P s x).
  { intros b B. apply (uses_in P [i] b i); [left; reflexivity|exact B|exact U]. }
  pose proof (uses_one P i U) as U1. clear U. cbn [children] in IH, UC.
  assert (SQ : forall b, In b (children i) -> forall s s', v_seq (v_instr c) b s = VOk s' -> v_seq (v_instr c') (map (renumber r) b) s = VOk s').
  { intros b B. apply (v_seq_kept P); [exact (IH b B)|exact (UC b B)]. }
  clear IH UC.
  destruct i; cbn [renumber v_instr children refs load_type store_type] in H, SQ, U1 |- *; try exact H;
    try (unfold v_load, v_store in H |- *; apply vbind_ok in H as (tm & H1 & H);
         destruct (memidx_zero_kept _ _ _ _ F (U1 _ _ (or_introl eq_refl)) _ H1) as [tm' ->]; exact H).
  - apply vbind_ok in H as (s1 & H1 & H). rewrite (SQ _ (or_introl eq_refl) _ _ H1). exact H.
  - apply vbind_ok in H as (s1 & H1 & H). rewrite (SQ _ (or_introl eq_refl) _ _ H1). exact H.
  - apply vbind_ok in H as (s1 & H1 & H). rewrite H1. cbn [vbind].
    apply vbind_ok in H as (s2 & H2 & H). rewrite (SQ _ (or_introl eq_refl) _ _ H2). cbn [vbind].
    apply vbind_ok in H as (s3 & H3 & H). rewrite H3. cbn [vbind].
    apply vbind_ok in H as (s4 & H4 & H). rewrite (SQ _ (or_intror (or_introl eq_refl)) _ _ H4). exact H.
  - rewrite (ck_ret _ _ _ _ F). exact H.
  - apply vbind_ok in H as (t & H1 & H). unfold v_funcidx.
    rewrite (lookup_fits _ _ _ _ (fun t => ck_funcs _ _ _ _ F _ t (U1 _ _ (or_introl eq_refl))) _ H1). exact H.
  - apply vbind_ok in H as (t & H1 & H). unfold v_tableidx.
    rewrite (lookup_fits _ _ _ _ (fun t => ck_tables _ _ _ _ F _ t (U1 _ _ (or_intror (or_introl eq_refl)))) _ H1). cbn [vbind].
    apply vbind_ok in H as (t2 & H2 & H). unfold v_typeidx.
    rewrite (lookup_fits _ _ _ _ (fun t => ck_types _ _ _ _ F _ t (U1 _ _ (or_introl eq_refl))) _ H2). exact H.
  - unfold v_localidx in *. rewrite (ck_locals _ _ _ _ F). exact H.
  - unfold v_localidx in *. rewrite (ck_locals _ _ _ _ F). exact H.
  - unfold v_localidx in *. rewrite (ck_locals _ _ _ _ F). exact H.
  - apply vbind_ok in H as (t & H1 & H). unfold v_globalidx.
    rewrite (lookup_fits _ _ _ _ (fun t => ck_globals _ _ _ _ F _ t (U1 _ _ (or_introl eq_refl))) _ H1). exact H.
  - apply vbind_ok in H as (t & H1 & H). unfold v_globalidx.
    rewrite (lookup_fits _ _ _ _ (fun t => ck_globals _ _ _ _ F _ t (U1 _ _ (or_introl eq_refl))) _ H1). exact H.
  - apply vbind_ok in H as (t & H1 & H). unfold v_memidx.
    rewrite (lookup_fits _ _ _ _ (fun t => ck_mems _ _ _ _ F _ t (U1 _ _ (or_introl eq_refl))) _ H1). exact H.
  - apply vbind_ok in H as (t & H1 & H). unfold v_memidx.
    rewrite (lookup_fits _ _ _ _ (fun t => ck_mems _ _ _ _ F _ t (U1 _ _ (or_introl eq_refl))) _ H1). exact H.
Qed.
Lemma v_expr_kept P r c c' e s s' : ctx_kept P r c c' -> (forall s x, code_uses e s x -> P s x) ->
  v_expr c e s = VOk s' -> v_expr c' (map (renumber r) e) s = VOk s'.
Proof. intros F U. apply (v_seq_kept P); [|exact U]. apply Forall_forall. intros i _ U1 s1 s1'. apply (v_instr_kept P); assumption. Qed.
Lemma v_func_kept r c c' f t : ctx_kept (func_uses f) r c c' -> v_func f (c, empty_stacks) = VOk (t, (c, empty_stacks)) ->
  c_locals c' = [] -> c_ret c' = None ->
  v_func (renumber_func r f) (c', empty_stacks) = VOk (t, (c', empty_stacks)).
Proof.
  intros F H L R. unfold v_func in *. cbn [renumber_func fn_ty fn_locals fn_body] in *.
  apply vbind_ok in H as (t1 & H1 & H). unfold v_typeidx.
  rewrite (lookup_fits _ _ _ _ (fun t => ck_types _ _ _ _ F _ t (or_introl (conj eq_refl eq_refl))) _ H1). cbn [vbind].
  apply vbind_ok in H as (s1 & H2 & H). erewrite (v_expr_kept (func_uses f)); [|shelve|intros s x U; right; exact U|exact H2]. cbn [vbind].
  apply vbind_ok in H as ([rs s2] & H3 & H). rewrite H3. cbn [vbind snd] in *.
  destruct (stacks_not_empty s2) eqn:E; [discriminate|]. apply stacks_empty in E. subst s2. injection H as -> _.
  unfold set_locals, set_ret. cbn. destruct c'. cbn in L, R. subst. reflexivity.
  Unshelve. destruct F. constructor; cbn; auto.
Qed.

(** constant expressions *)
Lemma init_ok_kept C C' e t (g : instr -> instr) (rn : N -> N) :
  (forall i, g i = match i with I_GlobalGet x => I_GlobalGet (rn x) | i => g i end) ->
  (forall i, const_instr C i -> (forall x, i <> I_GlobalGet x) -> g i = i) ->
  (forall x t, occurs (I_GlobalGet x) e -> at_index (te_globals C) x t -> at_index (te_globals C') (rn x) t) ->
  init_ok C e t -> init_ok C' (map g e) t.
Proof.
  intros G1 G2 FG. rewrite !init_one. intros (i & -> & CI & T). exists (g i). split; [reflexivity|].
  destruct i; try contradiction; cbn in CI.
  1: { destruct CI as (gt & A & M). rewrite G1.
       assert (FG' : at_index (te_globals C') (rn a) gt) by (apply FG; [apply occurs_here; left; reflexivity|exact A]).
       split; [exists gt; auto|].
       assert (E : gt_val gt = t) by (inversion T; subst; try discriminate; unfold at_index in *; congruence).
       rewrite <- E. apply T_global_get. exact FG'. }
  all: rewrite G2; [|exact I|discriminate]; split; [exact I|]; inversion T; subst; try discriminate; apply T_plain; assumption.
Qed.
Lemma offset_kept (P : space -> N -> Prop) r C C' e t : (forall s x, code_uses e s x -> P s x) ->
  (forall x t, P S_Global x -> at_index (te_globals C) x t -> at_index (te_globals C') (rn_global r x) t) ->
  init_ok C e t -> init_ok C' (map (renumber r) e) t.
Proof.
  intros U FG. apply (init_ok_kept C C' e t (renumber r) (rn_global r)); [|intros i CI N|intros x g O; apply FG].
  - intros i. destruct i; reflexivity.
  - destruct i; try contradiction; try reflexivity. destruct (N _ eq_refl).
  - apply U. exists (I_GlobalGet x). split; [exact O|left; reflexivity].
Qed.
Lemma global_kept r gs gs' g : (forall x t, occurs (I_GlobalGet x) (glob_init g) -> at_index gs x t -> at_index gs' (rn_init r x) t) ->
  global_ok (globals_env gs) g -> global_ok (globals_env gs') (renumber_global r g).
Proof.
  intros FG. unfold global_ok. cbn [renumber_global glob_ty glob_init]. apply (init_ok_kept _ _ _ _ (renumber_init r) (rn_init r)); [|intros i CI N|exact FG].
  - intros i. destruct i; reflexivity.
  - destruct i; try contradiction; try reflexivity. destruct (N _ eq_refl).
Qed.

Lemma kept_ctx P r m m' fts fts' : kept r m m' P -> func_space m fts -> func_space m' fts' ->
  ctx_kept P r (module_ctx m fts) (module_ctx m' fts').
Proof.
  intros K FS FS'. constructor; cbn; try reflexivity.
  - intros x t U H. exact (K S_Type x (Ext_Func t) U H).
  - intros x t U H. destruct (Forall2_at_r _ _ _ _ _ FS H) as (y & Y1 & Y2).
    destruct (K S_Func x (Ext_Func t) U (ex_intro _ y (conj Y1 Y2))) as (y' & Z1 & Z2).
    destruct (Forall2_at _ _ _ _ _ FS' Z1) as (t' & T1 & T2). rewrite (at_index_det _ _ _ _ Z2 T2). exact T1.
  - intros x t U H. exact (K S_Table x (Ext_Table t) U H).
  - intros x t U H. exact (K S_Mem x (Ext_Mem t) U H).
  - intros x t U H. exact (K S_Global x (Ext_Global t) U H).
Qed.

Lemma composed_ok m' : composed m' ->
  (length (m_tables m') <= 1)%nat -> (length (m_mems m') <= 1)%nat -> NoDup (map ex_name (m_exports m')) -> accepted m'.
Proof.
  intros CO LT LM ND. destruct CO. apply accepted_checked.
  assert (CK : forall m, accepted m -> exists fts ims exs, module_checked m fts ims exs) by (intros m; apply accepted_checked).
  assert (FS : exists fts, func_space m' fts).
  { apply Forall2_total. intros x I. unfold func_index in I. apply in_app_iff in I as [I|I].
    - apply in_imported_funcs in I as (i' & I & E). destruct (co_imports _ I) as (m & r & i & A & I2 & E2 & K).
      destruct (CK _ A) as (fts & ims & exs & MC). rewrite E in E2. destruct (im_desc i) eqn:D; try discriminate E2. injection E2 as ->.
      destruct (Forall2_In_l _ _ _ _ (mc_imports_ok _ _ _ _ MC) I2) as (ex & _ & T & _). unfold import_type in T. rewrite D in T.
      destruct ex; try contradiction. eexists. exact (K S_Type _ (Ext_Func _) (conj eq_refl D) T).
    - apply in_map_iff in I as (f' & <- & I). destruct (co_funcs _ I) as (m & r & f & A & I2 & -> & K).
      destruct (CK _ A) as (fts & ims & exs & MC).
      pose proof (proj1 (Forall_forall _ _) (mc_funcs_ok _ _ _ _ MC) f I2) as [t V]. unfold v_func in V. apply vbind_ok in V as (t1 & V1 & _).
      apply v_lookup_ok in V1. exists t1. exact (K S_Type _ (Ext_Func t1) (or_introl (conj eq_refl eq_refl)) V1). }
  destruct FS as [fts' FS'].
  assert (IM : exists ims, Forall2 (fun im x => import_type (module_env m' fts') im x /\ ext_ok whasm_validity x) (m_imports m') ims).
  { apply Forall2_total. intros i' I. destruct (co_imports _ I) as (m & r & i & A & I2 & E & K).
    destruct (CK _ A) as (fts & ims & exs & MC).
    destruct (Forall2_In_l _ _ _ _ (mc_imports_ok _ _ _ _ MC) I2) as (ex & _ & T & O). exists ex. split; [|exact O].
    unfold import_type in *. rewrite E. destruct (im_desc i) eqn:D, ex; try contradiction; cbn [renumber_importdesc]; try exact T.
    exact (K S_Type _ (Ext_Func _) (conj eq_refl D) T). }
  assert (EX : exists exs, Forall2 (export_type (module_env m' fts')) (m_exports m') exs).
  { apply Forall2_total. intros i' I. destruct (co_exports _ I) as (m & r & i & A & I2 & E & K).
    destruct (CK _ A) as (fts & ims & exs & MC).
    destruct (Forall2_In_l _ _ _ _ (mc_exports_ok _ _ _ _ MC) I2) as (ex & _ & T). exists ex.
    destruct (kept_ctx _ _ _ _ _ _ K (mc_funcs_typed _ _ _ _ MC) FS').
    unfold export_type, export_uses in *. rewrite E. destruct (ex_desc i), ex; try contradiction; cbn [renumber_exportdesc]; auto. }
  destruct IM as [ims IM], EX as [exs EX]. exists fts', ims, exs. constructor; try assumption; try (apply Forall_forall).
  - intros t I. destruct (co_types _ I) as (m & A & I2). destruct (CK _ A) as (? & ? & ? & MC).
    exact (proj1 (Forall_forall _ _) (mc_types_ok _ _ _ _ MC) _ I2).
  - intros f' I. destruct (co_funcs _ I) as (m & r & f & A & I2 & -> & K). destruct (CK _ A) as (fts & ? & ? & MC).
    destruct (proj1 (Forall_forall _ _) (mc_funcs_ok _ _ _ _ MC) _ I2) as [t V]. exists t.
    eapply v_func_kept; [apply kept_ctx; [exact K|exact (mc_funcs_typed _ _ _ _ MC)|exact FS']|exact V|reflexivity|reflexivity].
  - intros t I. destruct (co_tables _ I) as (m & A & I2). destruct (CK _ A) as (? & ? & ? & MC).
    exact (proj1 (Forall_forall _ _) (mc_tables_ok _ _ _ _ MC) _ I2).
  - intros t I. destruct (co_mems _ I) as (m & A & I2). destruct (CK _ A) as (? & ? & ? & MC).
    exact (proj1 (Forall_forall _ _) (mc_mems_ok _ _ _ _ MC) _ I2).
  - intros g' I. destruct (co_globals _ I) as (m & r & g & A & I2 & -> & K). destruct (CK _ A) as (fts & ? & ? & MC).
    apply (global_kept r (map glob_ty (m_globals m))); [exact K|].
    exact (proj1 (Forall_forall _ _) (mc_globals_ok _ _ _ _ MC) _ I2).
  - intros e' I. destruct (co_elem _ I) as (m & r & e & A & I2 & -> & K). destruct (CK _ A) as (fts & ? & ? & MC).
    destruct (kept_ctx _ _ _ _ _ _ K (mc_funcs_typed _ _ _ _ MC) FS').
    destruct (proj1 (Forall_forall _ _) (mc_elem_ok _ _ _ _ MC) _ I2) as ((t & T & TE) & O & FI).
    assert (U : forall s x, code_uses (el_offset e) s x -> elem_uses e s x) by (unfold elem_uses; auto).
    pose proof (offset_kept (elem_uses e) r (module_env m fts) (module_env m' fts') _ _ U ck_globals0 O) as [O1 O2].
    repeat split; cbn [renumber_elem el_table el_offset el_init]; try assumption.
    + exists t. split; [apply ck_tables0; [left; auto|exact T]|exact TE].
    + apply Forall_map. apply Forall_forall. intros y Y. destruct (proj1 (Forall_forall _ _) FI y Y) as (ft & B).
      exists ft. apply ck_funcs0; [right; left; auto|exact B].
  - intros d' I. destruct (co_data _ I) as (m & r & d & A & I2 & -> & K). destruct (CK _ A) as (fts & ? & ? & MC).
    destruct (kept_ctx _ _ _ _ _ _ K (mc_funcs_typed _ _ _ _ MC) FS').
    destruct (proj1 (Forall_forall _ _) (mc_data_ok _ _ _ _ MC) _ I2) as ((t & T) & O).
    assert (U : forall s x, code_uses (da_offset d) s x -> data_uses d s x) by (unfold data_uses; auto).
    split; cbn [renumber_data da_mem da_offset].
    + exists t. apply ck_mems0; [left; auto|exact T].
    + exact (offset_kept (data_uses d) r (module_env m fts) (module_env m' fts') _ _ U ck_globals0 O).
  - intros s' E. destruct (co_start _ E) as (m & r & s & A & E2 & -> & K). destruct (CK _ A) as (fts & ? & ? & MC).
    destruct (kept_ctx _ _ _ _ _ _ K (mc_funcs_typed _ _ _ _ MC) FS'). unfold start_ok. cbn [renumber_start st_func].
    apply ck_funcs0; [split; reflexivity|]. exact (mc_start_ok _ _ _ _ MC _ E2).
Qed.
Lemma denotes_keep m s x d : denotes m s x d -> denotes m s (new_index keep s x) d.
Proof. destruct s; exact (fun H => H). Qed.
Lemma kept_keep m P : kept keep m m P.
Proof. intros s x d _. apply denotes_keep. Qed.
Lemma composed_self m : accepted m -> composed m.
Proof.
  intros A. constructor.
  - intros t I. exists m. auto.
  - intros f I. exists m, keep, f. repeat split; try assumption; [|apply kept_keep]. destruct f. unfold renumber_func. cbn. rewrite map_keep. reflexivity.
  - intros t I. exists m. auto.
  - intros t I. exists m. auto.
  - intros g I. exists m, keep, g. repeat split; try assumption; [|intros x t _ H; exact H]. destruct g as [y1 y2]. unfold renumber_global. cbn [glob_ty glob_init]. rewrite map_keep_init. reflexivity.
  - intros e I. exists m, keep, e. repeat split; try assumption; [|apply kept_keep]. destruct e as [y1 y2 y3]. unfold renumber_elem. cbn [el_table el_offset el_init]. rewrite map_keep. cbn. rewrite map_id. reflexivity.
  - intros d I. exists m, keep, d. repeat split; try assumption; [|apply kept_keep]. destruct d as [y1 y2 y3]. unfold renumber_data. cbn [da_mem da_offset da_init]. rewrite map_keep. reflexivity.
  - intros s E. exists m, keep, s. repeat split; try assumption; [|apply kept_keep]. destruct s. reflexivity.
  - intros i I. exists m, keep, i. repeat split; try assumption; [|apply kept_keep]. destruct (im_desc i); reflexivity.
  - intros e I. exists m, keep, e. repeat split; try assumption; [|apply kept_keep]. destruct (ex_desc e); reflexivity.
Qed.
Lemma accepted_local m : accepted m <->
  composed m /\ (length (m_tables m) <= 1)%nat /\ (length (m_mems m) <= 1)%nat /\ NoDup (map ex_name (m_exports m)).
Proof.
  split; [|intros (C & T & M & D); apply composed_ok; assumption]. intros A. split; [apply composed_self; exact A|].
  destruct (one_table_mem _ A) as [T M]. pose proof (export_names_unique _ A) as D. auto.
Qed.

(** ** Removing definitions *)
Lemma staying_ext k k' x : (forall y, (y < x)%nat -> k (N.of_nat y) = k' (N.of_nat y)) -> staying k x = staying k' x.
Proof. induction x as [|x IH]; intros H; cbn [staying]; [reflexivity|]. rewrite IH, (H x); [reflexivity|lia|]. intros y L. apply H. lia. Qed.
Lemma staying_all k x : (forall y, (y < x)%nat -> k (N.of_nat y) = true) -> staying k x = N.of_nat x.
Proof. induction x as [|x IH]; intros H; cbn [staying]; [reflexivity|]. rewrite IH, (H x); [lia|lia|]. intros y L. apply H. lia. Qed.
Lemma staying_mono k x y : staying k x <= staying k (x + y).
Proof. induction y as [|y IH]; [rewrite Nat.add_0_r; lia|]. rewrite Nat.add_succ_r. cbn [staying]. lia. Qed.
(** the element with index [n + x] *)
Lemma pick_at {A} k (l : list A) : forall n x a, nth_error l x = Some a -> k (N.of_nat (n + x)) = true ->
  nth_error (pick k (N.of_nat n) l) (N.to_nat (staying k (n + x) - staying k n)) = Some a.
Proof.
  induction l as [|b l IH]; intros n x a H K; [destruct x; discriminate|]. cbn [pick].
  replace (N.of_nat n + 1) with (N.of_nat (S n)) by lia. destruct x as [|x]; cbn [nth_error] in H.
  - rewrite Nat.add_0_r in *. rewrite K, N.sub_diag. exact H.
  - specialize (IH (S n) x a H). rewrite Nat.add_succ_r, <- Nat.add_succ_l in K |- *. specialize (IH K).
    pose proof (staying_mono k (S n) x) as M. cbn [staying] in IH, M. destruct (k (N.of_nat n)).
    + replace (N.to_nat (staying k (S n + x) - staying k n)) with (S (N.to_nat (staying k (S n + x) - (staying k n + 1)))) by (cbn [staying] in *; lia).
      exact IH.
    + rewrite N.add_0_r in IH. exact IH.
Qed.
Lemma pick_in {A} k (l : list A) : forall n a, In a (pick k n l) -> In a l.
Proof.
  induction l as [|b l IH]; intros n a H; [exact H|]. cbn [pick] in H. destruct (k n).
  - destruct H as [<-|H]; [left; reflexivity|right; exact (IH _ _ H)].
  - right; exact (IH _ _ H).
Qed.
Lemma pick_in_at {A} k (l : list A) : forall n x a, nth_error l x = Some a -> k (N.of_nat (n + x)) = true -> In a (pick k (N.of_nat n) l).
Proof. intros n x a H K. eapply nth_error_In. exact (pick_at k l n x a H K). Qed.
Lemma pick_map {A B} (g : A -> B) k (l : list A) : forall n, map g (pick k n l) = pick k n (map g l).
Proof. induction l as [|b l IH]; intros n; [reflexivity|]. cbn [pick map]. destruct (k n); cbn [map]; rewrite IH; reflexivity. Qed.
Lemma pick_length {A} k (l : list A) : forall n, (length (pick k n l) <= length l)%nat.
Proof. induction l as [|b l IH]; intros n; [apply le_n|]. cbn [pick length]. specialize (IH (n + 1)). destruct (k n); cbn [length]; lia. Qed.
(** [K]: the predicate [k], with the imports *)
Lemma pick_space {A} (k K : N -> bool) (ims l : list A) x a : (forall y, K y = ((y <? N.of_nat (length ims)) || k y)%bool) ->
  at_index (ims ++ l) x a -> K x = true -> at_index (ims ++ pick k (N.of_nat (length ims)) l) (staying K (N.to_nat x)) a.
Proof.
  intros EK H S. unfold at_index in *. set (n := length ims) in *.
  assert (B : staying K n = N.of_nat n).
  { apply staying_all. intros y L. rewrite EK. destruct (N.ltb_spec (N.of_nat y) (N.of_nat n)); [reflexivity|lia]. }
  destruct (Nat.ltb_spec (N.to_nat x) n) as [L|L].
  - rewrite staying_all; [|intros y L2; rewrite EK; destruct (N.ltb_spec (N.of_nat y) (N.of_nat n)); [reflexivity|lia]].
    rewrite Nnat.Nat2N.id. rewrite nth_error_app1 in H |- * by assumption. exact H.
  - rewrite nth_error_app2 in H by exact L. fold n in H.
    remember (N.to_nat x - n)%nat as y eqn:EY. assert (EX : x = N.of_nat (n + y)) by lia. rewrite EX in S |- *. rewrite Nnat.Nat2N.id.
    assert (KX : k (N.of_nat (n + y)) = true).
    { rewrite EK in S. destruct (N.ltb_spec (N.of_nat (n + y)) (N.of_nat n)); [lia|exact S]. }
    assert (E : forall l' i, (n <= i)%nat -> @pick A K (N.of_nat i) l' = pick k (N.of_nat i) l').
    { induction l' as [|b l' IH]; intros i M; [reflexivity|]. cbn [pick]. replace (N.of_nat i + 1) with (N.of_nat (Datatypes.S i)) by lia.
      rewrite (IH (Datatypes.S i)) by lia. rewrite EK. destruct (N.ltb_spec (N.of_nat i) (N.of_nat n)); [lia|reflexivity]. }
    specialize (E l n (le_n n)).
    assert (KX' : K (N.of_nat (n + y)) = true) by (rewrite EK, KX; apply Bool.orb_true_r).
    pose proof (pick_at K l n y a H KX') as P. rewrite E, B in P.
    pose proof (staying_mono K n y) as M. rewrite B in M.
    rewrite nth_error_app2 by (fold n; lia). fold n.
    replace (N.to_nat (staying K (n + y)) - n)%nat with (N.to_nat (staying K (n + y) - N.of_nat n)) by lia. exact P.
Qed.

Section Without.
Variables (k : space -> N -> bool) (m : module).
Hypothesis CL : closed k m.
Notation r := (closing_up k m).
Notation m' := (without k m).
Lemma imports_tables l : imported_tables (map (fun i => mkImport (im_module i) (im_name i) (renumber_importdesc r (im_desc i))) l) = imported_tables l.
Proof. induction l as [|i l IH]; [reflexivity|]. unfold imported_tables in *. cbn. rewrite IH. destruct (im_desc i); reflexivity. Qed.
Lemma imports_mems l : imported_mems (map (fun i => mkImport (im_module i) (im_name i) (renumber_importdesc r (im_desc i))) l) = imported_mems l.
Proof. induction l as [|i l IH]; [reflexivity|]. unfold imported_mems in *. cbn. rewrite IH. destruct (im_desc i); reflexivity. Qed.
Lemma imports_globals l : imported_globals (map (fun i => mkImport (im_module i) (im_name i) (renumber_importdesc r (im_desc i))) l) = imported_globals l.
Proof. induction l as [|i l IH]; [reflexivity|]. unfold imported_globals in *. cbn. rewrite IH. destruct (im_desc i); reflexivity. Qed.
Lemma imports_funcs l : imported_funcs (map (fun i => mkImport (im_module i) (im_name i) (renumber_importdesc r (im_desc i))) l) = map (rn_type r) (imported_funcs l).
Proof. induction l as [|i l IH]; [reflexivity|]. unfold imported_funcs in *. cbn. rewrite IH. destruct (im_desc i); reflexivity. Qed.

Lemma func_type_stays x y : at_index (func_index m) x y -> stays k m S_Func x = true -> stays k m S_Type y = true.
Proof.
  unfold at_index, func_index. intros H S. destruct (Nat.ltb_spec (N.to_nat x) (length (imported_funcs (m_imports m)))) as [L|L].
  - rewrite nth_error_app1 in H by exact L. apply nth_error_In in H. apply in_imported_funcs in H as (i & I & D).
    apply (cl_imports _ _ CL i _ _ I). split; [reflexivity|exact D].
  - rewrite nth_error_app2 in H by exact L. rewrite nth_error_map in H.
    destruct (nth_error (m_funcs m) (N.to_nat x - length (imported_funcs (m_imports m)))) as [f|] eqn:E; [|discriminate]. injection H as <-.
    apply (cl_funcs _ _ CL f); [|left; auto]. unfold stays, count_imports in S.
    destruct (N.ltb_spec x (N.of_nat (length (imported_funcs (m_imports m))))); [lia|]. cbn [orb] in S.
    apply (pick_in_at _ _ _ _ _ E). rewrite <- S. f_equal. lia.
Qed.
Lemma without_denotes s x d : stays k m s x = true -> denotes m s x d -> denotes m' s (new_index r s x) d.
Proof.
  intros S. destruct s, d; cbn [denotes new_index]; try contradiction.
  - intros H. apply (pick_space (k S_Type) (stays k m S_Type) []); [|exact H|exact S].
    intros y. cbn [stays count_imports length]. reflexivity.
  - intros (y & H & T). exists (rn_type r y). pose proof (func_type_stays _ _ H S) as SY. split.
    + unfold func_index in *. cbn [without m_imports m_funcs]. rewrite imports_funcs.
      assert (EF : forall l, map fn_ty (map (renumber_func r) l) = map (rn_type r) (map fn_ty l)) by (intros l; rewrite !map_map; reflexivity).
      rewrite EF, <- map_app, (pick_map fn_ty). apply at_index_map. exists y. split; [|reflexivity].
      apply (pick_space (k S_Func) (stays k m S_Func)); [|exact H|exact S]. reflexivity.
    + apply (pick_space (k S_Type) (stays k m S_Type) []); [|exact T|exact SY]. reflexivity.
  - intros H. unfold table_space in *. cbn [without m_imports m_tables]. rewrite imports_tables, pick_map.
    apply (pick_space (k S_Table) (stays k m S_Table)); [|exact H|exact S]. reflexivity.
  - intros H. unfold mem_space in *. cbn [without m_imports m_mems]. rewrite imports_mems, pick_map.
    apply (pick_space (k S_Mem) (stays k m S_Mem)); [|exact H|exact S]. reflexivity.
  - intros H. unfold global_space in *. cbn [without m_imports m_globals]. rewrite imports_globals, map_map. cbn [renumber_global glob_ty].
    rewrite (pick_map glob_ty). apply (pick_space (k S_Global) (stays k m S_Global)); [|exact H|exact S]. reflexivity.
Qed.
Lemma without_init x t : k S_Global (count_imports m S_Global + x) = true -> denotes_init m x t -> denotes_init m' (rn_init r x) t.
Proof.
  intros S H. unfold denotes_init in *. cbn [without m_globals]. rewrite map_map. cbn [renumber_global glob_ty].
  rewrite (pick_map glob_ty). set (n := count_imports m S_Global) in *.
  assert (G : at_index (global_space m) (n + x) t).
  { unfold global_space. rewrite N.add_comm. apply (at_index_right (imported_globals (m_imports m))). exact H. }
  assert (K : stays k m S_Global (n + x) = true) by (unfold stays; rewrite S; apply Bool.orb_true_r).
  pose proof (without_denotes S_Global (n + x) (Ext_Global t) K G) as D. cbn [denotes new_index] in D.
  unfold global_space in D. cbn [without m_imports m_globals] in D. rewrite imports_globals, map_map in D. cbn [renumber_global glob_ty] in D.
  rewrite (pick_map glob_ty) in D. fold n in D. cbn [closing_up rn_global rn_init] in *.
  assert (B : n <= staying (stays k m S_Global) (N.to_nat (n + x))).
  { rewrite Nnat.N2Nat.inj_add. rewrite <- (Nnat.N2Nat.id n) at 1. rewrite <- (staying_all (stays k m S_Global) (N.to_nat n)); [apply staying_mono|].
    intros y L. unfold stays. fold n. destruct (N.ltb_spec (N.of_nat y) n); [reflexivity|lia]. }
  assert (EN : n = N.of_nat (length (imported_globals (m_imports m)))) by reflexivity.
  unfold at_index in *. rewrite nth_error_app2 in D by lia. rewrite <- D. f_equal. fold n. lia.
Qed.
Lemma without_kept (P : space -> N -> Prop) : (forall s x, P s x -> stays k m s x = true) -> kept r m m' P.
Proof. intros H s x d U. apply without_denotes. exact (H s x U). Qed.
Lemma without_ok : accepted m -> accepted m'.
Proof.
  intros A. apply accepted_local in A as A'. destruct A' as (_ & LT & LM & ND). apply composed_ok; cbn [without m_tables m_mems m_exports].
  - constructor; cbn [without m_types m_funcs m_tables m_mems m_globals m_elem m_data m_start m_imports m_exports].
    + intros t I. apply pick_in in I. exists m. auto.
    + intros f' I. apply in_map_iff in I as (f & <- & I). exists m, r, f. pose proof (pick_in _ _ _ _ I) as I2. repeat split; try assumption.
      apply without_kept. intros s x. exact (cl_funcs _ _ CL f s x I).
    + intros t I. apply pick_in in I. exists m. auto.
    + intros t I. apply pick_in in I. exists m. auto.
    + intros g' I. apply in_map_iff in I as (g & <- & I). exists m, r, g. pose proof (pick_in _ _ _ _ I) as I2. repeat split; try assumption.
      intros x t O. apply without_init. exact (cl_globals _ _ CL g x I O).
    + intros e' I. apply in_map_iff in I as (e & <- & I). exists m, r, e. repeat split; try assumption.
      apply without_kept. intros s x. exact (cl_elem _ _ CL e s x I).
    + intros e' I. apply in_map_iff in I as (e & <- & I). exists m, r, e. repeat split; try assumption.
      apply without_kept. intros s x. exact (cl_data _ _ CL e s x I).
    + intros s' E. destruct (m_start m) as [s|] eqn:ES; [|discriminate]. injection E as <-. exists m, r, s. repeat split; try assumption.
      apply without_kept. intros sp x. exact (cl_start _ _ CL s sp x ES).
    + intros i' I. apply in_map_iff in I as (i & <- & I). exists m, r, i. repeat split; try assumption.
      apply without_kept. intros s x. exact (cl_imports _ _ CL i s x I).
    + intros e' I. apply in_map_iff in I as (e & <- & I). exists m, r, e. repeat split; try assumption.
      apply without_kept. intros s x. exact (cl_exports _ _ CL e s x I).
  - pose proof (pick_length (k S_Table) (m_tables m) (count_imports m S_Table)). lia.
  - pose proof (pick_length (k S_Mem) (m_mems m) (count_imports m S_Mem)). lia.
  - rewrite map_map. exact ND.
Qed.
End Without.

(** ** Other type indices *)
Section Retyped.
Variable g : N -> N.
Notation r := (only_types g).
Definition same_types (c : context) : Prop := forall x, v_typeidx c (g x) = v_typeidx c x.
Lemma retyped_instr c : same_types c -> forall i s, v_instr c (renumber r i) s = v_instr c i s.
Proof.
  intros ST. induction i as [i IH] using instr_children_ind. intros s.
  assert (SQ : forall b, In b (children i) -> forall s, v_seq (v_instr c) (map (renumber r) b) s = v_seq (v_instr c) b s).
  { intros b B. specialize (IH b B). clear B. induction IH as [|j b E F IHb]; intros s0; [reflexivity|].
    cbn [map v_seq]. rewrite E. destruct (v_instr c j s0); cbn [vbind]; [apply IHb|reflexivity|reflexivity]. }
  clear IH. destruct i; cbn [renumber v_instr children] in *; try reflexivity.
  - rewrite SQ by (cbn; auto). reflexivity.
  - rewrite SQ by (cbn; auto). reflexivity.
  - match goal with |- vbind ?x _ = _ => destruct x as [s1| |]; cbn [vbind]; try reflexivity end. rewrite SQ by (cbn; auto).
    match goal with |- vbind ?x _ = _ => destruct x as [s2| |]; cbn [vbind]; try reflexivity end.
    match goal with |- vbind ?x _ = _ => destruct x as [s3| |]; cbn [vbind]; try reflexivity end. rewrite SQ by (cbn; auto). reflexivity.
  - unfold only_types. cbn [rn_type rn_table]. rewrite ST. reflexivity.
Qed.
Lemma retyped_expr c : same_types c -> forall e s, v_expr c (map (renumber r) e) s = v_expr c e s.
Proof.
  intros ST e. induction e as [|i e IH]; intros s; [reflexivity|]. unfold v_expr in *. cbn [map v_seq]. rewrite retyped_instr by exact ST.
  destruct (v_instr c i s); cbn [vbind]; [apply IH|reflexivity|reflexivity].
Qed.
Lemma retyped_func c s f : same_types c -> v_func (renumber_func r f) (c, s) = v_func f (c, s).
Proof.
  intros ST. unfold v_func. cbn [renumber_func fn_ty fn_locals fn_body only_types rn_type]. rewrite ST.
  destruct (v_typeidx c (fn_ty f)) as [t| |]; cbn [vbind]; try reflexivity.
  fold r. rewrite retyped_expr; [reflexivity|exact ST].
Qed.
Variable m : module.
Hypothesis G : forall x, nth_error (m_types m) (N.to_nat (g x)) = nth_error (m_types m) (N.to_nat x).
Lemma at_type x t : at_index (m_types m) (g x) t <-> at_index (m_types m) x t.
Proof. unfold at_index. rewrite G. reflexivity. Qed.
Lemma retyped_imports l : imported_funcs (map (fun i => mkImport (im_module i) (im_name i) (renumber_importdesc r (im_desc i))) l) = map g (imported_funcs l).
Proof. induction l as [|i l IH]; [reflexivity|]. unfold imported_funcs in *. cbn. rewrite IH. destruct (im_desc i); reflexivity. Qed.
Lemma retyped_tables l : imported_tables (map (fun i => mkImport (im_module i) (im_name i) (renumber_importdesc r (im_desc i))) l) = imported_tables l.
Proof. induction l as [|i l IH]; [reflexivity|]. unfold imported_tables in *. cbn. rewrite IH. destruct (im_desc i); reflexivity. Qed.
Lemma retyped_mems l : imported_mems (map (fun i => mkImport (im_module i) (im_name i) (renumber_importdesc r (im_desc i))) l) = imported_mems l.
Proof. induction l as [|i l IH]; [reflexivity|]. unfold imported_mems in *. cbn. rewrite IH. destruct (im_desc i); reflexivity. Qed.
Lemma retyped_globals l : imported_globals (map (fun i => mkImport (im_module i) (im_name i) (renumber_importdesc r (im_desc i))) l) = imported_globals l.
Proof. induction l as [|i l IH]; [reflexivity|]. unfold imported_globals in *. cbn. rewrite IH. destruct (im_desc i); reflexivity. Qed.
Lemma retyped_space fts : func_space (retyped g m) fts <-> func_space m fts.
Proof.
  unfold func_space, func_index. cbn [retyped m_types m_funcs m_imports]. rewrite retyped_imports, map_map. cbn [renumber_func fn_ty only_types rn_type].
  rewrite <- (map_map fn_ty g), <- map_app. generalize (imported_funcs (m_imports m) ++ map fn_ty (m_funcs m)) as l0. intros l0. split; intros H.
  - revert fts H. induction l0 as [|x l0 IH]; intros fts H; inversion H as [|? t ? fts' A F]; subst; constructor; [apply at_type; exact A|apply IH; exact F].
  - induction H as [|x t l1 l2 A F IH]; cbn [map]; constructor; [apply at_type; exact A|exact IH].
Qed.
Lemma retyped_ctx fts : module_ctx (retyped g m) fts = module_ctx m fts.
Proof. unfold module_ctx. unfold table_space, mem_space, global_space. cbn [retyped m_types m_tables m_mems m_globals m_imports]. rewrite retyped_tables, retyped_mems, retyped_globals. reflexivity. Qed.
Lemma retyped_env fts : module_env (retyped g m) fts = module_env m fts.
Proof. unfold module_env. unfold table_space, mem_space, global_space. cbn [retyped m_types m_tables m_mems m_globals m_imports]. rewrite retyped_tables, retyped_mems, retyped_globals. reflexivity. Qed.
Lemma retyped_same fts : same_types (module_ctx m fts).
Proof.
  intros x. unfold v_typeidx, v_lookup. cbn [module_ctx c_types]. pose proof (G x) as E. rewrite E.
  destruct (nth_error (m_types m) (N.to_nat x)) as [t|] eqn:H.
  - assert (L1 : nth_error (m_types m) (N.to_nat x) <> None) by congruence. assert (L2 : nth_error (m_types m) (N.to_nat (g x)) <> None) by congruence.
    apply nth_error_Some in L1, L2.
    destruct (N.leb_spec (N.of_nat (length (m_types m))) x), (N.leb_spec (N.of_nat (length (m_types m))) (g x)); try lia. reflexivity.
  - apply nth_error_None in H, E.
    destruct (N.leb_spec (N.of_nat (length (m_types m))) x), (N.leb_spec (N.of_nat (length (m_types m))) (g x)); try lia. reflexivity.
Qed.
Lemma retyped_import_types fts l : forall ims,
  Forall2 (fun im x => import_type (module_env m fts) im x /\ ext_ok whasm_validity x)
    (map (fun i => mkImport (im_module i) (im_name i) (renumber_importdesc r (im_desc i))) l) ims <->
  Forall2 (fun im x => import_type (module_env m fts) im x /\ ext_ok whasm_validity x) l ims.
Proof.
  induction l as [|i l IH]; intros ims; [reflexivity|]. cbn [map].
  assert (T : forall x, import_type (module_env m fts) (mkImport (im_module i) (im_name i) (renumber_importdesc r (im_desc i))) x <->
    import_type (module_env m fts) i x).
  { intros x. unfold import_type. cbn [im_desc]. destruct (im_desc i), x; cbn [renumber_importdesc]; try reflexivity.
    cbn [module_env te_types only_types rn_type]. apply at_type. }
  split; intros F; inversion F as [|? x ? ? [T1 O] F']; subst; constructor; try (apply IH; exact F'); (split; [apply T; exact T1|exact O]).
Qed.
Lemma retyped_checked fts ims exs : module_checked (retyped g m) fts ims exs <-> module_checked m fts ims exs.
Proof.
  split; intros [FS F1 F2 F3 F4 F5 F6 F7 F8 F9 F10 LT LM EN]; rewrite ?retyped_env, ?retyped_ctx in *;
    cbn [retyped m_types m_funcs m_tables m_mems m_globals m_elem m_data m_start m_imports m_exports] in *; constructor;
    rewrite ?retyped_env, ?retyped_ctx in *;
    cbn [retyped m_types m_funcs m_tables m_mems m_globals m_elem m_data m_start m_imports m_exports]; try assumption.
  - apply retyped_space. exact FS.
  - rewrite Forall_map in F2. eapply Forall_impl; [|exact F2]. intros f (t & H). exists t. rewrite <- H. symmetry. apply retyped_func. apply retyped_same.
  - apply retyped_import_types. exact F9.
  - apply retyped_space. exact FS.
  - rewrite Forall_map. eapply Forall_impl; [|exact F2]. intros f (t & H). exists t. rewrite <- H. apply retyped_func. apply retyped_same.
  - apply retyped_import_types. exact F9.
Qed.
Lemma retyped_verdict : validate (retyped g m) = validate m.
Proof.
  assert (E : forall mt, validate (retyped g m) = VOk mt <-> validate m = VOk mt).
  { intros mt. unfold validate. rewrite !v_module_checked. split; intros (fts & H); exists fts; apply retyped_checked; exact H. }
  destruct (validate (retyped g m)) as [mt| |] eqn:V1, (validate m) as [mt2| |] eqn:V2; try reflexivity.
  all: try (pose proof (proj1 (E _) eq_refl) as X; congruence).
  all: try (pose proof (proj2 (E _) eq_refl) as X; congruence).
  all: destruct (validate_total (retyped g m)) as [[? X]|X], (validate_total m) as [[? Y]|Y]; congruence.
Qed.
End Retyped.
