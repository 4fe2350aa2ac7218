(** Renumbering and assembling preserve acceptance. *)
From Coq Require Import Lia.
From Verif Require Import SpecLink SpecVerdict EncodeProof TypingProof ModuleValidProof ValidityClaims InitProof SkeletonProof.
Open Scope N_scope.

(** what is looked up in [c] is found under its new index in [c'] *)
Record ctx_fits (r : renumbering) (c c' : context) : Prop := {
  cf_types : forall x t, at_index (c_types c) x t -> at_index (c_types c') (rn_type r x) t;
  cf_funcs : forall x t, at_index (c_funcs c) x t -> at_index (c_funcs c') (rn_func r x) t;
  cf_tables : forall x t, at_index (c_tables c) x t -> at_index (c_tables c') (rn_table r x) t;
  cf_mems : forall x t, at_index (c_mems c) x t -> at_index (c_mems c') (rn_mem r x) t;
  cf_globals : forall x t, at_index (c_globals c) x t -> at_index (c_globals c') (rn_global r x) t;
  cf_locals : c_locals c' = c_locals c;
  cf_ret : c_ret c' = c_ret c;
}.
Lemma lookup_fits {A} (xs ys : list A) x y : (forall t, at_index xs x t -> at_index ys y t) ->
  forall t, v_lookup xs x = VOk t -> v_lookup ys y = VOk t.
Proof. intros H t L. apply v_lookup_ok. apply H. apply v_lookup_ok. exact L. Qed.
Lemma memidx_zero r c c' : ctx_fits r c c' -> forall t, v_memidx c 0 = VOk t -> exists t', v_memidx c' 0 = VOk t'.
Proof.
  intros F t H. apply v_lookup_ok in H. apply (cf_mems _ _ _ F) in H. unfold v_memidx, at_index in *.
  destruct (c_mems c') as [|t' l]; [destruct (N.to_nat (rn_mem r 0)); discriminate|]. exists t'. apply v_lookup_ok. reflexivity.
Qed.
Lemma v_seq_fits v v' (g : instr -> instr) b : Forall (fun i => forall s s', v i s = VOk s' -> v' (g i) s = VOk s') b ->
  forall s s', v_seq v b s = VOk s' -> v_seq v' (map g b) s = VOk s'.
Proof.
  induction 1 as [|i b E F IH]; intros s s' H; [exact H|]. cbn [map v_seq] in *. apply vbind_ok in H as (s1 & H1 & H).
  rewrite (E _ _ H1). cbn [vbind]. apply IH. exact H.
Qed.
Lemma v_instr_fits r c c' : ctx_fits r c c' -> forall i s s', v_instr c i s = VOk s' -> v_instr c' (renumber r i) s = VOk s'.
Proof.
  intros F. induction i as [i IH] using instr_children_ind. intros s s' H. cbn [children] in IH.
  destruct i; cbn [renumber v_instr] in H |- *; try exact H;
    try (unfold v_load, v_store in H |- *; apply vbind_ok in H as (tm & H1 & H); destruct (memidx_zero _ _ _ F _ H1) as [tm' ->]; exact H).
  - apply vbind_ok in H as (s1 & H1 & H). rewrite (v_seq_fits _ (v_instr c') _ _ (IH _ (or_introl eq_refl)) _ _ H1). exact H.
  - apply vbind_ok in H as (s1 & H1 & H). rewrite (v_seq_fits _ (v_instr c') _ _ (IH _ (or_introl eq_refl)) _ _ H1). exact H.
  - apply vbind_ok in H as (s1 & H1 & H). rewrite H1. cbn [vbind].
    apply vbind_ok in H as (s2 & H2 & H). rewrite (v_seq_fits _ (v_instr c') _ _ (IH _ (or_introl eq_refl)) _ _ H2). cbn [vbind].
    apply vbind_ok in H as (s3 & H3 & H). rewrite H3. cbn [vbind].
    apply vbind_ok in H as (s4 & H4 & H). rewrite (v_seq_fits _ (v_instr c') _ _ (IH _ (or_intror (or_introl eq_refl))) _ _ H4). exact H.
  - rewrite (cf_ret _ _ _ F). exact H.
  - apply vbind_ok in H as (t & H1 & H). unfold v_funcidx. rewrite (lookup_fits _ _ _ _ (cf_funcs _ _ _ F _) _ H1). exact H.
  - apply vbind_ok in H as (t & H1 & H). unfold v_tableidx. rewrite (lookup_fits _ _ _ _ (cf_tables _ _ _ F _) _ H1). cbn [vbind].
    apply vbind_ok in H as (t2 & H2 & H). unfold v_typeidx. rewrite (lookup_fits _ _ _ _ (cf_types _ _ _ F _) _ H2). exact H.
  - unfold v_localidx in *. rewrite (cf_locals _ _ _ F). exact H.
  - unfold v_localidx in *. rewrite (cf_locals _ _ _ F). exact H.
  - unfold v_localidx in *. rewrite (cf_locals _ _ _ F). exact H.
  - apply vbind_ok in H as (t & H1 & H). unfold v_globalidx. rewrite (lookup_fits _ _ _ _ (cf_globals _ _ _ F _) _ H1). exact H.
  - apply vbind_ok in H as (t & H1 & H). unfold v_globalidx. rewrite (lookup_fits _ _ _ _ (cf_globals _ _ _ F _) _ H1). exact H.
  - apply vbind_ok in H as (t & H1 & H). unfold v_memidx. rewrite (lookup_fits _ _ _ _ (cf_mems _ _ _ F _) _ H1). exact H.
  - apply vbind_ok in H as (t & H1 & H). unfold v_memidx. rewrite (lookup_fits _ _ _ _ (cf_mems _ _ _ F _) _ H1). exact H.
Qed.
Lemma v_expr_fits r c c' e s s' : ctx_fits r c c' -> v_expr c e s = VOk s' -> v_expr c' (map (renumber r) e) s = VOk s'.
Proof. intros F. apply v_seq_fits. apply Forall_forall. intros i _ s1 s1'. apply v_instr_fits. exact F. Qed.

Lemma v_func_fits r c c' f t : ctx_fits r c c' -> v_func f (c, empty_stacks) = VOk (t, (c, empty_stacks)) ->
  c_locals c' = [] -> c_ret c' = None ->
  v_func (renumber_func r f) (c', empty_stacks) = VOk (t, (c', empty_stacks)).
Proof.
  intros F H L R. unfold v_func in *. cbn [renumber_func fn_ty fn_locals fn_body] in *.
  apply vbind_ok in H as (t1 & H1 & H). unfold v_typeidx. rewrite (lookup_fits _ _ _ _ (cf_types _ _ _ F _) _ H1). cbn [vbind].
  apply vbind_ok in H as (s1 & H2 & H). erewrite v_expr_fits; [|shelve|exact H2]. cbn [vbind].
  apply vbind_ok in H as ([rs s2] & H3 & H). rewrite H3. cbn [vbind snd] in *.
  destruct (stacks_not_empty s2) eqn:E; [discriminate|]. apply stacks_empty in E. subst s2. injection H as -> _.
  unfold set_locals, set_ret. cbn. destruct c'. cbn in L, R. subst. reflexivity.
  Unshelve. destruct F. constructor; cbn; auto.
Qed.

(** constant expressions *)
Lemma init_ok_fits C C' e t (g : instr -> instr) (rn : N -> N) :
  (forall i, g i = match i with I_GlobalGet x => I_GlobalGet (rn x) | i => g i end) ->
  (forall i, const_instr C i -> (forall x, i <> I_GlobalGet x) -> g i = i) ->
  (forall x t, at_index (te_globals C) x t -> at_index (te_globals C') (rn x) t) ->
  init_ok C e t -> init_ok C' (map g e) t.
Proof.
  intros G1 G2 FG. rewrite !init_one. intros (i & -> & CI & T). exists (g i). split; [reflexivity|].
  destruct i; try contradiction; cbn in CI.
  1: { destruct CI as (gt & A & M). rewrite G1. split; [exists gt; auto|].
       assert (E : gt_val gt = t) by (inversion T; subst; try discriminate; unfold at_index in *; congruence).
       rewrite <- E. apply T_global_get. apply FG. exact A. }
  all: rewrite G2; [|exact I|discriminate]; split; [exact I|]; inversion T; subst; try discriminate; apply T_plain; assumption.
Qed.
Lemma offset_fits r C C' e t : (forall x t, at_index (te_globals C) x t -> at_index (te_globals C') (rn_global r x) t) ->
  init_ok C e t -> init_ok C' (map (renumber r) e) t.
Proof.
  intros FG. apply (init_ok_fits C C' e t (renumber r) (rn_global r)); [|intros i CI N|exact FG].
  - intros i. destruct i; reflexivity.
  - destruct i; try contradiction; try reflexivity. destruct (N _ eq_refl).
Qed.
Lemma global_fits r gs gs' g : (forall x t, at_index gs x t -> at_index gs' (rn_init r x) t) ->
  global_ok (globals_env gs) g -> global_ok (globals_env gs') (renumber_global r g).
Proof.
  intros FG. unfold global_ok. cbn [renumber_global glob_ty glob_init]. apply (init_ok_fits _ _ _ _ (renumber_init r) (rn_init r)); [|intros i CI N|exact FG].
  - intros i. destruct i; reflexivity.
  - destruct i; try contradiction; try reflexivity. destruct (N _ eq_refl).
Qed.

Lemma Forall2_total {A B} (R : A -> B -> Prop) xs : (forall x, In x xs -> exists y, R x y) -> exists ys, Forall2 R xs ys.
Proof.
  induction xs as [|x xs IH]; intros H; [exists []; constructor|]. destruct (H x (or_introl eq_refl)) as [y Y].
  destruct IH as [ys YS]; [intros z Z; apply H; right; exact Z|]. exists (y :: ys). constructor; assumption.
Qed.
Lemma Forall2_at {A B} (R : A -> B -> Prop) xs ys x a : Forall2 R xs ys -> at_index xs x a -> exists b, at_index ys x b /\ R a b.
Proof.
  unfold at_index. intros F. revert x. generalize N.to_nat as tn. intros tn x. generalize (tn x) as n. clear tn x.
  induction F as [|a1 b1 xs ys R1 F IH]; intros [|n] H; try discriminate H; cbn in *.
  - injection H as ->. eauto.
  - apply IH. exact H.
Qed.
Lemma Forall2_at_r {A B} (R : A -> B -> Prop) xs ys x b : Forall2 R xs ys -> at_index ys x b -> exists a, at_index xs x a /\ R a b.
Proof.
  unfold at_index. generalize (N.to_nat x) as n. intros n F. revert n.
  induction F as [|a1 b1 xs ys R1 F IH]; intros [|n] H; try discriminate H; cbn in *.
  - injection H as ->. eauto.
  - apply IH. exact H.
Qed.
Lemma at_index_det {A} (xs : list A) x a b : at_index xs x a -> at_index xs x b -> a = b.
Proof. unfold at_index. congruence. Qed.
Lemma Forall2_In_l {A B} (R : A -> B -> Prop) xs ys x : Forall2 R xs ys -> In x xs -> exists y, In y ys /\ R x y.
Proof. induction 1 as [|a b xs ys H F IH]; intros []; subst; [eauto with datatypes|]. destruct (IH H0) as (y & I & RY). eauto with datatypes. Qed.

Lemma fits_resolves r m m' : fits r m m' -> resolves r m m'.
Proof. intros F. destruct F. constructor; auto. intros x t ft X T. exists (rn_type r t). auto. Qed.
Lemma resolves_ctx r m m' fts fts' : resolves r m m' -> func_space m fts -> func_space m' fts' ->
  ctx_fits r (module_ctx m fts) (module_ctx m' fts').
Proof.
  intros F FS FS'. destruct F. constructor; cbn; auto. intros x t H.
  destruct (Forall2_at_r _ _ _ _ _ FS H) as (y & Y1 & Y2). destruct (rs_funcs _ _ _ Y1 Y2) as (t' & Y3 & Y4).
  destruct (Forall2_at _ _ _ _ _ FS' Y3) as (t0 & T1 & T2).
  rewrite (at_index_det _ _ _ _ Y4 T2). exact T1.
Qed.
Lemma in_imported_funcs ims x : In x (imported_funcs ims) <-> exists i, In i ims /\ im_desc i = ID_Func x.
Proof.
  unfold imported_funcs. rewrite in_flat_map. split; intros (i & I & H); exists i; (split; [exact I|]).
  - destruct (im_desc i); cbn in H; intuition congruence.
  - rewrite H. left; reflexivity.
Qed.

Lemma resolved_assembly parts m' : assembled parts m' ->
  (forall m r, In (m, r) parts -> accepted m /\ resolves r m m') ->
  (length (m_tables m') <= 1)%nat -> (length (m_mems m') <= 1)%nat -> NoDup (map ex_name (m_exports m')) ->
  accepted m'.
Proof.
  intros AS P LT LM ND. destruct AS.
  assert (P' : forall m r, In (m, r) parts -> (exists fts ims exs, module_checked m fts ims exs) /\ resolves r m m').
  { intros m r I. destruct (P m r I) as [A F]. split; [apply accepted_checked; exact A|exact F]. }
  clear P. apply accepted_checked.
  assert (FS : exists fts, func_space m' fts).
  { apply Forall2_total. intros x I. unfold func_index in I. apply in_app_iff in I as [I|I].
    - apply in_imported_funcs in I as (i' & I & E). destruct (asm_imports _ I) as (m & r & i & J & I2 & E2).
      destruct (P' _ _ J) as [(fts & ims & exs & MC) F]. rewrite E in E2. destruct (im_desc i) eqn:D; try discriminate E2. injection E2 as ->.
      destruct (Forall2_In_l _ _ _ _ (mc_imports_ok _ _ _ _ MC) I2) as (ex & _ & T & _). unfold import_type in T. rewrite D in T.
      destruct ex; try contradiction. eexists. apply (rs_types _ _ _ F). exact T.
    - apply in_map_iff in I as (f' & <- & I). destruct (asm_funcs _ I) as (m & r & f & J & I2 & ->).
      destruct (P' _ _ J) as [(fts & ims & exs & MC) F].
      pose proof (proj1 (Forall_forall _ _) (mc_funcs_ok _ _ _ _ MC) f I2) as [t V]. unfold v_func in V. apply vbind_ok in V as (t1 & V1 & _).
      apply v_lookup_ok in V1. exists t1. apply (rs_types _ _ _ F). exact V1. }
  destruct FS as [fts' FS'].
  assert (CF : forall m r fts, In (m, r) parts -> func_space m fts -> ctx_fits r (module_ctx m fts) (module_ctx m' fts')).
  { intros m r fts J FS. apply resolves_ctx; [apply (P' _ _ J)|exact FS|exact FS']. }
  assert (IM : exists ims, Forall2 (fun im x => import_type (module_env m' fts') im x /\ ext_ok whasm_validity x) (m_imports m') ims).
  { apply Forall2_total. intros i' I. destruct (asm_imports _ I) as (m & r & i & J & I2 & E).
    destruct (P' _ _ J) as [(fts & ims & exs & MC) F].
    destruct (Forall2_In_l _ _ _ _ (mc_imports_ok _ _ _ _ MC) I2) as (ex & _ & T & O). exists ex. split; [|exact O].
    unfold import_type in *. rewrite E. destruct (im_desc i), ex; try contradiction; cbn [renumber_importdesc]; try exact T.
    apply (rs_types _ _ _ F). exact T. }
  assert (EX : exists exs, Forall2 (export_type (module_env m' fts')) (m_exports m') exs).
  { apply Forall2_total. intros i' I. destruct (asm_exports _ I) as (m & r & i & J & I2 & E).
    destruct (P' _ _ J) as [(fts & ims & exs & MC) F].
    destruct (Forall2_In_l _ _ _ _ (mc_exports_ok _ _ _ _ MC) I2) as (ex & _ & T). exists ex.
    destruct (CF _ _ _ J (mc_funcs_typed _ _ _ _ MC)).
    unfold export_type in *. rewrite E. destruct (ex_desc i), ex; try contradiction; cbn [renumber_exportdesc]; auto. }
  destruct IM as [ims IM], EX as [exs EX]. exists fts', ims, exs. constructor; try assumption; try (apply Forall_forall).
  - intros t I. destruct (asm_types _ I) as (m & r & J & I2). destruct (P' _ _ J) as [(? & ? & ? & MC) _].
    exact (proj1 (Forall_forall _ _) (mc_types_ok _ _ _ _ MC) _ I2).
  - intros f' I. destruct (asm_funcs _ I) as (m & r & f & J & I2 & ->). destruct (P' _ _ J) as [(fts & ? & ? & MC) _].
    destruct (proj1 (Forall_forall _ _) (mc_funcs_ok _ _ _ _ MC) _ I2) as [t V]. exists t.
    eapply v_func_fits; [apply CF; [exact J|exact (mc_funcs_typed _ _ _ _ MC)]|exact V|reflexivity|reflexivity].
  - intros t I. destruct (asm_tables _ I) as (m & r & J & I2). destruct (P' _ _ J) as [(? & ? & ? & MC) _].
    exact (proj1 (Forall_forall _ _) (mc_tables_ok _ _ _ _ MC) _ I2).
  - intros t I. destruct (asm_mems _ I) as (m & r & J & I2). destruct (P' _ _ J) as [(? & ? & ? & MC) _].
    exact (proj1 (Forall_forall _ _) (mc_mems_ok _ _ _ _ MC) _ I2).
  - intros g' I. destruct (asm_globals _ I) as (m & r & g & J & I2 & ->). destruct (P' _ _ J) as [(fts & ? & ? & MC) F].
    apply (global_fits r (map glob_ty (m_globals m))); [exact (rs_inits _ _ _ F)|].
    exact (proj1 (Forall_forall _ _) (mc_globals_ok _ _ _ _ MC) _ I2).
  - intros e' I. destruct (asm_elem _ I) as (m & r & e & J & I2 & ->). destruct (P' _ _ J) as [(fts & ? & ? & MC) _].
    destruct (CF _ _ _ J (mc_funcs_typed _ _ _ _ MC)).
    destruct (proj1 (Forall_forall _ _) (mc_elem_ok _ _ _ _ MC) _ I2) as ((t & T & TE) & O & FI). repeat split; cbn [renumber_elem el_table el_offset el_init].
    + exists t. split; [apply cf_tables0; exact T|exact TE].
    + refine (proj1 (offset_fits r (module_env m fts) _ _ _ _ O)). exact cf_globals0.
    + refine (proj2 (offset_fits r (module_env m fts) _ _ _ _ O)). exact cf_globals0.
    + apply Forall_map. eapply Forall_impl; [|exact FI]. intros y (ft & A). exists ft. apply cf_funcs0. exact A.
  - intros d' I. destruct (asm_data _ I) as (m & r & d & J & I2 & ->). destruct (P' _ _ J) as [(fts & ? & ? & MC) _].
    destruct (CF _ _ _ J (mc_funcs_typed _ _ _ _ MC)).
    destruct (proj1 (Forall_forall _ _) (mc_data_ok _ _ _ _ MC) _ I2) as ((t & T) & O). split; cbn [renumber_data da_mem da_offset].
    + exists t. apply cf_mems0. exact T.
    + apply (offset_fits r (module_env m fts)); [exact cf_globals0|exact O].
  - intros s' E. destruct (asm_start _ E) as (m & r & s & J & E2 & ->). destruct (P' _ _ J) as [(fts & ? & ? & MC) _].
    destruct (CF _ _ _ J (mc_funcs_typed _ _ _ _ MC)). unfold start_ok. cbn [renumber_start st_func]. apply cf_funcs0.
    exact (mc_start_ok _ _ _ _ MC _ E2).
Qed.

Lemma assembly parts m' : assembled parts m' ->
  (forall m r, In (m, r) parts -> accepted m /\ fits r m m') ->
  (length (m_tables m') <= 1)%nat -> (length (m_mems m') <= 1)%nat -> NoDup (map ex_name (m_exports m')) ->
  accepted m'.
Proof.
  intros AS P. apply (resolved_assembly parts); [exact AS|]. intros m r I. destruct (P m r I) as [A F]. split; [exact A|apply fits_resolves; exact F].
Qed.

(** ** Two modules put together *)
Lemma at_index_left {A} (xs ys : list A) x t : at_index xs x t -> at_index (xs ++ ys) x t.
Proof. unfold at_index. intros H. rewrite nth_error_app1; [exact H|]. apply nth_error_Some. congruence. Qed.
Lemma at_index_right {A} (xs ys : list A) x t : at_index ys x t -> at_index (xs ++ ys) (x + N.of_nat (length xs)) t.
Proof. unfold at_index. intros H. rewrite nth_error_app2 by lia. replace (_ - _)%nat with (N.to_nat x) by lia. exact H. Qed.
Lemma at_index_map {A B} (f : A -> B) xs x t : at_index (map f xs) x t <-> exists a, at_index xs x a /\ t = f a.
Proof.
  unfold at_index. rewrite nth_error_map. destruct (nth_error xs (N.to_nat x)); cbn; split.
  - intros [= <-]. eauto.
  - intros (? & [= ->] & ->). reflexivity.
  - discriminate.
  - intros (? & ? & _). discriminate.
Qed.
Lemma renumber_keep i : renumber keep i = i.
Proof.
  induction i as [i IH] using instr_children_ind. cbn [children] in IH.
  assert (L : forall b, Forall (fun i => renumber keep i = i) b -> map (renumber keep) b = b) by (induction 1; cbn; congruence).
  destruct i; try reflexivity; cbn [renumber]; rewrite !L; try reflexivity; apply IH; cbn; auto.
Qed.
Lemma map_keep e : map (renumber keep) e = e.
Proof. rewrite <- (map_id e) at 2. apply map_ext. apply renumber_keep. Qed.
Lemma map_keep_init e : map (renumber_init keep) e = e.
Proof. rewrite <- (map_id e) at 2. apply map_ext. intros i. destruct i; reflexivity. Qed.
Lemma put_together_ok m1 m2 : accepted m1 -> accepted m2 -> m_imports m1 = [] -> m_imports m2 = [] ->
  (length (m_tables m1) + length (m_tables m2) <= 1)%nat -> (length (m_mems m1) + length (m_mems m2) <= 1)%nat ->
  NoDup (map ex_name (m_exports m1) ++ map ex_name (m_exports m2)) ->
  accepted (put_together m1 m2).
Proof.
  intros A1 A2 N1 N2 LT LM ND. apply (assembly [(m1, keep); (m2, behind m1)]); cbn [put_together m_tables m_mems m_exports].
  - constructor; cbn [put_together m_types m_funcs m_tables m_mems m_globals m_elem m_data m_start m_imports m_exports].
    + intros t I. apply in_app_iff in I as [I|I]; [exists m1, keep|exists m2, (behind m1)]; cbn; auto.
    + intros f I. apply in_app_iff in I as [I|I].
      * exists m1, keep, f. destruct f. unfold renumber_func. cbn. rewrite map_keep. auto.
      * apply in_map_iff in I as (f0 & <- & I). exists m2, (behind m1), f0. cbn; auto.
    + intros t I. apply in_app_iff in I as [I|I]; [exists m1, keep|exists m2, (behind m1)]; cbn; auto.
    + intros t I. apply in_app_iff in I as [I|I]; [exists m1, keep|exists m2, (behind m1)]; cbn; auto.
    + intros g I. apply in_app_iff in I as [I|I].
      * exists m1, keep, g. destruct g as [y1 y2]. unfold renumber_global. cbn [glob_ty glob_init]. rewrite map_keep_init. cbn; auto.
      * apply in_map_iff in I as (f0 & <- & I). exists m2, (behind m1), f0. cbn; auto.
    + intros e I. apply in_app_iff in I as [I|I].
      * exists m1, keep, e. destruct e as [y1 y2 y3]. unfold renumber_elem. cbn [el_table el_offset el_init]. rewrite map_keep. cbn. rewrite map_id. auto.
      * apply in_map_iff in I as (f0 & <- & I). exists m2, (behind m1), f0. cbn; auto.
    + intros e I. apply in_app_iff in I as [I|I].
      * exists m1, keep, e. destruct e as [y1 y2 y3]. unfold renumber_data. cbn [da_mem da_offset da_init]. rewrite map_keep. cbn. auto.
      * apply in_map_iff in I as (f0 & <- & I). exists m2, (behind m1), f0. cbn; auto.
    + intros s E. destruct (m_start m1) as [s1|] eqn:E1.
      * injection E as <-. exists m1, keep, s1. destruct s1. cbn; auto.
      * destruct (m_start m2) as [s2|] eqn:E2; [|discriminate]. injection E as <-. exists m2, (behind m1), s2. cbn; auto.
    + intros i [].
    + intros e I. apply in_app_iff in I as [I|I].
      * exists m1, keep, e. destruct e as [n d]. destruct d; cbn; auto.
      * apply in_map_iff in I as (f0 & <- & I). exists m2, (behind m1), f0. cbn; auto.
  - intros m r [[= <- <-]|[[= <- <-]|[]]]; (split; [assumption|]).
    + constructor; unfold func_index, table_space, mem_space, global_space; cbn [put_together m_types m_funcs m_tables m_mems m_globals m_imports keep rn_type rn_func rn_table rn_mem rn_global rn_init];
        rewrite ?N1; cbn [imported_funcs imported_tables imported_mems imported_globals flat_map app]; intros x t; rewrite ?map_app; apply at_index_left.
    + constructor; unfold func_index, table_space, mem_space, global_space; cbn [put_together m_types m_funcs m_tables m_mems m_globals m_imports behind rn_type rn_func rn_table rn_mem rn_global rn_init];
        rewrite ?N2; cbn [imported_funcs imported_tables imported_mems imported_globals flat_map app]; intros x t; rewrite ?map_app;
        intros H; try (rewrite <- (map_length fn_ty)); try (rewrite <- (map_length tab_ty)); try (rewrite <- (map_length mem_ty)); try (rewrite <- (map_length glob_ty));
        try (apply at_index_right; rewrite ?map_map; exact H).
      apply at_index_right. rewrite map_map. cbn. apply at_index_map in H as (f & H & ->). apply at_index_map. exists f. split; [exact H|reflexivity].
  - rewrite app_length. exact LT.
  - rewrite app_length. exact LM.
  - rewrite map_app, map_map. exact ND.
Qed.
Lemma put_together_iff m1 m2 : accepted m1 -> accepted m2 -> m_imports m1 = [] -> m_imports m2 = [] ->
  (accepted (put_together m1 m2) <->
   (length (m_tables m1) + length (m_tables m2) <= 1)%nat /\ (length (m_mems m1) + length (m_mems m2) <= 1)%nat /\
   NoDup (map ex_name (m_exports m1) ++ map ex_name (m_exports m2))).
Proof.
  intros A1 A2 N1 N2. split; [|intros (T & M & D); apply put_together_ok; assumption]. intros A.
  destruct (one_table_mem _ A) as [T M]. cbn [put_together m_tables m_mems] in T, M. rewrite app_length in T, M.
  pose proof (export_names_unique _ A) as D. cbn [put_together m_exports] in D. rewrite map_app, map_map in D. auto.
Qed.
Lemma at_index_two {A} (a b : A) x t : at_index [a; b] x t -> x = 0 /\ t = a \/ x = 1 /\ t = b.
Proof.
  unfold at_index. destruct (N.to_nat x) as [|[|[|n]]] eqn:E; cbn; intros H; try discriminate H; injection H as <-; [left|right]; (split; [lia|reflexivity]).
Qed.
Lemma at_index_none {A} x (t : A) : ~ at_index [] x t.
Proof. unfold at_index. destruct (N.to_nat x); discriminate. Qed.
