(** Proofs about sessions. *)
From Coq Require Import Lia Sorted.
From Verif Require Import ValidatorState SpecSession SpecVerdict SpecRefs SpecTyping EncodeProof TypingProof ModuleValidProof SafeProof ElseProof StateProof.

Lemma settled_wf s : settled s <-> wf s.
Proof.
  unfold settled, wf. generalize (length (operands s)). generalize (frames s). intros frs. induction frs as [|fr frs IH]; intros n; cbn [map chain].
  - split; [auto|]. intros _. repeat constructor.
  - rewrite <- IH. split.
    + intros H. inversion H as [|x l S R]; subst. inversion R; subst. split; [lia|exact S].
    + intros [L S]. constructor; [exact S|]. constructor. lia.
Qed.

Lemma np_read {A B} (v : vctx -> vres (B * vctx)) (P : vctx -> Prop) (f : B * vctx -> A) :
  (forall cs, v cs <> VPanic) -> forall cs, (r <-- v cs ;; VOk (f r)) <> VPanic.
Proof. intros H cs. specialize (H cs). destruct (v cs); [discriminate|discriminate|congruence]. Qed.
Lemma np_limits l : v_limits l <> VPanic.
Proof. unfold v_limits. destruct (negb _); discriminate. Qed.
Lemma np_tablety t : v_tablety t <> VPanic.
Proof. unfold v_tablety. pose proof (np_limits (tt_lim t)). destruct (v_limits _); cbn [vbind]; [destruct (negb _); discriminate|discriminate|congruence]. Qed.
Lemma np_memty t : v_memty t <> VPanic.
Proof. unfold v_memty. pose proof (np_limits (mt_lim t)). destruct (v_limits _); cbn [vbind]; [destruct (negb _); discriminate|discriminate|congruence]. Qed.
Lemma np_functy t : v_functy t <> VPanic.
Proof. unfold v_functy. destruct (negb _); discriminate. Qed.
Lemma np_table t cs : v_table t cs <> VPanic.
Proof. unfold v_table. pose proof (np_tablety (tab_ty t)). destruct (v_tablety _); [discriminate|discriminate|congruence]. Qed.
Lemma np_mem t cs : v_mem t cs <> VPanic.
Proof. unfold v_mem. pose proof (np_memty (mem_ty t)). destruct (v_memty _); [discriminate|discriminate|congruence]. Qed.
Lemma np_start st cs : v_start st cs <> VPanic.
Proof. unfold v_start. pose proof (v_lookup_np (c_funcs (fst cs)) (st_func st)) as N. unfold v_funcidx. destruct (v_lookup _ _); cbn [vbind]; [destruct (_ || _)%bool; discriminate|discriminate|congruence]. Qed.
Lemma np_import im cs : v_import im cs <> VPanic.
Proof.
  unfold v_import. destruct (im_desc im) as [x|t|t|t].
  - unfold v_typeidx. pose proof (v_lookup_np (c_types (fst cs)) x). destruct (v_lookup _ _); [discriminate|discriminate|congruence].
  - pose proof (np_tablety t). destruct (v_tablety t); [discriminate|discriminate|congruence].
  - pose proof (np_memty t). destruct (v_memty t); [discriminate|discriminate|congruence].
  - discriminate.
Qed.
Lemma np_export ex cs : v_export ex cs <> VPanic.
Proof.
  unfold v_export. destruct (ex_desc ex) as [x|x|x|x]; unfold v_funcidx, v_tableidx, v_memidx, v_globalidx;
    match goal with |- context [v_lookup ?l ?y] => pose proof (v_lookup_np l y); destruct (v_lookup l y); [discriminate|discriminate|congruence] end.
Qed.
Lemma stayc_reading {A} C n (v : vctx -> vres (A * vctx)) : (forall cs, v cs <> VPanic) -> stayc C n (t_reading v).
Proof. intros H. apply stayc_read. apply np_read; [exact (fun _ => True)|exact H]. Qed.
Lemma stayc_use_imported_funcs n l : stayc (fun _ => True) n (t_use_imported_funcs l).
Proof.
  induction l as [|im l IH]; cbn [t_use_imported_funcs]; [apply stayc_ret|]. destruct (im_desc im); try exact IH.
  apply stayc_bind; [apply stayc_read; intros; apply v_lookup_np|]. intros ?. apply stayc_bind; [apply stayc_update; auto|]. intros ?. exact IH.
Qed.
Lemma stayc_use_funcs n l : stayc (fun _ => True) n (t_use_funcs l).
Proof.
  induction l as [|im l IH]; cbn [t_use_funcs]; [apply stayc_ret|].
  apply stayc_bind; [apply stayc_read; intros; apply v_lookup_np|]. intros ?. apply stayc_bind; [apply stayc_update; auto|]. intros ?. exact IH.
Qed.
Lemma loose_true : loose (fun _ => True).
Proof. split; auto. Qed.

Ltac reads := first
  [ apply np_table | apply np_mem | apply np_start | apply np_import | apply np_export | apply validate_no_panic | apply np_functy | apply np_tablety | apply np_memty
  | apply np_limits | apply v_lookup_np | apply v_labelidx_no_panic | discriminate ].
Lemma stayc_perform k : stayc (fun _ => True) 0 (perform k).
Proof.
  destruct k; cbn [perform];
    try solve [apply stayc_void; first [apply stayc_reading|apply stayc_read]; intros; reads | apply stayc_update; auto | apply stayc_ret].
  - apply stayc_stacks. intros c. apply stays_instr. left. reflexivity.
  - apply stayc_stacks. intros c. apply stays_expr. left. reflexivity.
  - apply stayc_stacks. intros c. apply stays_constexpr.
  - apply stayc_void, stayc_func; [apply loose_true|left; reflexivity].
  - apply stayc_void, stayc_global.
  - apply stayc_elem.
  - apply stayc_data.
  - apply stayc_stacks. intros c. apply stays_push.
  - apply stayc_void, stayc_stacks. intros c. apply stays_pop.
  - apply stayc_stacks. intros c. apply stays_pushes.
  - apply stayc_stacks. intros c. apply stays_pops.
  - apply stayc_stacks. intros c. eapply keeps_weak; [apply (keeps_push_frame 0)|auto|intros s; apply (K_less 1 0); lia|auto].
  - apply stayc_void, stayc_stacks. intros c. apply (keeps_pop_frame 0).
  - apply stayc_stacks. intros c. apply stays_unreachable.
  - apply stayc_use_imported_funcs.
  - apply stayc_use_funcs.
Qed.
Theorem session_safe ks : forall cs, settled (snd cs) ->
  Forall (fun r => r <> VPanic) (fst (perform_all ks cs)) /\ settled (snd (after ks cs)).
Proof.
  unfold after. induction ks as [|k ks IH]; intros cs S; [split; [constructor|exact S]|]. cbn [perform_all].
  pose proof (stayc_perform k cs) as H. destruct (perform k cs) as [r cs'] eqn:E. cbn [fst snd].
  assert (S0 : J (fun _ => True) 0 cs) by (split; [exact I|]; split; [apply settled_wf; exact S|lia]). specialize (H S0).
  assert (G : r <> VPanic /\ settled (snd cs')).
  { destruct r as [u| |]; [| |destruct H]; (split; [discriminate|]); apply settled_wf; apply (proj2 H). }
  destruct (IH cs' (proj2 G)) as [F1 F2]. split; [constructor; [apply G|exact F1]|exact F2].
Qed.

(** ** Components *)
Lemma stayc_component C n k : loose C -> component k -> stayc C n (perform k).
Proof.
  intros LC. destruct k; intros CM; try destruct CM; cbn [perform];
    try solve [apply stayc_void; first [apply stayc_reading|apply stayc_read]; intros; reads | apply stayc_ret].
  - apply stayc_void, stayc_func; [exact LC|]. right. assumption.
  - apply stayc_void, stayc_global.
  - apply stayc_elem.
  - apply stayc_data.
Qed.
Lemma stayc_components C n ks : loose C -> Forall component ks -> forall cs, J C n cs -> J C n (after ks cs).
Proof.
  intros LC. unfold after. induction 1 as [|k ks H _ IH]; intros cs S; [exact S|]. cbn [perform_all].
  pose proof (stayc_component C n k LC H cs S) as G. destruct (perform k cs) as [[u| |] cs']; cbn [fst snd]; [apply IH, G|apply IH, G|destruct G].
Qed.

(** ** Acceptance needs clean stacks *)
Definition ok {A B} (r : vres A) (q : vres A * B) : Prop := exists b, q = (r, b).
Lemma agrees3_ok {A} (r : vres (A * vctx)) q a cs : agrees3 r q -> q = (VOk a, cs) -> r = VOk (a, cs).
Proof. destruct r as [[a' cs']| |]; cbn; intros H ->; [congruence|discriminate|discriminate]. Qed.
Lemma not_empty_false s : stacks_not_empty s = false -> s = empty_stacks.
Proof. destruct s as [[|] [|]]; cbn; try discriminate. reflexivity. Qed.
Lemma framed_ok c e r s s1 rs : no_pseudo e -> v_seq (v_instr c) e (push_frame r r s) = VOk s1 -> pop_frame s1 = VOk rs -> rs = (r, s).
Proof.
  intros NP H P. destruct s as [base frs].
  change (push_frame r r (mkStacks base frs)) with (st base (mkFrame r r (length base) false) frs []) in H.
  destruct (seq_shape c e base (mkFrame r r (length base) false) frs [] s1 NP eq_refl H) as (seg' & u' & ->). apply (pop_frame_shape base r r (length base) u' frs seg' rs eq_refl). exact P.
Qed.
Lemma func_ok f c s t cs' : no_pseudo (fn_body f) -> v_func f (c, s) = VOk (t, cs') -> s = empty_stacks /\ cs' = (set_ret (set_locals c []) None, empty_stacks).
Proof.
  intros NP H. unfold v_func in H. apply vbind_ok in H as (t' & H1 & H). cbv zeta in H. apply vbind_ok in H as (s1 & H2 & H).
  apply vbind_ok in H as (rs & H3 & H). pose proof (framed_ok _ _ _ _ _ _ NP H2 H3) as ->. cbn [fst snd] in H.
  destruct (stacks_not_empty s) eqn:N; [discriminate|]. apply not_empty_false in N. subst s. split; [reflexivity|]. injection H as _ <-. reflexivity.
Qed.
Lemma const_ok c e : forall s s', v_constexpr c e s = VOk s' -> v_seq (v_instr c) e s = VOk s' /\ no_pseudo e.
Proof.
  assert (NC : forall i, v_const_check c i = VOk tt -> no_pseudo [i]).
  { intros i H. split; intros O; destruct i; try discriminate H; inversion O as [? X|y sub ? X CH O']; subst; destruct X as [X|[]]; try discriminate X; subst; destruct CH. }
  induction e as [|i e IH]; intros s s'; cbn [v_constexpr v_seq]; [intros [= <-]; split; [reflexivity|apply no_pseudo_nil]|].
  intros H. apply vbind_ok in H as ([] & H1 & H). apply vbind_ok in H as (s1 & H2 & H). rewrite H2. cbn [vbind]. apply IH in H as [H NP]. split; [exact H|].
  apply (no_pseudo_app [i]); [apply NC; exact H1|exact NP].
Qed.
Lemma const_body_ok r e c s cs' : v_const_body r e (c, s) = VOk cs' -> s = empty_stacks /\ cs' = (c, empty_stacks).
Proof.
  intros H. unfold v_const_body in H. apply vbind_ok in H as (s1 & H2 & H). apply const_ok in H2 as [H2 NP].
  apply vbind_ok in H as (rs & H3 & H). pose proof (framed_ok _ _ _ _ _ _ NP H2 H3) as ->. cbn [fst snd] in H.
  destruct (stacks_not_empty s) eqn:N; [discriminate|]. apply not_empty_false in N. subst s. split; [reflexivity|]. injection H as <-. reflexivity.
Qed.
Lemma void_ok {A} (p : cv A) cs : fst (cv_void p cs) = VOk tt -> exists a cs', p cs = (VOk a, cs') /\ cv_void p cs = (VOk tt, cs').
Proof. unfold cv_void, cv_bind, cv_ret. destruct (p cs) as [[a| |] cs']; cbn; [|discriminate|discriminate]. intros _. exists a, cs'. auto. Qed.
Lemma accepted_clean k cs : component k -> with_code k -> accepts k cs ->
  snd cs = empty_stacks /\ exists l r, snd (perform k cs) = (set_ret (set_locals (fst cs) l) r, empty_stacks).
Proof.
  intros CM WC H. destruct cs as [c s]. unfold accepts in H. cbn [fst snd].
  assert (ID : set_ret (set_locals c (c_locals c)) (c_ret c) = c) by (destruct c; reflexivity).
  destruct k as [| | |f| | |g|e|d| | | | | | | | | | | | | | | | | | | | | | | | | | | | | | | | |]; try destruct WC; cbn [perform component] in *.
  - apply void_ok in H as (t & cs' & E & ->). cbn [snd]. apply (agrees3_ok _ _ _ _ (t_func_agrees f (c, s))) in E.
    destruct (func_ok _ _ _ _ _ CM E) as [-> ->]. split; [reflexivity|]. eexists _, _. reflexivity.
  - apply void_ok in H as (t & cs' & E & ->). cbn [snd]. apply (agrees3_ok _ _ _ _ (t_global_agrees g (c, s))) in E.
    unfold v_global in E. cbn [vbind v_globalty] in E. apply vbind_ok in E as (cs1 & E & E'). destruct (const_body_ok _ _ _ _ _ E) as [-> ->].
    injection E' as _ <-. split; [reflexivity|]. eexists _, _. rewrite ID. reflexivity.
  - destruct (t_elem e (c, s)) as [r cs'] eqn:E. cbn in H |- *. subst r. apply (agrees3_ok _ _ _ _ (t_elem_agrees e (c, s))) in E.
    unfold v_elem in E. apply vbind_ok in E as (t & _ & E). destruct (negb _); [discriminate|].
    apply vbind_ok in E as (cs1 & E & E'). destruct (const_body_ok _ _ _ _ _ E) as [-> ->]. apply vbind_ok in E' as (u & _ & E').
    injection E' as <-. split; [reflexivity|]. eexists _, _. rewrite ID. reflexivity.
  - destruct (t_data d (c, s)) as [r cs'] eqn:E. cbn in H |- *. subst r. apply (agrees3_ok _ _ _ _ (t_data_agrees d (c, s))) in E.
    unfold v_data in E. apply vbind_ok in E as (t & _ & E).
    apply vbind_ok in E as (cs1 & E & E'). destruct (const_body_ok _ _ _ _ _ E) as [-> ->].
    injection E' as <-. split; [reflexivity|]. eexists _, _. rewrite ID. reflexivity.
Qed.

(** ** What components read *)
Definition like (c c' : context) : Prop := exists l r, c' = set_ret (set_locals c l) r.
Lemma like_refl c : like c c.
Proof. exists (c_locals c), (c_ret c). destruct c; reflexivity. Qed.
Lemma loose_like c : loose (like c).
Proof. intros c' l r (l0 & r0 & ->). split; [exists l, r0|exists l0, r]; reflexivity. Qed.
Lemma const_like c c' e : like c c' -> t_constexpr c' e = t_constexpr c e.
Proof.
  intros (l & r & ->). induction e as [|i e IH]; [reflexivity|]. cbn [t_constexpr].
  assert (E : v_const_check (set_ret (set_locals c l) r) i = v_const_check c i) by (destruct i; reflexivity). rewrite E, IH.
  destruct (v_const_check c i) eqn:V; try reflexivity. destruct i; try discriminate V; reflexivity.
Qed.
Lemma bind_read {A B} (f : vctx -> vres A) (g : A -> cv B) cs : cv_bind (cv_read f) g cs = match f cs with VOk a => g a cs | VErr => (VErr, cs) | VPanic => (VPanic, cs) end.
Proof. reflexivity. Qed.
Lemma func_like c c' f s : like c c' -> fst (t_func f (c', s)) = fst (t_func f (c, s)).
Proof.
  intros (l & r & ->). unfold t_func. rewrite !bind_read. cbn [fst snd]. change (v_typeidx (set_ret (set_locals c l) r) (fn_ty f)) with (v_typeidx c (fn_ty f)).
  destruct (v_typeidx c (fn_ty f)) as [t| |]; [|reflexivity|reflexivity]. reflexivity.
Qed.
Lemma const_body_like c c' rt e s : like c c' -> fst (t_const_body rt e (c', s)) = fst (t_const_body rt e (c, s)).
Proof.
  intros L. unfold t_const_body, cv_bind, cv_stacks. cbn [fst snd t_push_frame]. rewrite (const_like c c' e L).
  destruct (t_constexpr c e (push_frame rt rt s)) as [[[]| |] s1]; cbn [fst snd]; try reflexivity.
  destruct (t_pop_frame s1) as [[x| |] s2]; cbn [fst snd]; try reflexivity.
Qed.
Lemma const_body_context rt e c s r cs' : t_const_body rt e (c, s) = (r, cs') -> fst cs' = c.
Proof.
  unfold t_const_body, cv_bind, cv_stacks. cbn [fst snd t_push_frame].
  destruct (t_constexpr c e (push_frame rt rt s)) as [[[]| |] s1]; cbn [fst snd]; try (intros [= _ <-]; reflexivity).
  destruct (t_pop_frame s1) as [[x| |] s2]; cbn [fst snd]; intros [= _ <-]; reflexivity.
Qed.
Lemma void_read {A} (f : vctx -> vres A) cs : fst (cv_void (cv_read f) cs) = match f cs with VOk _ => VOk tt | VErr => VErr | VPanic => VPanic end.
Proof. unfold cv_void. rewrite bind_read. destruct (f cs); reflexivity. Qed.
Lemma perform_codeless c c' s s' k : component k -> ~ with_code k -> like c c' -> fst (perform k (c', s')) = fst (perform k (c, s)).
Proof.
  intros CM NC (l & r & ->). destruct k; cbn [component] in CM; try contradiction; try (exfalso; apply NC; exact I); cbn [perform]; unfold t_reading; try rewrite !void_read; try reflexivity.
  - unfold v_table. destruct (v_tablety _); reflexivity.
  - unfold v_mem. destruct (v_memty _); reflexivity.
  - unfold v_start. cbn [fst]. destruct (v_funcidx _ _) as [t| |]; cbn [vbind]; try reflexivity. destruct (_ || _)%bool; reflexivity.
  - unfold v_import. cbn [fst]. destruct (im_desc im) as [x|t|t|t]; [destruct (v_typeidx _ x)|destruct (v_tablety t)|destruct (v_memty t)|]; reflexivity.
  - unfold v_export. cbn [fst]. destruct (ex_desc ex) as [x|x|x|x]; [destruct (v_funcidx _ x)|destruct (v_tableidx _ x)|destruct (v_memidx _ x)|destruct (v_globalidx _ x)]; reflexivity.
Qed.
Lemma perform_like c c' s k : component k -> like c c' -> fst (perform k (c', s)) = fst (perform k (c, s)).
Proof.
  intros CM L. pose proof L as (l & r & E).
  destruct k; cbn [component] in CM; try contradiction; try (apply (perform_codeless c c' s s); [exact I|exact (fun Z => Z)|exact L]).
  - cbn [perform]. unfold cv_void, cv_bind. pose proof (func_like c c' f s L) as H. destruct (t_func f (c', s)) as [r1 cs1], (t_func f (c, s)) as [r2 cs2]. cbn in H. subst r1. destruct r2; reflexivity.
  - cbn [perform]. unfold cv_void, t_global, cv_bind, cv_read. cbn [v_globalty]. pose proof (const_body_like c c' [gt_val (glob_ty g)] (glob_init g) s L) as H.
    destruct (t_const_body _ _ (c', s)) as [r1 cs1], (t_const_body _ _ (c, s)) as [r2 cs2]. cbn in H. subst r1. destruct r2; reflexivity.
  - cbn [perform]. unfold t_elem. rewrite !bind_read. assert (T : v_tableidx c' (el_table e) = v_tableidx c (el_table e)) by (subst c'; reflexivity).
    cbn [fst]. rewrite T. destruct (v_tableidx c (el_table e)) as [t| |]; try reflexivity. unfold cv_bind, cv_read. destruct (negb _); [reflexivity|].
    pose proof (const_body_like c c' [T_I32] (el_offset e) s L) as H.
    destruct (t_const_body _ _ (c', s)) as [r1 cs1] eqn:E1, (t_const_body _ _ (c, s)) as [r2 cs2] eqn:E2. cbn in H. subst r1. destruct r2; try reflexivity. cbn [fst].
    apply const_body_context in E1, E2. rewrite E1, E2. subst c'. clear. induction (el_init e) as [|x xs IH]; [reflexivity|]. cbn [v_elem_init].
    change (v_funcidx (set_ret (set_locals c l) r) x) with (v_funcidx c x). rewrite IH. reflexivity.
  - cbn [perform]. unfold t_data, cv_bind, cv_read. assert (T : v_memidx c' (da_mem d) = v_memidx c (da_mem d)) by (subst c'; reflexivity).
    cbn [fst]. rewrite T. destruct (v_memidx c (da_mem d)) as [t| |]; try reflexivity. apply const_body_like. exact L.
Qed.
Lemma code_dec k : with_code k \/ ~ with_code k.
Proof. destruct k; cbn; auto. Qed.
Lemma wf_empty : wf empty_stacks.
Proof. exact I. Qed.
Lemma start_J c : J (like c) 0 (c, empty_stacks).
Proof. split; [apply like_refl|]. split; [apply wf_empty|cbn; lia]. Qed.

(** What is accepted after other components is accepted by itself *)
Theorem session_sound c ks k : Forall component ks -> component k -> accepts k (after ks (c, empty_stacks)) -> accepts k (c, empty_stacks).
Proof.
  intros F CM H. destruct (stayc_components (like c) 0 ks (loose_like c) F _ (start_J c)) as [L _].
  destruct (after ks (c, empty_stacks)) as [c' s']. cbn [fst] in L. unfold accepts in *. rewrite <- (perform_like c c' empty_stacks k CM L).
  destruct (code_dec k) as [W|W].
  - destruct (accepted_clean k (c', s') CM W H) as [E _]. cbn in E. subst s'. exact H.
  - rewrite (perform_codeless c' c' s' empty_stacks k CM W (like_refl c')). exact H.
Qed.
(** If nothing failed, nothing is lost *)
Lemma ok_state k c' : component k -> accepts k (c', empty_stacks) -> exists c'', snd (perform k (c', empty_stacks)) = (c'', empty_stacks) /\ like c' c''.
Proof.
  intros CM H. destruct (code_dec k) as [W|W].
  - destruct (accepted_clean k _ CM W H) as (_ & l & r & ->). eexists. split; [reflexivity|]. exists l, r. reflexivity.
  - exists c'. split; [|apply like_refl]. destruct k; cbn [component] in CM; try contradiction; try (exfalso; apply W; exact I); cbn [perform]; unfold cv_void, t_reading, cv_bind, cv_read;
      match goal with |- context [match match ?r with _ => _ end with _ => _ end] => destruct r | |- context [match ?r with _ => _ end] => destruct r | _ => idtac end; reflexivity.
Qed.
Lemma session_state c ks : Forall component ks -> all_ok ks (c, empty_stacks) -> exists c', after ks (c, empty_stacks) = (c', empty_stacks) /\ like c c'.
Proof.
  unfold all_ok, after. intros F. revert c. induction F as [|k ks CM F IH]; intros c H; [exists c; split; [reflexivity|apply like_refl]|].
  cbn [perform_all] in H |- *. inversion H as [|x l H1 H2]; subst. symmetry in H1. destruct (ok_state k c CM H1) as (c1 & E & L). rewrite E in *. cbn [fst snd] in *.
  destruct (IH c1 H2) as (c2 & E2 & L2). exists c2. split; [exact E2|]. destruct L as (l0 & r0 & ->), L2 as (l2 & r2 & ->). exists l2, r2. reflexivity.
Qed.
Theorem session_complete c ks k : Forall component ks -> component k -> all_ok ks (c, empty_stacks) ->
  (accepts k (after ks (c, empty_stacks)) <-> accepts k (c, empty_stacks)).
Proof.
  intros F CM H. destruct (session_state c ks F H) as (c' & -> & L). unfold accepts. rewrite (perform_like c c' empty_stacks k CM L). reflexivity.
Qed.
(** After a failure nothing with code is accepted *)
Theorem session_stuck cs ks k : settled (snd cs) -> frames (snd cs) <> [] -> Forall component ks -> component k -> with_code k -> ~ accepts k (after ks cs).
Proof.
  intros S NE F CM W H.
  assert (J1 : J (fun _ => True) 1 cs).
  { split; [exact I|]. split; [apply settled_wf; exact S|]. destruct (frames (snd cs)); [congruence|cbn; lia]. }
  pose proof (stayc_components (fun _ => True) 1 ks loose_true F cs J1) as [_ [_ L]].
  destruct (accepted_clean k _ CM W H) as [E _]. rewrite E in L. cbn in L. lia.
Qed.
Lemma func_leaves f c : no_pseudo (fn_body f) -> v_typeidx c (fn_ty f) <> VErr -> ~ accepts (On_Func f) (c, empty_stacks) ->
  frames (snd (snd (perform (On_Func f) (c, empty_stacks)))) <> [].
Proof.
  intros NP T H. unfold accepts in H. cbn [perform] in *. unfold cv_void, t_func in *. unfold cv_bind at 1 in H. unfold cv_bind at 1.
  rewrite bind_read in *. cbn [fst] in *. pose proof (v_lookup_np (c_types c) (fn_ty f)) as NPN. unfold v_typeidx in *.
  destruct (v_lookup (c_types c) (fn_ty f)) as [t| |]; [|congruence|congruence]. cbv zeta in *.
  set (c' := set_locals (set_ret c (Some (ft_results t))) (ft_params t ++ fn_locals f)).
  set (rest := (_ <=| cv_stacks (fun c => t_expr c (fn_body f)) ;; _ <=| cv_stacks (fun _ => t_pop_frame) ;; _ <=| t_check_empty ;;
      _ <=| cv_update (fun c => set_locals c []) ;; _ <=| cv_update (fun c => set_ret c None) ;; cv_ret t)) in *.
  change ((_ <=| cv_update (fun y => set_ret y (Some (ft_results t))) ;; _ <=| cv_update (fun x => set_locals x (ft_params t ++ fn_locals f)) ;;
    _ <=| cv_stacks (fun _ => t_push_frame (ft_results t) (ft_results t)) ;; rest) (c, empty_stacks))
    with (rest (c', push_frame (ft_results t) (ft_results t) empty_stacks)) in *.
  assert (K1 : K 1 (push_frame (ft_results t) (ft_results t) empty_stacks)) by (split; [apply wf_push_frame, wf_empty|cbn; lia]).
  assert (G : match rest (c', push_frame (ft_results t) (ft_results t) empty_stacks) with (VOk _, _) => True | (VErr, cs) => K 1 (snd cs) | (VPanic, _) => False end).
  { unfold rest, cv_bind, cv_stacks. cbn [fst snd].
    pose proof (stays_expr c' (fn_body f) 1 (or_intror (proj1 NP)) _ K1) as S1. pose proof (t_expr_agrees c' (fn_body f) (push_frame (ft_results t) (ft_results t) empty_stacks)) as A1.
    destruct (t_expr c' (fn_body f) (push_frame (ft_results t) (ft_results t) empty_stacks)) as [[u| |] s1]; cbn [fst snd]; [|exact S1|exact S1].
    destruct (v_expr c' (fn_body f) (push_frame (ft_results t) (ft_results t) empty_stacks)) as [s1'| |] eqn:V1; cbn in A1; try discriminate A1. injection A1 as _ ->.
    pose proof (keeps_pop_frame 1 _ S1) as S2. pose proof (t_pop_frame_agrees s1') as A2. destruct (t_pop_frame s1') as [[u2| |] s2]; cbn [fst snd]; [|exact S2|exact S2].
    destruct (pop_frame s1') as [[r2 s2']| |] eqn:V2; cbn in A2; try discriminate A2. injection A2 as _ ->.
    pose proof (framed_ok _ _ _ _ _ _ NP V1 V2) as E. injection E as _ ->. exact I. }
  destruct (rest (c', push_frame (ft_results t) (ft_results t) empty_stacks)) as [[u| |] cs]; cbn [fst snd] in *.
  - exfalso. apply H. reflexivity.
  - destruct G as [_ G]. destruct (frames (snd cs)); [cbn in G; lia|discriminate].
  - destruct G.
Qed.
Theorem func_stuck c f ks k : no_pseudo (fn_body f) -> (N.to_nat (fn_ty f) < length (c_types c))%nat -> ~ accepts (On_Func f) (c, empty_stacks) ->
  Forall component ks -> component k -> with_code k -> ~ accepts k (after (On_Func f :: ks) (c, empty_stacks)).
Proof.
  intros NP T H F CM W.
  assert (TI : v_typeidx c (fn_ty f) <> VErr).
  { unfold v_typeidx, v_lookup. destruct (N.leb_spec (N.of_nat (length (c_types c))) (fn_ty f)) as [E|E]; [exfalso; unfold typeidx, u32 in *; lia|].
    destruct (nth_error _ _); discriminate. }
  pose proof (func_leaves f c NP TI H) as L. change (after (On_Func f :: ks) (c, empty_stacks)) with (after ks (snd (perform (On_Func f) (c, empty_stacks)))).
  apply session_stuck; try assumption. apply (session_safe [On_Func f] (c, empty_stacks)). apply settled_wf, wf_empty.
Qed.

(** ** A module as calls *)
Definition one {A} (On : A -> call) {B} (v : A -> vctx -> vres (B * vctx)) : Prop :=
  forall x cs cs', (exists r, v x cs = VOk (r, cs')) <-> perform (On x) cs = (VOk tt, cs').
Lemma one_void {A B} (On : A -> call) (v : A -> vctx -> vres (B * vctx)) (q : A -> cv B) : (forall x cs, perform (On x) cs = cv_void (q x) cs) ->
  (forall x cs, agrees3 (v x cs) (q x cs)) -> one On v.
Proof.
  intros P H x cs cs'. rewrite P. specialize (H x cs). unfold cv_void, cv_bind, cv_ret. destruct (v x cs) as [[b cs1]| |]; cbn in H.
  - rewrite H. split; [intros [r [= <- <-]]; reflexivity|intros [= <-]; exists b; reflexivity].
  - destruct (q x cs) as [[]]; cbn in H; try discriminate. split; [intros [r E]; discriminate|discriminate].
  - destruct (q x cs) as [[]]; cbn in H; try discriminate. split; [intros [r E]; discriminate|discriminate].
Qed.
Lemma void_unit (p : cv unit) cs : cv_void p cs = p cs.
Proof. unfold cv_void, cv_bind, cv_ret. destruct (p cs) as [[[]| |] cs']; reflexivity. Qed.
Lemma reading_agrees {B} (v : vctx -> vres (B * vctx)) cs : (forall b cs', v cs = VOk (b, cs') -> cs' = cs) -> agrees3 (v cs) (t_reading v cs).
Proof.
  intros H. unfold t_reading, cv_read. destruct (v cs) as [[b cs']| |]; cbn; [|reflexivity|reflexivity]. rewrite (H b cs' eq_refl). reflexivity.
Qed.
Ltac unchanged := intros ? ?; repeat match goal with
  | |- vbind ?r _ = _ -> _ => destruct r; cbn [vbind]; try discriminate
  | |- (if ?b then _ else _) = _ -> _ => destruct b; try discriminate
  | |- match ?r with _ => _ end = _ -> _ => destruct r; try discriminate end; congruence.
Lemma one_func : one On_Func v_func.
Proof. apply (one_void _ _ t_func); [reflexivity|intros; apply t_func_agrees]. Qed.
Lemma one_global : one On_Global v_global.
Proof. apply (one_void _ _ t_global); [reflexivity|intros; apply t_global_agrees]. Qed.
Lemma one_elem : one On_Elem v_elem.
Proof. apply (one_void _ _ t_elem); [intros; rewrite void_unit; reflexivity|intros; apply t_elem_agrees]. Qed.
Lemma one_data : one On_Data v_data.
Proof. apply (one_void _ _ t_data); [intros; rewrite void_unit; reflexivity|intros; apply t_data_agrees]. Qed.
Lemma one_type : one On_FuncTy v_type_item.
Proof.
  apply (one_void _ _ (fun t => t_reading (v_type_item t))).
  - intros t cs. cbn [perform]. unfold t_reading, cv_void. rewrite !bind_read. unfold v_type_item. destruct (v_functy t); reflexivity.
  - intros t cs. apply reading_agrees. unfold v_type_item. unchanged.
Qed.
Lemma one_table : one On_Table v_table.
Proof. apply (one_void _ _ (fun t => t_reading (v_table t))); [reflexivity|]. intros t cs. apply reading_agrees. unfold v_table. unchanged. Qed.
Lemma one_mem : one On_Mem v_mem.
Proof. apply (one_void _ _ (fun t => t_reading (v_mem t))); [reflexivity|]. intros t cs. apply reading_agrees. unfold v_mem. unchanged. Qed.
Lemma one_start : one On_Start v_start.
Proof. apply (one_void _ _ (fun t => t_reading (v_start t))); [reflexivity|]. intros t cs. apply reading_agrees. unfold v_start. unchanged. Qed.
Lemma one_import : one On_Import v_import.
Proof. apply (one_void _ _ (fun t => t_reading (v_import t))); [reflexivity|]. intros t cs. apply reading_agrees. unfold v_import. unchanged. Qed.
Lemma one_export : one On_Export v_export.
Proof. apply (one_void _ _ (fun t => t_reading (v_export t))); [reflexivity|]. intros t cs. apply reading_agrees. unfold v_export. unchanged. Qed.

Lemma perform_all_app a b cs : fst (perform_all (a ++ b) cs) = fst (perform_all a cs) ++ fst (perform_all b (after a cs)) /\ after (a ++ b) cs = after b (after a cs).
Proof.
  unfold after. revert cs. induction a as [|k a IH]; intros cs; [split; reflexivity|]. cbn [app perform_all fst snd]. destruct (IH (snd (perform k cs))) as [-> ->]. split; reflexivity.
Qed.
Lemma all_ok_app a b cs : all_ok (a ++ b) cs <-> all_ok a cs /\ all_ok b (after a cs).
Proof. unfold all_ok. rewrite (proj1 (perform_all_app a b cs)). apply Forall_app. Qed.
Lemma after_app a b cs : after (a ++ b) cs = after b (after a cs).
Proof. apply perform_all_app. Qed.
Lemma each_calls {A B} (On : A -> call) (v : A -> vctx -> vres (B * vctx)) : one On v -> forall xs cs cs',
  (exists rs, v_each v xs cs = VOk (rs, cs')) <-> all_ok (map On xs) cs /\ after (map On xs) cs = cs'.
Proof.
  intros O xs. unfold all_ok, after. induction xs as [|x xs IH]; intros cs cs'; cbn [v_each map perform_all fst snd].
  - split; [intros [rs [= _ <-]]; split; [constructor|reflexivity]|intros [_ <-]; eexists; reflexivity].
  - split.
    + intros [rs H]. apply vbind_ok in H as ([r cs1] & H1 & H). apply vbind_ok in H as ([rs2 cs2] & H2 & H). cbn [fst snd] in *. injection H as _ <-.
      assert (P : perform (On x) cs = (VOk tt, cs1)) by (apply O; exists r; exact H1). rewrite P. cbn [fst snd].
      destruct (proj1 (IH cs1 cs2) (ex_intro _ rs2 H2)) as [F E]. split; [constructor; [reflexivity|exact F]|exact E].
    + intros [F E]. inversion F as [|y l F1 F2]; subst. destruct (perform (On x) cs) as [r cs1] eqn:P. cbn [fst snd] in *. subst r. apply O in P as [r P].
      rewrite P. cbn [vbind fst snd]. destruct (proj2 (IH cs1 _) (conj F2 eq_refl)) as [rs H]. rewrite H. cbn [vbind fst snd]. eexists. reflexivity.
Qed.
Lemma building_calls m : match context_from m with
  | VOk c => all_ok (building m) default_vctx /\ after (building m) default_vctx = (c, empty_stacks)
  | _ => ~ all_ok (building m) default_vctx end.
Proof.
  unfold context_from, building, all_ok, after, default_vctx. cbn [perform_all fst snd perform cv_update]. cbv zeta.
  set (c0 := use_types (m_types m) default_context).
  pose proof (t_use_imported_funcs_agrees (m_imports m) c0 empty_stacks) as H1. destruct (use_imported_funcs (m_imports m) c0) as [c1| |]; cbn [vbind].
  2,3: intros F; inversion F as [|? ? _ F1]; inversion F1 as [|? ? X _]; subst; rewrite H1 in X; discriminate.
  rewrite H1. cbn [fst snd].
  pose proof (t_use_funcs_agrees (m_funcs m) (use_imported_globals (m_imports m) (use_imported_mems (m_imports m) (use_imported_tables (m_imports m) c1))) empty_stacks) as H2.
  destruct (use_funcs (m_funcs m) (use_imported_globals (m_imports m) (use_imported_mems (m_imports m) (use_imported_tables (m_imports m) c1)))) as [c2| |]; cbn [vbind].
  2,3: intros F; repeat match goal with F : Forall _ (_ :: _) |- _ => inversion F; clear F; subst end; congruence.
  rewrite H2. cbn [fst snd]. split; [repeat constructor|reflexivity].
Qed.
Lemma start_calls o cs cs' : (match o with Some st => r <-- v_start st cs ;; VOk (snd r) | None => VOk cs end) = VOk cs' <->
  all_ok (match o with Some st => [On_Start st] | None => [] end) cs /\ after (match o with Some st => [On_Start st] | None => [] end) cs = cs'.
Proof.
  unfold all_ok, after. destruct o as [st0|]; cbn [perform_all fst snd].
  - split.
    + intros H. apply vbind_ok in H as ([u cs8'] & H8 & E). injection E as <-.
      assert (P : perform (On_Start st0) cs = (VOk tt, cs8')) by (apply one_start; exists u; exact H8). rewrite P. split; [repeat constructor|reflexivity].
    + intros [F E]. destruct (perform (On_Start st0) cs) as [r cs1] eqn:P. cbn [fst snd] in *. inversion F as [|y l F1 F2]; subst.
      apply one_start in P as [u P]. rewrite P. reflexivity.
  - split; [intros [= <-]; split; [constructor|reflexivity]|intros [_ <-]; reflexivity].
Qed.
Theorem module_calls m : accepted m <->
  all_ok (building m) default_vctx /\ all_ok (parts m) (after (building m) default_vctx) /\
  all_ok (map On_Global (m_globals m)) (after [Use_Globals (m_globals m)] default_vctx) /\
  (length (m_tables m) <= 1)%nat /\ (length (m_mems m) <= 1)%nat /\ NoDup (map ex_name (m_exports m)).
Proof.
  unfold accepted, validate, v_module, parts. rewrite !all_ok_app. cbv zeta. pose proof (building_calls m) as B.
  change (after [Use_Globals (m_globals m)] default_vctx) with (use_globals (m_globals m) default_context, empty_stacks). split.
  - intros [mt H]. apply vbind_ok in H as (c & HC & H). rewrite HC in B. destruct B as [B1 B2]. rewrite B2.
    apply vbind_ok in H as ([r1 cs1] & H1 & H). cbn [snd] in H. apply vbind_ok in H as ([r2 cs2] & H2 & H). cbn [snd] in H.
    apply vbind_ok in H as ([r3 cs3] & H3 & H). cbn [snd] in H. apply vbind_ok in H as ([r4 cs4] & H4 & H). cbn [snd] in H.
    apply vbind_ok in H as ([r5 cs5] & H5 & H). apply vbind_ok in H as ([r6 cs6] & H6 & H). cbn [snd] in H.
    apply vbind_ok in H as ([r7 cs7] & H7 & H). cbn [snd] in H. apply vbind_ok in H as (cs8 & H8 & H).
    apply vbind_ok in H as ([r9 cs9] & H9 & H). cbn [snd] in H. apply vbind_ok in H as ([r0 cs0] & H0 & H).
    destruct (proj1 (each_calls _ _ one_type _ _ _) (ex_intro _ _ H1)) as [O1 A1]. destruct (proj1 (each_calls _ _ one_func _ _ _) (ex_intro _ _ H2)) as [O2 A2].
    destruct (proj1 (each_calls _ _ one_table _ _ _) (ex_intro _ _ H3)) as [O3 A3]. destruct (proj1 (each_calls _ _ one_mem _ _ _) (ex_intro _ _ H4)) as [O4 A4].
    destruct (proj1 (each_calls _ _ one_global _ _ _) (ex_intro _ _ H5)) as [O5 A5]. destruct (proj1 (each_calls _ _ one_elem _ _ _) (ex_intro _ _ H6)) as [O6 A6].
    destruct (proj1 (each_calls _ _ one_data _ _ _) (ex_intro _ _ H7)) as [O7 A7]. apply start_calls in H8 as [S1 S2].
    destruct (proj1 (each_calls _ _ one_import _ _ _) (ex_intro _ _ H9)) as [O9 A9].
    destruct (proj1 (each_calls _ _ one_export _ _ _) (ex_intro _ _ H0)) as [O0 A0].
    destruct (Nat.leb_spec (length (m_tables m)) 1) as [LT|LT]; cbn [negb] in H; [|discriminate].
    destruct (Nat.leb_spec (length (m_mems m)) 1) as [LM|LM]; cbn [negb] in H; [|discriminate].
    destruct (export_names_distinct (m_exports m)) eqn:ND; cbn [negb] in H; [|discriminate].
    rewrite A1, A2, A3, A4, A6, A7, S2, A9. apply export_names_iff in ND. tauto.
  - intros (B0 & (O1 & O2 & O3 & O4 & O6 & O7 & S1 & O9 & O0) & O5 & LT & LM & ND).
    destruct (context_from m) as [c| |]; [|exfalso; apply B; exact B0|exfalso; apply B; exact B0]. cbn [vbind]. destruct B as [_ B2]. rewrite B2 in *.
    destruct (proj2 (each_calls _ _ one_type _ _ _) (conj O1 eq_refl)) as [r1 ->]. cbn [vbind snd].
    destruct (proj2 (each_calls _ _ one_func _ _ _) (conj O2 eq_refl)) as [r2 ->]. cbn [vbind snd].
    destruct (proj2 (each_calls _ _ one_table _ _ _) (conj O3 eq_refl)) as [r3 ->]. cbn [vbind snd].
    destruct (proj2 (each_calls _ _ one_mem _ _ _) (conj O4 eq_refl)) as [r4 ->]. cbn [vbind snd].
    destruct (proj2 (each_calls _ _ one_global _ _ _) (conj O5 eq_refl)) as [r5 ->]. cbn [vbind snd].
    destruct (proj2 (each_calls _ _ one_elem _ _ _) (conj O6 eq_refl)) as [r6 ->]. cbn [vbind snd].
    destruct (proj2 (each_calls _ _ one_data _ _ _) (conj O7 eq_refl)) as [r7 ->]. cbn [vbind snd].
    rewrite (proj2 (start_calls _ _ _) (conj S1 eq_refl)). cbn [vbind snd].
    destruct (proj2 (each_calls _ _ one_import _ _ _) (conj O9 eq_refl)) as [r9 ->]. cbn [vbind snd].
    destruct (proj2 (each_calls _ _ one_export _ _ _) (conj O0 eq_refl)) as [r0 ->]. cbn [vbind fst].
    destruct (Nat.leb_spec (length (m_tables m)) 1) as [_|X]; [|lia]. destruct (Nat.leb_spec (length (m_mems m)) 1) as [_|X]; [|lia].
    apply export_names_iff in ND. rewrite ND. cbn [negb]. eexists. reflexivity.
Qed.

(** ** Witnesses *)
Theorem instr_same c i s : (forall s', v_instr c i s = VOk s' <-> t_instr c i s = (VOk tt, s')) /\ (v_instr c i s = VPanic <-> fst (t_instr c i s) = VPanic).
Proof.
  pose proof (t_instr_agrees c i s) as H. destruct (v_instr c i s) as [s1| |]; cbn in H.
  - rewrite H. split; [intros s'; split; congruence|split; discriminate].
  - destruct (t_instr c i s) as [[]]; cbn in H; try discriminate. split; [intros s'; split; discriminate|split; discriminate].
  - destruct (t_instr c i s) as [[]]; cbn in H; try discriminate. split; [intros s'; split; discriminate|split; auto].
Qed.
(** stacks that cannot come about *)
Definition unsettled : stacks := mkStacks [] [mkFrame [] [] 1 false].
Lemma unsettled_panics c : fst (perform (Pop_Operand Unknown) (c, unsettled)) = VPanic.
Proof. reflexivity. Qed.
(** [[] -> []]; a function that drops what is not there; an empty one; one that ends more than it began *)
Definition one_type_context : context := mkContext [mkFuncTy [] []] [] [] [] [] [] None.
Definition dropping : func := mkFunc 0 [T_I32] [I_Drop].
Definition empty_func : func := mkFunc 0 [] [].
Definition ending : func := mkFunc 0 [] [I_End].
Lemma no_pseudo_drop : no_pseudo [I_Drop].
Proof. apply no_pseudo_one; [discriminate|discriminate|intros sub []]. Qed.
Theorem reuse_refuted : exists c f g, component (On_Func f) /\ component (On_Func g) /\ ~ accepts (On_Func f) (c, empty_stacks) /\
  accepts (On_Func g) (c, empty_stacks) /\ ~ accepts (On_Func g) (after [On_Func f] (c, empty_stacks)).
Proof.
  exists one_type_context, dropping, empty_func. split; [apply no_pseudo_drop|]. split; [apply no_pseudo_nil|].
  split; [vm_compute; discriminate|]. split; [reflexivity|vm_compute; discriminate].
Qed.
Theorem ending_refutes : exists c f g, component (On_Func f) /\ ~ accepts (On_Func f) (c, empty_stacks) /\
  ~ accepts (On_Func g) (c, empty_stacks) /\ accepts (On_Func g) (after [On_Func f] (c, empty_stacks)).
Proof.
  exists one_type_context, dropping, ending. split; [apply no_pseudo_drop|].
  split; [vm_compute; discriminate|]. split; [vm_compute; discriminate|reflexivity].
Qed.
Theorem locals_refute : exists c f x, component (On_Func f) /\ ~ accepts (On_LocalIdx x) (c, empty_stacks) /\ accepts (On_LocalIdx x) (after [On_Func f] (c, empty_stacks)).
Proof.
  exists one_type_context, dropping, 0%N. split; [apply no_pseudo_drop|]. split; [vm_compute; discriminate|reflexivity].
Qed.

(** ** Calls that only look *)
Lemma lookup_below {A} (xs : list A) x : (exists a, v_lookup xs x = VOk a) <-> below x xs.
Proof.
  unfold below, v_lookup. destruct (N.leb_spec (N.of_nat (length xs)) x) as [L|L].
  - split; [intros [a H]; discriminate|lia].
  - destruct (nth_error xs (N.to_nat x)) eqn:E; [split; eauto|]. apply nth_error_None in E. lia.
Qed.
Lemma void_iff {A} (f : vctx -> vres A) P (cs : vctx) : ((exists a, f cs = VOk a) <-> P) -> (fst (cv_void (cv_read f) cs) = VOk tt <-> P).
Proof.
  intros <-. unfold cv_void, cv_read, cv_bind. destruct (f cs); cbn; split; try discriminate; eauto; intros [a0 H]; discriminate.
Qed.
Lemma reading_iff {A} (v : vctx -> vres (A * vctx)) P (cs : vctx) : ((exists a, v cs = VOk a) <-> P) -> (fst (cv_void (t_reading v) cs) = VOk tt <-> P).
Proof.
  intros <-. unfold cv_void, t_reading, cv_bind, cv_read. destruct (v cs); cbn; split; try discriminate; eauto; intros [a0 H]; discriminate.
Qed.
Lemma bound_lookup {A B} (xs : list A) x (f : A -> B) : (exists b, (t <-- v_lookup xs x ;; VOk (f t)) = VOk b) <-> below x xs.
Proof.
  rewrite <- lookup_below. destruct (v_lookup xs x); cbn; split; intros [b H]; try discriminate; eauto.
Qed.
Lemma bound_check {B} (r : vres unit) (b : B) P : (r = VOk tt <-> P) -> (exists b', (_ <-- r ;; VOk b) = VOk b') <-> P.
Proof. intros <-. destruct r as [[]| |]; cbn; split; try discriminate; eauto; intros [b' H]; discriminate. Qed.
Lemma unit_iff (r : vres unit) P : (r = VOk tt <-> P) -> ((exists a, r = VOk a) <-> P).
Proof. intros <-. split; [intros [[] H]; exact H|eauto]. Qed.
Lemma label_below s x : (exists fr, v_labelidx s x = VOk fr) <-> below (x + 1)%N (frames s).
Proof.
  unfold below, v_labelidx. cbv zeta. destruct (N.ltb_spec (x + 1) (N.of_nat (length (frames s)))) as [L|L]; cbn [negb].
  - destruct (nth_error (rev (frames s)) (N.to_nat (N.of_nat (length (frames s)) - x - 1))) eqn:E; [split; eauto|].
    apply nth_error_None in E. rewrite rev_length in E. lia.
  - split; [intros [a H]; discriminate|lia].
Qed.
Lemma limits_sound l : (exists r, v_limits l = VOk r) <-> forall x, lim_max l = Some x -> (lim_min l <= x)%N.
Proof.
  unfold v_limits. cbv zeta. destruct (lim_max l) as [x|].
  - destruct (N.leb_spec (lim_min l) x) as [L|L]; cbn [negb]; split; intros H.
    + intros y [= <-]. exact L.
    + eauto.
    + destruct H; discriminate.
    + specialize (H x eq_refl). lia.
  - rewrite N.leb_refl. cbn [negb]. split; [discriminate|eauto].
Qed.
Lemma start_sound st c s : (exists r, v_start st (c, s) = VOk r) <-> at_index (c_funcs c) (st_func st) (mkFuncTy [] []).
Proof.
  unfold v_start, v_funcidx. cbn [fst]. rewrite <- v_lookup_ok. destruct (v_lookup (c_funcs c) (st_func st)) as [[ps rs]| |]; cbn [vbind ft_params ft_results];
    [|split; [intros [r H]; discriminate|discriminate]..].
  destruct ps, rs; cbn [valtys_eqb negb orb]; (split; [intros [r H]; first [discriminate|reflexivity]|intros H; first [discriminate|eauto]]).
Qed.
Theorem reading_calls k cs P : criterion k cs = Some P -> (accepts k cs <-> P) /\ snd (perform k cs) = cs.
Proof.
  destruct cs as [c s]. destruct k; try discriminate; intros H; injection H as <-; (split; [|]); unfold accepts; cbn [perform].
  all: try (apply reading_iff); try (apply void_iff); try (apply lookup_below); try (apply unit_iff).
  all: try match goal with |- snd (cv_void (cv_read ?f) ?cs) = ?cs => unfold cv_void, cv_read, cv_bind; destruct (f cs); reflexivity end.
  all: try match goal with |- snd (cv_void (t_reading ?f) ?cs) = ?cs => unfold cv_void, t_reading, cv_read, cv_bind; destruct (f cs); reflexivity end.
  all: try reflexivity.
  - apply bound_check, v_tablety_iff.
  - apply bound_check, v_memty_iff.
  - apply start_sound.
  - unfold v_import. destruct (im_desc im); [apply bound_lookup|apply bound_check, v_tablety_iff|apply bound_check, v_memty_iff|].
    apply bound_check. split; auto.
  - unfold v_export. destruct (ex_desc ex); apply bound_lookup.
  - unfold v_functy. destruct (Nat.leb_spec (length (ft_results t)) 1); cbn [negb]; split; try discriminate; auto; lia.
  - apply v_tablety_iff.
  - apply v_memty_iff.
  - split; auto.
  - apply limits_sound.
  - split; auto.
  - apply label_below.
Qed.

(** ** Calls on the stacks *)
Definition verdict (b : bool) : vres unit := if b then VOk tt else VErr.
Definition sv_void {A} (p : sv A) : sv unit := _ <-| p ;; sv_ret tt.
Lemma pushes_eq ts : forall s, push_operands ts s = mkStacks (rev (map Val ts) ++ operands s) (frames s).
Proof.
  induction ts as [|t ts IH]; intros s; [destruct s; reflexivity|].
  change (push_operands (t :: ts) s) with (push_operands ts (push_operand (Val t) s)). rewrite IH.
  cbn [push_operand operands frames map rev]. rewrite <- app_assoc. reflexivity.
Qed.
Lemma pop_run c op s : perform (Pop_Operand op) (c, s) = (fst (sv_void (t_pop_operand op) s), (c, snd (sv_void (t_pop_operand op) s))).
Proof. cbn [perform]. unfold cv_void, cv_stacks, cv_bind, sv_void, sv_bind. cbn [fst snd]. destruct (t_pop_operand op s) as [[| |] s']; reflexivity. Qed.
Lemma pops_last ts t s : t_pop_operands (ts ++ [t]) s = (_ <-| t_pop_operand (Val t) ;; t_pop_operands ts) s.
Proof. unfold t_pop_operands. rewrite rev_app_distr. reflexivity. Qed.
Lemma does_perform k s b s' : does k s b s' -> forall c, perform k (c, s) = (verdict b, (c, s')).
Proof.
  induction 1; intros c.
  - reflexivity.
  - cbn [perform]. unfold cv_stacks, t_push_operands. cbn [fst snd]. rewrite pushes_eq. reflexivity.
  - reflexivity.
  - rewrite pop_run. unfold sv_void, sv_bind, t_pop_operand. cbn [frames operands]. rewrite H, Nat.eqb_refl. cbn [andb]. destruct (f_unreachable f); reflexivity.
  - rewrite pop_run. unfold sv_void, sv_bind, t_pop_operand. cbn [frames operands]. apply Nat.eqb_neq in H. rewrite H. cbn [andb].
    destruct op as [|t]; [reflexivity|]. unfold operand_eqb. destruct t; reflexivity.
  - rewrite pop_run. unfold sv_void, sv_bind, t_pop_operand. cbn [frames operands]. apply Nat.eqb_neq in H. rewrite H. reflexivity.
  - rewrite pop_run. unfold sv_void, sv_bind, t_pop_operand. cbn [frames operands]. apply Nat.eqb_neq in H. rewrite H. cbn [andb]. destruct op; reflexivity.
  - rewrite pop_run. unfold sv_void, sv_bind, t_pop_operand. cbn [frames operands]. apply Nat.eqb_neq in H. rewrite H. cbn [andb].
    destruct t, u; try congruence; reflexivity.
  - reflexivity.
  - specialize (IHdoes c). rewrite pop_run in IHdoes. cbn [perform]. unfold cv_stacks. cbn [fst snd]. rewrite pops_last. unfold sv_void, sv_bind in *.
    destruct (t_pop_operand (Val t) s) as [[| |] s2]; cbn in IHdoes; try discriminate. injection IHdoes as ->. reflexivity.
  - specialize (IHdoes1 c). specialize (IHdoes2 c). rewrite pop_run in IHdoes1. cbn [perform] in *. unfold cv_stacks in *. cbn [fst snd] in *. rewrite pops_last. unfold sv_void, sv_bind in *.
    destruct (t_pop_operand (Val t) s) as [[| |] s3]; cbn in IHdoes1; try discriminate. injection IHdoes1 as ->. exact IHdoes2.
  - reflexivity.
  - reflexivity.
  - specialize (IHdoes c). cbn [perform] in *. unfold cv_void, cv_stacks, cv_bind in *. cbn [fst snd] in *. unfold t_pop_frame, sv_bind. cbn [frames].
    destruct (t_pop_operands (f_out f) _) as [[[]| |] s2]; cbn in IHdoes; try discriminate. injection IHdoes as ->. reflexivity.
  - specialize (IHdoes c). cbn [perform] in *. unfold cv_void, cv_stacks, cv_bind in *. cbn [fst snd] in *. unfold t_pop_frame, sv_bind. cbn [frames].
    destruct (t_pop_operands (f_out f) _) as [[[]| |] s2]; cbn in IHdoes; try discriminate. injection IHdoes as ->.
    apply Nat.eqb_neq in H0. rewrite H0. reflexivity.
  - specialize (IHdoes c). cbn [perform] in *. unfold cv_void, cv_stacks, cv_bind in *. cbn [fst snd] in *. unfold t_pop_frame, sv_bind. cbn [frames].
    destruct (t_pop_operands (f_out f) _) as [[[]| |] s2]; cbn in IHdoes; try discriminate. injection IHdoes as ->. cbn [operands frames].
    rewrite H0, Nat.eqb_refl. reflexivity.
  - reflexivity.
  - cbn [perform]. unfold cv_stacks, t_unreachable, s_unreachable. cbn [fst snd frames operands]. unfold truncate. rewrite app_length, H.
    replace (length above + f_height f - f_height f)%nat with (length above) by lia. rewrite skipn_app, skipn_all, Nat.sub_diag. reflexivity.
Qed.
Ltac three := refine (conj _ (conj _ _)); [|try assumption|try (reflexivity || congruence)]; try solve [constructor; assumption|constructor].
Lemma pop_does op s : wf s -> exists b s', does (Pop_Operand op) s b s' /\ wf s' /\ frames s' = frames s.
Proof.
  destruct s as [ops [|f frs]]; intros W; [exists false, (mkStacks ops []); three|].
  destruct (Nat.eq_dec (length ops) (f_height f)) as [E|E].
  { exists (f_unreachable f), (mkStacks ops (f :: frs)). three; constructor; assumption. }
  destruct ops as [|o ops]; [exfalso; unfold wf in W; cbn in *; lia|].
  assert (W2 : wf (mkStacks ops (f :: frs))) by (unfold wf in *; cbn in *; split; [lia|tauto]).
  destruct o as [|t]; [exists true, (mkStacks ops (f :: frs)); three; apply does_pop_unknown; assumption|].
  destruct op as [|u]; [exists true, (mkStacks ops (f :: frs)); three; apply does_pop_any; assumption|].
  assert (D : t = u \/ t <> u) by (destruct t, u; (left; reflexivity) || (right; discriminate)).
  destruct D as [<- |D].
  - exists true, (mkStacks ops (f :: frs)); three; apply does_pop_equal; assumption.
  - exists false, (mkStacks ops (f :: frs)); three; apply does_pop_other; assumption.
Qed.
Lemma pops_do ts : forall s, wf s -> exists b s', does (Pop_Operands ts) s b s' /\ wf s' /\ frames s' = frames s.
Proof.
  induction ts as [|t ts IH] using rev_ind; intros s W; [exists true, s; three; constructor|].
  destruct (pop_does (Val t) s W) as (b0 & s1 & D & W1 & F1). destruct b0.
  - destruct (IH s1 W1) as (b & s2 & D2 & W2 & F2). exists b, s2. three; eapply does_pops; eassumption.
  - exists false, s1. three; apply does_pops_stop; assumption.
Qed.
Theorem stack_calls k c s b s' : on_stacks k -> settled s -> (perform k (c, s) = (verdict b, (c, s')) <-> does k s b s').
Proof.
  intros K W. apply settled_wf in W. split; [|intros D; apply does_perform, D].
  assert (T : exists b' s2, does k s b' s2).
  { destruct k; try destruct K.
    - destruct s. eexists _, _. constructor.
    - destruct (pop_does op s W) as (b1 & s1 & D & _). eauto.
    - destruct s. eexists _, _. constructor.
    - destruct (pops_do ops s W) as (b1 & s1 & D & _). eauto.
    - destruct s. eexists _, _. constructor.
    - destruct s as [ops [|f frs]]; [eexists _, _; constructor|].
      destruct (pops_do (f_out f) _ W) as (b0 & s1 & D & _ & F). destruct b0; [|eexists _, _; eapply does_pop_frame_short; eassumption].
      destruct (Nat.eq_dec (length (operands s1)) (f_height f)) as [E|E]; [|eexists _, _; eapply does_pop_frame_long; eassumption].
      destruct s1 as [ops1 frs1]. cbn [frames operands] in *. subst frs1. eexists _, _. eapply does_pop_frame; eassumption.
    - destruct s as [ops [|f frs]]; [eexists _, _; constructor|].
      assert (L : (f_height f <= length ops)%nat) by (unfold wf in W; cbn in W; lia).
      pose proof (firstn_skipn (length ops - f_height f) ops) as FS. pose proof (skipn_length (length ops - f_height f) ops) as SL.
      rewrite <- FS. eexists _, _. apply does_unreachable. lia. }
  destruct T as (b1 & s1 & D). rewrite (does_perform _ _ _ _ D c). intros H. injection H as V <-.
  assert (b1 = b) as -> by (destruct b1, b; discriminate || reflexivity). exact D.
Qed.
