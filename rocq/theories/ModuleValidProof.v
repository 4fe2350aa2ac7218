(** The validation of modules decides the module validity judgement in the dialect of the code. *)
From Coq Require Import Lia.
From Verif Require Import ValidatorModule SpecVerdict EncodeProof TypingProof.

Lemma vbind_ok_iff {A B} (r : vres A) (f : A -> vres B) b :
  vbind r f = VOk b <-> exists a, r = VOk a /\ f a = VOk b.
Proof. split; [apply vbind_ok|intros (a & -> & H); exact H]. Qed.

(** ** The context *)
Lemma use_types_eq ts c : use_types ts c = mkContext (c_types c ++ ts) (c_funcs c) (c_tables c) (c_mems c) (c_globals c) (c_locals c) (c_ret c).
Proof.
  unfold use_types. revert c. induction ts as [|t ts IH]; intros c; cbn [fold_left].
  - rewrite app_nil_r. destruct c; reflexivity.
  - rewrite IH. cbn. rewrite <- app_assoc. reflexivity.
Qed.
Lemma use_imported_tables_eq ims c : use_imported_tables ims c =
  mkContext (c_types c) (c_funcs c) (c_tables c ++ imported_tables ims) (c_mems c) (c_globals c) (c_locals c) (c_ret c).
Proof.
  unfold use_imported_tables, imported_tables. revert c. induction ims as [|im ims IH]; intros c; cbn [fold_left flat_map].
  - rewrite app_nil_r. destruct c; reflexivity.
  - rewrite IH. destruct (im_desc im); cbn; rewrite <- ?app_assoc; reflexivity.
Qed.
Lemma use_imported_mems_eq ims c : use_imported_mems ims c =
  mkContext (c_types c) (c_funcs c) (c_tables c) (c_mems c ++ imported_mems ims) (c_globals c) (c_locals c) (c_ret c).
Proof.
  unfold use_imported_mems, imported_mems. revert c. induction ims as [|im ims IH]; intros c; cbn [fold_left flat_map].
  - rewrite app_nil_r. destruct c; reflexivity.
  - rewrite IH. destruct (im_desc im); cbn; rewrite <- ?app_assoc; reflexivity.
Qed.
Lemma use_imported_globals_eq ims c : use_imported_globals ims c =
  mkContext (c_types c) (c_funcs c) (c_tables c) (c_mems c) (c_globals c ++ imported_globals ims) (c_locals c) (c_ret c).
Proof.
  unfold use_imported_globals, imported_globals. revert c. induction ims as [|im ims IH]; intros c; cbn [fold_left flat_map].
  - rewrite app_nil_r. destruct c; reflexivity.
  - rewrite IH. destruct (im_desc im); cbn; rewrite <- ?app_assoc; reflexivity.
Qed.
Lemma use_tables_eq ts c : use_tables ts c =
  mkContext (c_types c) (c_funcs c) (c_tables c ++ map tab_ty ts) (c_mems c) (c_globals c) (c_locals c) (c_ret c).
Proof.
  unfold use_tables. revert c. induction ts as [|t ts IH]; intros c; cbn [fold_left map].
  - rewrite app_nil_r. destruct c; reflexivity.
  - rewrite IH. cbn. rewrite <- app_assoc. reflexivity.
Qed.
Lemma use_mems_eq ts c : use_mems ts c =
  mkContext (c_types c) (c_funcs c) (c_tables c) (c_mems c ++ map mem_ty ts) (c_globals c) (c_locals c) (c_ret c).
Proof.
  unfold use_mems. revert c. induction ts as [|t ts IH]; intros c; cbn [fold_left map].
  - rewrite app_nil_r. destruct c; reflexivity.
  - rewrite IH. cbn. rewrite <- app_assoc. reflexivity.
Qed.
Lemma use_globals_eq ts c : use_globals ts c =
  mkContext (c_types c) (c_funcs c) (c_tables c) (c_mems c) (c_globals c ++ map glob_ty ts) (c_locals c) (c_ret c).
Proof.
  unfold use_globals. revert c. induction ts as [|t ts IH]; intros c; cbn [fold_left map].
  - rewrite app_nil_r. destruct c; reflexivity.
  - rewrite IH. cbn. rewrite <- app_assoc. reflexivity.
Qed.
Lemma use_imported_funcs_iff ims c c' : use_imported_funcs ims c = VOk c' <->
  exists fts, Forall2 (fun x ft => at_index (c_types c) x ft) (imported_funcs ims) fts /\
    c' = mkContext (c_types c) (c_funcs c ++ fts) (c_tables c) (c_mems c) (c_globals c) (c_locals c) (c_ret c).
Proof.
  revert c. induction ims as [|im ims IH]; intros c; cbn [use_imported_funcs].
  - split.
    + intros [= <-]. exists []. split; [constructor|]. rewrite app_nil_r. destruct c; reflexivity.
    + intros (fts & F & ->). inversion F; subst. rewrite app_nil_r. destruct c; reflexivity.
  - unfold imported_funcs in *. cbn [flat_map]. destruct (im_desc im) as [x|t|t|t]; cbn [app]; try apply IH.
    rewrite vbind_ok_iff. split.
    + intros (t & Ht & H). apply IH in H as (fts & F & ->). apply v_lookup_ok in Ht.
      exists (t :: fts). split; [constructor; assumption|]. cbn. rewrite <- app_assoc. reflexivity.
    + intros (fts & F & ->). inversion F as [|? t ? fts' Ht F' E1 E2]; subst. exists t.
      split; [apply v_lookup_ok; assumption|]. apply IH. exists fts'. split; [assumption|]. cbn. rewrite <- app_assoc. reflexivity.
Qed.
Lemma use_funcs_iff fs c c' : use_funcs fs c = VOk c' <->
  exists fts, Forall2 (fun x ft => at_index (c_types c) x ft) (map fn_ty fs) fts /\
    c' = mkContext (c_types c) (c_funcs c ++ fts) (c_tables c) (c_mems c) (c_globals c) (c_locals c) (c_ret c).
Proof.
  revert c. induction fs as [|f fs IH]; intros c; cbn [use_funcs map].
  - split.
    + intros [= <-]. exists []. split; [constructor|]. rewrite app_nil_r. destruct c; reflexivity.
    + intros (fts & F & ->). inversion F; subst. rewrite app_nil_r. destruct c; reflexivity.
  - rewrite vbind_ok_iff. split.
    + intros (t & Ht & H). apply IH in H as (fts & F & ->). apply v_lookup_ok in Ht.
      exists (t :: fts). split; [constructor; assumption|]. cbn. rewrite <- app_assoc. reflexivity.
    + intros (fts & F & ->). inversion F as [|? t ? fts' Ht F' E1 E2]; subst. exists t.
      split; [apply v_lookup_ok; assumption|]. apply IH. exists fts'. split; [assumption|]. cbn. rewrite <- app_assoc. reflexivity.
Qed.

Definition module_ctx (m : module) (fts : list functy) : context :=
  mkContext (m_types m) fts (table_space m) (mem_space m) (global_space m) [] None.
Definition init_ctx (m : module) : context := mkContext [] [] [] [] (map glob_ty (m_globals m)) [] None.

Lemma context_from_iff m c : context_from m = VOk c <-> exists fts, func_space m fts /\ c = module_ctx m fts.
Proof.
  unfold context_from. rewrite use_types_eq. cbn [default_context c_types c_funcs c_tables c_mems c_globals c_locals c_ret app].
  rewrite vbind_ok_iff. setoid_rewrite use_imported_funcs_iff. setoid_rewrite vbind_ok_iff.
  setoid_rewrite use_funcs_iff. unfold func_space, func_index. split.
  - intros (c1 & (f1 & F1 & ->) & c2 & (f2 & F2 & ->) & H).
    rewrite use_imported_globals_eq, use_imported_mems_eq, use_imported_tables_eq in *.
    cbn [c_types c_funcs c_tables c_mems c_globals c_locals c_ret app] in *.
    rewrite use_globals_eq, use_mems_eq, use_tables_eq in H. cbn in H. injection H as <-.
    exists (f1 ++ f2). split; [apply Forall2_app; assumption|reflexivity].
  - intros (fts & F & ->). apply Forall2_app_inv_l in F as (f1 & f2 & F1 & F2 & ->).
    eexists. split; [exists f1; split; [exact F1|reflexivity]|].
    rewrite use_imported_globals_eq, use_imported_mems_eq, use_imported_tables_eq.
    cbn [c_types c_funcs c_tables c_mems c_globals c_locals c_ret app].
    eexists. split; [exists f2; split; [exact F2|reflexivity]|].
    rewrite use_globals_eq, use_mems_eq, use_tables_eq. reflexivity.
Qed.

(** the types of the function index space are determined *)
Lemma func_space_det m fts1 fts2 : func_space m fts1 -> func_space m fts2 -> fts1 = fts2.
Proof.
  unfold func_space, at_index. generalize (func_index m). intros l A. revert fts2.
  induction A as [|x ft l fts1 H A IH]; intros fts2 B; inversion B as [|? ft2 ? fts2' H2 B']; subst; [reflexivity|].
  f_equal; [congruence|auto].
Qed.

(** ** Loops over items *)
Definition item_pure {A B} (v : A -> vctx -> vres (B * vctx)) (cs : vctx) : Prop :=
  forall x r cs', v x cs = VOk (r, cs') -> cs' = cs.
Lemma v_each_iff {A B} (v : A -> vctx -> vres (B * vctx)) xs cs rs : item_pure v cs ->
  v_each v xs cs = VOk rs <-> snd rs = cs /\ Forall2 (fun x r => v x cs = VOk (r, cs)) xs (fst rs).
Proof.
  intros P. revert rs. induction xs as [|x xs IH]; intros rs; cbn [v_each].
  - destruct rs as [rs cs']; cbn. split.
    + intros [= <- <-]. auto.
    + intros [-> F]. inversion F; subst. reflexivity.
  - rewrite vbind_ok_iff. setoid_rewrite vbind_ok_iff. destruct rs as [rs cs']; cbn [fst snd]. split.
    + intros ([r cs1] & H & [rs2 cs2] & H2 & E). cbn [fst snd] in *. pose proof (P _ _ _ H) as ->.
      apply IH in H2 as [E2 F]. cbn in E2, F. subst cs2. injection E as <- <-. split; [reflexivity|]. constructor; assumption.
    + intros [-> F]. inversion F as [|? r ? rs' H F' E1 E2]; subst. exists (r, cs). split; [assumption|].
      exists (rs', cs). cbn [fst snd]. split; [|reflexivity]. apply IH. auto.
Qed.
Lemma v_each_unit {A B} (v : A -> vctx -> vres (B * vctx)) xs cs (P : A -> Prop) : item_pure v cs ->
  (forall x, In x xs -> (exists r, v x cs = VOk (r, cs)) <-> P x) ->
  (exists rs, v_each v xs cs = VOk (rs, cs)) <-> Forall P xs.
Proof.
  intros PU Q. setoid_rewrite v_each_iff; [|assumption]. cbn [fst snd]. split.
  - intros (rs & _ & F). rewrite Forall_forall. intros x I. apply Q; [assumption|].
    revert I. clear Q. induction F as [|y r ys rs H F IH]; [contradiction|]. intros [->|I]; eauto.
  - intros F. induction F as [|x xs H F IH].
    + exists []. auto.
    + destruct IH as (rs & _ & FF); [intros y I; apply Q; right; assumption|].
      apply Q in H as [r H]; [|left; reflexivity]. exists (r :: rs). auto.
Qed.

(** ** Items *)
Lemma stacks_empty s : stacks_not_empty s = false -> s = empty_stacks.
Proof. destruct s as [[|] [|]]; cbn; try discriminate. reflexivity. Qed.

Lemma v_func_pure c : c_locals c = [] -> c_ret c = None -> item_pure v_func (c, empty_stacks).
Proof.
  intros L R f t cs' H. unfold v_func in H.
  apply vbind_ok in H as (t' & _ & H). apply vbind_ok in H as (s & _ & H). apply vbind_ok in H as (rs & _ & H).
  destruct (stacks_not_empty (snd rs)) eqn:E; [discriminate|]. apply stacks_empty in E. rewrite E in H.
  injection H as <- <-. unfold set_ret, set_locals. cbn. destruct c; cbn in *. subst. reflexivity.
Qed.
Lemma v_const_body_pure r e c cs' : v_const_body r e (c, empty_stacks) = VOk cs' -> cs' = (c, empty_stacks).
Proof.
  unfold v_const_body. intros H. apply vbind_ok in H as (s & _ & H). apply vbind_ok in H as (rs & _ & H).
  destruct (stacks_not_empty (snd rs)) eqn:E; [discriminate|]. apply stacks_empty in E. rewrite E in H. congruence.
Qed.
Lemma v_global_pure c : item_pure v_global (c, empty_stacks).
Proof.
  intros g r cs' H. unfold v_global in H. apply vbind_ok in H as (? & _ & H). apply vbind_ok in H as (cs1 & H1 & H).
  apply v_const_body_pure in H1 as ->. congruence.
Qed.
Lemma v_elem_pure c : item_pure v_elem (c, empty_stacks).
Proof.
  intros g r cs' H. unfold v_elem in H. apply vbind_ok in H as (t & _ & H).
  destruct (negb _); [discriminate|]. apply vbind_ok in H as (cs1 & H1 & H).
  apply v_const_body_pure in H1 as ->. apply vbind_ok in H as (? & _ & H). congruence.
Qed.
Lemma v_data_pure c : item_pure v_data (c, empty_stacks).
Proof.
  intros g r cs' H. unfold v_data in H. apply vbind_ok in H as (t & _ & H). apply vbind_ok in H as (cs1 & H1 & H).
  apply v_const_body_pure in H1 as ->. congruence.
Qed.
Lemma v_table_pure cs : item_pure v_table cs.
Proof. intros t r cs' H. unfold v_table in H. apply vbind_ok in H as (? & _ & H). congruence. Qed.
Lemma v_mem_pure cs : item_pure v_mem cs.
Proof. intros t r cs' H. unfold v_mem in H. apply vbind_ok in H as (? & _ & H). congruence. Qed.
Lemma v_type_pure cs : item_pure v_type_item cs.
Proof. intros t r cs' H. unfold v_type_item in H. apply vbind_ok in H as (? & _ & H). congruence. Qed.
Lemma v_start_pure cs : item_pure v_start cs.
Proof. intros t r cs' H. unfold v_start in H. apply vbind_ok in H as (? & _ & H). destruct (_ || _); congruence. Qed.
Lemma v_import_pure cs : item_pure v_import cs.
Proof. intros t r cs' H. unfold v_import in H. destruct (im_desc t); apply vbind_ok in H as (? & _ & H); congruence. Qed.
Lemma v_export_pure cs : item_pure v_export cs.
Proof. intros t r cs' H. unfold v_export in H. destruct (ex_desc t); apply vbind_ok in H as (? & _ & H); congruence. Qed.

(** limits *)
Lemma limits_iff l bound : (exists r, v_limits l = VOk r /\ (negb (r <=? bound) = false)) <-> limits_ok bound l.
Proof.
  unfold v_limits, limits_ok. destruct l as [mn [mx|]]; cbn.
  - destruct (N.leb_spec mn mx) as [L|L]; cbn.
    + split.
      * intros (r & [= <-] & E). apply negb_false_iff, N.leb_le in E. split; [lia|]. intros x [= <-]. lia.
      * intros [A B]. exists mx. split; [reflexivity|]. apply negb_false_iff, N.leb_le. apply (B mx eq_refl).
    + split; [intros (r & [=] & _)|]. intros [A B]. specialize (B mx eq_refl). lia.
  - rewrite N.leb_refl. cbn. split.
    + intros (r & [= <-] & E). apply negb_false_iff, N.leb_le in E. split; [lia|]. discriminate.
    + intros [A B]. exists mn. split; [reflexivity|]. apply negb_false_iff, N.leb_le. assumption.
Qed.
Lemma v_tablety_iff t : v_tablety t = VOk tt <-> limits_ok (2 ^ 32 - 1) (tt_lim t).
Proof.
  unfold v_tablety. change (2 ^ 32 - 1) with 0xFFFFFFFF. rewrite <- limits_iff, vbind_ok_iff.
  split; intros (r & H & E); exists r; (split; [assumption|]); destruct (negb (r <=? 0xFFFFFFFF)); congruence.
Qed.
Lemma v_memty_iff t : v_memty t = VOk tt <-> limits_ok (2 ^ 16 - 1) (mt_lim t).
Proof.
  unfold v_memty. change (2 ^ 16 - 1) with 0xFFFF. rewrite <- limits_iff, vbind_ok_iff.
  split; intros (r & H & E); exists r; (split; [assumption|]); destruct (negb (r <=? 0xFFFF)); congruence.
Qed.
Lemma v_functy_iff t : v_functy t = VOk tt <-> functype_ok t.
Proof.
  unfold v_functy, functype_ok. destruct (Nat.leb_spec (length (ft_results t)) 1); cbn; split; try congruence; try lia.
Qed.
Lemma ok_unit (r : vres unit) : (exists a, r = VOk a) <-> r = VOk tt.
Proof. split; [intros [[] H]; exact H|eauto]. Qed.

(** functions *)
Definition code_ok (m : module) : Prop := Forall (fun f => no_pseudo (fn_body f)) (m_funcs m).

Lemma v_func_iff m fts f t : no_pseudo (fn_body f) ->
  v_func f (module_ctx m fts, empty_stacks) = VOk (t, (module_ctx m fts, empty_stacks)) <->
  func_type false false (module_env m fts) f t.
Proof.
  intros NP. unfold func_type, v_func. rewrite vbind_ok_iff. setoid_rewrite vbind_ok_iff. setoid_rewrite vbind_ok_iff.
  change (te_types (module_env m fts)) with (m_types m). split.
  - intros (t' & Ht & s & Hs & rs & Hr & E).
    assert (t' = t) as -> by (destruct (stacks_not_empty (snd rs)); congruence). apply v_lookup_ok in Ht. split; [exact Ht|].
    assert (BI : exists s rs, v_expr (set_locals (set_ret (module_ctx m fts) (Some (ft_results t))) (ft_params t ++ fn_locals f))
      (fn_body f) (push_frame (ft_results t) (ft_results t) empty_stacks) = VOk s /\ pop_frame s = VOk rs) by eauto.
    apply body_iff in BI; [|assumption]. exact BI.
  - intros [Ht BI]. exists t. split; [apply v_lookup_ok; exact Ht|].
    assert (BI' : seq_type false (env (set_locals (set_ret (module_ctx m fts) (Some (ft_results t))) (ft_params t ++ fn_locals f))
      [mkFrame (ft_results t) (ft_results t) 0 false]) (fn_body f) [] (ft_results t)) by exact BI.
    apply body_iff in BI' as (s & rs & Hs & Hr); [|assumption]. exists s. split; [exact Hs|]. exists rs. split; [exact Hr|].
    rewrite (body_stacks _ _ _ _ _ NP Hs Hr). reflexivity.
Qed.

Lemma v_func_item m fts f : no_pseudo (fn_body f) ->
  (exists t, v_func f (module_ctx m fts, empty_stacks) = VOk (t, (module_ctx m fts, empty_stacks))) <->
  exists t, func_type false false (module_env m fts) f t.
Proof. intros NP. split; intros [t H]; exists t; apply (v_func_iff m fts f t NP); exact H. Qed.

(** constant expressions *)
Definition env0 (c : context) : tenv :=
  mkTenv (c_types c) (c_funcs c) (c_tables c) (c_mems c) (c_globals c) (c_locals c) [] (c_ret c).
Lemma v_const_check_iff c i : v_const_check c i = VOk tt <-> const_instr (env0 c) i.
Proof.
  unfold v_const_check, const_instr. destruct i; try (split; [discriminate|contradiction]); try (split; auto; fail).
  rewrite vbind_ok_iff. unfold v_globalidx. setoid_rewrite v_lookup_ok. cbn.
  split; intros (g & A & E); exists g; (split; [exact A|]); destruct (gt_mut g); cbn in *; congruence.
Qed.
Lemma const_no_pseudo C e : const_expr C e -> no_pseudo e.
Proof.
  intros H. unfold const_expr in H. rewrite Forall_forall in H.
  assert (K : forall j, occurs j e -> In j e /\ const_instr C j).
  { intros j O. inversion O as [? I|i sub ? I S O']; subst; [split; [assumption|apply H; assumption]|].
    apply H in I. destruct i; cbn in I, S; contradiction. }
  split; intros O; apply K in O as [_ O]; exact O.
Qed.
Lemma v_constexpr_iff c e s s' : v_constexpr c e s = VOk s' <-> const_expr (env0 c) e /\ v_expr c e s = VOk s'.
Proof.
  unfold const_expr, v_expr. revert s. induction e as [|i e IH]; intros s; cbn [v_constexpr v_seq].
  - split; [intros H; auto|intros [_ H]; exact H].
  - rewrite !vbind_ok_iff. setoid_rewrite vbind_ok_iff. setoid_rewrite IH. split.
    + intros ([] & A & s1 & B & F & D). apply v_const_check_iff in A. split; [constructor; assumption|eauto].
    + intros [F (s1 & B & D)]. inversion F; subst. exists tt. rewrite v_const_check_iff. eauto 6.
Qed.

(** alignment is irrelevant in constant expressions *)
Lemma seq_const C e t1 t2 : const_expr C e -> seq_type false C e t1 t2 <-> seq_type true C e t1 t2.
Proof.
  assert (K : forall a b C i t1 t2, const_instr C i -> instr_type a C i t1 t2 -> instr_type b C i t1 t2).
  { intros a b C' i u1 u2 CI T. destruct i; try contradiction; inversion T; subst; try discriminate; try (apply T_plain; assumption).
    apply T_global_get. assumption. }
  intros F. split; intros S.
  - induction S as [|C is i u1 u0 u u3 S IH I]; [constructor|]. apply Forall_app in F as [F1 F2]. inversion F2; subst.
    econstructor; [apply IH; assumption|]. eapply K; eassumption.
  - induction S as [|C is i u1 u0 u u3 S IH I]; [constructor|]. apply Forall_app in F as [F1 F2]. inversion F2; subst.
    econstructor; [apply IH; assumption|]. eapply K; eassumption.
Qed.
Lemma v_const_body_iff c e t : v_const_body [t] e (c, empty_stacks) = VOk (c, empty_stacks) <-> init_ok (env0 c) e t.
Proof.
  unfold v_const_body, init_ok, expr_type. rewrite vbind_ok_iff. setoid_rewrite v_constexpr_iff. setoid_rewrite vbind_ok_iff.
  change (env0 c) with (env c [mkFrame [t] [t] 0 false]). split.
  - intros (s & (F & H) & rs & P & _). split; [exact F|]. apply seq_const; [exact F|].
    apply body_iff; [eapply const_no_pseudo; exact F|]. eauto.
  - intros [F S]. apply seq_const in S; [|exact F]. apply body_iff in S as (s & rs & H & P); [|eapply const_no_pseudo; exact F].
    exists s. split; [auto|]. exists rs. split; [exact P|].
    rewrite (body_stacks _ _ _ _ _ (const_no_pseudo _ _ F) H P). reflexivity.
Qed.
Lemma v_const_body_ex c e t : (exists cs, v_const_body [t] e (c, empty_stacks) = VOk cs) <-> init_ok (env0 c) e t.
Proof.
  rewrite <- v_const_body_iff. split; [|eauto]. intros [cs H]. pose proof (v_const_body_pure _ _ _ _ H) as ->. exact H.
Qed.

Lemma v_global_iff c g : (exists r, v_global g (c, empty_stacks) = VOk (r, (c, empty_stacks))) <-> global_ok (env0 c) g.
Proof.
  unfold v_global, global_ok. cbn [v_globalty vbind]. rewrite <- v_const_body_iff. split.
  - intros (r & H). apply vbind_ok in H as (cs & H & E). pose proof (v_const_body_pure _ _ _ _ H) as ->. exact H.
  - intros H. exists (glob_ty g). rewrite H. reflexivity.
Qed.
Lemma v_elem_init_iff c is : v_elem_init c is = VOk tt <-> Forall (fun x => exists ft, at_index (c_funcs c) x ft) is.
Proof.
  induction is as [|i is IH]; cbn [v_elem_init]; [split; auto|].
  rewrite vbind_ok_iff. setoid_rewrite IH. unfold v_funcidx. setoid_rewrite v_lookup_ok. split.
  - intros (ft & A & F). constructor; eauto.
  - intros F. inversion F as [|? ? [ft A] F']; subst. eauto.
Qed.
Lemma v_elem_iff c e : (exists r, v_elem e (c, empty_stacks) = VOk (r, (c, empty_stacks))) <-> elem_ok (env0 c) e.
Proof.
  unfold v_elem, elem_ok. cbn [fst]. setoid_rewrite vbind_ok_iff. unfold v_tableidx. setoid_rewrite v_lookup_ok. split.
  - intros (r & t & A & H). destruct (tt_elem t) eqn:E; cbn [elemty_eqb negb] in H.
    apply vbind_ok in H as (cs & H & H2). pose proof (v_const_body_pure _ _ _ _ H) as ->. apply v_const_body_iff in H.
    apply vbind_ok in H2 as ([] & H2 & _). apply v_elem_init_iff in H2. split; [exists t; auto|]. split; assumption.
  - intros ((t & A & E) & B & D). exists tt, t. split; [exact A|]. rewrite E. cbn [elemty_eqb negb].
    apply v_const_body_iff in B. rewrite B. cbn [vbind fst]. apply v_elem_init_iff in D. rewrite D. reflexivity.
Qed.
Lemma v_data_iff c e : (exists r, v_data e (c, empty_stacks) = VOk (r, (c, empty_stacks))) <-> data_ok (env0 c) e.
Proof.
  unfold v_data, data_ok. cbn [fst]. setoid_rewrite vbind_ok_iff. unfold v_memidx. setoid_rewrite v_lookup_ok. split.
  - intros (r & t & A & H). apply vbind_ok in H as (cs & H & H2). pose proof (v_const_body_pure _ _ _ _ H) as ->.
    apply v_const_body_iff in H. split; [exists t; auto|assumption].
  - intros ((t & A) & B). exists tt, t. split; [exact A|]. apply v_const_body_iff in B. rewrite B. reflexivity.
Qed.
Lemma v_start_iff c s : (exists r, v_start s (c, empty_stacks) = VOk (r, (c, empty_stacks))) <-> start_ok (env0 c) s.
Proof.
  unfold v_start, start_ok. cbn [fst]. setoid_rewrite vbind_ok_iff. unfold v_funcidx. setoid_rewrite v_lookup_ok. split.
  - intros (r & t & A & H). destruct t as [[|p ps] [|q qs]]; cbn in H; try discriminate. exact A.
  - intros A. exists tt, (mkFuncTy [] []). split; [exact A|reflexivity].
Qed.
Lemma v_import_iff c im x : v_import im (c, empty_stacks) = VOk (x, (c, empty_stacks)) <->
  import_type (env0 c) im (ext_of x) /\ ext_ok whasm_validity (ext_of x).
Proof.
  unfold v_import, import_type. destruct (im_desc im) as [i|t|t|t]; rewrite vbind_ok_iff.
  - setoid_rewrite v_lookup_ok. cbn [fst]. split.
    + intros (t & A & E). injection E as <-. split; [exact A|exact I].
    + intros [A _]. destruct x; try contradiction. exists t. split; [exact A|reflexivity].
  - split.
    + intros ([] & A & E). injection E as <-. split; [reflexivity|]. apply v_tablety_iff. exact A.
    + intros [A B]. destruct x; try contradiction. cbn in A. subst. exists tt. split; [|reflexivity]. apply v_tablety_iff. exact B.
  - split.
    + intros ([] & A & E). injection E as <-. split; [reflexivity|]. apply v_memty_iff. exact A.
    + intros [A B]. destruct x; try contradiction. cbn in A. subst. exists tt. split; [|reflexivity]. apply v_memty_iff. exact B.
  - split.
    + intros ([] & A & E). injection E as <-. split; [reflexivity|exact I].
    + intros [A B]. destruct x; try contradiction. cbn in A. subst. exists tt. split; reflexivity.
Qed.
Lemma v_export_iff c e x : v_export e (c, empty_stacks) = VOk (x, (c, empty_stacks)) <-> export_type (env0 c) e (ext_of x).
Proof.
  unfold v_export, export_type. destruct (ex_desc e) as [i|i|i|i]; rewrite vbind_ok_iff; setoid_rewrite v_lookup_ok; cbn [fst].
  all: split; [intros (t & A & E); injection E as <-; exact A|
               intros A; destruct x; try contradiction; eexists; split; [exact A|reflexivity]].
Qed.

(** ** Export names *)
Lemma to_N_inj a b : Byte.to_N a = Byte.to_N b -> a = b.
Proof. intros H. apply (f_equal Byte.of_N) in H. rewrite !Byte.of_to_N in H. congruence. Qed.
Lemma name_eqb_eq a b : name_eqb a b = true <-> a = b.
Proof.
  revert b. induction a as [|x a IH]; intros [|y b]; cbn; try (split; congruence).
  rewrite andb_true_iff, N.eqb_eq, IH. split.
  - intros [E ->]. apply to_N_inj in E as ->. reflexivity.
  - intros [= -> ->]. auto.
Qed.
Lemma name_leb_refl a : name_leb a a = true.
Proof. induction a as [|x a IH]; cbn; [reflexivity|]. rewrite N.ltb_irrefl, N.eqb_refl. assumption. Qed.
Lemma name_leb_antisym a b : name_leb a b = true -> name_leb b a = true -> a = b.
Proof.
  revert b. induction a as [|x a IH]; intros [|y b]; cbn; try congruence.
  destruct (N.ltb_spec (Byte.to_N x) (Byte.to_N y)), (N.ltb_spec (Byte.to_N y) (Byte.to_N x)); try lia;
  destruct (N.eqb_spec (Byte.to_N x) (Byte.to_N y)), (N.eqb_spec (Byte.to_N y) (Byte.to_N x)); try lia; try congruence.
  intros A B. f_equal; [apply to_N_inj; assumption|auto].
Qed.
Lemma name_leb_total a b : name_leb a b = false -> name_leb b a = true.
Proof.
  revert b. induction a as [|x a IH]; intros [|y b]; cbn; try congruence.
  destruct (N.ltb_spec (Byte.to_N x) (Byte.to_N y)), (N.ltb_spec (Byte.to_N y) (Byte.to_N x)); try lia; try congruence;
  destruct (N.eqb_spec (Byte.to_N x) (Byte.to_N y)), (N.eqb_spec (Byte.to_N y) (Byte.to_N x)); try lia; try congruence. auto.
Qed.
Lemma name_leb_trans a b d : name_leb a b = true -> name_leb b d = true -> name_leb a d = true.
Proof.
  revert b d. induction a as [|x a IH]; intros [|y b] [|z d]; cbn; try congruence.
  destruct (N.ltb_spec (Byte.to_N x) (Byte.to_N y)), (N.ltb_spec (Byte.to_N y) (Byte.to_N z)), (N.ltb_spec (Byte.to_N x) (Byte.to_N z)); try lia; try congruence;
  destruct (N.eqb_spec (Byte.to_N x) (Byte.to_N y)), (N.eqb_spec (Byte.to_N y) (Byte.to_N z)), (N.eqb_spec (Byte.to_N x) (Byte.to_N z)); try lia; try congruence. apply IH.
Qed.

(** sortedness: each element is below all the following ones *)
Fixpoint sorted (l : list name) : Prop :=
  match l with [] => True | x :: l' => Forall (fun y => name_leb x y = true) l' /\ sorted l' end.
Lemma insert_in x l y : In y (insert_name x l) <-> y = x \/ In y l.
Proof.
  induction l as [|z l IH]; cbn; [intuition|]. destruct (name_leb x z); cbn; [intuition|]. rewrite IH. intuition.
Qed.
Lemma insert_sorted x l : sorted l -> sorted (insert_name x l).
Proof.
  induction l as [|z l IH]; cbn; [auto|]. intros [F S]. destruct (name_leb x z) eqn:E; cbn.
  - repeat split; auto. constructor; [assumption|]. rewrite Forall_forall in *. intros y I. eapply name_leb_trans; eauto.
  - split; [|auto]. rewrite Forall_forall in *. intros y I. apply insert_in in I as [->|I]; [apply name_leb_total; assumption|auto].
Qed.
Lemma sort_sorted l : sorted (sort_names l).
Proof. induction l as [|x l IH]; cbn; [exact I|]. apply insert_sorted. assumption. Qed.
Lemma insert_length x l : length (insert_name x l) = S (length l).
Proof. induction l as [|z l IH]; cbn; [reflexivity|]. destruct (name_leb x z); cbn; lia. Qed.
Lemma sort_length l : length (sort_names l) = length l.
Proof. induction l as [|x l IH]; cbn; [reflexivity|]. rewrite insert_length. lia. Qed.
Lemma insert_NoDup x l : NoDup (insert_name x l) <-> NoDup (x :: l).
Proof.
  induction l as [|z l IH]; cbn [insert_name]; [reflexivity|]. destruct (name_leb x z); [reflexivity|].
  rewrite !NoDup_cons_iff, insert_in, IH, NoDup_cons_iff. cbn. intuition (subst; auto).
Qed.
Lemma sort_in l y : In y (sort_names l) <-> In y l.
Proof. induction l as [|x l IH]; cbn; [reflexivity|]. rewrite insert_in, IH. intuition. Qed.
Lemma sort_NoDup l : NoDup (sort_names l) <-> NoDup l.
Proof.
  induction l as [|x l IH]; cbn [sort_names]; [reflexivity|].
  rewrite insert_NoDup, !NoDup_cons_iff, IH, sort_in. reflexivity.
Qed.
Lemma dedup_after_length p l : (length (dedup_after p l) <= length l)%nat.
Proof. revert p. induction l as [|y l IH]; intros p; cbn; [lia|]. destruct (name_eqb p y); cbn; [specialize (IH p)|specialize (IH y)]; lia. Qed.
Lemma dedup_after_NoDup p l : sorted (p :: l) -> (length (dedup_after p l) = length l <-> NoDup (p :: l)).
Proof.
  revert p. induction l as [|y l IH]; intros p [F S].
  - cbn. split; [intros _; repeat constructor; intros []|reflexivity].
  - cbn [dedup_after length]. destruct (name_eqb p y) eqn:E.
    + apply name_eqb_eq in E as <-. pose proof (dedup_after_length p l). split; [lia|].
      intros N. inversion N; subst. exfalso. apply H2. left. reflexivity.
    + cbn [length]. assert (p <> y) as NE by (intros ->; rewrite (proj2 (name_eqb_eq y y) eq_refl) in E; discriminate).
      specialize (IH y S). split.
      * intros L. constructor; [|apply IH; lia]. intros [->|I]; [congruence|].
        cbn in S. destruct S as [Fy _]. rewrite Forall_forall in Fy. inversion F; subst.
        apply NE. apply name_leb_antisym; [assumption|apply Fy; assumption].
      * intros N. f_equal. apply IH. inversion N; assumption.
Qed.
Lemma export_names_iff exs : export_names_distinct exs = true <-> NoDup (map ex_name exs).
Proof.
  unfold export_names_distinct. rewrite Nat.eqb_eq, <- (map_length ex_name exs), <- (sort_length (map ex_name exs)), <- sort_NoDup.
  pose proof (sort_sorted (map ex_name exs)) as S. destruct (sort_names (map ex_name exs)) as [|x l]; cbn [dedup length].
  - split; [constructor|reflexivity].
  - rewrite <- dedup_after_NoDup by assumption. split; [intros [= ->]; reflexivity|congruence].
Qed.

(** ** The module *)
Lemma v_each_forall {A B} (v : A -> vctx -> vres (B * vctx)) xs cs (P : A -> Prop) : item_pure v cs ->
  (forall x, In x xs -> (exists r, v x cs = VOk (r, cs)) <-> P x) ->
  forall r, v_each v xs cs = VOk r -> snd r = cs /\ Forall P xs.
Proof.
  intros PU Q [rs cs'] H. pose proof H as H'. apply v_each_iff in H' as [E _]; [|assumption]. cbn in E. subst cs'.
  split; [reflexivity|]. apply (v_each_unit v xs cs P PU Q). eauto.
Qed.
Lemma forall_v_each {A B} (v : A -> vctx -> vres (B * vctx)) xs cs (P : A -> Prop) : item_pure v cs ->
  (forall x, In x xs -> (exists r, v x cs = VOk (r, cs)) <-> P x) ->
  Forall P xs -> exists rs, v_each v xs cs = VOk (rs, cs).
Proof. intros PU Q F. apply (v_each_unit v xs cs P PU Q). assumption. Qed.

Lemma item_type_iff cs t : (exists r, v_type_item t cs = VOk (r, cs)) <-> functype_ok t.
Proof.
  rewrite <- v_functy_iff. unfold v_type_item. setoid_rewrite vbind_ok_iff. split.
  - intros (r & [] & H & _). exact H.
  - intros H. exists tt, tt. auto.
Qed.
Lemma item_table_iff cs t : (exists r, v_table t cs = VOk (r, cs)) <-> limits_ok (2 ^ 32 - 1) (tt_lim (tab_ty t)).
Proof.
  rewrite <- v_tablety_iff. unfold v_table. split.
  - intros (r & H). apply vbind_ok in H as ([] & H & _). exact H.
  - intros H. eexists. rewrite H. reflexivity.
Qed.
Lemma item_mem_iff cs t : (exists r, v_mem t cs = VOk (r, cs)) <-> limits_ok (2 ^ 16 - 1) (mt_lim (mem_ty t)).
Proof.
  rewrite <- v_memty_iff. unfold v_mem. split.
  - intros (r & H). apply vbind_ok in H as ([] & H & _). exact H.
  - intros H. eexists. rewrite H. reflexivity.
Qed.
Lemma Forall2_map_r {A B D} (R : A -> D -> Prop) (f : B -> D) xs ys :
  Forall2 R xs (map f ys) <-> Forall2 (fun x y => R x (f y)) xs ys.
Proof.
  split.
  - revert xs. induction ys as [|y ys IH]; intros xs F; inversion F; subst; constructor; auto.
  - induction 1; constructor; auto.
Qed.
Lemma Forall2_iff {A B} (R S : A -> B -> Prop) xs ys : (forall x y, R x y <-> S x y) -> Forall2 R xs ys <-> Forall2 S xs ys.
Proof. intros E. split; intros F; induction F; constructor; auto; apply E; auto. Qed.

Lemma module_env_env0 m fts : env0 (module_ctx m fts) = module_env m fts.
Proof. reflexivity. Qed.

(** everything but the function bodies, which are left to the algorithm *)
Record module_checked (m : module) (fts : list functy) (ims exs : list ext) : Prop := {
  mc_funcs_typed : func_space m fts;
  mc_types_ok : Forall functype_ok (m_types m);
  mc_funcs_ok : Forall (fun f => exists t, v_func f (module_ctx m fts, empty_stacks) = VOk (t, (module_ctx m fts, empty_stacks))) (m_funcs m);
  mc_tables_ok : Forall (fun t => limits_ok (2 ^ 32 - 1) (tt_lim (tab_ty t))) (m_tables m);
  mc_mems_ok : Forall (fun t => limits_ok (2 ^ 16 - 1) (mt_lim (mem_ty t))) (m_mems m);
  mc_globals_ok : Forall (global_ok (globals_env (map glob_ty (m_globals m)))) (m_globals m);
  mc_elem_ok : Forall (elem_ok (module_env m fts)) (m_elem m);
  mc_data_ok : Forall (data_ok (module_env m fts)) (m_data m);
  mc_start_ok : forall s, m_start m = Some s -> start_ok (module_env m fts) s;
  mc_imports_ok : Forall2 (fun im x => import_type (module_env m fts) im x /\ ext_ok whasm_validity x) (m_imports m) ims;
  mc_exports_ok : Forall2 (export_type (module_env m fts)) (m_exports m) exs;
  mc_one_table : (length (m_tables m) <= 1)%nat;
  mc_one_mem : (length (m_mems m) <= 1)%nat;
  mc_export_names : NoDup (map ex_name (m_exports m));
}.
Theorem v_module_checked m mt :
  v_module m = VOk mt <->
  exists fts, module_checked m fts (map ext_of (mt_imports mt)) (map ext_of (mt_exports mt)).
Proof.
  assert (CSG : use_globals (m_globals m) default_context = init_ctx m) by (rewrite use_globals_eq; reflexivity).
  unfold v_module. rewrite CSG. split.
  - intros H. apply vbind_ok in H as (c & Hc & H). apply context_from_iff in Hc as (fts & FS & ->). exists fts.
    set (cs := (module_ctx m fts, empty_stacks)) in *.
    apply vbind_ok in H as (r1 & H1 & H).
    apply (v_each_forall _ _ _ _ (v_type_pure cs) (fun x _ => item_type_iff cs x)) in H1 as [E1 F1]. rewrite E1 in H.
    apply vbind_ok in H as (r2 & H2 & H).
    apply (v_each_forall v_func _ cs (fun f => exists t, v_func f (module_ctx m fts, empty_stacks) = VOk (t, (module_ctx m fts, empty_stacks)))) in H2 as [E2 F2];
      [|apply v_func_pure; reflexivity|intros f I; reflexivity]. rewrite E2 in H.
    apply vbind_ok in H as (r3 & H3 & H).
    apply (v_each_forall _ _ _ _ (v_table_pure cs) (fun x _ => item_table_iff cs x)) in H3 as [E3 F3]. rewrite E3 in H.
    apply vbind_ok in H as (r4 & H4 & H).
    apply (v_each_forall _ _ _ _ (v_mem_pure cs) (fun x _ => item_mem_iff cs x)) in H4 as [E4 F4]. rewrite E4 in H.
    apply vbind_ok in H as (r5 & H5 & H).
    apply (v_each_forall _ _ _ _ (v_global_pure _) (fun x _ => v_global_iff _ x)) in H5 as [E5 F5].
    apply vbind_ok in H as (r6 & H6 & H).
    apply (v_each_forall _ _ _ _ (v_elem_pure _) (fun x _ => v_elem_iff _ x)) in H6 as [E6 F6]. rewrite E6 in H.
    apply vbind_ok in H as (r7 & H7 & H).
    apply (v_each_forall _ _ _ _ (v_data_pure _) (fun x _ => v_data_iff _ x)) in H7 as [E7 F7]. rewrite E7 in H.
    apply vbind_ok in H as (cs8 & H8 & H).
    assert (S8 : cs8 = cs /\ forall s, m_start m = Some s -> start_ok (module_env m fts) s).
    { destruct (m_start m) as [s|].
      - apply vbind_ok in H8 as ([r8 cs8'] & H8 & E8). pose proof (v_start_pure _ _ _ _ H8) as ->.
        cbn [snd] in E8. injection E8 as <-. split; [reflexivity|]. intros s' [= <-]. apply (v_start_iff (module_ctx m fts)). eauto.
      - injection H8 as <-. split; [reflexivity|]. discriminate. }
    destruct S8 as [-> F8].
    apply vbind_ok in H as (r9 & H9 & H). apply (v_each_iff _ _ _ _ (v_import_pure cs)) in H9 as [E9 F9]. rewrite E9 in H.
    apply vbind_ok in H as (r10 & H10 & H). apply (v_each_iff _ _ _ _ (v_export_pure cs)) in H10 as [E10 F10].
    destruct (Nat.leb_spec (length (m_tables m)) 1) as [LT|]; cbn [negb] in H; [|discriminate].
    destruct (Nat.leb_spec (length (m_mems m)) 1) as [LM|]; cbn [negb] in H; [|discriminate].
    destruct (export_names_distinct (m_exports m)) eqn:EN; cbn [negb] in H; [|discriminate]. apply export_names_iff in EN.
    injection H as <-. cbn [mt_imports mt_exports].
    constructor; try assumption.
    + apply Forall2_map_r. eapply Forall2_iff; [|exact F9]. intros. symmetry. apply v_import_iff.
    + apply Forall2_map_r. eapply Forall2_iff; [|exact F10]. intros. symmetry. apply v_export_iff.
  - intros (fts & [FS F1 F2 F3 F4 F5 F6 F7 F8 F9 F10 LT LM EN]).
    assert (Hc : context_from m = VOk (module_ctx m fts)) by (apply context_from_iff; eauto). rewrite Hc. cbn [vbind].
    set (cs := (module_ctx m fts, empty_stacks)) in *.
    destruct (forall_v_each _ _ _ _ (v_type_pure cs) (fun x _ => item_type_iff cs x) F1) as [r1 E1]. rewrite E1. cbn [vbind snd].
    destruct (forall_v_each v_func _ cs _ (v_func_pure (module_ctx m fts) eq_refl eq_refl) (fun f _ => iff_refl _) F2) as [r2 E2]. rewrite E2. cbn [vbind snd].
    destruct (forall_v_each _ _ _ _ (v_table_pure cs) (fun x _ => item_table_iff cs x) F3) as [r3 E3]. rewrite E3. cbn [vbind snd].
    destruct (forall_v_each _ _ _ _ (v_mem_pure cs) (fun x _ => item_mem_iff cs x) F4) as [r4 E4]. rewrite E4. cbn [vbind snd].
    destruct (forall_v_each v_global _ (init_ctx m, empty_stacks) _ (v_global_pure _) (fun x _ => v_global_iff _ x) F5) as [r5 E5]. rewrite E5. cbn [vbind snd].
    destruct (forall_v_each v_elem _ cs _ (v_elem_pure _) (fun x _ => v_elem_iff _ x) F6) as [r6 E6]. rewrite E6. cbn [vbind snd].
    destruct (forall_v_each v_data _ cs _ (v_data_pure _) (fun x _ => v_data_iff _ x) F7) as [r7 E7]. rewrite E7. cbn [vbind snd].
    match goal with |- vbind ?x _ = _ => assert (H8 : x = VOk cs) end.
    { destruct (m_start m) as [s|]; [|reflexivity]. specialize (F8 s eq_refl).
      apply (v_start_iff (module_ctx m fts)) in F8 as [r E8]. fold cs in E8. rewrite E8. reflexivity. }
    rewrite H8. cbn [vbind].
    assert (H9 : v_each v_import (m_imports m) cs = VOk (mt_imports mt, cs)).
    { apply v_each_iff; [apply v_import_pure|]. split; [reflexivity|]. apply Forall2_map_r in F9.
      eapply Forall2_iff; [|exact F9]. intros. apply v_import_iff. }
    rewrite H9. cbn [vbind snd].
    assert (H10 : v_each v_export (m_exports m) cs = VOk (mt_exports mt, cs)).
    { apply v_each_iff; [apply v_export_pure|]. split; [reflexivity|]. apply (proj1 (Forall2_map_r (export_type (module_env m fts)) ext_of _ _)) in F10.
      eapply Forall2_iff; [|exact F10]. intros. apply v_export_iff. }
    rewrite H10. cbn [vbind fst snd].
    apply Nat.leb_le in LT, LM. rewrite LT, LM. apply export_names_iff in EN. rewrite EN. destruct mt. reflexivity.
Qed.

Theorem v_module_iff m mt : code_ok m ->
  v_module m = VOk mt <->
  exists fts, module_type whasm_validity m fts (map ext_of (mt_imports mt)) (map ext_of (mt_exports mt)).
Proof.
  intros CO. rewrite v_module_checked. unfold code_ok in CO.
  split; intros (fts & [FS F1 F2 F3 F4 F5 F6 F7 F8 F9 F10 LT LM EN]); exists fts; constructor; try assumption;
  cbn [vd_count_imports whasm_validity] in *; rewrite ?map_length in *; try assumption.
  - rewrite Forall_forall in *. intros f I. apply v_func_item; [apply CO; assumption|]. apply F2. assumption.
  - rewrite Forall_forall in *. intros f I. apply v_func_item; [apply CO; assumption|]. apply F2. assumption.
Qed.

Lemma ext_of_surj xs : exists ys, map ext_of ys = xs.
Proof.
  induction xs as [|x xs [ys <-]]; [exists []; reflexivity|].
  destruct x; [exists (X_Func t :: ys)|exists (X_Table t :: ys)|exists (X_Mem t :: ys)|exists (X_Global t :: ys)]; reflexivity.
Qed.
Theorem validate_iff m : code_ok m -> (exists mt, validate m = VOk mt) <-> valid_module whasm_validity m.
Proof.
  intros CO. unfold validate, valid_module. split.
  - intros [mt H]. apply v_module_iff in H as [fts H]; [|assumption]. eauto.
  - intros (fts & ims & exs & H). destruct (ext_of_surj ims) as [ims' <-], (ext_of_surj exs) as [exs' <-].
    exists (mkModuleTypes ims' exs'). apply v_module_iff; [assumption|]. exists fts. exact H.
Qed.
