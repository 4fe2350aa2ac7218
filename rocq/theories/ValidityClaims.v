(** The properties C26-C41: consequences of the proofs about the validator. *)
From Coq Require Import Lia Permutation.
From Verif Require Import ValidatorModule SpecVerdict EncodeProof TypingProof ModuleValidProof SafeProof DialectValidProof.
Open Scope N_scope.

Lemma accepted_checked m : accepted m <-> exists fts ims exs, module_checked m fts ims exs.
Proof.
  unfold accepted, validate. setoid_rewrite v_module_checked. split.
  - intros (mt & fts & H). eauto.
  - intros (fts & ims & exs & H). destruct (ext_of_surj ims) as [ims' <-], (ext_of_surj exs) as [exs' <-].
    exists (mkModuleTypes ims' exs'), fts. exact H.
Qed.

(** ** C26 *)
Lemma v_func_typing c f t : no_pseudo (fn_body f) ->
  (exists cs, v_func f (c, empty_stacks) = VOk (t, cs)) <-> func_type false false (tenv_of c) f t.
Proof.
  intros NP. unfold func_type. split.
  - intros [cs H]. apply v_func_run in H as (A & B). split; [exact A|]. apply body_iff in B; [exact B|assumption].
  - intros [A B]. unfold v_func, v_typeidx. change (te_types (tenv_of c)) with (c_types c) in A. apply v_lookup_ok in A. rewrite A. cbn [vbind].
    assert (BI' : seq_type false (env (body_ctx c t f) [mkFrame (ft_results t) (ft_results t) 0 false]) (fn_body f) [] (ft_results t)) by exact B.
    apply body_iff in BI' as (s & rs & Hs & Hr); [|assumption]. unfold body_ctx in Hs. rewrite Hs. cbn [vbind]. rewrite Hr. cbn [vbind].
    rewrite (body_stacks _ _ _ _ _ NP Hs Hr). cbn. eauto.
Qed.
Lemma v_func_verdict c f t : no_pseudo (fn_body f) ->
  (func_type false false (tenv_of c) f t -> exists cs, v_func f (c, empty_stacks) = VOk (t, cs)) /\
  ((forall t, ~ func_type false false (tenv_of c) f t) -> v_func f (c, empty_stacks) = VErr).
Proof.
  intros NP. split; [apply v_func_typing; assumption|]. intros H.
  assert (G : good (fun r => wfc (snd r)) (v_func f (c, empty_stacks))) by (apply good_func; exact I).
  destruct (v_func f (c, empty_stacks)) as [[t' cs]| |] eqn:E; [|reflexivity|contradiction].
  exfalso. apply (H t'). apply v_func_typing; eauto.
Qed.

Lemma v_func_ill_typed c f : no_pseudo (fn_body f) ->
  (forall t, ~ func_type false false (tenv_of c) f t) -> v_func f (c, empty_stacks) = VErr.
Proof. intros NP. apply (v_func_verdict c f (mkFuncTy [] []) NP). Qed.

(** ** C27, C28 *)
Lemma alignment_only C f ft : func_type false false C f ft ->
  (func_type true true C f ft <-> natural_alignment (fn_body f)).
Proof.
  intros T. split; intros H.
  - destruct (proj1 (alignment_iff _ _ _ _) (proj2 H)) as [_ N]. exact N.
  - apply function_dialects. auto.
Qed.
Lemma accepted_funcs_typed m : accepted m -> (forall f, In f (m_funcs m) -> no_pseudo (fn_body f)) ->
  exists fts, func_space m fts /\ forall f, In f (m_funcs m) -> exists ft, func_type false false (module_env m fts) f ft.
Proof.
  intros A NP. apply accepted_checked in A as (fts & ims & exs & []). exists fts. split; [assumption|].
  intros f I. rewrite Forall_forall in mc_funcs_ok. apply mc_funcs_ok in I as J. destruct J as [t J].
  exists t. apply v_func_iff in J; auto.
Qed.
Lemma c27_partial m : accepted m -> (forall f, In f (m_funcs m) -> no_pseudo (fn_body f)) ->
  exists fts, func_space m fts /\
  forall f, In f (m_funcs m) -> natural_alignment (fn_body f) -> exists ft, func_type true true (module_env m fts) f ft.
Proof.
  intros A NP. destruct (accepted_funcs_typed m A NP) as (fts & FS & H). exists fts. split; [assumption|].
  intros f I N. destruct (H f I) as [ft T]. exists ft. apply function_dialects. auto.
Qed.
Lemma c28_partial c f t : func_type true true (tenv_of c) f t -> no_pseudo (fn_body f) -> no_own_jump (fn_body f) ->
  exists cs, v_func f (c, empty_stacks) = VOk (t, cs).
Proof.
  intros T NP NJ. apply v_func_typing; [assumption|]. apply (proj2 (function_dialects _ _ _)). auto.
Qed.
(** typed code has no pseudo instructions, so that premise is not needed *)
Lemma typed_no_pseudo al :
  (forall C i t1 t2, instr_type al C i t1 t2 -> no_pseudo [i]) /\
  (forall C e t1 t2, seq_type al C e t1 t2 -> no_pseudo e).
Proof.
  assert (LEAF : forall i, children i = [] -> i <> I_End -> i <> I_Else -> no_pseudo [i]).
  { intros i L A B. split; intros O; apply occurs_one in O as [E|(sub & S & _)]; try congruence; rewrite L in S; contradiction. }
  assert (BLK : forall i, i <> I_End -> i <> I_Else -> (forall sub, In sub (children i) -> no_pseudo sub) -> no_pseudo [i]).
  { intros i A B H. split; intros O; apply occurs_one in O as [E|(sub & S & O)]; try congruence; apply H in S as [S1 S2]; contradiction. }
  apply (typing_mut al (fun C i t1 t2 _ => no_pseudo [i]) (fun C e t1 t2 _ => no_pseudo e)).
  1: { intros C i t1 t2 P. apply LEAF; destruct i; try discriminate P; (reflexivity || discriminate). }
  1-7: intros; apply LEAF; (reflexivity || discriminate).
  1-2: intros C i a n t m L _ _; apply LEAF; destruct i; try discriminate L; (reflexivity || discriminate).
  1-4: intros; apply LEAF; (reflexivity || discriminate).
  - intros C rt b _ IH. apply BLK; try discriminate. intros sub [<-|[]]. assumption.
  - intros C rt b _ IH. apply BLK; try discriminate. intros sub [<-|[]]. assumption.
  - intros C rt b1 b2 _ IH _ IH2. apply BLK; try discriminate. intros sub [<-|[<-|[]]]; assumption.
  - intros; apply LEAF; (reflexivity || discriminate).
  - intros; apply LEAF; (reflexivity || discriminate).
  - intros; apply LEAF; (reflexivity || discriminate).
  - intros; apply LEAF; (reflexivity || discriminate).
  - intros; apply LEAF; (reflexivity || discriminate).
  - intros; apply LEAF; (reflexivity || discriminate).
  - intros. split; apply occurs_nil.
  - intros C is i t1 t0 t t3 _ [A B] _ [A2 B2]. split; intros O; apply occurs_app in O as [O|O]; contradiction.
Qed.
Lemma func_typed_no_pseudo al ol C f ft : func_type al ol C f ft -> no_pseudo (fn_body f).
Proof. intros [_ B]. eapply typed_no_pseudo. exact B. Qed.
Lemma c28 c f t : func_type true true (tenv_of c) f t -> no_own_jump (fn_body f) ->
  exists cs, v_func f (c, empty_stacks) = VOk (t, cs).
Proof. intros T NJ. apply c28_partial; try assumption. eapply func_typed_no_pseudo; eassumption. Qed.
(** and then such branches are the only reason for rejection *)
Lemma c28_only_own_jumps c f t : func_type true true (tenv_of c) f t ->
  ((exists cs, v_func f (c, empty_stacks) = VOk (t, cs)) <-> no_own_jump (fn_body f)).
Proof.
  intros T. pose proof (func_typed_no_pseudo _ _ _ _ _ T) as NP. split; [|apply c28; assumption].
  intros A. apply v_func_typing in A; [|assumption]. apply own_label_iff in A. apply A.
Qed.

(** ** C29 *)
Lemma label_slot_64 checks i len : i < 2 ^ 32 -> len < 2 ^ 63 ->
  label_slot checks 64 i len = if i + 1 <? len then VOk (len - i - 1) else VErr.
Proof.
  intros H L. unfold label_slot, usize_add, usize_sub. rewrite (N.mod_small i) by (change (2 ^ 64) with 18446744073709551616; change (2 ^ 32) with 4294967296 in H; lia).
  change (2 ^ 32) with 4294967296 in H. change (2 ^ 63) with 9223372036854775808 in L. change (2 ^ 64) with 18446744073709551616.
  destruct (N.ltb_spec (i + 1) 18446744073709551616); [|lia]. cbn [vbind].
  destruct (N.ltb_spec (i + 1) len); cbn [negb]; [|reflexivity].
  destruct (N.leb_spec i len); [|lia]. cbn [vbind]. destruct (N.leb_spec 1 (len - i)); [|lia]. cbn [vbind].
  destruct (N.ltb_spec (len - i - 1) len); [reflexivity|lia].
Qed.
Lemma label_slot_32 checks i len : i < 2 ^ 32 -> 0 < len < 2 ^ 32 ->
  (label_slot checks 32 i len = VPanic <-> i = 2 ^ 32 - 1).
Proof.
  intros H L. unfold label_slot, usize_add, usize_sub. rewrite (N.mod_small i) by assumption.
  change (2 ^ 32 - 1) with 4294967295. change (2 ^ 32) with 4294967296 in *.
  destruct (N.ltb_spec (i + 1) 4294967296) as [A|A]; cbn [vbind].
  - split; [|lia]. intros P. exfalso. destruct (N.ltb_spec (i + 1) len); cbn [negb] in P; [|discriminate].
    destruct (N.leb_spec i len); [|lia]. cbn [vbind] in P. destruct (N.leb_spec 1 (len - i)); [|lia]. cbn [vbind] in P.
    destruct (N.ltb_spec (len - i - 1) len); [discriminate|lia].
  - assert (i = 4294967295) as -> by lia. split; [reflexivity|]. intros _. destruct checks; [reflexivity|].
    change ((4294967295 + 1) mod 4294967296) with 0. cbn [vbind]. destruct (N.ltb_spec 0 len); [|lia]. cbn [negb].
    destruct (N.leb_spec 4294967295 len) as [B|B]; cbn [vbind].
    + assert (len = 4294967295) as -> by lia. reflexivity.
    + destruct (N.leb_spec 1 (len + 4294967296 - 4294967295)); [|lia]. cbn [vbind].
      destruct (N.ltb_spec (len + 4294967296 - 4294967295 - 1) len); [lia|reflexivity].
Qed.
Lemma v_labelidx_slot checks s i : i < 2 ^ 32 -> N.of_nat (length (frames s)) < 2 ^ 63 ->
  v_labelidx s i = (slot <-- label_slot checks 64 i (N.of_nat (length (frames s))) ;;
                    match nth_error (rev (frames s)) (N.to_nat slot) with Some fr => VOk fr | None => VPanic end).
Proof.
  intros H L. rewrite label_slot_64 by assumption. unfold v_labelidx. destruct (i + 1 <? N.of_nat (length (frames s))); reflexivity.
Qed.

Lemma validate_total m : (exists mt, validate m = VOk mt) \/ validate m = VErr.
Proof. pose proof (validate_no_panic m). destruct (validate m); [left; eauto|right; reflexivity|contradiction]. Qed.
Lemma label_32_refutes : exists i, i < 2 ^ 32 /\ forall checks len, 0 < len < 2 ^ 32 -> label_slot checks 32 i len = VPanic.
Proof. exists (2 ^ 32 - 1). split; [reflexivity|]. intros checks len H. apply label_slot_32; [reflexivity|assumption|reflexivity]. Qed.

(** ** C30 *)
Lemma const_refs C e j : const_expr C e -> occurs j e -> const_instr C j.
Proof.
  intros H O. unfold const_expr in H. rewrite Forall_forall in H.
  inversion O as [? I|i sub ? I S O']; subst; [apply H; assumption|].
  apply H in I. destruct i; cbn in I, S; contradiction.
Qed.
Lemma const_instr_refs C j sp x : const_instr C j -> In (sp, x) (refs j) -> sp = S_Global /\ x < N.of_nat (length (te_globals C)).
Proof.
  intros CI I. destruct j; try contradiction CI; cbn in I; try contradiction I.
  destruct CI as (g & A & _). destruct I as [[= <- <-]|[]]. split; [reflexivity|]. eapply at_index_lt; exact A.
Qed.
Lemma Forall2_length' {A B} (R : A -> B -> Prop) xs ys : Forall2 R xs ys -> length xs = length ys.
Proof. induction 1; cbn; lia. Qed.
Lemma accepted_no_dangling m : accepted m -> no_dangling m.
Proof.
  intros A. apply accepted_checked in A as (fts & ims & exs & [FS F1 F2 F3 F4 F5 F6 F7 F8 F9 F10 LT LM EN]).
  assert (FL : length (func_index m) = length fts) by exact (Forall2_length' _ _ _ FS).
  rewrite Forall_forall in *. repeat split.
  - intros s x I. unfold module_refs in I. repeat (apply in_app_or in I as [I|I]).
    + apply in_map_iff in I as (f & [= <- <-] & I). destruct (F2 _ I) as [t Ht]. apply v_func_run in Ht as [Ht _]. cbn in Ht.
      apply at_index_lt in Ht. exact Ht.
    + apply in_flat_map in I as (e & I & J). destruct (F6 _ I) as ((t & T & _) & _ & FF). destruct J as [[= <- <-]|J].
      * apply at_index_lt in T. exact T.
      * apply in_map_iff in J as (y & [= <- <-] & J). rewrite Forall_forall in FF. destruct (FF _ J) as [ft T2]. apply at_index_lt in T2. cbn in T2.
        unfold size; rewrite FL. exact T2.
    + apply in_map_iff in I as (d & [= <- <-] & I). destruct (F7 _ I) as ((t & T) & _). apply at_index_lt in T. exact T.
    + destruct (m_start m) as [st|]; [|contradiction]. destruct I as [[= <- <-]|[]]. specialize (F8 _ eq_refl). apply at_index_lt in F8. cbn in F8.
      unfold size; rewrite FL. exact F8.
    + apply in_flat_map in I as (im & I & J). destruct (im_desc im) as [y|t|t|t] eqn:D; try contradiction. destruct J as [[= <- <-]|[]].
      clear - I F9 D. induction F9 as [|im' e ims' exs' [T _] F IH]; [contradiction|]. destruct I as [->|I]; [|auto].
      unfold import_type in T. rewrite D in T. destruct e; try contradiction. apply at_index_lt in T. exact T.
    + apply in_map_iff in I as (ex & E & I). assert (K : exists e, export_type (module_env m fts) ex e).
      { clear - I F10. induction F10 as [|x e l exs' T F IH]; [contradiction|]. destruct I as [->|I]; eauto. }
      destruct K as [e K]. unfold export_type in K.
      destruct (ex_desc ex) as [y|y|y|y]; destruct e; try contradiction; injection E as <- <-; apply at_index_lt in K; try exact K.
      cbn in K. unfold size; rewrite FL. exact K.
  - intros e j s x I O R. unfold init_exprs in I. repeat (apply in_app_or in I as [I|I]).
    + apply in_map_iff in I as (g & <- & I). destruct (F5 _ I) as [CE _]. pose proof (const_refs _ _ _ CE O) as CI.
      destruct (const_instr_refs _ _ _ _ CI R) as [-> L]. cbn in L. unfold size, global_space. rewrite app_length. lia.
    + apply in_map_iff in I as (g & <- & I). destruct (F6 _ I) as (_ & [CE _] & _). pose proof (const_refs _ _ _ CE O) as CI.
      destruct (const_instr_refs _ _ _ _ CI R) as [-> L]. exact L.
    + apply in_map_iff in I as (g & <- & I). destruct (F7 _ I) as (_ & [CE _]). pose proof (const_refs _ _ _ CE O) as CI.
      destruct (const_instr_refs _ _ _ _ CI R) as [-> L]. exact L.
  - intros f ft j s x I T O R. destruct (F2 _ I) as [t Ht]. pose proof (func_refs _ _ _ _ _ _ _ Ht O R) as L.
    apply v_func_run in Ht as [Ht _]. cbn in Ht. assert (t = ft) as -> by (unfold at_index in *; congruence).
    destruct s; cbn in L; unfold size; rewrite ?FL; exact L.
  - intros f I. destruct (F2 _ I) as [t Ht]. eapply func_jumps; exact Ht.
Qed.

(** ** C31 *)
Lemma validate_externals m mt : validate m = VOk mt ->
  exists fts, func_space m fts /\
    Forall2 (import_type (module_env m fts)) (m_imports m) (map ext_of (mt_imports mt)) /\
    Forall2 (export_type (module_env m fts)) (m_exports m) (map ext_of (mt_exports mt)).
Proof.
  intros H. apply v_module_checked in H as (fts & []). exists fts. repeat split; try assumption.
  clear - mc_imports_ok. induction mc_imports_ok as [|? ? ? ? [] ? ?]; constructor; auto.
Qed.

(** ** C32 *)
Lemma module_checked_exports m exs' fts ims xs : module_checked m fts ims xs -> map ex_desc exs' = map ex_desc (m_exports m) ->
  NoDup (map ex_name exs') -> module_checked (with_exports m exs') fts ims xs.
Proof.
  intros [] E ND. constructor; try assumption.
  cbn [m_exports with_exports]. change (module_env (with_exports m exs') fts) with (module_env m fts).
  clear - E mc_exports_ok. revert xs mc_exports_ok. revert E. generalize (m_exports m). induction exs' as [|e exs' IH]; intros [|x l] E xs F; try discriminate E.
  - inversion F; subst. constructor.
  - inversion F as [|? y ? ys T F' E1 E2]; subst. injection E as E1 E2. constructor; [|eapply IH; eassumption].
    unfold export_type in *. rewrite E1. exact T.
Qed.
Lemma export_renaming m exs' : map ex_desc exs' = map ex_desc (m_exports m) -> accepted m ->
  (accepted (with_exports m exs') <-> NoDup (map ex_name exs')).
Proof.
  intros E A. split.
  - intros B. apply accepted_checked in B as (fts & ims & xs & []). assumption.
  - intros ND. apply accepted_checked in A as (fts & ims & xs & M). apply accepted_checked. exists fts, ims, xs.
    apply module_checked_exports; assumption.
Qed.

Lemma export_names_unique m : accepted m -> NoDup (map ex_name (m_exports m)).
Proof. intros A. apply accepted_checked in A as (fts & ims & xs & []). assumption. Qed.

(** ** C33 *)
Lemma start_iff m s : accepted (with_start m (Some s)) <->
  accepted (with_start m None) /\ exists fts, func_space m fts /\ at_index fts (st_func s) (mkFuncTy [] []).
Proof.
  rewrite !accepted_checked. split.
  - intros (fts & ims & xs & []). split.
    + exists fts, ims, xs. constructor; try assumption. cbn. discriminate.
    + exists fts. split; [assumption|]. apply (mc_start_ok s eq_refl).
  - intros [(fts & ims & xs & []) (fts' & FS & AT)]. pose proof (func_space_det m fts fts' mc_funcs_typed FS) as <-.
    exists fts, ims, xs. constructor; try assumption. intros s' [= <-]. exact AT.
Qed.

(** ** C34 *)
Lemma v_limits_no_panic l bound : (range <-- v_limits l ;; if negb (range <=? bound) then VErr else VOk tt) = VPanic -> False.
Proof. unfold v_limits. destruct (negb _); cbn; [discriminate|]. destruct (negb _); discriminate. Qed.
Lemma v_tablety_u32 t : Forall (fun n => n < 2 ^ 32) (limits_u32s (tt_lim t)) ->
  (v_tablety t = VOk tt <-> forall x, lim_max (tt_lim t) = Some x -> lim_min (tt_lim t) <= x).
Proof.
  intros F. rewrite v_tablety_iff. unfold limits_ok, limits_u32s in *. change (2 ^ 32 - 1) with 4294967295. change (2 ^ 32) with 4294967296 in F.
  inversion F as [|? ? F1 F2]; subst. split.
  - intros [_ H] x E. apply H in E. apply E.
  - intros H. split; [lia|]. intros x E. rewrite E in F2. inversion F2; subst. split; [lia|auto].
Qed.

Lemma table_limits t : Forall (fun n => n < 2 ^ 32) (limits_u32s (tt_lim t)) ->
  (v_tablety t = VOk tt <-> limits_ok (2 ^ 32) (tt_lim t)).
Proof.
  intros F. rewrite v_tablety_u32 by assumption. change (2 ^ 32) with 4294967296 in *. unfold limits_ok, limits_u32s in *.
  inversion F as [|? ? F1 F2]; subst. split.
  - intros H. split; [lia|]. intros x E. rewrite E in F2. inversion F2; subst. split; [lia|auto].
  - intros [_ H] x E. apply H in E. apply E.
Qed.

(** ** C35 *)
Lemma one_table_mem m : accepted m -> (length (m_tables m) <= 1)%nat /\ (length (m_mems m) <= 1)%nat.
Proof. intros A. apply accepted_checked in A as (fts & ims & xs & []). auto. Qed.

(** ** C36 *)
Lemma global_init_ok m : accepted m -> forall g, In g (m_globals m) ->
  init_ok (globals_env (map glob_ty (m_globals m))) (glob_init g) (gt_val (glob_ty g)).
Proof. intros A g I. apply accepted_checked in A as (fts & ims & xs & []). rewrite Forall_forall in mc_globals_ok. apply mc_globals_ok. assumption. Qed.
Lemma init_ok_no_get C C' e t : no_global_get e -> init_ok C e t -> init_ok C' e t.
Proof.
  intros NG [CE T].
  assert (K : Forall (fun i => match i with I_ConstI32 _ | I_ConstI64 _ | I_ConstF32 _ | I_ConstF64 _ => True | _ => False end) e).
  { unfold const_expr in CE. rewrite Forall_forall in *. intros i I. specialize (CE i I). destruct i; try exact CE. exfalso. eapply NG. apply occurs_here. exact I. }
  clear CE NG. split.
  - unfold const_expr. eapply Forall_impl; [|exact K]. intros i. destruct i; cbn; auto; contradiction.
  - unfold expr_type in *. induction T as [|C is i t1 t0 t' t3 S IH I]; [constructor|]. apply Forall_app in K as [K1 K2]. inversion K2 as [|? ? K3 _]; subst.
    econstructor; [apply IH; assumption|]. destruct i; try contradiction K3; inversion I; subst; try discriminate; apply T_plain; assumption.
Qed.

Lemma global_init m g : accepted m -> In g (m_globals m) ->
  init_ok (globals_env (map glob_ty (m_globals m))) (glob_init g) (gt_val (glob_ty g)) /\
  (no_global_get (glob_init g) -> init_ok (globals_env (imported_globals (m_imports m))) (glob_init g) (gt_val (glob_ty g))).
Proof.
  intros A I. pose proof (global_init_ok m A g I) as O. split; [assumption|]. intros N. eapply init_ok_no_get; eassumption.
Qed.

(** ** C37 *)
Lemma elem_iff m es : accepted (with_elem m es) <->
  accepted (with_elem m []) /\ exists fts, func_space m fts /\ Forall (elem_ok (module_env m fts)) es.
Proof.
  rewrite !accepted_checked. split.
  - intros (fts & ims & xs & []). split.
    + exists fts, ims, xs. constructor; try assumption. constructor.
    + exists fts. split; assumption.
  - intros [(fts & ims & xs & []) (fts' & FS & AT)]. pose proof (func_space_det m fts fts' mc_funcs_typed FS) as <-.
    exists fts, ims, xs. constructor; assumption.
Qed.
Lemma data_iff m ds : accepted (with_data m ds) <->
  accepted (with_data m []) /\ exists fts, func_space m fts /\ Forall (data_ok (module_env m fts)) ds.
Proof.
  rewrite !accepted_checked. split.
  - intros (fts & ims & xs & []). split.
    + exists fts, ims, xs. constructor; try assumption. constructor.
    + exists fts. split; assumption.
  - intros [(fts & ims & xs & []) (fts' & FS & AT)]. pose proof (func_space_det m fts fts' mc_funcs_typed FS) as <-.
    exists fts, ims, xs. constructor; assumption.
Qed.

(** ** C38 *)
Lemma context_from_locals m c : context_from m = VOk c -> c_locals c = [] /\ c_ret c = None.
Proof. intros H. apply context_from_iff in H as (fts & _ & ->). auto. Qed.
Lemma funcs_independent m c fs : context_from m = VOk c ->
  ((exists r, v_each v_func fs (c, empty_stacks) = VOk r) <->
   Forall (fun f => exists t, v_func f (c, empty_stacks) = VOk (t, (c, empty_stacks))) fs).
Proof.
  intros H. apply context_from_locals in H as [L R]. rewrite <- (v_each_unit v_func fs (c, empty_stacks) _ (v_func_pure c L R) (fun f _ => iff_refl _)). split.
  - intros [[rs cs] E]. pose proof E as E'. apply v_each_iff in E' as [E' _]; [|apply v_func_pure; assumption]. cbn in E'. subst. eauto.
  - intros [rs E]. eauto.
Qed.
Lemma elem_permutation m es : Permutation (m_elem m) es -> forall mt, validate m = VOk mt <-> validate (with_elem m es) = VOk mt.
Proof.
  intros P mt. unfold validate. rewrite !v_module_checked. split; intros (fts & []); exists fts; constructor; try assumption.
  - cbn. eapply Permutation_Forall; eassumption.
  - cbn in mc_elem_ok. eapply Permutation_Forall; [apply Permutation_sym; eassumption|exact mc_elem_ok].
Qed.
Lemma data_permutation m ds : Permutation (m_data m) ds -> forall mt, validate m = VOk mt <-> validate (with_data m ds) = VOk mt.
Proof.
  intros P mt. unfold validate. rewrite !v_module_checked. split; intros (fts & []); exists fts; constructor; try assumption.
  - cbn. eapply Permutation_Forall; eassumption.
  - cbn in mc_data_ok. eapply Permutation_Forall; [apply Permutation_sym; eassumption|exact mc_data_ok].
Qed.
(** two accepted modules with the same index spaces: mixing their functions is accepted *)
Lemma funcs_mix m fs gs : map fn_ty fs = map fn_ty (m_funcs m) -> map fn_ty gs = map fn_ty (m_funcs m) ->
  accepted (with_funcs m fs) -> accepted (with_funcs m gs) ->
  forall hs, map fn_ty hs = map fn_ty (m_funcs m) -> (forall h, In h hs -> In h fs \/ In h gs) -> accepted (with_funcs m hs).
Proof.
  intros E1 E2 A B hs E3 H. rewrite accepted_checked in *. destruct A as (fts & ims & xs & A), B as (fts' & ims' & xs' & B).
  assert (FSA : func_space m fts).
  { pose proof (mc_funcs_typed _ _ _ _ A) as K. unfold func_space, func_index in *. cbn in K. rewrite E1 in K. exact K. }
  assert (FSB : func_space m fts').
  { pose proof (mc_funcs_typed _ _ _ _ B) as K. unfold func_space, func_index in *. cbn in K. rewrite E2 in K. exact K. }
  pose proof (func_space_det m fts fts' FSA FSB) as <-.
  exists fts, ims, xs. destruct A, B. constructor; try assumption.
  - unfold func_space, func_index in *. cbn. rewrite E3. exact FSA.
  - cbn in *. rewrite Forall_forall in *. intros h I. destruct (H h I) as [J|J]; [apply mc_funcs_ok|apply mc_funcs_ok0]; exact J.
Qed.
(** likewise for functions, globals and segments together *)
Lemma contents_ctx m fs gs es ds fts : map glob_ty gs = map glob_ty (m_globals m) -> map fn_ty fs = map fn_ty (m_funcs m) ->
  module_ctx (with_contents m fs gs es ds) fts = module_ctx m fts /\ module_env (with_contents m fs gs es ds) fts = module_env m fts /\
  (func_space (with_contents m fs gs es ds) fts <-> func_space m fts).
Proof.
  intros G F. unfold module_ctx, module_env, func_space, func_index, global_space, with_contents. cbn. rewrite G, F. repeat split; auto.
Qed.
Lemma contents_mix m fs gs es ds fs' gs' es' ds' :
  map fn_ty fs = map fn_ty (m_funcs m) -> map fn_ty fs' = map fn_ty (m_funcs m) ->
  map glob_ty gs = map glob_ty (m_globals m) -> map glob_ty gs' = map glob_ty (m_globals m) ->
  accepted (with_contents m fs gs es ds) -> accepted (with_contents m fs' gs' es' ds') ->
  forall fs2 gs2 es2 ds2, map fn_ty fs2 = map fn_ty (m_funcs m) -> map glob_ty gs2 = map glob_ty (m_globals m) ->
  (forall x, In x fs2 -> In x fs \/ In x fs') -> (forall x, In x gs2 -> In x gs \/ In x gs') ->
  (forall x, In x es2 -> In x es \/ In x es') -> (forall x, In x ds2 -> In x ds \/ In x ds') ->
  accepted (with_contents m fs2 gs2 es2 ds2).
Proof.
  intros F1 F2 G1 G2 A B fs2 gs2 es2 ds2 F3 G3 HF HG HE HD. rewrite accepted_checked in *.
  destruct A as (fts & ims & xs & A), B as (fts' & ims' & xs' & B).
  destruct (contents_ctx m fs gs es ds fts G1 F1) as (CA & EA & SA). destruct (contents_ctx m fs' gs' es' ds' fts' G2 F2) as (CB & EB & SB).
  pose proof (func_space_det m fts fts' (proj1 SA (mc_funcs_typed _ _ _ _ A)) (proj1 SB (mc_funcs_typed _ _ _ _ B))) as <-.
  destruct (contents_ctx m fs2 gs2 es2 ds2 fts G3 F3) as (CC & EC & SC).
  exists fts, ims, xs. destruct A, B. rewrite ?CA, ?EA in *. rewrite ?CB, ?EB in *. cbn in *. rewrite G1, G2 in *.
  constructor; rewrite ?CC, ?EC; cbn; try assumption.
  - apply SC, SA. assumption.
  - rewrite Forall_forall in *. intros x I. destruct (HF x I); auto.
  - rewrite G3. rewrite Forall_forall in *. intros x I. destruct (HG x I); auto.
  - rewrite Forall_forall in *. intros x I. destruct (HE x I); auto.
  - rewrite Forall_forall in *. intros x I. destruct (HD x I); auto.
Qed.

(** ** C39 *)
Lemma global_set_mutable m f x : accepted m -> In f (m_funcs m) -> occurs (I_GlobalSet x) (fn_body f) ->
  exists g, at_index (global_space m) x g /\ gt_mut g = Var.
Proof.
  intros A I O. apply accepted_checked in A as (fts & ims & xs & []). rewrite Forall_forall in mc_funcs_ok.
  destruct (mc_funcs_ok _ I) as [t H]. apply (func_global_set _ _ _ _ _ H) in O. exact O.
Qed.
Lemma init_no_set m e x : accepted m -> In e (init_exprs m) -> ~ occurs (I_GlobalSet x) e.
Proof.
  intros A I O. apply accepted_checked in A as (fts & ims & xs & []). rewrite Forall_forall in *.
  unfold init_exprs in I. repeat (apply in_app_or in I as [I|I]); apply in_map_iff in I as (g & <- & I).
  - destruct (mc_globals_ok _ I) as [CE _]. exact (const_refs _ _ _ CE O).
  - destruct (mc_elem_ok _ I) as (_ & [CE _] & _). exact (const_refs _ _ _ CE O).
  - destruct (mc_data_ok _ I) as (_ & [CE _]). exact (const_refs _ _ _ CE O).
Qed.

(** ** C40 *)
Lemma c40_iff m : (forall f, In f (m_funcs m) -> no_pseudo (fn_body f)) -> (accepted m <-> valid_module whasm_validity m).
Proof. intros H. apply validate_iff. unfold code_ok. rewrite Forall_forall. exact H. Qed.

Lemma imports_ext_ok d m fts ims :
  Forall2 (fun im x => import_type (module_env m fts) im x /\ ext_ok d x) (m_imports m) ims <->
  Forall2 (import_type (module_env m fts)) (m_imports m) ims /\
  Forall (fun t => limits_ok (vd_table_bound d) (tt_lim t)) (imported_tables (m_imports m)) /\
  Forall (fun t => limits_ok (vd_mem_bound d) (mt_lim t)) (imported_mems (m_imports m)).
Proof.
  generalize (module_env m fts). intros C. unfold imported_tables, imported_mems.
  generalize (m_imports m) as l. intros l. split.
  - intros F. induction F as [|im x l ims [T O] F (A & B & D)]; [repeat constructor|]. split; [constructor; assumption|].
    cbn [flat_map]. rewrite !Forall_app. unfold import_type in T. destruct (im_desc im), x; try contradiction; subst; auto.
  - intros (F & A & B). revert A B. induction F as [|im x l ims T F IH]; intros A B; [constructor|].
    cbn [flat_map] in A, B. rewrite Forall_app in A, B. destruct A as [A1 A2], B as [B1 B2]. constructor; [|auto]. split; [assumption|].
    unfold import_type in T. destruct (im_desc im), x; try contradiction; subst; try exact I; [inversion A1|inversion B1]; assumption.
Qed.
Lemma limits_ok_mono a b l : a <= b -> limits_ok a l -> limits_ok b l.
Proof. intros L [A B]. split; [lia|]. intros x E. apply B in E as [E1 E2]. lia. Qed.
Lemma Forall_mono {A} (P Q : A -> Prop) l : (forall x, P x -> Q x) -> Forall P l -> Forall Q l.
Proof. intros H. apply Forall_impl. exact H. Qed.
Lemma limits_small n l : Forall (fun x => x < n) (limits_u32s l) -> forall b, limits_ok b l -> limits_ok (n - 1) l.
Proof.
  intros F b [_ B]. unfold limits_u32s in F. inversion F as [|? ? F1 F2]; subst. split; [lia|].
  intros x E. rewrite E in F2. inversion F2; subst. split; [lia|]. apply (B x E).
Qed.

Theorem c40_sound m : accepted m ->
  (forall f, In f (m_funcs m) -> no_pseudo (fn_body f) /\ natural_alignment (fn_body f)) ->
  (forall g, In g (m_globals m) -> no_global_get (glob_init g)) ->
  (length (table_space m) <= 1)%nat -> (length (mem_space m) <= 1)%nat ->
  valid_module wasm10_validity m.
Proof.
  intros A HF HG LT LM. apply c40_iff in A; [|intros f I; apply HF; assumption].
  destruct A as (fts & ims & xs & [FS F1 F2 F3 F4 F5 F6 F7 F8 F9 F10 _ _ EN]). exists fts, ims, xs. constructor; try assumption.
  - rewrite Forall_forall in *. intros f I. destruct (F2 f I) as [ft T]. exists ft. apply function_dialects. split; [assumption|]. apply HF. assumption.
  - eapply Forall_mono; [|exact F3]. intros t. apply limits_ok_mono. discriminate.
  - eapply Forall_mono; [|exact F4]. intros t. apply limits_ok_mono. discriminate.
  - rewrite Forall_forall in *. intros g I. eapply init_ok_no_get; [apply HG; assumption|]. apply F5. assumption.
  - apply imports_ext_ok in F9 as (P & Q & R). apply imports_ext_ok. repeat split; [assumption|..].
    + eapply Forall_mono; [|exact Q]. intros t. apply limits_ok_mono. discriminate.
    + eapply Forall_mono; [|exact R]. intros t. apply limits_ok_mono. discriminate.
Qed.
Theorem c40_complete m : valid_module wasm10_validity m ->
  (forall f, In f (m_funcs m) -> no_own_jump (fn_body f)) ->
  (forall g, In g (m_globals m) -> no_global_get (glob_init g)) ->
  limits_u32 m -> small_memories m ->
  accepted m.
Proof.
  intros (fts & ims & xs & [FS F1 F2 F3 F4 F5 F6 F7 F8 F9 F10 LT LM EN]) HJ HG LU SM.
  unfold limits_u32, small_memories, table_space, mem_space in LU, SM. rewrite Forall_app in LU, SM. destruct LU as [LU1 LU2], SM as [SM1 SM2].
  cbn [vd_count_imports wasm10_validity] in LT, LM. unfold table_space, mem_space in LT, LM. rewrite app_length, map_length in LT, LM.
  apply c40_iff.
  - intros f I. rewrite Forall_forall in F2. destruct (F2 f I) as [ft T]. eapply func_typed_no_pseudo; exact T.
  - exists fts, ims, xs. constructor; try assumption.
    + rewrite Forall_forall in *. intros f I. destruct (F2 f I) as [ft T]. exists ft. apply (proj2 (function_dialects _ _ _)). split; [assumption|]. apply HJ. assumption.
    + rewrite Forall_forall in *. intros t I. eapply limits_small; [|apply F3; assumption]. apply LU2. apply in_map. assumption.
    + rewrite Forall_forall in *. intros t I. eapply limits_small; [|apply F4; assumption]. apply SM2. apply in_map. assumption.
    + rewrite Forall_forall in *. intros g I. eapply init_ok_no_get; [apply HG; assumption|]. apply F5. assumption.
    + apply imports_ext_ok in F9 as (P & Q & R). apply imports_ext_ok. repeat split; [assumption|..].
      * rewrite Forall_forall in *. intros t I. eapply limits_small; [apply LU1; assumption|apply Q; assumption].
      * rewrite Forall_forall in *. intros t I. eapply limits_small; [apply SM1; assumption|apply R; assumption].
    + cbn [vd_count_imports whasm_validity]. rewrite map_length. lia.
    + cbn [vd_count_imports whasm_validity]. rewrite map_length. lia.
Qed.

(** ** C41 *)
Lemma no_end m e : accepted m -> In e (module_exprs m) -> ~ occurs I_End e.
Proof.
  intros A I O. apply accepted_checked in A as (fts & ims & xs & []). rewrite Forall_forall in *.
  unfold module_exprs in I. repeat (apply in_app_or in I as [I|I]); apply in_map_iff in I as (g & <- & I).
  - destruct (mc_funcs_ok _ I) as [t H]. apply func_no_end in H. apply occurs_ends in O. lia.
  - destruct (mc_globals_ok _ I) as [CE _]. exact (const_refs _ _ _ CE O).
  - destruct (mc_elem_ok _ I) as (_ & [CE _] & _). exact (const_refs _ _ _ CE O).
  - destruct (mc_data_ok _ I) as (_ & [CE _]). exact (const_refs _ _ _ CE O).
Qed.
Lemma no_else_in_init m e : accepted m -> In e (init_exprs m) -> ~ occurs I_Else e.
Proof.
  intros A I O. apply accepted_checked in A as (fts & ims & xs & []). rewrite Forall_forall in *.
  unfold init_exprs in I. repeat (apply in_app_or in I as [I|I]); apply in_map_iff in I as (g & <- & I).
  - destruct (mc_globals_ok _ I) as [CE _]. exact (const_refs _ _ _ CE O).
  - destruct (mc_elem_ok _ I) as (_ & [CE _] & _). exact (const_refs _ _ _ CE O).
  - destruct (mc_data_ok _ I) as (_ & [CE _]). exact (const_refs _ _ _ CE O).
Qed.
