(** The verdict of the code and validity in WebAssembly 2.0 (C79). *)
From Coq Require Import Lia.
From Verif Require Import ParserModule SpecLaterValid SpecVerdict ModuleClaims CodeProof EncodeProof TypingProof DialectValidProof ValidityClaims InitProof CliProof ModuleClaims2 DeviationProof LaterTypingProof LaterProof LaterClaims.
Open Scope N_scope.
Open Scope list_scope.

(** ** Imports *)
Lemma imported_funcs_later ims : imported_funcs2 (map later_import ims) = imported_funcs ims.
Proof.
  unfold imported_funcs2, imported_funcs. induction ims as [|i ims IH]; [reflexivity|]. cbn. rewrite IH. destruct (im_desc i); reflexivity.
Qed.
Lemma imported_tables_later ims : imported_tables2 (map later_import ims) = map later_tablety (imported_tables ims).
Proof.
  unfold imported_tables2, imported_tables. induction ims as [|i ims IH]; [reflexivity|]. cbn. rewrite IH, map_app. destruct (im_desc i); reflexivity.
Qed.
Lemma imported_mems_later ims : imported_mems2 (map later_import ims) = imported_mems ims.
Proof.
  unfold imported_mems2, imported_mems. induction ims as [|i ims IH]; [reflexivity|]. cbn. rewrite IH. destruct (im_desc i); reflexivity.
Qed.
Lemma imported_globals_later ims : imported_globals2 (map later_import ims) = map later_globalty (imported_globals ims).
Proof.
  unfold imported_globals2, imported_globals. induction ims as [|i ims IH]; [reflexivity|]. cbn. rewrite IH, map_app. destruct (im_desc i); reflexivity.
Qed.
Lemma mems_later m : mems2 (later_module m) = length (mem_space m).
Proof.
  unfold mems2, mem_space. rewrite app_length. cbn [m2_imports m2_mems later_module]. rewrite !map_length. f_equal.
  unfold SpecLater.count, imported_mems. induction (m_imports m) as [|i ims IH]; [reflexivity|]. cbn. destruct (im_desc i); cbn; congruence.
Qed.

(** ** Contexts *)
Definition seg_env (own : bool) (m : module) (fts : list functy) : tenv :=
  mkTenv [] fts (table_space m) (mem_space m) (imported_globals (m_imports m) ++ if own then map glob_ty (m_globals m) else []) [] [] None.
Lemma module_env_later m fts : module_env2 (later_module m) (map later_functy fts) = later_env (module_env m fts) (refs2 (later_module m)).
Proof.
  unfold module_env2, later_env. cbn [m2_imports m2_tables m2_mems m2_globals m2_types later_module te_types te_funcs te_tables te_mems te_globals te_locals te_labels te_return module_env option_map].
  rewrite imported_tables_later, imported_mems_later, imported_globals_later. unfold table_space, mem_space, global_space. rewrite !map_app, !map_map. reflexivity.
Qed.
Lemma init_env_later own m fts : init_env2 own (later_module m) (map later_functy fts) = later_env (seg_env own m fts) (refs2 (later_module m)).
Proof.
  unfold init_env2, later_env. cbn [m2_imports m2_tables m2_mems m2_globals m2_types later_module te_types te_funcs te_tables te_mems te_globals te_locals te_labels te_return seg_env option_map].
  rewrite imported_tables_later, imported_mems_later, imported_globals_later. unfold table_space, mem_space, global_space. destruct own; cbn [map]; rewrite !map_app, !map_map; reflexivity.
Qed.

(** ** Initialisers *)
Lemma init_globals C C' e t : te_globals C = te_globals C' -> init_ok C e t -> init_ok C' e t.
Proof.
  intros G H. apply init_one in H as (i & -> & CI & T). apply init_one. exists i. split; [reflexivity|].
  destruct i; try contradiction CI; (split; [cbn in *; try rewrite <- G; assumption|]).
  - inversion T; subst; [discriminate|]. apply T_global_get. rewrite <- G. assumption.
  - inversion T; subst; try discriminate. apply T_plain. assumption.
  - inversion T; subst; try discriminate. apply T_plain. assumption.
  - inversion T; subst; try discriminate. apply T_plain. assumption.
  - inversion T; subst; try discriminate. apply T_plain. assumption.
Qed.
Lemma const_later C R i : const_instr2 (later_env C R) (later_instr i) <-> const_instr C i.
Proof.
  destruct i; cbn; try tauto. split.
  - intros (g & A & M). apply at_map in A as (z & -> & A). exists z. auto.
  - intros (g & A & M). exists (later_globalty g). split; [apply at_later; exact A|exact M].
Qed.
Lemma const_short C e : const_expr C e -> short e.
Proof.
  intros F j rt O E. exfalso. unfold const_expr in F. rewrite Forall_forall in F. inversion O as [? I|x sub ? I K O']; subst.
  - specialize (F j I). destruct j; try discriminate E; contradiction F.
  - specialize (F x I). destruct x; try contradiction F; destruct K.
Qed.
Lemma const_agree C ls e : const_expr C e -> Forall (tables_agree ls) e.
Proof. apply Forall_impl. intros i. destruct i; cbn; tauto. Qed.
Section Prefixed.
Variable P : env2 -> byte -> list byte -> list opd -> list opd -> Prop.
Lemma init_later C R e t : init2_ok P (later_env C R) (later_expr e) (W_num t) <-> init_ok C e t.
Proof.
  unfold init2_ok, init_ok. assert (E : Forall (const_instr2 (later_env C R)) (later_expr e) <-> const_expr C e).
  { unfold later_expr, const_expr. rewrite Forall_map. split; apply Forall_impl; intros i; apply const_later. }
  rewrite E. split; intros [K T]; (split; [exact K|]).
  - apply (expr_later P C R e [t]); [eapply const_short; exact K|]. split; [exact T|]. eapply const_agree; exact K.
  - apply (expr_later P C R e [t]) in T; [|eapply const_short; exact K]. exact (proj1 T).
Qed.
Lemma ref_func_init C x : init2_ok P C [J_ref_func x] (W_ref R_func) <-> (exists ft, at_index (e2_funcs C) x ft) /\ e2_refs C x.
Proof.
  split.
  - intros [_ (us & T & _)]. remember [J_ref_func x] as js eqn:E in T. destruct T as [|? is i ts1 ts0 ts' ts ts3 S L I]; [discriminate E|]. destruct is as [|? is]; [|destruct is; discriminate E]. injection E as ->.
    inversion I; subst; eauto.
  - intros [[ft A] B]. split; [constructor; [exact Logic.I|constructor]|]. exists [Opd (W_ref R_func)]. split; [|apply opds_le_refl].
    apply (S2_snoc P C [] (J_ref_func x) [] [] [] [] [Opd (W_ref R_func)]); [constructor|constructor|]. eapply T2_ref_func; eassumption.
Qed.

(** ** Functions *)
Lemma func_later m fts f : short (fn_body f) ->
  (func2_ok P (module_env2 (later_module m) (map later_functy fts)) (later_func f) /\ func_tables_agree m f <->
   exists ft, func_type true true (module_env m fts) f ft).
Proof.
  intros S. rewrite module_env_later. unfold func2_ok, func_type.
  assert (E : forall ft, func_env2 (later_env (module_env m fts) (refs2 (later_module m))) (later_functy ft) (map W_num (fn_locals f)) =
    later_env (func_env true (module_env m fts) ft (fn_locals f)) (refs2 (later_module m))).
  { intros ft. unfold func_env2, later_env, func_env. cbn. rewrite map_app. reflexivity. }
  split.
  - intros [(ft2 & A & T) AG]. apply at_map in A as (ft & -> & A). cbn [fn2_locals fn2_body later_func ft2_results later_functy] in T. exists ft. split; [exact A|].
    change (func_env2 _ _ _) with (func_env2 (later_env (module_env m fts) (refs2 (later_module m))) (later_functy ft) (map W_num (fn_locals f))) in T. rewrite E in T.
    apply (expr_later P _ (refs2 (later_module m)) _ _ S). split; [exact T|]. apply AG. exact A.
  - intros (ft & A & T). apply (expr_later P _ (refs2 (later_module m)) _ _ S) in T as [T AG]. split.
    + exists (later_functy ft). split; [apply at_later; exact A|]. cbn [fn2_locals fn2_body later_func ft2_results later_functy].
      change (func_env2 _ _ _) with (func_env2 (later_env (module_env m fts) (refs2 (later_module m))) (later_functy ft) (map W_num (fn_locals f))). rewrite E. exact T.
    + intros ft' A'. cbn in A. rewrite (at_index_fun _ _ _ _ A' A). exact AG.
Qed.

(** ** Modules *)
Lemma Forall_choose {A B} (R : A -> B -> Prop) l : Forall (fun x => exists y, R x y) l <-> exists ys, Forall2 R l ys.
Proof.
  split.
  - induction 1 as [|x l [y H] _ [ys IH]]; [exists []; constructor|]. exists (y :: ys). constructor; assumption.
  - intros [ys F]. induction F; constructor; eauto.
Qed.
Lemma funcs_later m fts2 : Forall2 (at_index (m2_types (later_module m))) (imported_funcs2 (m2_imports (later_module m)) ++ map fn2_ty (m2_funcs (later_module m))) fts2 <->
  exists fts, fts2 = map later_functy fts /\ func_space m fts.
Proof.
  cbn [m2_types m2_imports m2_funcs later_module]. rewrite imported_funcs_later, map_map. unfold func_space, func_index.
  change (fun x => fn2_ty (later_func x)) with fn_ty. generalize (imported_funcs (m_imports m) ++ map fn_ty (m_funcs m)) as l. intros l. revert fts2.
  induction l as [|x l IH]; intros fts2; split.
  - intros H. inversion H; subst. exists []. split; [reflexivity|constructor].
  - intros (fts & -> & H). inversion H; subst. constructor.
  - intros H. inversion H as [|? y ? ys A F]; subst. apply at_map in A as (z & -> & A). apply IH in F as (fts & -> & F). exists (z :: fts). split; [reflexivity|]. constructor; assumption.
  - intros (fts & -> & H). inversion H as [|? y ? ys A F]; subst. cbn. constructor; [apply at_later; exact A|]. apply IH. eauto.
Qed.
Definition dialect2 : vdialect := mkVdialect true true (2 ^ 32 - 1) (2 ^ 16) false (fun m => imported_globals (m_imports m)).
Lemma imports_later m fts : Forall (import2_ok (module_env2 (later_module m) (map later_functy fts))) (m2_imports (later_module m)) <->
  exists ims, Forall2 (fun im x => import_type (module_env m fts) im x /\ ext_ok dialect2 x) (m_imports m) ims.
Proof.
  rewrite module_env_later, <- Forall_choose. cbn [m2_imports later_module]. rewrite Forall_map. split; apply Forall_impl; intros im; unfold import2_ok, import_type; cbn [im2_desc later_import]; destruct (im_desc im) as [x|t|t|t]; cbn [later_importdesc].
  - intros (ft & A). apply at_map in A as (z & -> & A). exists (Ext_Func z). split; [exact A|exact Logic.I].
  - intros L. exists (Ext_Table t). split; [reflexivity|exact L].
  - intros L. exists (Ext_Mem t). split; [reflexivity|exact L].
  - intros _. exists (Ext_Global t). split; [reflexivity|exact Logic.I].
  - intros ([ft| | |] & A & _); try contradiction. exists (later_functy ft). apply at_later. exact A.
  - intros ([|t'| |] & A & L); try contradiction. subst. exact L.
  - intros ([| |t'|] & A & L); try contradiction. subst. exact L.
  - intros _. exact Logic.I.
Qed.
Lemma exports_later m fts : Forall (export2_ok (module_env2 (later_module m) (map later_functy fts))) (m2_exports (later_module m)) <->
  exists xs, Forall2 (export_type (module_env m fts)) (m_exports m) xs.
Proof.
  rewrite module_env_later, <- Forall_choose. cbn [m2_exports later_module]. split; apply Forall_impl; intros e; unfold export2_ok, export_type; destruct (ex_desc e) as [x|x|x|x].
  - intros (t & A). apply at_map in A as (z & -> & A). exists (Ext_Func z). exact A.
  - intros (t & A). apply at_map in A as (z & -> & A). exists (Ext_Table z). exact A.
  - intros (t & A). exists (Ext_Mem t). exact A.
  - intros (t & A). apply at_map in A as (z & -> & A). exists (Ext_Global z). exact A.
  - intros ([t| | |] & A); try contradiction. exists (later_functy t). apply at_later. exact A.
  - intros ([|t| |] & A); try contradiction. exists (later_tablety t). apply at_later. exact A.
  - intros ([| |t|] & A); try contradiction. exists t. exact A.
  - intros ([| | |t] & A); try contradiction. exists (later_globalty t). apply at_later. exact A.
Qed.
Lemma elem_later own m fts e : In e (m_elem m) ->
  (elem2_ok P (init_env2 own (later_module m) (map later_functy fts)) (later_elem e) <-> elem_ok (seg_env own m fts) e).
Proof.
  intros I. rewrite init_env_later. unfold elem2_ok, elem_ok. cbn [el2_init el2_ty el2_mode later_elem]. unfold ref_funcs. rewrite Forall_map. split.
  - intros [F M]. destruct (M _ _ eq_refl) as ((t & A & _) & O). apply init_later in O. split; [|split; [exact O|]].
    + apply at_map in A as (z & _ & A). exists z. split; [exact A|]. destruct (tt_elem z). reflexivity.
    + revert F. apply Forall_impl. intros x X. apply ref_func_init in X as [(ft & A') _]. apply at_map in A' as (z & _ & A'). exists z. exact A'.
  - intros ((t & A & _) & O & F). split.
    + rewrite Forall_forall in *. intros x X. apply ref_func_init. destruct (F x X) as (ft & A'). split; [exists (later_functy ft); apply at_later; exact A'|].
      right. left. exists (later_elem e), [J_ref_func x]. cbn [m2_elem later_module el2_init later_elem]. split; [apply in_map; exact I|]. split; [|left; reflexivity].
      unfold ref_funcs. apply in_map_iff. eauto.
    + intros x o [= <- <-]. split; [|apply init_later; exact O]. exists (later_tablety t). split; [apply at_later; exact A|reflexivity].
Qed.
Lemma data_later own m fts d : data2_ok P (init_env2 own (later_module m) (map later_functy fts)) (later_data d) <-> data_ok (seg_env own m fts) d.
Proof.
  rewrite init_env_later. unfold data2_ok, data_ok. cbn [da2_mode later_data]. split.
  - intros H. destruct (H _ _ eq_refl) as (A & O). apply init_later in O. split; [exact A|exact O].
  - intros (A & O) x o [= <- <-]. split; [exact A|]. apply init_later. exact O.
Qed.
(** offsets in the two contexts *)
Lemma offset_env own m fts e t : init_ok (seg_env own m fts) e t <->
  init_ok (module_env m fts) e t /\ (own = false -> forall x, e = [I_GlobalGet x] -> reads (imported_globals (m_imports m)) x t).
Proof.
  destruct own.
  - split.
    + intros H. split; [|discriminate]. eapply init_globals; [|exact H]. reflexivity.
    + intros [H _]. eapply init_globals; [|exact H]. reflexivity.
  - assert (E : init_ok (seg_env false m fts) e t <-> init_ok (globals_env (imported_globals (m_imports m))) e t).
    { split; intros H; (eapply init_globals; [|exact H]); cbn [te_globals seg_env globals_env]; rewrite app_nil_r; reflexivity. }
    rewrite E. split.
    + intros H. assert (M : init_ok (module_env m fts) e t).
      { apply init_one in H as (i & -> & CI & T). apply init_one. exists i. split; [reflexivity|]. destruct i; try contradiction CI.
        - destruct CI as (g & A & M). cbn in A.
          assert (A' : at_index (global_space m) a g) by (unfold at_index, global_space in *; rewrite nth_error_app1; [exact A|]; apply nth_error_Some; rewrite A; discriminate).
          split; [exists g; split; [exact A'|exact M]|]. inversion T as [? ? ? ? X| | | | | |? ? g' X| | | | | | | | | | | | | | | |]; subst; [discriminate X|].
          cbn in X. rewrite <- (at_index_fun _ _ _ _ A X). apply T_global_get. exact A'.
        - split; [exact Logic.I|]. inversion T; subst; try discriminate. apply T_plain. assumption.
        - split; [exact Logic.I|]. inversion T; subst; try discriminate. apply T_plain. assumption.
        - split; [exact Logic.I|]. inversion T; subst; try discriminate. apply T_plain. assumption.
        - split; [exact Logic.I|]. inversion T; subst; try discriminate. apply T_plain. assumption. }
      split; [exact M|]. intros _. apply (proj1 (init_change _ _ _ _ M) H).
    + intros [M H]. apply (proj2 (init_change _ _ _ _ M)). auto.
Qed.

Definition valid_parts (m : module) : Prop := Forall functype_ok (m_types m) /\ (length (m_tables m) <= 1)%nat /\ forall f, In f (m_funcs m) -> func_tables_agree m f.
Lemma valid2_iff own m : (forall f, In f (m_funcs m) -> short (fn_body f)) ->
  (valid2 P own (later_module m) /\ valid_parts m <->
   valid_module dialect2 m /\ (length (mem_space m) <= 1)%nat /\ (own = false -> offsets_read (imported_globals (m_imports m)) m)).
Proof.
  intros SH. split.
  - intros [(fts2 & [FS F1 F2 F3 F4 F5 F6 F7 F8 F9 F10 F11]) (FT & LT & AG)]. apply funcs_later in FS as (fts & -> & FS).
    apply imports_later in F8 as (ims & F8). apply exports_later in F9 as (xs & F9). rewrite mems_later in F10.
    cbn [m2_funcs m2_tables m2_mems m2_globals m2_elem m2_data later_module] in F1, F2, F3, F4, F5, F6. rewrite Forall_map in F1, F2, F3, F4, F5, F6.
    rewrite Forall_forall in F5, F6.
    assert (E5 : forall e, In e (m_elem m) -> elem_ok (seg_env own m fts) e) by (intros e I; apply elem_later; [exact I|apply F5; exact I]).
    assert (E6 : forall d, In d (m_data m) -> data_ok (seg_env own m fts) d) by (intros d I; apply data_later; apply F6; exact I).
    split; [|split; [exact F10|]].
    + exists fts, ims, xs. constructor; try assumption.
      * rewrite Forall_forall in *. intros f I. apply func_later; [apply SH; exact I|]. split; [apply F1; exact I|apply AG; exact I].
      * rewrite Forall_forall in *. intros g I. specialize (F4 g I). rewrite init_env_later in F4. apply init_later in F4. eapply init_globals; [|exact F4].
        cbn. apply app_nil_r.
      * rewrite Forall_forall. intros e I. destruct (E5 e I) as (A & B & D). split; [exact A|]. split; [|exact D]. apply offset_env in B. apply B.
      * rewrite Forall_forall. intros d I. destruct (E6 d I) as (A & B). split; [exact A|]. apply offset_env in B. apply B.
      * intros s E. cbn [m2_start later_module] in F7. rewrite E in F7. specialize (F7 _ eq_refl). apply at_map in F7 as ([ps rs] & E' & A). injection E' as E1 E2.
        symmetry in E1, E2. apply map_eq_nil in E1, E2. subst. exact A.
      * cbn. rewrite map_length. exact LT.
      * cbn. unfold mem_space in F10. rewrite app_length in F10. lia.
    + intros -> e x I. apply in_app_or in I as [I|I]; apply in_map_iff in I as (s & <- & I).
      * destruct (E5 s I) as (_ & B & _). apply offset_env in B. apply B. reflexivity.
      * destruct (E6 s I) as (_ & B). apply offset_env in B. apply B. reflexivity.
  - intros ((fts & ims & xs & [FS F1 F2 F3 F4 F5 F6 F7 F8 F9 F10 LT LM EN]) & LM' & OR). split.
    + exists (map later_functy fts). constructor.
      * apply funcs_later. eauto.
      * cbn [m2_funcs later_module]. rewrite Forall_map. rewrite Forall_forall in *. intros f I. apply func_later; [apply SH; exact I|]. apply F2. exact I.
      * cbn [m2_tables later_module]. rewrite Forall_map. exact F3.
      * cbn [m2_mems later_module]. rewrite Forall_map. exact F4.
      * cbn [m2_globals later_module]. rewrite Forall_map. rewrite Forall_forall in *. intros g I. rewrite init_env_later. apply init_later. eapply init_globals; [|apply F5; exact I].
        cbn. rewrite app_nil_r. reflexivity.
      * cbn [m2_elem later_module]. rewrite Forall_map. rewrite Forall_forall in *. intros e I. apply elem_later; [exact I|]. destruct (F6 e I) as (A & B & D). split; [exact A|]. split; [|exact D].
        apply offset_env. split; [exact B|]. intros O x E. eapply OR; [exact O| |exact E]. apply in_or_app. left. apply in_map. exact I.
      * cbn [m2_data later_module]. rewrite Forall_map. rewrite Forall_forall in *. intros d I. apply data_later. destruct (F7 d I) as (A & B). split; [exact A|].
        apply offset_env. split; [exact B|]. intros O x E. eapply OR; [exact O| |exact E]. apply in_or_app. right. apply in_map. exact I.
      * intros x E. cbn [m2_start later_module] in E. destruct (m_start m) as [s|] eqn:ES; [|discriminate]. injection E as <-. apply at_map. exists (mkFuncTy [] []). split; [reflexivity|].
        apply F8. reflexivity.
      * apply imports_later. eauto.
      * apply exports_later. eauto.
      * rewrite mems_later. exact LM'.
      * exact EN.
    + split; [exact F1|]. split; [cbn in LT; rewrite map_length in LT; exact LT|]. intros f I. rewrite Forall_forall in F2. apply (func_later m fts f (SH f I)). apply F2. exact I.
Qed.

(** ** The two verdicts *)
Lemma accepted_dialect2 m : accepted m -> (forall f, In f (m_funcs m) -> no_pseudo (fn_body f)) ->
  (valid_module dialect2 m <-> (forall f, In f (m_funcs m) -> natural_alignment (fn_body f)) /\ inits_read (imported_globals (m_imports m)) m).
Proof.
  intros A NP. apply c40_iff in A; [|exact NP]. destruct A as (fts & ims & xs & [FS F1 F2 F3 F4 F5 F6 F7 F8 F9 F10 LT LM EN]). split.
  - intros (fts' & ims' & xs' & [FS' G1 G2 G3 G4 G5 G6 G7 G8 G9 G10 LT' LM' EN']). split.
    + rewrite Forall_forall in G2. intros f I. destruct (G2 f I) as [ft [_ T]]. apply alignment_iff in T. apply T.
    + apply (inits_change _ _ _ F5). exact G5.
  - intros (NA & IR). exists fts, ims, xs. constructor; try assumption.
    + rewrite Forall_forall in *. intros f I. destruct (F2 f I) as [ft T]. exists ft. apply function_dialects. auto.
    + eapply Forall_mono; [|exact F4]. intros t. apply limits_ok_mono. discriminate.
    + apply (inits_change _ _ _ F5). exact IR.
    + apply imports_ext_ok in F9 as (Q & R & S). apply imports_ext_ok. repeat split; [assumption|exact R|].
      eapply Forall_mono; [|exact S]. intros t. apply limits_ok_mono. discriminate.
Qed.
Lemma nested_short e : well_nested e -> short e.
Proof. intros (_ & _ & H). exact H. Qed.
Lemma nested_no_pseudo e : well_nested e -> no_pseudo e.
Proof. intros (A & B & _). split; assumption. Qed.
Theorem accepted_exact2 own m : accepted m -> (forall f, In f (m_funcs m) -> well_nested (fn_body f)) -> (valid2 P own (later_module m) <-> unchecked2 own m).
Proof.
  intros A WN. assert (SH : forall f, In f (m_funcs m) -> short (fn_body f)) by (intros f I; apply nested_short; auto).
  assert (NP : forall f, In f (m_funcs m) -> no_pseudo (fn_body f)) by (intros f I; apply nested_no_pseudo; auto).
  assert (V : valid_parts m).
  { pose proof A as A'. apply c40_iff in A'; [|exact NP]. destruct A' as (fts & ims & xs & [FS F1 F2 F3 F4 F5 F6 F7 F8 F9 F10 LT LM EN]).
    split; [exact F1|]. split; [cbn in LT; rewrite map_length in LT; exact LT|]. intros f I ft B. rewrite Forall_forall in F2. destruct (F2 f I) as [ft' T]. apply own_label_iff in T as [[B' T] _].
    cbn in B'. rewrite (at_index_fun _ _ _ _ B B'). apply (proj2 (typed_agree false)) in T. exact T. }
  pose proof (accepted_dialect2 m A NP) as D. pose proof (valid2_iff own m SH) as W. unfold unchecked2. tauto.
Qed.
Theorem official_exact2 own m : valid2 P own (later_module m) -> (forall f, In f (m_funcs m) -> well_nested (fn_body f)) -> (accepted m <-> overchecked2 m).
Proof.
  intros V WN. assert (SH : forall f, In f (m_funcs m) -> short (fn_body f)) by (intros f I; apply nested_short; auto).
  assert (NP : forall f, In f (m_funcs m) -> no_pseudo (fn_body f)) by (intros f I; apply nested_no_pseudo; auto).
  rewrite (c40_iff m NP). pose proof (valid2_iff own m SH) as W. split.
  - intros (fts & ims & xs & [FS F1 F2 F3 F4 F5 F6 F7 F8 F9 F10 LT LM EN]).
    assert (TA : forall f, In f (m_funcs m) -> no_own_jump (fn_body f) /\ func_tables_agree m f).
    { intros f I. rewrite Forall_forall in F2. destruct (F2 f I) as [ft T]. apply own_label_iff in T as [[B' T] NJ]. split; [exact NJ|]. intros ft' B.
      cbn in B'. rewrite (at_index_fun _ _ _ _ B B'). apply (proj2 (typed_agree false)) in T. exact T. }
    split; [exact F1|]. split; [exact TA|]. split; [|split].
    + apply (inits_change (globals_env (vd_init_globals whasm_validity m))); [exact F5|]. exact F5.
    + cbn in LT. rewrite map_length in LT. exact LT.
    + unfold small_memories, mem_space. apply Forall_app. apply imports_ext_ok in F9 as (_ & _ & R). rewrite Forall_forall in *. split.
      * intros t I. apply limits_bounded; [reflexivity|]. apply R. exact I.
      * rewrite Forall_forall. intros t I. apply in_map_iff in I as (t' & <- & I). apply limits_bounded; [reflexivity|]. apply F4. exact I.
  - intros (FT & TA & IR & LT & SM). destruct W as [W _]. destruct W as ((fts & ims & xs & [FS F1 F2 F3 F4 F5 F6 F7 F8 F9 F10 LT' LM' EN]) & LM & _).
    { split; [exact V|]. split; [exact FT|]. split; [exact LT|]. intros f I. apply TA. exact I. }
    unfold small_memories, mem_space in SM, LM. rewrite Forall_app in SM. destruct SM as [SM1 SM2]. rewrite app_length, map_length in LM.
    exists fts, ims, xs. constructor; try assumption.
    + rewrite Forall_forall in *. intros f I. destruct (F2 f I) as [ft T]. exists ft. apply (proj2 (function_dialects _ _ _)). split; [exact T|]. apply TA. exact I.
    + rewrite Forall_forall in *. intros t I. eapply limits_small; [|apply F4; assumption]. apply SM2. apply in_map. assumption.
    + apply (inits_change _ _ _ F5). exact IR.
    + apply imports_ext_ok in F9 as (Q & R & S). apply imports_ext_ok. repeat split; [assumption|exact R|].
      rewrite Forall_forall in *. intros t I. eapply limits_small; [apply SM1; assumption|apply S; assumption].
Qed.

(** for files, with nothing to assume *)
Lemma file_nested bs m : p_module bs = (Ok m, []) -> forall f, In f (m_funcs m) -> well_nested (fn_body f).
Proof.
  intros R f I. eapply parsed_module_nested; [exact R|]. unfold module_exprs. apply in_or_app. left. apply in_map. exact I.
Qed.
Theorem files_exact2 own bs m : p_module bs = (Ok m, []) ->
  (accepted m -> (valid2 P own (later_module m) <-> unchecked2 own m)) /\
  (valid2 P own (later_module m) -> (accepted m <-> overchecked2 m)).
Proof.
  intros R. pose proof (file_nested bs m R) as WN. split.
  - intros A. apply accepted_exact2; assumption.
  - intros V. apply (official_exact2 own); assumption.
Qed.
(** for files of 2.0 *)
Theorem files2_exact own fd bs m m2 : p_module bs = (Ok m, []) -> enc2_module fd bs m2 -> (tables2 m2 <= 1)%nat -> (mems2 m2 <= 1)%nat ->
  (accepted m -> (valid2 P own m2 <-> unchecked2 own m)) /\
  (valid2 P own m2 -> (accepted m <-> overchecked2 m /\ m2 = later_module m)).
Proof.
  intros R E LT LM. destruct (files_exact2 own bs m R) as [A B]. split.
  - intros AC. rewrite (LaterClaims.read_accepted _ _ _ _ R AC E LT LM). apply A. exact AC.
  - intros V. split.
    + intros AC. pose proof (LaterClaims.read_accepted _ _ _ _ R AC E LT LM) as ->. split; [|reflexivity]. apply B; assumption.
    + intros [O ->]. apply B; assumption.
Qed.
End Prefixed.
