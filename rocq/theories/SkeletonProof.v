(** The verdict depends on the skeleton of a module (and on whether its export names are distinct). *)
From Verif Require Import Cli SpecSkeleton SpecVerdict ModuleValidProof EncodeProof.
Open Scope N_scope.

Lemma v_seq_map v v' (g : instr -> instr) b : Forall (fun i => forall s, v (g i) s = v' i s) b ->
  forall s, v_seq v (map g b) s = v_seq v' b s.
Proof.
  induction 1 as [|i b E F IH]; intros s; [reflexivity|]. cbn [map v_seq]. rewrite E.
  destruct (v' i s); cbn [vbind]; [apply IH|reflexivity..].
Qed.
Lemma v_bare c : forall i s, v_instr c (bare i) s = v_instr c i s.
Proof.
  induction i as [i IH] using instr_children_ind. intros s.
  destruct i; try reflexivity; cbn [bare v_instr]; cbn [children In] in IH.
  - rewrite (v_seq_map _ (v_instr c) _ _ (IH _ (or_introl eq_refl))). reflexivity.
  - rewrite (v_seq_map _ (v_instr c) _ _ (IH _ (or_introl eq_refl))). reflexivity.
  - destruct (pop_operands [T_I32] s) as [s1| |]; cbn [vbind]; try reflexivity.
    rewrite (v_seq_map _ (v_instr c) _ _ (IH _ (or_introl eq_refl))).
    destruct (v_seq _ _ _); cbn [vbind]; try reflexivity. destruct (v_else _); cbn [vbind]; try reflexivity.
    rewrite (v_seq_map _ (v_instr c) _ _ (IH _ (or_intror (or_introl eq_refl)))). reflexivity.
Qed.
Lemma v_expr_bare c e s : v_expr c (map bare e) s = v_expr c e s.
Proof. apply v_seq_map. apply Forall_forall. intros; apply v_bare. Qed.
Lemma v_const_bare c e : forall s, v_constexpr c (map bare e) s = v_constexpr c e s.
Proof.
  induction e as [|i e IH]; intros s; [reflexivity|]. cbn [map v_constexpr]. rewrite v_bare.
  replace (v_const_check c (bare i)) with (v_const_check c i) by (destruct i; reflexivity).
  destruct (v_const_check c i); cbn [vbind]; try reflexivity. destruct (v_instr c i s); cbn [vbind]; try reflexivity. apply IH.
Qed.

Lemma v_each_bare {A B} (v : A -> vctx -> vres (B * vctx)) g : (forall x cs, v (g x) cs = v x cs) ->
  forall xs cs, v_each v (map g xs) cs = v_each v xs cs.
Proof.
  intros E. induction xs as [|x xs IH]; intros cs; [reflexivity|]. cbn [map v_each]. rewrite E.
  destruct (v x cs); cbn [vbind]; try reflexivity. rewrite IH. reflexivity.
Qed.
Lemma v_func_bare f cs : v_func (bare_func f) cs = v_func f cs.
Proof. destruct cs. unfold v_func. cbn [bare_func fn_ty fn_body fn_locals]. destruct (v_typeidx _ _); cbn [vbind]; try reflexivity. rewrite v_expr_bare. reflexivity. Qed.
Lemma v_const_body_bare r e cs : v_const_body r (map bare e) cs = v_const_body r e cs.
Proof. destruct cs. unfold v_const_body. rewrite v_const_bare. reflexivity. Qed.
Lemma v_global_bare g cs : v_global (bare_global g) cs = v_global g cs.
Proof. unfold v_global. cbn [bare_global glob_ty glob_init]. rewrite v_const_body_bare. reflexivity. Qed.
Lemma v_elem_bare e cs : v_elem (bare_elem e) cs = v_elem e cs.
Proof. unfold v_elem. cbn [bare_elem el_table el_offset el_init]. rewrite v_const_body_bare. reflexivity. Qed.
Lemma v_data_bare d cs : v_data (bare_data d) cs = v_data d cs.
Proof. unfold v_data. cbn [bare_data da_mem da_offset]. rewrite v_const_body_bare. reflexivity. Qed.

Lemma imported_funcs_bare ims : forall c, use_imported_funcs (map bare_import ims) c = use_imported_funcs ims c.
Proof.
  induction ims as [|im ims IH]; intros c; [reflexivity|]. cbn [map use_imported_funcs bare_import im_desc].
  destruct (im_desc im); try apply IH. destruct (v_typeidx c t); cbn [vbind]; try reflexivity. apply IH.
Qed.
Lemma fold_left_map {A B C} (f : C -> B -> C) (f' : C -> A -> C) (g : A -> B) : (forall c x, f c (g x) = f' c x) ->
  forall xs c, fold_left f (map g xs) c = fold_left f' xs c.
Proof. intros E. induction xs as [|x xs IH]; intros c; [reflexivity|]. cbn [map fold_left]. rewrite E. apply IH. Qed.
Lemma use_funcs_bare fs : forall c, use_funcs (map bare_func fs) c = use_funcs fs c.
Proof.
  induction fs as [|f fs IH]; intros c; [reflexivity|]. cbn [map use_funcs bare_func fn_ty].
  destruct (v_typeidx _ _); cbn [vbind]; try reflexivity. apply IH.
Qed.
Lemma use_globals_bare gs c : use_globals (map bare_global gs) c = use_globals gs c.
Proof. unfold use_globals. apply fold_left_map. reflexivity. Qed.
Lemma context_bare m : context_from (skeleton m) = context_from m.
Proof.
  unfold context_from, skeleton, use_imported_tables, use_imported_mems, use_imported_globals.
  cbn [m_types m_imports m_funcs m_tables m_mems m_globals]. rewrite imported_funcs_bare.
  destruct (use_imported_funcs _ _) as [c| |]; cbn [vbind]; try reflexivity.
  erewrite !fold_left_map by (intros; reflexivity). rewrite use_funcs_bare.
  destruct (use_funcs _ _); cbn [vbind]; try reflexivity. rewrite use_globals_bare. reflexivity.
Qed.

(** the checks of [v_module] except the one of the export names *)
Definition v_rest (m : module) : vres module_types :=
  c <-- context_from m ;;
  let cs : vctx := (c, empty_stacks) in
  let csg : vctx := (use_globals (m_globals m) default_context, empty_stacks) in
  r <-- v_each v_type_item (m_types m) cs ;; let cs := snd r in
  r <-- v_each v_func (m_funcs m) cs ;; let cs := snd r in
  r <-- v_each v_table (m_tables m) cs ;; let cs := snd r in
  r <-- v_each v_mem (m_mems m) cs ;; let cs := snd r in
  r <-- v_each v_global (m_globals m) csg ;;
  r <-- v_each v_elem (m_elem m) cs ;; let cs := snd r in
  r <-- v_each v_data (m_data m) cs ;; let cs := snd r in
  cs <-- match m_start m with
         | Some st => r <-- v_start st cs ;; VOk (snd r)
         | None => VOk cs
         end ;;
  ims <-- v_each v_import (m_imports m) cs ;; let cs := snd ims in
  exs <-- v_each v_export (m_exports m) cs ;;
  if negb (Nat.leb (length (m_tables m)) 1) then VErr
  else if negb (Nat.leb (length (m_mems m)) 1) then VErr
  else VOk (mkModuleTypes (fst ims) (fst exs)).
Lemma validate_rest m : validate m = (mt <-- v_rest m ;; if export_names_distinct (m_exports m) then VOk mt else VErr).
Proof.
  unfold validate, v_module, v_rest.
  repeat (match goal with |- vbind ?a _ = _ => destruct a; cbn [vbind]; cbv zeta; try reflexivity end).
  destruct (Nat.leb _ 1), (Nat.leb _ 1), (export_names_distinct _); reflexivity.
Qed.
Lemma rest_bare m : v_rest (skeleton m) = v_rest m.
Proof.
  unfold v_rest. rewrite context_bare. unfold skeleton. cbn [m_types m_imports m_funcs m_tables m_mems m_globals m_elem m_data m_start m_exports].
  rewrite use_globals_bare.
  destruct (context_from m) as [c| |]; cbn [vbind]; cbv zeta; try reflexivity.
  repeat (match goal with |- vbind ?a _ = vbind ?b _ => replace a with b; [destruct b; cbn [vbind]; cbv zeta; try reflexivity|] end);
    try reflexivity; symmetry; apply v_each_bare.
  all: first [exact v_func_bare | exact v_global_bare | exact v_elem_bare | exact v_data_bare | reflexivity].
Qed.

Lemma verdict_skeleton m m' : skeleton m = skeleton m' ->
  (NoDup (map ex_name (m_exports m)) <-> NoDup (map ex_name (m_exports m'))) -> validate m = validate m'.
Proof.
  intros S D. rewrite !validate_rest, <- (rest_bare m), <- (rest_bare m'), S.
  destruct (v_rest (skeleton m')); cbn [vbind]; try reflexivity.
  rewrite <- !export_names_iff in D. destruct (export_names_distinct (m_exports m)), (export_names_distinct (m_exports m')); try reflexivity; exfalso; intuition discriminate.
Qed.

(** on files *)
Lemma files_skeleton args fs fs' :
  (forall name, fs name = fs' name \/ exists b b' m m', fs name = Contents b /\ fs' name = Contents b' /\
    fst (p_module b) = Ok m /\ fst (p_module b') = Ok m' /\ skeleton m = skeleton m' /\
    (NoDup (map ex_name (m_exports m)) <-> NoDup (map ex_name (m_exports m')))) ->
  forall c, (exists msgs, cli args fs = Exit c msgs) <-> (exists msgs, cli args fs' = Exit c msgs).
Proof.
  intros H c. unfold cli. destruct (config_new args) as [cfg|]; [|reflexivity].
  destruct (H (cfg_filename cfg)) as [->|(b & b' & m & m' & -> & -> & -> & -> & S & N)]; [reflexivity|].
  rewrite (verdict_skeleton m m' S N). destruct (validate m'); try reflexivity.
  split; intros [msgs E]; injection E as <- _; eauto.
Qed.
