(** Linking a module statically preserves acceptance. *)
From Coq Require Import Lia.
From Verif Require Import SpecStatic SpecVerdict EncodeProof ModuleValidProof ValidityClaims LinkProof.
Open Scope N_scope.

(** ** Where things are *)
(** the [x]-th import of a kind, and its name *)
Lemma kind_at {A} (kind : importdesc -> bool) (get : importdesc -> list A) ims x t :
  (forall d, length (get d) = if kind d then 1%nat else 0%nat) ->
  at_index (flat_map (fun i => get (im_desc i)) ims) x t ->
  exists i, In i ims /\ get (im_desc i) = [t] /\
    nth_error (map im_name (filter (fun i => kind (im_desc i)) ims)) (N.to_nat x) = Some (im_name i).
Proof.
  intros K. unfold at_index. generalize (N.to_nat x) as n. induction ims as [|i ims IH]; intros n H; [destruct n; discriminate H|].
  cbn [flat_map filter] in *. specialize (K (im_desc i)) as L. destruct (kind (im_desc i)).
  - destruct (get (im_desc i)) as [|t0 [|]] eqn:G; try discriminate L. destruct n as [|n]; cbn in H.
    + injection H as ->. exists i. cbn. auto.
    + destruct (IH n H) as (j & J & T & E). exists j. cbn. auto.
  - destruct (get (im_desc i)) as [|t0 l] eqn:G; [|discriminate L]. cbn in H. destruct (IH n H) as (j & J & T & E). exists j. cbn. auto.
Qed.
Lemma kind_length {A} (kind : importdesc -> bool) (get : importdesc -> list A) ims :
  (forall d, length (get d) = if kind d then 1%nat else 0%nat) ->
  length (flat_map (fun i => get (im_desc i)) ims) = length (map im_name (filter (fun i => kind (im_desc i)) ims)).
Proof.
  intros K. induction ims as [|i ims IH]; [reflexivity|]. cbn [flat_map filter]. rewrite app_length, IH, K. destruct (kind (im_desc i)); reflexivity.
Qed.
(** an index into imports followed by definitions *)
Lemma at_index_split {A} (xs ys : list A) x t : at_index (xs ++ ys) x t ->
  at_index xs x t \/ N.of_nat (length xs) <= x /\ at_index ys (x - N.of_nat (length xs)) t.
Proof.
  unfold at_index. intros H. destruct (Nat.lt_ge_cases (N.to_nat x) (length xs)) as [L|L].
  - left. rewrite nth_error_app1 in H by exact L. exact H.
  - right. rewrite nth_error_app2 in H by exact L. split; [lia|]. replace (N.to_nat (x - N.of_nat (length xs))) with (N.to_nat x - length xs)%nat by lia. exact H.
Qed.
Lemma relocated_at {A} lib (kind : importdesc -> bool) (get : importdesc -> list A) (R : A -> A -> Prop) m own spc new x t :
  (forall d, length (get d) = if kind d then 1%nat else 0%nat) ->
  (forall i d, In i (m_imports m) -> exported (im_name i) (m_exports lib) = Some d -> forall t, get (im_desc i) = [t] ->
     exists t', at_index spc (index_of d) t' /\ R t t') ->
  (forall y, at_index own y t -> exists t', at_index new y t' /\ R t t') ->
  (forall i, In i (m_imports m) -> exists d, exported (im_name i) (m_exports lib) = Some d) ->
  at_index (flat_map (fun i => get (im_desc i)) (m_imports m) ++ own) x t ->
  exists t', at_index (spc ++ new) (relocated lib index_of (names_of kind m) (length spc) x) t' /\ R t t'.
Proof.
  intros K SUP OWN EX H. unfold relocated, names_of. apply at_index_split in H as [H|[L H]].
  - destruct (kind_at kind get _ _ _ K H) as (i & I & T & E). rewrite E. destruct (EX i I) as [d D]. rewrite D.
    destruct (SUP i d I D t T) as (t' & X & RT). exists t'. split; [apply at_index_left; exact X|exact RT].
  - rewrite (kind_length kind get _ K) in L, H. destruct (nth_error _ (N.to_nat x)) as [a|] eqn:E.
    + assert (N.to_nat x < length (map im_name (filter (fun i => kind (im_desc i)) (m_imports m))))%nat by (apply nth_error_Some; congruence). lia.
    + destruct (OWN _ H) as (t' & X & RT). exists t'. split; [apply at_index_right; exact X|exact RT].
Qed.
Lemma supplied_exported lib m : supplied lib m -> forall i, In i (m_imports m) -> exists d, exported (im_name i) (m_exports lib) = Some d.
Proof. intros S i I. destruct (S i I) as (d & D & _). eauto. Qed.

Definition get_func (d : importdesc) : list typeidx := match d with ID_Func x => [x] | _ => [] end.
Definition get_table (d : importdesc) : list tablety := match d with ID_Table x => [x] | _ => [] end.
Definition get_mem (d : importdesc) : list memty := match d with ID_Mem x => [x] | _ => [] end.
Definition get_global (d : importdesc) : list globalty := match d with ID_Global x => [x] | _ => [] end.

Lemma linked_main lib m : supplied lib m -> resolves (linking lib m) m (linked lib m).
Proof.
  intros S. pose proof (supplied_exported _ _ S) as EX. constructor.
  - intros x t H. cbn. apply at_index_right. exact H.
  - intros x t ft H T.
    destruct (relocated_at lib of_func get_func (fun t t' => forall ft, at_index (m_types m) t ft -> at_index (m_types lib ++ m_types m) t' ft)
      m (map fn_ty (m_funcs m)) (func_index lib) (map fn_ty (map (renumber_func (linking lib m)) (m_funcs m))) x t) as (t' & X & E).
    + intros []; reflexivity.
    + intros i d I D t0 G. destruct (S i I) as (d' & D' & SU). rewrite D in D'. injection D' as <-.
      destruct (im_desc i); try discriminate G. injection G as ->. destruct d as [y|y|y|y]; try contradiction.
      destruct SU as (t1 & ft1 & X1 & X2 & X3). exists t1. split; [exact X1|]. intros ft' F. rewrite (at_index_det _ _ _ _ F X3). apply at_index_left. exact X2.
    + intros y Y. apply at_index_map in Y as (f & Y & ->). exists (rn_type (linking lib m) (fn_ty f)). split.
      * rewrite map_map. apply at_index_map. exists f. split; [exact Y|reflexivity].
      * intros ft' F. cbn. apply at_index_right. exact F.
    + exact EX.
    + exact H.
    + exists t'. split; [|apply E; exact T]. unfold func_index at 1. cbn [linked m_imports m_funcs linking rn_func]. rewrite map_app, app_assoc. exact X.
  - intros x t H.
    destruct (relocated_at lib of_table get_table eq m (map tab_ty (m_tables m)) (table_space lib) (map tab_ty (m_tables m)) x t) as (t' & X & <-); eauto.
    + intros []; reflexivity.
    + intros i d I D t0 G. destruct (S i I) as (d' & D' & SU). rewrite D in D'. injection D' as <-.
      destruct (im_desc i); try discriminate G. injection G as ->. destruct d; try contradiction. eauto.
    + unfold table_space at 1. cbn [linked m_imports m_tables linking rn_table]. rewrite map_app, app_assoc. exact X.
  - intros x t H.
    destruct (relocated_at lib of_mem get_mem eq m (map mem_ty (m_mems m)) (mem_space lib) (map mem_ty (m_mems m)) x t) as (t' & X & <-); eauto.
    + intros []; reflexivity.
    + intros i d I D t0 G. destruct (S i I) as (d' & D' & SU). rewrite D in D'. injection D' as <-.
      destruct (im_desc i); try discriminate G. injection G as ->. destruct d; try contradiction. eauto.
    + unfold mem_space at 1. cbn [linked m_imports m_mems linking rn_mem]. rewrite map_app, app_assoc. exact X.
  - intros x t H.
    destruct (relocated_at lib of_global get_global eq m (map glob_ty (m_globals m)) (global_space lib) (map glob_ty (m_globals m)) x t) as (t' & X & <-); eauto.
    + intros []; reflexivity.
    + intros i d I D t0 G. destruct (S i I) as (d' & D' & SU). rewrite D in D'. injection D' as <-.
      destruct (im_desc i); try discriminate G. injection G as ->. destruct d; try contradiction. eauto.
    + unfold global_space at 1. cbn [linked m_imports m_globals linking rn_global]. rewrite map_app, map_map, app_assoc. exact X.
  - intros x t H. cbn [linked m_globals linking rn_init]. rewrite map_app, map_map. rewrite <- (map_length glob_ty). apply at_index_right. exact H.
Qed.
Lemma linked_lib lib m : fits keep lib (linked lib m).
Proof.
  constructor; intros x t H; unfold func_index, table_space, mem_space, global_space in *;
    cbn [linked m_types m_funcs m_tables m_mems m_globals m_imports keep rn_type rn_func rn_table rn_mem rn_global rn_init] in *;
    rewrite ?map_app, ?app_assoc; apply at_index_left; exact H.
Qed.

Lemma linked_ok lib m : accepted lib -> accepted m -> supplied lib m ->
  (length (m_tables lib) + length (m_tables m) <= 1)%nat -> (length (m_mems lib) + length (m_mems m) <= 1)%nat ->
  NoDup (map ex_name (m_exports lib) ++ map ex_name (m_exports m)) ->
  accepted (linked lib m).
Proof.
  intros A1 A2 S LT LM ND. set (r := linking lib m). apply (resolved_assembly [(lib, keep); (m, r)]).
  - constructor; cbn [linked m_types m_funcs m_tables m_mems m_globals m_elem m_data m_start m_imports m_exports]; fold r.
    + intros t I. apply in_app_iff in I as [I|I]; [exists lib, keep|exists m, r]; cbn; auto.
    + intros f I. apply in_app_iff in I as [I|I].
      * exists lib, keep, f. destruct f. unfold renumber_func. cbn. rewrite map_keep. auto.
      * apply in_map_iff in I as (f0 & <- & I). exists m, r, f0. cbn; auto.
    + intros t I. apply in_app_iff in I as [I|I]; [exists lib, keep|exists m, r]; cbn; auto.
    + intros t I. apply in_app_iff in I as [I|I]; [exists lib, keep|exists m, r]; cbn; auto.
    + intros g I. apply in_app_iff in I as [I|I].
      * exists lib, keep, g. destruct g as [y1 y2]. unfold renumber_global. cbn [glob_ty glob_init]. rewrite map_keep_init. cbn; auto.
      * apply in_map_iff in I as (f0 & <- & I). exists m, r, f0. cbn; auto.
    + intros e I. apply in_app_iff in I as [I|I].
      * exists lib, keep, e. destruct e as [y1 y2 y3]. unfold renumber_elem. cbn [el_table el_offset el_init]. rewrite map_keep. cbn. rewrite map_id. auto.
      * apply in_map_iff in I as (f0 & <- & I). exists m, r, f0. cbn; auto.
    + intros e I. apply in_app_iff in I as [I|I].
      * exists lib, keep, e. destruct e as [y1 y2 y3]. unfold renumber_data. cbn [da_mem da_offset da_init]. rewrite map_keep. cbn. auto.
      * apply in_map_iff in I as (f0 & <- & I). exists m, r, f0. cbn; auto.
    + intros s E. destruct (m_start m) as [s1|] eqn:E1.
      * injection E as <-. exists m, r, s1. cbn; auto.
      * exists lib, keep, s. destruct s. cbn; auto.
    + intros i I. exists lib, keep, i. destruct i as [a b d]. destruct d; cbn; auto.
    + intros e I. apply in_app_iff in I as [I|I].
      * exists lib, keep, e. destruct e as [n d]. destruct d; cbn; auto.
      * apply in_map_iff in I as (f0 & <- & I). exists m, r, f0. cbn; auto.
  - intros m0 r0 [[= <- <-]|[[= <- <-]|[]]]; (split; [assumption|]).
    + apply fits_resolves, linked_lib.
    + apply linked_main. exact S.
  - cbn [linked m_tables]. rewrite app_length. exact LT.
  - cbn [linked m_mems]. rewrite app_length. exact LM.
  - cbn [linked m_exports]. rewrite map_app, map_map. exact ND.
Qed.
Lemma linked_iff lib m : accepted lib -> accepted m -> supplied lib m ->
  (accepted (linked lib m) <->
   (length (m_tables lib) + length (m_tables m) <= 1)%nat /\ (length (m_mems lib) + length (m_mems m) <= 1)%nat /\
   NoDup (map ex_name (m_exports lib) ++ map ex_name (m_exports m))).
Proof.
  intros A1 A2 S. split; [|intros (T & M & D); apply linked_ok; assumption]. intros A.
  destruct (one_table_mem _ A) as [T M]. cbn [linked m_tables m_mems] in T, M. rewrite app_length in T, M.
  pose proof (export_names_unique _ A) as D. cbn [linked m_exports] in D. rewrite map_app, map_map in D. auto.
Qed.

(** ** What the new indices mean *)
Lemma relocated_import lib names n x a d : nth_error names (N.to_nat x) = Some a -> exported a (m_exports lib) = Some d ->
  relocated lib index_of names n x = index_of d.
Proof. intros E D. unfold relocated. rewrite E, D. reflexivity. Qed.
Lemma relocated_own lib names n x : relocated lib index_of names n (N.of_nat (length names) + x) = N.of_nat n + x.
Proof.
  unfold relocated. destruct (nth_error names _) eqn:E; [|lia].
  assert (N.to_nat (N.of_nat (length names) + x) < length names)%nat by (apply nth_error_Some; congruence). lia.
Qed.
Lemma names_length {A} (kind : importdesc -> bool) (get : importdesc -> list A) m :
  (forall d, length (get d) = if kind d then 1%nat else 0%nat) ->
  length (names_of kind m) = length (flat_map (fun i => get (im_desc i)) (m_imports m)).
Proof. intros K. unfold names_of. symmetry. apply kind_length. exact K. Qed.
Lemma own_place {A} (xs : list A) (f : A -> A) ys x a : at_index ys x a -> at_index (xs ++ map f ys) (N.of_nat (length xs) + x) (f a).
Proof. intros H. rewrite N.add_comm. apply at_index_right. apply at_index_map. eauto. Qed.
Lemma own_func lib m x f : at_index (m_funcs m) x f ->
  exists y, rn_func (linking lib m) (N.of_nat (length (imported_funcs (m_imports m))) + x) = N.of_nat (length (imported_funcs (m_imports lib))) + y /\
    at_index (m_funcs (linked lib m)) y (renumber_func (linking lib m) f).
Proof.
  intros H. exists (N.of_nat (length (m_funcs lib)) + x). split; [|apply own_place; exact H].
  cbn [linking rn_func]. change (imported_funcs (m_imports m)) with (flat_map (fun i => get_func (im_desc i)) (m_imports m)).
  rewrite <- (names_length of_func get_func) by (intros []; reflexivity). rewrite relocated_own. unfold func_index. rewrite app_length, map_length. lia.
Qed.
Lemma own_global lib m x g : at_index (m_globals m) x g ->
  exists y, rn_global (linking lib m) (N.of_nat (length (imported_globals (m_imports m))) + x) = N.of_nat (length (imported_globals (m_imports lib))) + y /\
    rn_init (linking lib m) x = y /\ at_index (m_globals (linked lib m)) y (renumber_global (linking lib m) g).
Proof.
  intros H. exists (N.of_nat (length (m_globals lib)) + x). split; [|split; [|apply own_place; exact H]].
  - cbn [linking rn_global]. change (imported_globals (m_imports m)) with (flat_map (fun i => get_global (im_desc i)) (m_imports m)).
    rewrite <- (names_length of_global get_global) by (intros []; reflexivity). rewrite relocated_own. unfold global_space. rewrite app_length, map_length. lia.
  - cbn [linking rn_init]. lia.
Qed.
Lemma own_table lib m x g : at_index (m_tables m) x g ->
  exists y, rn_table (linking lib m) (N.of_nat (length (imported_tables (m_imports m))) + x) = N.of_nat (length (imported_tables (m_imports lib))) + y /\
    at_index (m_tables (linked lib m)) y g.
Proof.
  intros H. exists (N.of_nat (length (m_tables lib)) + x). split.
  - cbn [linking rn_table]. change (imported_tables (m_imports m)) with (flat_map (fun i => get_table (im_desc i)) (m_imports m)).
    rewrite <- (names_length of_table get_table) by (intros []; reflexivity). rewrite relocated_own. unfold table_space. rewrite app_length, map_length. lia.
  - cbn [linked m_tables]. rewrite N.add_comm. apply at_index_right. exact H.
Qed.
Lemma own_mem lib m x g : at_index (m_mems m) x g ->
  exists y, rn_mem (linking lib m) (N.of_nat (length (imported_mems (m_imports m))) + x) = N.of_nat (length (imported_mems (m_imports lib))) + y /\
    at_index (m_mems (linked lib m)) y g.
Proof.
  intros H. exists (N.of_nat (length (m_mems lib)) + x). split.
  - cbn [linking rn_mem]. change (imported_mems (m_imports m)) with (flat_map (fun i => get_mem (im_desc i)) (m_imports m)).
    rewrite <- (names_length of_mem get_mem) by (intros []; reflexivity). rewrite relocated_own. unfold mem_space. rewrite app_length, map_length. lia.
  - cbn [linked m_mems]. rewrite N.add_comm. apply at_index_right. exact H.
Qed.
(** the imports are at the front, in their order *)
Lemma nth_names kind ims1 i ims2 : kind (im_desc i) = true ->
  nth_error (map im_name (filter (fun i => kind (im_desc i)) (ims1 ++ i :: ims2))) (length (filter (fun i => kind (im_desc i)) ims1)) = Some (im_name i).
Proof.
  intros K. induction ims1 as [|j ims1 IH]; cbn [app filter]; [rewrite K; reflexivity|].
  destruct (kind (im_desc j)); [exact IH|exact IH].
Qed.
Lemma import_place lib m ims1 i ims2 d : m_imports m = ims1 ++ i :: ims2 -> exported (im_name i) (m_exports lib) = Some d ->
  match im_desc i with
  | ID_Func _ => rn_func (linking lib m) (N.of_nat (length (imported_funcs ims1))) = index_of d
  | ID_Table _ => rn_table (linking lib m) (N.of_nat (length (imported_tables ims1))) = index_of d
  | ID_Mem _ => rn_mem (linking lib m) (N.of_nat (length (imported_mems ims1))) = index_of d
  | ID_Global _ => rn_global (linking lib m) (N.of_nat (length (imported_globals ims1))) = index_of d
  end.
Proof.
  intros E D.
  assert (P : forall A (kind : importdesc -> bool) (get : importdesc -> list A) n, (forall d, length (get d) = if kind d then 1%nat else 0%nat) -> kind (im_desc i) = true ->
    relocated lib index_of (names_of kind m) n (N.of_nat (length (flat_map (fun i => get (im_desc i)) ims1))) = index_of d).
  { intros A kind get n K KI. apply (relocated_import _ _ _ _ (im_name i)); [|exact D]. unfold names_of. rewrite E, Nat2N.id, (kind_length kind get _ K), map_length.
    apply nth_names. exact KI. }
  destruct (im_desc i) eqn:DI; cbn [linking rn_func rn_table rn_mem rn_global].
  - apply (P _ of_func get_func); [intros []; reflexivity|rewrite ?DI; reflexivity].
  - apply (P _ of_table get_table); [intros []; reflexivity|rewrite ?DI; reflexivity].
  - apply (P _ of_mem get_mem); [intros []; reflexivity|rewrite ?DI; reflexivity].
  - apply (P _ of_global get_global); [intros []; reflexivity|rewrite ?DI; reflexivity].
Qed.
Lemma exported_in n es d : exported n es = Some d -> In (mkExport n d) es.
Proof.
  induction es as [|e es IH]; [discriminate|]. cbn [exported]. destruct (list_eq_dec _ _ _) as [E|E].
  - intros [= <-]. left. destruct e. cbn in E |- *. congruence.
  - intros H. right. auto.
Qed.
Lemma exported_iff lib n d : accepted lib -> (exported n (m_exports lib) = Some d <-> In (mkExport n d) (m_exports lib)).
Proof.
  intros A. apply export_names_unique in A. split; [apply exported_in|]. revert A. generalize (m_exports lib) as es.
  induction es as [|e es IH]; intros ND I; [destruct I|]. inversion ND as [|? ? NI ND']; subst. cbn [exported].
  destruct (list_eq_dec _ _ _) as [E|E]; destruct I as [->|I].
  - reflexivity.
  - exfalso. apply NI. rewrite E. apply (in_map ex_name) in I. exact I.
  - exfalso. apply E. reflexivity.
  - apply IH; assumption.
Qed.
