(** Definitions in another order. *)
From Coq Require Import Lia FinFun.
From Verif Require Import SpecLink SpecVerdict SpecModule EncodeProof LinkProof ModuleValidProof ValidityClaims.
Open Scope N_scope.

(** indices that are moved without collisions are moved onto *)
Lemma at_index_below {A} (xs : list A) x : (N.to_nat x < length xs)%nat <-> exists t, at_index xs x t.
Proof.
  unfold at_index. rewrite <- nth_error_Some. destruct (nth_error xs (N.to_nat x)) as [t|]; split; intros H; try congruence; [eauto|].
  destruct H as [t H]. discriminate.
Qed.
Lemma onto (n : nat) (g h : N -> N) : (forall x, h (g x) = x) -> (forall x, (N.to_nat x < n)%nat -> (N.to_nat (g x) < n)%nat) ->
  forall y, (N.to_nat y < n)%nat -> exists x, (N.to_nat x < n)%nat /\ g x = y.
Proof.
  intros HG B y Y. set (l := map (fun k => N.to_nat (g (N.of_nat k))) (seq 0 n)).
  assert (ND : NoDup l).
  { apply Injective_map_NoDup; [|apply seq_NoDup]. intros a b E. apply N2Nat.inj in E. apply (f_equal h) in E. rewrite !HG in E. lia. }
  assert (I : incl l (seq 0 n)).
  { intros k K. apply in_map_iff in K as (j & <- & J). apply in_seq in J. apply in_seq. specialize (B (N.of_nat j)). rewrite Nat2N.id in B. lia. }
  assert (R : incl (seq 0 n) l) by (apply NoDup_length_incl; [exact ND|unfold l; rewrite map_length; lia|exact I]).
  assert (Q : In (N.to_nat y) l) by (apply R, in_seq; lia). apply in_map_iff in Q as (k & E & K). apply in_seq in K.
  exists (N.of_nat k). split; [lia|]. lia.
Qed.
Lemma fits_back {A} (xs ys : list A) (g h : N -> N) (v : A -> A) : length xs = length ys -> (forall x, h (g x) = x) ->
  (forall x t, at_index xs x t -> at_index ys (g x) (v t)) ->
  forall y t, at_index ys y t -> exists t0, at_index xs (h y) t0 /\ t = v t0.
Proof.
  intros L HG F y t Y.
  destruct (onto (length xs) g h HG) with (y := y) as (x & X & E).
  - intros x X. apply at_index_below in X as [t0 X]. rewrite L. apply at_index_below. eauto.
  - rewrite L. apply at_index_below. eauto.
  - subst y. rewrite HG. apply at_index_below in X as [t0 X]. exists t0. split; [exact X|]. apply F in X. eapply at_index_det; eassumption.
Qed.
Lemma fits_back_id {A} (xs ys : list A) (g h : N -> N) : length xs = length ys -> (forall x, h (g x) = x) ->
  (forall x t, at_index xs x t -> at_index ys (g x) t) -> forall y t, at_index ys y t -> at_index xs (h y) t.
Proof. intros L HG F y t Y. destruct (fits_back xs ys g h (fun t => t) L HG F y t Y) as (t0 & X & ->). exact X. Qed.

Section Undo.
Context (r r' : renumbering) (U : undoes r' r).
Lemma undo_instr i : renumber r' (renumber r i) = i.
Proof.
  induction i as [i IH] using instr_children_ind. cbn [children] in IH.
  assert (L : forall b, Forall (fun i => renumber r' (renumber r i) = i) b -> map (renumber r') (map (renumber r) b) = b) by (induction 1; cbn; congruence).
  destruct U. destruct i; try reflexivity; cbn [renumber]; rewrite ?L by (apply IH; cbn; auto); congruence.
Qed.
Lemma undo_expr e : map (renumber r') (map (renumber r) e) = e.
Proof. rewrite map_map. rewrite <- (map_id e) at 2. apply map_ext. apply undo_instr. Qed.
Lemma undo_func f : renumber_func r' (renumber_func r f) = f.
Proof. destruct f as [t l b]. unfold renumber_func. cbn [fn_ty fn_locals fn_body]. rewrite undo_expr. f_equal. apply U. Qed.
Lemma undo_global g : renumber_global r' (renumber_global r g) = g.
Proof.
  destruct g as [t e]. unfold renumber_global. cbn [glob_ty glob_init]. f_equal. rewrite map_map. rewrite <- (map_id e) at 2. apply map_ext.
  intros i. destruct i; try reflexivity. cbn. f_equal. apply U.
Qed.
Lemma undo_elem e : renumber_elem r' (renumber_elem r e) = e.
Proof.
  destruct e as [t o fs]. unfold renumber_elem. cbn [el_table el_offset el_init]. rewrite undo_expr, map_map. f_equal; [apply U|].
  rewrite <- (map_id fs) at 2. apply map_ext. apply U.
Qed.
Lemma undo_data d : renumber_data r' (renumber_data r d) = d.
Proof. destruct d as [x o bs]. unfold renumber_data. cbn [da_mem da_offset da_init]. rewrite undo_expr. f_equal. apply U. Qed.
Lemma undo_start s : renumber_start r' (renumber_start r s) = s.
Proof. destruct s. unfold renumber_start. cbn. f_equal. apply U. Qed.
Lemma undo_importdesc d : renumber_importdesc r' (renumber_importdesc r d) = d.
Proof. destruct d; try reflexivity. cbn. f_equal. apply U. Qed.
Lemma undo_import i : renumber_import r' (renumber_import r i) = i.
Proof. destruct i as [a b d]. unfold renumber_import. cbn [im_module im_name im_desc]. rewrite undo_importdesc. reflexivity. Qed.
Lemma undo_export e : renumber_export r' (renumber_export r e) = e.
Proof. destruct e as [n d]. unfold renumber_export. cbn [ex_name ex_desc]. f_equal. destruct d; cbn; f_equal; apply U. Qed.
End Undo.

Lemma Permutation_back {A} (f g : A -> A) xs ys : (forall x, g (f x) = x) -> Permutation (map f xs) ys -> Permutation (map g ys) xs.
Proof.
  intros GF P. apply (Permutation_map g) in P. rewrite map_map, (map_ext _ (fun x => x) GF), map_id in P. symmetry. exact P.
Qed.
Lemma imported_lengths r ims ims' : Permutation (map (renumber_import r) ims) ims' ->
  length (imported_funcs ims) = length (imported_funcs ims') /\ length (imported_tables ims) = length (imported_tables ims') /\
  length (imported_mems ims) = length (imported_mems ims') /\ length (imported_globals ims) = length (imported_globals ims').
Proof.
  intros P. unfold imported_funcs, imported_tables, imported_mems, imported_globals.
  assert (H : forall A (f : import -> list A), length (flat_map f (map (renumber_import r) ims)) = length (flat_map f ims')).
  { intros A f. apply Permutation_length, Permutation_flat_map, P. }
  repeat split; rewrite <- H; clear; induction ims as [|[a b d] ims IH]; try reflexivity; cbn [map flat_map]; rewrite !app_length, IH; f_equal; destruct d; reflexivity.
Qed.

Lemma reordered_back r r' m m' : undoes r' r -> reordered r m m' -> reordered r' m' m.
Proof.
  intros U [RT RF RTa RM RG RE RD RS RI RX [FT FF FTa FM FG FI]].
  pose proof (imported_lengths _ _ _ RI) as (LF & LT & LM & LG).
  pose proof (Permutation_length RT) as NT. pose proof (Permutation_length RF) as NF. pose proof (Permutation_length RTa) as NTa.
  pose proof (Permutation_length RM) as NM. pose proof (Permutation_length RG) as NG. rewrite map_length in NF, NG.
  constructor.
  - symmetry. exact RT.
  - eapply Permutation_back; [|exact RF]. apply undo_func. exact U.
  - symmetry. exact RTa.
  - symmetry. exact RM.
  - eapply Permutation_back; [|exact RG]. apply undo_global. exact U.
  - eapply Permutation_back; [|exact RE]. apply undo_elem. exact U.
  - eapply Permutation_back; [|exact RD]. apply undo_data. exact U.
  - rewrite <- RS. destruct (m_start m) as [s|]; [|reflexivity]. cbn. rewrite undo_start by exact U. reflexivity.
  - eapply Permutation_back; [|exact RI]. apply undo_import. exact U.
  - eapply Permutation_back; [|exact RX]. apply undo_export. exact U.
  - constructor.
    + apply (fits_back_id _ _ (rn_type r)); [exact NT|apply U|exact FT].
    + intros y t Y. destruct (fits_back (func_index m) (func_index m') (rn_func r) (rn_func r') (rn_type r)) with (y := y) (t := t) as (t0 & X & ->); try assumption.
      * unfold func_index. rewrite !app_length, !map_length. lia.
      * apply U.
      * rewrite (un_type _ _ U). exact X.
    + apply (fits_back_id _ _ (rn_table r)); [unfold table_space; rewrite !app_length, !map_length; lia|apply U|exact FTa].
    + apply (fits_back_id _ _ (rn_mem r)); [unfold mem_space; rewrite !app_length, !map_length; lia|apply U|exact FM].
    + apply (fits_back_id _ _ (rn_global r)); [unfold global_space; rewrite !app_length, !map_length; lia|apply U|exact FG].
    + apply (fits_back_id _ _ (rn_init r)); [rewrite !map_length; exact NG|apply U|exact FI].
Qed.

Lemma permuted_from {A B} (f : A -> B) xs ys y : Permutation (map f xs) ys -> In y ys -> exists x, In x xs /\ y = f x.
Proof. intros P I. apply Permutation_sym in P. apply (Permutation_in _ P), in_map_iff in I as (x & <- & X). eauto. Qed.
Lemma reordered_ok r m m' : reordered r m m' -> accepted m -> accepted m'.
Proof.
  intros [RT RF RTa RM RG RE RD RS RI RX F] A. apply (assembly [(m, r)]).
  - assert (P : In (m, r) [(m, r)]) by (left; reflexivity). constructor.
    + intros t I. exists m, r. split; [exact P|]. exact (Permutation_in _ (Permutation_sym RT) I).
    + intros f I. destruct (permuted_from _ _ _ _ RF I) as (x & X & E). exists m, r, x. auto.
    + intros t I. exists m, r. split; [exact P|]. exact (Permutation_in _ (Permutation_sym RTa) I).
    + intros t I. exists m, r. split; [exact P|]. exact (Permutation_in _ (Permutation_sym RM) I).
    + intros f I. destruct (permuted_from _ _ _ _ RG I) as (x & X & E). exists m, r, x. auto.
    + intros f I. destruct (permuted_from _ _ _ _ RE I) as (x & X & E). exists m, r, x. auto.
    + intros f I. destruct (permuted_from _ _ _ _ RD I) as (x & X & E). exists m, r, x. auto.
    + intros s E. rewrite <- RS in E. destruct (m_start m) as [s0|] eqn:S; [|discriminate]. injection E as <-. exists m, r, s0. auto.
    + intros f I. destruct (permuted_from _ _ _ _ RI I) as (x & X & ->). exists m, r, x. auto.
    + intros f I. destruct (permuted_from _ _ _ _ RX I) as (x & X & ->). exists m, r, x. auto.
  - intros m0 r0 [[= <- <-]|[]]. split; assumption.
  - rewrite <- (Permutation_length RTa). exact (proj1 (one_table_mem _ A)).
  - rewrite <- (Permutation_length RM). exact (proj2 (one_table_mem _ A)).
  - apply (Permutation_map ex_name) in RX. eapply Permutation_NoDup; [exact RX|]. rewrite map_map. exact (export_names_unique _ A).
Qed.
Theorem reordered_verdict r r' m m' : undoes r' r -> reordered r m m' -> (accepted m <-> accepted m').
Proof. intros U R. split; [apply (reordered_ok r); exact R|apply (reordered_ok r'), (reordered_back r); assumption]. Qed.
