(** The operand stack describes exactly what code can leave. *)
From Coq Require Import Lia.
From Verif Require Import SpecPrincipal SpecSession SpecTyping ValidatorState SafeProof TypingProof SessionProof.

Lemma inst_split seg u r : inst seg u r <-> exists r1 r2, r = r1 ++ r2 /\ Forall2 stands_for seg r1 /\ (r2 = [] \/ u = true).
Proof.
  revert r. induction seg as [|v seg IH]; intros r; cbn [inst].
  - split.
    + intros H. exists [], r. split; [reflexivity|]. split; [constructor|tauto].
    + intros (r1 & r2 & -> & F & D). inversion F; subst. cbn. tauto.
  - split.
    + destruct r as [|t r]; [contradiction|]. intros [O H]. apply IH in H as (r1 & r2 & -> & F & D). exists (t :: r1), r2. split; [reflexivity|].
      split; [|exact D]. constructor; [|exact F]. destruct v; [left; reflexivity|right]. cbn in O. congruence.
    + intros (r1 & r2 & -> & F & D). inversion F as [|? t ? r1' O F']; subst. cbn [app]. split; [destruct O as [->|[= ->]]; [exact I|reflexivity]|].
      apply IH. eauto.
Qed.
Lemma describes_st base fr frs seg ts : length base = f_height fr ->
  describes (st base fr frs seg) ts <-> inst seg (f_unreachable fr) (rev ts).
Proof.
  intros HB. unfold describes, open_operands, polymorphic, st. cbn [frames operands]. rewrite app_length, HB, Nat.add_sub.
  rewrite firstn_app, firstn_all, Nat.sub_diag, firstn_O, app_nil_r. rewrite inst_split. split.
  - intros (b & a & -> & F & D). exists (rev a), (rev b). rewrite rev_app_distr. split; [reflexivity|]. split; [exact F|]. destruct D as [->|D]; auto.
  - intros (r1 & r2 & E & F & D). exists (rev r2), (rev r1). rewrite <- rev_app_distr, <- E, !rev_involutive. split; [reflexivity|]. split; [exact F|].
    destruct D as [->|D]; auto.
Qed.
Lemma settled_st s fr frs : settled s -> frames s = fr :: frs -> exists base seg, s = st base fr frs seg /\ length base = f_height fr.
Proof.
  intros S E. apply settled_wf in S. destruct s as [ops frs0]. cbn in *. subst frs0. destruct S as [L _].
  exists (skipn (length ops - f_height fr) ops), (firstn (length ops - f_height fr) ops). split.
  - unfold st. rewrite firstn_skipn. reflexivity.
  - rewrite skipn_length. lia.
Qed.
Lemma principal c e s : settled s -> frames s <> [] -> no_pseudo e ->
  (forall s', v_expr c e s = VOk s' -> forall ts', describes s' ts' <-> exists ts, describes s ts /\ seq_type false (tenv_at c s) e ts ts') /\
  (v_expr c e s = VErr <-> forall ts ts', describes s ts -> ~ seq_type false (tenv_at c s) e ts ts').
Proof.
  intros S F N. destruct (frames s) as [|fr frs] eqn:E; [congruence|].
  pose proof (proj1 (settled_wf s) S) as W. destruct (settled_st s fr frs S E) as (base & seg & -> & HB). clear S F E.
  change (tenv_at c (st base fr frs seg)) with (env c (fr :: frs)).
  assert (K : forall ts ts', describes (st base fr frs seg) ts -> seq_type false (env c (fr :: frs)) e ts ts' ->
                exists s', v_expr c e (st base fr frs seg) = VOk s' /\ describes s' ts').
  { intros ts ts' D T. apply describes_st in D; [|exact HB]. destruct (v_seq_complete e c base fr frs seg ts ts' HB T D) as (seg' & u' & R & I).
    eexists. split; [exact R|]. apply (describes_st base (set_unr fr u') frs seg' ts'); [exact HB|exact I]. }
  split.
  - intros s' R ts'. split.
    + pose proof R as R'. apply v_seq_sound in R' as (seg' & u' & -> & Q); [|assumption..]. intros D.
      apply (describes_st base (set_unr fr u') frs seg' ts' HB) in D. destruct (Q _ D) as (r & I & T). exists (rev r). split.
      * apply describes_st; [exact HB|]. rewrite rev_involutive. exact I.
      * unfold steps in T. rewrite rev_involutive in T. exact T.
    + intros (ts & D & T). destruct (K _ _ D T) as (s2 & R2 & D2). congruence.
  - split.
    + intros R ts ts' D T. destruct (K _ _ D T) as (s' & R' & _). congruence.
    + intros H. pose proof (good_seq c e _ W) as G. fold (v_expr c e (st base fr frs seg)) in G.
      destruct (v_expr c e (st base fr frs seg)) as [s'| |] eqn:R; [|reflexivity|destruct G]. exfalso.
      apply v_seq_sound in R as (seg' & u' & -> & Q); [|assumption..]. destruct (inst_any seg' u') as [r' I]. destruct (Q _ I) as (r & I' & T).
      unfold steps in T. apply (H (rev r) (rev r')); [|exact T]. apply describes_st; [exact HB|]. rewrite rev_involutive. exact I'.
Qed.
(** nothing below the frame is touched, and only the mark of the frame changes *)
Lemma principal_frame c e s s' : settled s -> no_pseudo e -> v_expr c e s = VOk s' -> frames s <> [] ->
  exists fr frs u, frames s = fr :: frs /\ frames s' = mkFrame (f_label fr) (f_out fr) (f_height fr) u :: frs /\
  (f_height fr <= length (operands s'))%nat /\
  skipn (length (operands s') - f_height fr) (operands s') = skipn (length (operands s) - f_height fr) (operands s).
Proof.
  intros S N R F. destruct (frames s) as [|fr frs] eqn:E; [congruence|]. destruct (settled_st s fr frs S E) as (base & seg & -> & HB).
  apply v_seq_sound in R as (seg' & u' & -> & _); [|assumption..]. exists fr, frs, u'. split; [reflexivity|]. split; [reflexivity|].
  cbn [operands st]. rewrite !app_length, HB, !Nat.add_sub, !skipn_app, !skipn_all, !Nat.sub_diag. cbn. split; [lia|reflexivity].
Qed.
