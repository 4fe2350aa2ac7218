(** The validator on code with stray [Else]. *)
From Coq Require Import Lia.
From Verif Require Import ValidatorModule SpecElse SpecVerdict TypingProof EncodeProof ModuleValidProof SafeProof DialectValidProof ValidityClaims.
Open Scope N_scope.

Definition endless (e : list instr) : Prop := ~ occurs I_End e.
Lemma endless_cons i is : endless (i :: is) -> endless [i] /\ endless is.
Proof. intros H. split; intros O; apply H; change (i :: is) with ([i] ++ is); apply occurs_app; auto. Qed.
Lemma endless_sub i sub : In sub (children i) -> endless [i] -> endless sub.
Proof. intros S H O. apply H. apply occurs_one. right. eauto. Qed.
Lemma no_pseudo_app a b : no_pseudo a -> no_pseudo b -> no_pseudo (a ++ b).
Proof. intros [A B] [A' B']. split; rewrite occurs_app; tauto. Qed.
Lemma no_pseudo_nil : no_pseudo [].
Proof. split; apply occurs_nil. Qed.
Lemma alt_some f is : exists p ps, alternatives f is = p :: ps.
Proof.
  induction is as [|i is (p & ps & IH)]; [exists [], []; reflexivity|]. cbn [alternatives]. rewrite IH.
  destruct i; eexists _, _; reflexivity.
Qed.
(** no [Else] remains *)
Lemma alt_clean is : Forall (fun i => endless [i] -> i <> I_Else -> no_pseudo (unelse i)) is -> endless is -> Forall no_pseudo (alternatives unelse is).
Proof.
  induction 1 as [|i is H F IH]; intros NE; [constructor; [apply no_pseudo_nil|constructor]|]. apply endless_cons in NE as [N1 N2].
  specialize (IH N2). destruct (alt_some unelse is) as (p & ps & E). cbn [alternatives]. rewrite E in *.
  inversion IH as [|? ? P PS]; subst.
  assert (X : i <> I_Else -> Forall no_pseudo ((unelse i ++ p) :: ps)).
  { intros NX. constructor; [apply no_pseudo_app; auto|assumption]. }
  destruct i; try (apply X; discriminate). constructor; [apply no_pseudo_nil|assumption].
Qed.
Lemma no_pseudo_one i : i <> I_End -> i <> I_Else -> (forall sub, In sub (children i) -> no_pseudo sub) -> no_pseudo [i].
Proof.
  intros A B H. split; intros O; apply occurs_one in O as [O|(sub & S & O)]; try congruence; destruct (H sub S); contradiction.
Qed.
Lemma again_clean rt ps : Forall no_pseudo ps -> no_pseudo (again rt ps).
Proof.
  induction 1 as [|p ps P PS IH]; [apply no_pseudo_nil|]. unfold again in *. cbn [flat_map]. apply no_pseudo_app; [|assumption]. apply no_pseudo_app.
  - generalize (length rt). intros n. induction n as [|n IHn]; [apply no_pseudo_nil|]. cbn [repeat]. change (I_Drop :: repeat I_Drop n) with ([I_Drop] ++ repeat I_Drop n).
    apply no_pseudo_app; [|assumption]. apply no_pseudo_one; [discriminate..|intros sub []].
  - apply no_pseudo_one; [discriminate..|]. intros sub [<-|[]]. assumption.
Qed.
Lemma unelse_clean i : endless [i] -> i <> I_Else -> no_pseudo (unelse i).
Proof.
  induction i as [i IH] using instr_children_ind. intros NE NX.
  assert (X : forall sub, In sub (children i) -> exists p ps, alternatives unelse sub = p :: ps /\ no_pseudo p /\ Forall no_pseudo ps).
  { intros sub S. destruct (alt_some unelse sub) as (p & ps & E). exists p, ps. split; [assumption|].
    pose proof (alt_clean sub (IH sub S) (endless_sub _ _ S NE)) as F. rewrite E in F. inversion F; auto. }
  assert (K : forall a b, no_pseudo [a] -> no_pseudo b -> no_pseudo (a :: b)) by (intros a b; apply (no_pseudo_app [a])).
  destruct i; try (apply no_pseudo_one; [intros Q; apply NE; apply occurs_one; left; symmetry; exact Q|assumption|intros sub []]).
  - destruct (X b (or_introl eq_refl)) as (p & ps & E & P & PS). cbn [unelse]. rewrite E. cbn [hd tl]. apply K; [|apply again_clean, PS].
    apply no_pseudo_one; [discriminate..|]. intros sub [<-|[]]. assumption.
  - destruct (X b (or_introl eq_refl)) as (p & ps & E & P & PS). cbn [unelse]. rewrite E. cbn [hd tl]. apply K; [|apply again_clean, PS].
    apply no_pseudo_one; [discriminate..|]. intros sub [<-|[]]. assumption.
  - destruct (X b (or_introl eq_refl)) as (p & ps & E & P & PS). destruct (X c (or_intror (or_introl eq_refl))) as (q & qs & E' & Q & QS).
    cbn [unelse]. rewrite E, E'. cbn [hd tl]. apply K; [|apply again_clean, Forall_app; auto].
    apply no_pseudo_one; [discriminate..|]. intros sub [<-|[<-|[]]]; assumption.
Qed.

(** ** Running *)
(** a sequence that produces the results [out] of a new frame *)
Definition seg_ok c lab out (s : stacks) (p : list instr) : Prop :=
  exists s1, v_seq (v_instr c) p (push_frame lab out s) = VOk s1 /\ pop_frame s1 = VOk (out, s).
Definition same_run c (i : instr) : Prop := forall base fr frs seg s', length base = f_height fr ->
  (v_instr c i (st base fr frs seg) = VOk s' <-> v_seq (v_instr c) (unelse i) (st base fr frs seg) = VOk s').

Lemma seq_shape c is base fr frs seg s' : no_pseudo is -> length base = f_height fr ->
  v_seq (v_instr c) is (st base fr frs seg) = VOk s' -> exists seg' u', s' = st base (set_unr fr u') frs seg'.
Proof. intros NP HB H. destruct (v_seq_sound is c base fr frs seg s' HB NP H) as (seg' & u' & -> & _). exists seg', u'. reflexivity. Qed.
Lemma seq_app_ok c is1 is2 s s' : v_seq (v_instr c) (is1 ++ is2) s = VOk s' <-> exists s1, v_seq (v_instr c) is1 s = VOk s1 /\ v_seq (v_instr c) is2 s1 = VOk s'.
Proof.
  rewrite v_seq_app. split.
  - intros H. apply vbind_ok in H. exact H.
  - intros (s1 & H1 & H2). rewrite H1. exact H2.
Qed.
Lemma seq_one_ok c i s s' : v_seq (v_instr c) [i] s = VOk s' <-> v_instr c i s = VOk s'.
Proof. cbn [v_seq]. destruct (v_instr c i s); cbn; tauto. Qed.

Definition plain_seq (is : list instr) : Prop := Forall (fun i => i <> I_Else) is.
(** sequences without [Else] at the top *)
Lemma same_seq c is : Forall (fun i => i <> I_Else -> same_run c i) is -> plain_seq is -> endless is ->
  forall base fr frs seg s', length base = f_height fr ->
  (v_seq (v_instr c) is (st base fr frs seg) = VOk s' <-> v_seq (v_instr c) (flat_map unelse is) (st base fr frs seg) = VOk s').
Proof.
  induction 1 as [|i is H F IH]; intros PS NE base fr frs seg s' HB; [reflexivity|]. inversion PS as [|? ? P1 P2]; subst. apply endless_cons in NE as [N1 N2].
  cbn [flat_map]. change (i :: is) with ([i] ++ is). rewrite !seq_app_ok. 
  assert (C : no_pseudo (unelse i)) by (apply unelse_clean; assumption).
  assert (X : forall s1, v_seq (v_instr c) [i] (st base fr frs seg) = VOk s1 <-> v_seq (v_instr c) (unelse i) (st base fr frs seg) = VOk s1).
  { intros s1. rewrite seq_one_ok. apply H; assumption. }
  split; intros (s1 & H1 & H2); exists s1.
  - apply X in H1. destruct (seq_shape _ _ _ _ _ _ _ C HB H1) as (seg' & u' & ->). split; [assumption|]. apply (IH P2 N2) in H2; assumption.
  - destruct (seq_shape _ _ _ _ _ _ _ C HB H1) as (seg' & u' & ->). split; [apply X; assumption|]. apply (IH P2 N2); assumption.
Qed.
(** the first [Else] *)
Lemma alt_split is : (plain_seq is /\ alternatives unelse is = [flat_map unelse is]) \/
  (exists a b, is = a ++ I_Else :: b /\ plain_seq a /\ alternatives unelse is = flat_map unelse a :: alternatives unelse b).
Proof.
  induction is as [|i is IH]; [left; split; [constructor|reflexivity]|].
  assert (D : i = I_Else \/ i <> I_Else) by (destruct i; try (right; discriminate); left; reflexivity). destruct D as [->|D].
  - right. exists [], is. split; [reflexivity|]. split; [constructor|reflexivity].
  - assert (E : alternatives unelse (i :: is) = match alternatives unelse is with p :: ps => (unelse i ++ p) :: ps | [] => [unelse i] end).
    { destruct i; try reflexivity. congruence. }
    rewrite E. destruct IH as [[P ->]|(a & b & -> & P & ->)].
    + left. split; [constructor; assumption|reflexivity].
    + right. exists (i :: a), b. split; [reflexivity|]. split; [constructor; assumption|reflexivity].
Qed.
Lemma pop_frame_shape base lab out n u' frs seg rs : length base = n -> pop_frame (st base (mkFrame lab out n u') frs seg) = VOk rs -> rs = (out, mkStacks base frs).
Proof. intros L H. apply pop_frame_sound in H as [-> _]; [reflexivity|assumption]. Qed.
(** a body of a frame *)
Lemma body_run c n : forall b, (length b <= n)%nat -> Forall (fun i => i <> I_Else -> same_run c i) b -> endless b -> forall lab out s p ps rs,
  alternatives unelse b = p :: ps ->
  ((s1 <-- v_seq (v_instr c) b (push_frame lab out s) ;; pop_frame s1) = VOk rs <->
   rs = (out, s) /\ seg_ok c lab out s p /\ Forall (seg_ok c out out s) ps).
Proof.
  induction n as [|n IH]; intros b L F NE lab out s p ps rs E.
  - destruct b; [|cbn in L; lia]. cbn in E. injection E as <- <-. cbn [v_seq vbind]. split.
    + intros H. pose proof (pop_frame_shape (operands s) lab out (length (operands s)) false (frames s) [] rs eq_refl H) as ->.
      destruct s as [ops frs]. split; [reflexivity|]. split; [|constructor]. eexists. split; [reflexivity|exact H].
    + intros (-> & (s1 & H1 & H2) & _). cbn in H1. injection H1 as <-. exact H2.
  - assert (SH : forall s1 q, no_pseudo q -> v_seq (v_instr c) q (push_frame lab out s) = VOk s1 -> forall rs, pop_frame s1 = VOk rs -> rs = (out, s)).
    { intros s1 q NQ H rs' R. destruct (seq_shape c q (operands s) (mkFrame lab out (length (operands s)) false) (frames s) [] s1 NQ eq_refl H) as (seg' & u' & ->).
      apply pop_frame_shape in R; [|reflexivity]. subst rs'. destruct s. reflexivity. }
    destruct (alt_split b) as [[P A]|(a & b' & -> & P & A)]; rewrite A in E; injection E as <- <-.
    + pose proof (same_seq c b F P NE (operands s) (mkFrame lab out (length (operands s)) false) (frames s) []) as S.
      change (st (operands s) (mkFrame lab out (length (operands s)) false) (frames s) []) with (push_frame lab out s) in S.
      assert (C : no_pseudo (flat_map unelse b)).
      { pose proof (alt_clean b) as AC. rewrite A in AC. specialize (AC). assert (X : Forall no_pseudo [flat_map unelse b]).
        { apply AC; [|assumption]. rewrite Forall_forall. intros i _. apply unelse_clean. } inversion X; assumption. }
      split.
      * intros H. apply vbind_ok in H as (s1 & H1 & H2). apply S in H1; [|reflexivity]. pose proof (SH _ _ C H1 _ H2). subst rs. split; [reflexivity|].
        split; [|constructor]. exists s1. auto.
      * intros (-> & (s1 & H1 & H2) & _). apply S in H1; [|reflexivity]. rewrite H1. exact H2.
    + assert (NA : endless a /\ endless b').
      { split; intros O; apply NE; apply occurs_app; [left; assumption|right]. change (I_Else :: b') with ([I_Else] ++ b'). apply occurs_app. auto. }
      destruct NA as [NA NB]. apply Forall_app in F as [FA FB]. inversion FB as [|? ? _ FB']; subst.
      pose proof (same_seq c a FA P NA (operands s) (mkFrame lab out (length (operands s)) false) (frames s) []) as S.
      change (st (operands s) (mkFrame lab out (length (operands s)) false) (frames s) []) with (push_frame lab out s) in S.
      assert (C : no_pseudo (flat_map unelse a)).
      { assert (X : Forall no_pseudo (alternatives unelse (a ++ I_Else :: b'))).
        { apply alt_clean; [|assumption]. rewrite Forall_forall. intros i _. apply unelse_clean. } rewrite A in X. inversion X; assumption. }
      destruct (alt_some unelse b') as (q & qs & AB). rewrite AB. 
      assert (LB : (length b' <= n)%nat) by (rewrite app_length in L; cbn in L; lia).
      specialize (IH b' LB FB' NB out out s q qs rs AB). split.
      * intros H. apply vbind_ok in H as (s1 & H1 & H2). apply seq_app_ok in H1 as (s2 & H1 & H3). cbn [v_seq v_instr] in H3.
        apply vbind_ok in H3 as (s3 & H3 & H4). unfold v_else in H3. apply vbind_ok in H3 as (rs' & H3 & H5). injection H5 as <-.
        apply S in H1; [|reflexivity]. pose proof (SH _ _ C H1 _ H3). subst rs'. cbn [fst snd] in H4.
        destruct (proj1 IH) as (-> & Q & QS); [rewrite H4; exact H2|]. split; [reflexivity|]. split; [exists s2; auto|]. constructor; assumption.
      * intros (-> & (s2 & H1 & H2) & F'). inversion F' as [|? ? Q QS]; subst. specialize (proj2 IH (conj eq_refl (conj Q QS))) as H.
        apply vbind_ok in H as (s1 & H3 & H4). apply S in H1; [|reflexivity]. rewrite v_seq_app, H1. cbn [vbind v_seq v_instr].
        unfold v_else. rewrite H2. cbn [vbind fst snd]. rewrite H3. cbn [vbind]. exact H4.
Qed.

Lemma v_end_of c b s s' : (s1 <-- v_seq (v_instr c) b s ;; v_end s1) = VOk s' <->
  exists rs, (s1 <-- v_seq (v_instr c) b s ;; pop_frame s1) = VOk rs /\ s' = push_operands (fst rs) (snd rs).
Proof.
  destruct (v_seq (v_instr c) b s) as [s1| |]; cbn [vbind]; [|split; [discriminate|intros (? & [=] & _)]..].
  unfold v_end. destruct (pop_frame s1) as [rs| |]; cbn [vbind]; [|split; [discriminate|intros (? & [=] & _)]..].
  split; [intros [= <-]; eauto|intros (rs' & [= <-] & ->); reflexivity].
Qed.
Lemma block_run c lab out s b p ps s' : Forall (fun i => i <> I_Else -> same_run c i) b -> endless b -> alternatives unelse b = p :: ps ->
  ((s1 <-- v_seq (v_instr c) b (push_frame lab out s) ;; v_end s1) = VOk s' <->
   s' = push_operands out s /\ seg_ok c lab out s p /\ Forall (seg_ok c out out s) ps).
Proof.
  intros F NE E. rewrite v_end_of. split.
  - intros (rs & H & ->). apply (body_run c (length b) b (le_n _) F NE lab out s p ps rs E) in H as (-> & P & PS). auto.
  - intros (-> & P & PS). exists (out, s). split; [|reflexivity]. apply (body_run c (length b) b (le_n _) F NE lab out s p ps _ E). auto.
Qed.
Lemma plain_block c lab out s p s' : no_pseudo p ->
  ((s1 <-- v_seq (v_instr c) p (push_frame lab out s) ;; v_end s1) = VOk s' <-> s' = push_operands out s /\ seg_ok c lab out s p).
Proof.
  intros NP. rewrite v_end_of. split.
  - intros (rs & H & ->). apply vbind_ok in H as (s1 & H1 & H2).
    destruct (seq_shape c p (operands s) (mkFrame lab out (length (operands s)) false) (frames s) [] s1 NP eq_refl H1) as (seg' & u' & ->).
    pose proof H2 as H3. apply pop_frame_shape in H3; [|reflexivity]. subst rs. destruct s as [ops frs]. split; [reflexivity|]. eexists. split; [exact H1|exact H2].
  - intros (-> & s1 & H1 & H2). exists (out, s). split; [|reflexivity]. rewrite H1. exact H2.
Qed.
Lemma drops_run c base fr frs l : length base = f_height fr -> forall seg,
  v_seq (v_instr c) (repeat I_Drop (length l)) (st base fr frs (map Val l ++ seg)) = VOk (st base fr frs seg).
Proof.
  intros HB. induction l as [|t l IH]; intros seg; [reflexivity|]. cbn [length repeat v_seq v_instr].
  assert (P : pop_operand Unknown (st base fr frs (map Val (t :: l) ++ seg)) = VOk (Val t, st base fr frs (map Val l ++ seg))).
  { unfold pop_operand, st. cbn [frames operands map app length]. rewrite app_length, HB.
    replace (Nat.eqb (S (length (map Val l ++ seg) + f_height fr)) (f_height fr)) with false by (symmetry; apply Nat.eqb_neq; lia). reflexivity. }
  rewrite P. cbn [vbind snd]. apply IH.
Qed.
Lemma again_run c rt ps base fr frs seg s' : length base = f_height fr -> Forall no_pseudo ps ->
  (v_seq (v_instr c) (again rt ps) (push_operands rt (st base fr frs seg)) = VOk s' <->
   s' = push_operands rt (st base fr frs seg) /\ Forall (seg_ok c rt rt (st base fr frs seg)) ps).
Proof.
  intros HB F. induction F as [|p ps P F IH].
  - cbn [again flat_map v_seq]. split; [intros [= <-]; auto|intros [-> _]; reflexivity].
  - unfold again in *. cbn [flat_map]. rewrite <- app_assoc, seq_app_ok.
    assert (D : v_seq (v_instr c) (repeat I_Drop (length rt)) (push_operands rt (st base fr frs seg)) = VOk (st base fr frs seg)).
    { rewrite push_operands_st. rewrite <- (rev_length rt) at 1. apply drops_run, HB. }
    rewrite D. split.
    + intros (s1 & [= <-] & H). apply seq_app_ok in H as (s2 & H1 & H2). apply seq_one_ok in H1. cbn [v_instr] in H1.
      apply plain_block in H1 as [-> S]; [|assumption]. apply IH in H2 as [-> SS]. auto.
    + intros [-> SS]. inversion SS as [|? ? S SS']; subst. eexists. split; [reflexivity|]. apply seq_app_ok.
      exists (push_operands rt (st base fr frs seg)). split; [apply seq_one_ok; cbn [v_instr]; apply plain_block; auto|]. apply IH. auto.
Qed.
Lemma alt_app a b : alternatives unelse (a ++ I_Else :: b) = alternatives unelse a ++ alternatives unelse b.
Proof.
  induction a as [|i a IH]; [reflexivity|]. destruct (alt_some unelse a) as (p & ps & E).
  rewrite E in IH. cbn [app] in IH.
  destruct i; cbn [app alternatives]; fold (alternatives unelse); rewrite IH, E; reflexivity.
Qed.
Theorem same_run_all c i : endless [i] -> i <> I_Else -> same_run c i.
Proof.
  induction i as [i IH] using instr_children_ind. intros NE NX base fr frs seg s' HB.
  assert (X : forall sub, In sub (children i) -> Forall (fun i => i <> I_Else -> same_run c i) sub /\ endless sub /\
    exists p ps, alternatives unelse sub = p :: ps /\ no_pseudo p /\ Forall no_pseudo ps).
  { intros sub S. assert (NS : endless sub) by (eapply endless_sub; eassumption). split; [|split; [assumption|]].
    - specialize (IH sub S). clear - IH NS. induction IH as [|j sub J F IHs]; constructor; apply endless_cons in NS as [N1 N2]; auto.
    - destruct (alt_some unelse sub) as (p & ps & E). exists p, ps. split; [assumption|].
      assert (F : Forall no_pseudo (alternatives unelse sub)) by (apply alt_clean; [rewrite Forall_forall; intros j _; apply unelse_clean|assumption]).
      rewrite E in F. inversion F; auto. }
  clear IH. destruct i; try (cbn [unelse]; rewrite seq_one_ok; reflexivity).
  - destruct (X b (or_introl eq_refl)) as (F & NB & p & ps & E & P & PS). cbn [unelse v_instr]. rewrite E. cbn [hd tl].
    rewrite (block_run c _ _ _ b p ps s' F NB E). match goal with |- context [again ?rt ps] => change (I_Block rt p :: again rt ps) with ([I_Block rt p] ++ again rt ps) end.
    rewrite seq_app_ok. setoid_rewrite seq_one_ok. cbn [v_instr]. split.
    + intros (-> & S & SS). eexists. split; [apply plain_block; auto|]. apply again_run; auto.
    + intros (s1 & H1 & H2). apply plain_block in H1 as [-> S]; [|assumption]. apply again_run in H2 as [-> SS]; auto.
  - destruct (X b (or_introl eq_refl)) as (F & NB & p & ps & E & P & PS). cbn [unelse v_instr]. rewrite E. cbn [hd tl].
    rewrite (block_run c _ _ _ b p ps s' F NB E). match goal with |- context [again ?rt ps] => change (I_Loop rt p :: again rt ps) with ([I_Loop rt p] ++ again rt ps) end.
    rewrite seq_app_ok. setoid_rewrite seq_one_ok. cbn [v_instr]. split.
    + intros (-> & S & SS). eexists. split; [apply plain_block; auto|]. apply again_run; auto.
    + intros (s1 & H1 & H2). apply plain_block in H1 as [-> S]; [|assumption]. apply again_run in H2 as [-> SS]; auto.
  - destruct (X b (or_introl eq_refl)) as (F & NB & p & ps & E & P & PS).
    match goal with |- context [I_If _ b ?b2] => rename b2 into d end.
    destruct (X d (or_intror (or_introl eq_refl))) as (F2 & NB2 & q & qs & E2 & Q & QS).
    match goal with |- context [I_If ?t b d] => rename t into rt end.
    cbn [unelse]. rewrite E, E2. cbn [hd tl]. change (I_If rt p q :: again rt (ps ++ qs)) with ([I_If rt p q] ++ again rt (ps ++ qs)).
    rewrite seq_app_ok. setoid_rewrite seq_one_ok. cbn [v_instr].
    assert (JOIN : forall x y s s', (s1 <-- v_seq (v_instr c) x s ;; s2 <-- v_else s1 ;; s3 <-- v_seq (v_instr c) y s2 ;; v_end s3) = VOk s' <->
      (s1 <-- v_seq (v_instr c) (x ++ I_Else :: y) s ;; v_end s1) = VOk s').
    { intros x y s0 s1. rewrite v_seq_app. cbn [v_seq v_instr]. rewrite vbind_assoc. destruct (v_seq (v_instr c) x s0); cbn [vbind]; [|reflexivity..].
      rewrite vbind_assoc. reflexivity. }
    destruct (pop_operands [T_I32] (st base fr frs seg)) as [s0| |] eqn:PO; cbn [vbind]; [|split; [discriminate|intros (? & [=] & _)]..].
    assert (SH : exists seg0, s0 = st base fr frs seg0).
    { unfold pop_operands in PO. apply pop_all_sound in PO as (seg0 & -> & _); [eauto|assumption]. }
    destruct SH as (seg0 & ->). setoid_rewrite JOIN.
    assert (FJ : Forall (fun i => i <> I_Else -> same_run c i) (b ++ I_Else :: d)) by (apply Forall_app; split; [assumption|constructor; [congruence|assumption]]).
    assert (NJ : forall x y, endless x -> endless y -> endless (x ++ I_Else :: y)).
    { intros x y A B O. apply occurs_app in O as [O|O]; [contradiction|]. change (I_Else :: y) with ([I_Else] ++ y) in O. apply occurs_app in O as [O|O]; [|contradiction].
      apply occurs_one in O as [O|(sub & [] & _)]. discriminate O. }
    assert (AJ : alternatives unelse (b ++ I_Else :: d) = p :: ps ++ q :: qs) by (rewrite alt_app, E, E2; reflexivity).
    rewrite (block_run c _ _ _ (b ++ I_Else :: d) p (ps ++ q :: qs) s' FJ (NJ _ _ NB NB2) AJ).
    assert (PLAIN : forall s1, (s2 <-- v_seq (v_instr c) (p ++ I_Else :: q) (push_frame rt rt (st base fr frs seg0)) ;; v_end s2) = VOk s1 <->
      s1 = push_operands rt (st base fr frs seg0) /\ seg_ok c rt rt (st base fr frs seg0) p /\ seg_ok c rt rt (st base fr frs seg0) q).
    { intros s1. rewrite v_seq_app. cbn [v_seq v_instr]. rewrite vbind_assoc. split.
      - intros H. apply vbind_ok in H as (s2 & H1 & H2). rewrite vbind_assoc in H2. apply vbind_ok in H2 as (s3 & H2 & H3). unfold v_else in H2.
        apply vbind_ok in H2 as (rs & H2 & H4). injection H4 as <-.
        destruct (seq_shape c p _ (mkFrame rt rt (length (operands (st base fr frs seg0))) false) _ [] s2 P eq_refl H1) as (seg' & u' & ->).
        pose proof H2 as H5. apply pop_frame_shape in H5; [|reflexivity]. subst rs. cbn [fst snd] in H3.
        apply plain_block in H3 as [-> S]; [|assumption]. split; [reflexivity|]. split; [|exact S]. eexists. split; [exact H1|exact H2].
      - intros (-> & (s2 & H1 & H2) & S). rewrite H1. cbn [vbind]. rewrite vbind_assoc. unfold v_else. rewrite H2. cbn [vbind fst snd]. apply plain_block; auto. }
    split.
    + intros (-> & S & SS). apply Forall_app in SS as [S1 S2]. inversion S2 as [|? ? S3 S4]; subst. eexists. split; [apply PLAIN; auto|].
      apply again_run; [assumption|apply Forall_app; auto|]. split; [reflexivity|]. apply Forall_app. auto.
    + intros (s1 & H1 & H2). apply PLAIN in H1 as (-> & S & S3). apply again_run in H2 as [-> SS]; [|assumption|apply Forall_app; auto].
      apply Forall_app in SS as [S1 S2]. split; [reflexivity|]. split; [assumption|]. apply Forall_app. auto.
Qed.

(** ** Functions *)
Lemma func_else c f t : (exists cs, v_func f (c, empty_stacks) = VOk (t, cs)) <->
  ~ occurs I_End (fn_body f) /\ Forall (fun g => func_type false false (tenv_of c) g t) (func_alternatives f).
Proof.
  assert (KEY : endless (fn_body f) -> ((exists cs, v_func f (c, empty_stacks) = VOk (t, cs)) <->
     Forall (fun g => exists cs, v_func g (c, empty_stacks) = VOk (t, cs)) (func_alternatives f))).
  { intros NE.
    assert (F : forall c', Forall (fun i => i <> I_Else -> same_run c' i) (fn_body f)).
    { intros c'. clear c. remember (fn_body f) as b eqn:EB. clear EB. induction b as [|i b IHb]; constructor; apply endless_cons in NE as [N1 N2]; [intros; apply same_run_all; assumption|auto]. }
    destruct (alt_some unelse (fn_body f)) as (p & ps & E). unfold func_alternatives. rewrite E.
    assert (ONE : forall b, no_pseudo b -> ((exists cs, v_func (mkFunc (fn_ty f) (fn_locals f) b) (c, empty_stacks) = VOk (t, cs)) <->
       at_index (c_types c) (fn_ty f) t /\ seg_ok (body_ctx c t f) (ft_results t) (ft_results t) empty_stacks b)).
    { intros b NP. split.
      - intros [cs H]. apply v_func_run in H as (A & s & rs & H & P). split; [exact A|]. exists s. split; [exact H|].
        unfold v_expr in H. destruct (seq_shape _ b [] (mkFrame (ft_results t) (ft_results t) 0 false) [] [] s NP eq_refl H) as (seg' & u' & ->).
        pose proof P as P2. apply pop_frame_shape in P2; [|reflexivity]. subst rs. exact P.
      - intros (A & s & H & P). unfold v_func, v_typeidx. cbn [fn_ty fn_locals fn_body]. apply v_lookup_ok in A. rewrite A. cbn [vbind].
        unfold body_ctx in H. unfold v_expr. cbn [fn_locals] in *. rewrite H. cbn [vbind]. rewrite P. cbn. eauto. }
    assert (NP : Forall no_pseudo (p :: ps)).
    { rewrite <- E. apply alt_clean; [rewrite Forall_forall; intros j _; apply unelse_clean|assumption]. }
    assert (ALL : Forall (fun g => exists cs, v_func g (c, empty_stacks) = VOk (t, cs)) (map (fun b => mkFunc (fn_ty f) (fn_locals f) b) (p :: ps)) <->
       at_index (c_types c) (fn_ty f) t /\ Forall (seg_ok (body_ctx c t f) (ft_results t) (ft_results t) empty_stacks) (p :: ps)).
    { rewrite Forall_map. inversion NP as [|? ? P1 P2]; subst. split.
      - intros H. inversion H as [|? ? H1 H2]; subst. pose proof (proj1 (ONE p P1) H1) as [A _]. split; [exact A|].
        rewrite Forall_forall in *. intros b I. apply (ONE b (NP b I)). apply H, I.
      - intros [A H]. rewrite Forall_forall in *. intros b I. apply (ONE b (NP b I)). auto. }
    rewrite ALL. split.
    - intros [cs H]. apply v_func_run in H as (A & s & rs & H & P). split; [exact A|].
      assert (R : (s1 <-- v_seq (v_instr (body_ctx c t f)) (fn_body f) (push_frame (ft_results t) (ft_results t) empty_stacks) ;; pop_frame s1) = VOk rs).
      { unfold v_expr in H. rewrite H. exact P. }
      apply (body_run _ _ _ (le_n _) (F _) NE _ _ _ p ps rs E) in R as (-> & S1 & S2). constructor; assumption.
    - intros [A H]. inversion H as [|? ? S1 S2]; subst.
      assert (R : (s1 <-- v_seq (v_instr (body_ctx c t f)) (fn_body f) (push_frame (ft_results t) (ft_results t) empty_stacks) ;; pop_frame s1) = VOk (ft_results t, empty_stacks)).
      { apply (body_run _ _ _ (le_n _) (F _) NE _ _ _ p ps _ E). auto. }
      apply vbind_ok in R as (s & R & P). unfold v_func, v_typeidx. apply v_lookup_ok in A. rewrite A. cbn [vbind].
      unfold v_expr. unfold body_ctx in R. rewrite R. cbn [vbind]. rewrite P. cbn. eauto. }
  assert (CL : endless (fn_body f) -> Forall (fun g => no_pseudo (fn_body g)) (func_alternatives f)).
  { intros NE. unfold func_alternatives. rewrite Forall_map. cbn [fn_body]. apply alt_clean; [rewrite Forall_forall; intros j _; apply unelse_clean|assumption]. }
  assert (EQ : endless (fn_body f) -> (Forall (fun g => exists cs, v_func g (c, empty_stacks) = VOk (t, cs)) (func_alternatives f) <->
      Forall (fun g => func_type false false (tenv_of c) g t) (func_alternatives f))).
  { intros NE. specialize (CL NE). rewrite !Forall_forall in *. split; intros H g I; apply v_func_typing; auto. }
  split.
  - intros H. assert (NE : endless (fn_body f)).
    { destruct H as [cs H]. apply func_no_end in H. intros O. apply occurs_ends in O. lia. }
    split; [exact NE|]. apply EQ; [exact NE|]. apply KEY; assumption.
  - intros [NE H]. apply KEY; [exact NE|]. apply EQ; assumption.
Qed.

(** ** Modules *)
Lemma func_state m fts f t cs : v_func f (module_ctx m fts, empty_stacks) = VOk (t, cs) -> cs = (module_ctx m fts, empty_stacks).
Proof.
  unfold v_func. intros H. apply vbind_ok in H as (t' & _ & H). apply vbind_ok in H as (s & _ & H). apply vbind_ok in H as (rs & _ & H).
  destruct (snd rs) as [[|o ops] [|fr frs]]; try discriminate H. injection H as _ <-. reflexivity.
Qed.
Lemma alternatives_same f g : In g (func_alternatives f) -> fn_ty g = fn_ty f.
Proof. intros I. apply in_map_iff in I as (b & <- & _). reflexivity. Qed.
Lemma alternatives_tys fs gs : Forall2 (fun f g => In g (func_alternatives f)) fs gs -> map fn_ty gs = map fn_ty fs.
Proof. induction 1 as [|f g fs gs I F IH]; [reflexivity|]. cbn [map]. rewrite IH, (alternatives_same _ _ I). reflexivity. Qed.
Lemma alternatives_clean f g : ~ occurs I_End (fn_body f) -> In g (func_alternatives f) -> no_pseudo (fn_body g).
Proof.
  intros NE I. apply in_map_iff in I as (b & <- & I). cbn [fn_body]. revert b I. apply Forall_forall.
  apply alt_clean; [rewrite Forall_forall; intros j _; apply unelse_clean|exact NE].
Qed.
Lemma some_choice fs : exists gs, Forall2 (fun f g => In g (func_alternatives f)) fs gs.
Proof.
  induction fs as [|f fs (gs & F)]; [exists []; constructor|]. destruct (alt_some unelse (fn_body f)) as (p & ps & E).
  exists (mkFunc (fn_ty f) (fn_locals f) p :: gs). constructor; [|exact F]. unfold func_alternatives. rewrite E. left. reflexivity.
Qed.
Lemma choice_with fs f g : In f fs -> In g (func_alternatives f) -> exists gs, Forall2 (fun f g => In g (func_alternatives f)) fs gs /\ In g gs.
Proof.
  intros I J. apply in_split in I as (a & b & ->). destruct (some_choice a) as (ga & A), (some_choice b) as (gb & B).
  exists (ga ++ g :: gb). split; [apply Forall2_app; [exact A|constructor; [exact J|exact B]]|]. apply in_or_app. right. left. reflexivity.
Qed.
Lemma module_else m : accepted m <->
  (forall f, In f (m_funcs m) -> ~ occurs I_End (fn_body f)) /\
  (forall gs, Forall2 (fun f g => In g (func_alternatives f)) (m_funcs m) gs -> valid_module whasm_validity (with_funcs m gs)).
Proof.
  assert (W : (forall f, In f (m_funcs m) -> ~ occurs I_End (fn_body f)) -> forall gs, Forall2 (fun f g => In g (func_alternatives f)) (m_funcs m) gs ->
     (accepted (with_funcs m gs) <-> valid_module whasm_validity (with_funcs m gs))).
  { intros NE gs F. apply c40_iff. cbn [with_funcs m_funcs]. intros g I. apply In_nth_error in I as [n I].
    assert (X : exists f, In f (m_funcs m) /\ In g (func_alternatives f)).
    { clear NE. revert n I. induction F as [|f g' fs gs J F IH]; intros n I; [destruct n; discriminate|]. destruct n as [|n]; cbn in I.
      - injection I as <-. exists f. split; [left; reflexivity|assumption].
      - destruct (IH n I) as (f' & A & B). exists f'. split; [right; assumption|assumption]. }
    destruct X as (f & A & B). eapply alternatives_clean; [apply NE; eassumption|exact B]. }
  split.
  - intros A. assert (NE : forall f, In f (m_funcs m) -> ~ occurs I_End (fn_body f)).
    { intros f I. apply (no_end m _ A). unfold module_exprs. apply in_or_app. left. apply in_map. exact I. }
    split; [exact NE|]. intros gs F. apply (W NE gs F). apply accepted_checked in A as (fts & ims & xs & []). apply accepted_checked. exists fts, ims, xs.
    constructor; try assumption.
    + unfold func_space, func_index in *. cbn. rewrite (alternatives_tys _ _ F). exact mc_funcs_typed.
    + cbn [with_funcs m_funcs]. change (module_ctx (with_funcs m gs) fts) with (module_ctx m fts). clear - F mc_funcs_ok.
      induction F as [|f g fs gs J F IH]; [constructor|]. inversion mc_funcs_ok as [|? ? (t & H) K]; subst. constructor; [|auto].
      assert (H' : exists cs, v_func f (module_ctx m fts, empty_stacks) = VOk (t, cs)) by eauto.
      apply func_else in H' as [NE H']. rewrite Forall_forall in H'. apply H' in J as T. apply v_func_typing in T; [|eapply alternatives_clean; eassumption].
      destruct T as [cs T]. exists t. pose proof (func_state _ _ _ _ _ T) as ->. exact T.
  - intros [NE V]. destruct (some_choice (m_funcs m)) as (g0 & F0).
    assert (A0 : accepted (with_funcs m g0)) by (apply (W NE g0 F0), V, F0).
    apply accepted_checked in A0 as (fts & ims & xs & A0). pose proof (mc_funcs_typed _ _ _ _ A0) as FS0.
    assert (FS : func_space m fts).
    { unfold func_space, func_index in *. cbn in FS0. rewrite (alternatives_tys _ _ F0) in FS0. exact FS0. }
    apply accepted_checked. exists fts, ims, xs. destruct A0. constructor; try assumption.
    apply Forall_forall. intros f I.
    assert (EACH : forall g, In g (func_alternatives f) -> exists t cs, v_func g (module_ctx m fts, empty_stacks) = VOk (t, cs)).
    { intros g J. destruct (choice_with _ _ _ I J) as (gs & F & IG). pose proof (proj2 (W NE gs F) (V gs F)) as A.
      apply accepted_checked in A as (fts' & ims' & xs' & []). assert (FS' : func_space m fts').
      { unfold func_space, func_index in *. cbn in mc_funcs_typed0. rewrite (alternatives_tys _ _ F) in mc_funcs_typed0. exact mc_funcs_typed0. }
      pose proof (func_space_det m fts fts' FS FS') as <-. rewrite Forall_forall in mc_funcs_ok0. destruct (mc_funcs_ok0 g IG) as [t T]. eauto. }
    destruct (alt_some unelse (fn_body f)) as (p & ps & E).
    destruct (EACH (mkFunc (fn_ty f) (fn_locals f) p)) as (t & cs & T0); [unfold func_alternatives; rewrite E; left; reflexivity|].
    apply v_func_run in T0 as [AT _]. cbn [fn_ty] in AT.
    assert (X : exists cs, v_func f (module_ctx m fts, empty_stacks) = VOk (t, cs)).
    { apply func_else. split; [apply NE; exact I|]. apply Forall_forall. intros g J. destruct (EACH g J) as (t' & cs' & T).
      apply v_func_run in T as AT'. destruct AT' as [AT' _]. rewrite (alternatives_same _ _ J) in AT'. 
      assert (t' = t) as -> by (unfold at_index in *; congruence). apply v_func_typing; [eapply alternatives_clean; [apply NE, I|exact J]|eauto]. }
    destruct X as [cs' X]. exists t. pose proof (func_state _ _ _ _ _ X) as ->. exact X.
Qed.

(** ** Code without pseudo instructions *)
Lemma plain_else i : no_pseudo [i] -> i <> I_Else.
Proof. intros [_ N] ->. apply N. apply occurs_one. left. reflexivity. Qed.
Lemma plain_split is : Forall (fun i => no_pseudo [i] -> unelse i = [i]) is -> no_pseudo is -> alternatives unelse is = [is].
Proof.
  induction 1 as [|i is H F IH]; intros NP; [reflexivity|]. apply no_pseudo_cons in NP as [N1 N2]. specialize (IH N2). specialize (H N1).
  pose proof (plain_else _ N1) as NE. destruct i; try contradiction; cbn [alternatives]; fold (alternatives unelse); rewrite IH, H; reflexivity.
Qed.
Lemma plain_unelse i : no_pseudo [i] -> unelse i = [i].
Proof.
  induction i as [i IH] using instr_children_ind. intros NP.
  assert (X : forall sub, In sub (children i) -> alternatives unelse sub = [sub]) by (intros sub S; apply plain_split; [apply IH; exact S|eapply no_pseudo_sub; eassumption]).
  destruct i; try reflexivity; cbn [unelse]; rewrite ?(X _ (or_introl eq_refl)), ?(X _ (or_intror (or_introl eq_refl))); reflexivity.
Qed.
Lemma plain_alternatives f : no_pseudo (fn_body f) -> func_alternatives f = [f].
Proof.
  intros NP. unfold func_alternatives. rewrite plain_split; [destruct f; reflexivity| |exact NP]. apply Forall_forall. intros i _. apply plain_unelse.
Qed.
