(** Parsing from an iterator is parsing the bytes it yields. *)
From Coq Require Import Lia ZifyN ZifyNat String.
From Verif Require Import ParserIter SpecParser SpecIter ParserMeta TypesProof InstrProof ModuleProof SectionsProof.
Open Scope N_scope.

(** ** What is pulled *)
Lemma yields_app {S} (next : iterator S) l1 : forall s l2 s2, yields next s (l1 ++ l2) s2 <->
  exists s1, yields next s l1 s1 /\ yields next s1 l2 s2.
Proof.
  induction l1 as [|b l1 IH]; intros s l2 s2; cbn [app yields].
  - split; [intros H; exists s; auto|]. intros (s1 & -> & H). assumption.
  - split.
    + intros (s1 & E & H). apply IH in H. destruct H as (s3 & H1 & H2). exists s3. eauto.
    + intros (s1 & (s3 & E & H1) & H2). exists s3. split; [assumption|]. apply IH. eauto.
Qed.

(** ** The simulation.  [q] is the parser on lists, [p] the parser on iterators. *)
Definition failed {A} (o : outcome A) : Prop := exists e, o = Err e.
Definition decided {A} (o : outcome A) : Prop := match o with Ok _ | Err _ => True | _ => False end.
Inductive simulates {A} (E : outcome A -> Prop) (q : parser A) (F : nat) {S} (next : iterator S) (s : S) (o : outcome A) (s' : S) : Prop :=
| sim_settled l : yields next s l s' -> (forall rest, q (l ++ rest) = (o, rest)) -> simulates E q F next s o s'
| sim_ended l s1 : yields next s l s1 -> next s1 = (None, s') -> q l = (o, []) -> E o -> simulates E q F next s o s'
| sim_fuel l : o = OutOfFuel -> yields next s l s' -> (F <= 2 * length l + 2)%nat -> snd (q l) = [] -> simulates E q F next s o s'.
Definition simw {A} (E : outcome A -> Prop) (p : ip A) (q : parser A) : Prop :=
  suffixing q /\ forall F S (next : iterator S) s o s', p F S next s = (o, s') -> simulates E q F next s o s'.
Definition sim {A} (p : ip A) (q : parser A) : Prop := simw failed p q.

Lemma suffix_nil {A} (q : parser A) : suffixing q -> snd (q []) = [].
Proof. intros H. destruct (H []) as [pre E]. symmetry in E. apply app_eq_nil in E. tauto. Qed.

Lemma simw_const {A} E (o : outcome A) : simw E (i_outcome o) (fun bs => (o, bs)).
Proof.
  split; [intros bs; exists []; reflexivity|]. intros F S next s o' s' H. injection H as <- <-.
  apply (sim_settled _ _ _ _ _ _ _ []); [reflexivity|]. reflexivity.
Qed.
Lemma sim_ret {A} (a : A) : sim (i_ret a) (ret a). Proof. apply simw_const. Qed.
Lemma sim_fail {A} e : sim (@i_fail A e) (fail e). Proof. apply simw_const. Qed.
Lemma sim_panic {A} : sim (@i_panic A) panic. Proof. apply simw_const. Qed.
Lemma sim_oof {A} : sim (@i_out_of_fuel A) out_of_fuel. Proof. apply simw_const. Qed.
Lemma sim_byte : sim i_byte p_byte.
Proof.
  split; [apply suffixing_byte|]. intros F S next s o s' H. unfold i_byte in H.
  destruct (next s) as [[b|] s1] eqn:E; injection H as <- <-.
  - apply (sim_settled _ _ _ _ _ _ _ [b]); [exists s1; split; [assumption|reflexivity]|]. reflexivity.
  - apply (sim_ended _ _ _ _ _ _ _ [] s); [reflexivity|assumption|reflexivity|]. exists UnexpectedEndOfFile. reflexivity.
Qed.

Lemma simw_bind {A B} (E : outcome B -> Prop) (p : ip A) q (f : A -> ip B) g : (forall e, E (Err e)) ->
  sim p q -> (forall a, simw E (f a) (g a)) -> simw E (i_bind p f) (bind q g).
Proof.
  intros EE [P1 P2] G. split; [apply suffixing_bind; [assumption|intros; apply G]|].
  intros F S next s o s' H. unfold i_bind in H. destruct (p F S next s) as [o1 s1] eqn:EP.
  destruct (P2 _ _ _ _ _ _ EP) as [l Y Q|l s2 Y N Q [e ->]|l -> Y L Q].
  - destruct o1 as [a|e| |].
    + destruct (proj2 (G a) _ _ _ _ _ _ H) as [l2 Y2 Q2|l2 s3 Y2 N2 Q2 E2|l2 -> Y2 L2 Q2].
      * apply (sim_settled _ _ _ _ _ _ _ (l ++ l2)); [apply yields_app; eauto|]. intros rest. unfold bind.
        rewrite <- app_assoc, Q. apply Q2.
      * apply (sim_ended _ _ _ _ _ _ _ (l ++ l2) s3); [apply yields_app; eauto|assumption| |assumption]. unfold bind. rewrite Q. assumption.
      * apply (sim_fuel _ _ _ _ _ _ _ (l ++ l2)); [reflexivity|apply yields_app; eauto|rewrite app_length; lia|].
        unfold bind. rewrite Q. assumption.
    + injection H as <- <-. apply (sim_settled _ _ _ _ _ _ _ l); [assumption|]. intros rest. unfold bind. rewrite Q. reflexivity.
    + injection H as <- <-. apply (sim_settled _ _ _ _ _ _ _ l); [assumption|]. intros rest. unfold bind. rewrite Q. reflexivity.
    + injection H as <- <-. apply (sim_settled _ _ _ _ _ _ _ l); [assumption|]. intros rest. unfold bind. rewrite Q. reflexivity.
  - injection H as <- <-. apply (sim_ended _ _ _ _ _ _ _ l s2); [assumption..| |apply EE]. unfold bind. rewrite Q. reflexivity.
  - injection H as <- <-. apply (sim_fuel _ _ _ _ _ _ _ l); [reflexivity|assumption..|]. unfold bind.
    destruct (q l) as [o2 r2] eqn:E2. cbn [snd] in Q. subst r2. destruct o2 as [a|e| |]; [|reflexivity..].
    apply suffix_nil, G.
Qed.
Lemma sim_bind {A B} (p : ip A) q (f : A -> ip B) g :
  sim p q -> (forall a, sim (f a) (g a)) -> sim (i_bind p f) (bind q g).
Proof. apply simw_bind. intros e. exists e. reflexivity. Qed.
Lemma simw_ext {A} E (p p' : ip A) (q q' : parser A) : (forall F S next s, p F S next s = p' F S next s) ->
  (forall bs, q bs = q' bs) -> simw E p q -> simw E p' q'.
Proof.
  intros P Q [H1 H2]. split.
  - intros bs. rewrite <- Q. apply H1.
  - intros F S next s o s' H. rewrite <- P in H. destruct (H2 _ _ _ _ _ _ H) as [l Y Q2|l s3 Y N2 Q2 E2|l -> Y L2 Q2].
    + apply (sim_settled _ _ _ _ _ _ _ l); [assumption|]. intros rest. rewrite <- Q. apply Q2.
    + apply (sim_ended _ _ _ _ _ _ _ l s3); auto. rewrite <- Q. assumption.
    + apply (sim_fuel _ _ _ _ _ _ _ l); auto. rewrite <- Q. assumption.
Qed.
Lemma simw_weaken {A} (E E' : outcome A -> Prop) p q : (forall o, E o -> E' o) -> simw E p q -> simw E' p q.
Proof.
  intros W [H1 H2]. split; [assumption|]. intros F S next s o s' H.
  destruct (H2 _ _ _ _ _ _ H) as [l Y Q2|l s3 Y N2 Q2 E2|l -> Y L2 Q2].
  - eapply sim_settled; eauto.
  - eapply sim_ended; eauto.
  - eapply sim_fuel; eauto.
Qed.
Lemma sim_decided {A} (p : ip A) q : sim p q -> simw decided p q.
Proof. apply simw_weaken. intros o [e ->]. exact I. Qed.

(** ** Numbers.  The loop on iterators with [r] rounds against the loop on lists: when the rounds run
    out, [r] bytes have been read, and the loop on lists reads on. *)
Inductive loops {A} (q : parser A) (r : nat) {S} (next : iterator S) (s : S) (o : outcome A) (s' : S) : Prop :=
| loop_settled l : yields next s l s' -> (forall rest, q (l ++ rest) = (o, rest)) -> loops q r next s o s'
| loop_ended l s1 : yields next s l s1 -> next s1 = (None, s') -> q l = (o, []) -> failed o -> loops q r next s o s'
| loop_fuel l : o = OutOfFuel -> yields next s l s' -> length l = r -> snd (q l) = [] -> loops q r next s o s'.

Lemma loops_step {A} (q q' : parser A) r b {S} (next : iterator S) s s1 o s' :
  next s = (Some b, s1) -> (forall bs, q (b :: bs) = q' bs) ->
  loops q' r next s1 o s' -> loops q (Datatypes.S r) next s o s'.
Proof.
  intros N Q [l Y H|l s2 Y N2 H F|l -> Y L H].
  - apply (loop_settled _ _ _ _ _ _ (b :: l)); [exists s1; auto|]. intros rest. cbn [app]. rewrite Q. apply H.
  - apply (loop_ended _ _ _ _ _ _ (b :: l) s2); [exists s1; auto|assumption| |assumption]. rewrite Q. assumption.
  - apply (loop_fuel _ _ _ _ _ _ (b :: l)); [reflexivity|exists s1; auto|cbn; lia|]. rewrite Q. assumption.
Qed.
Lemma loops_const {A} (o : outcome A) r {S} (next : iterator S) s : loops (fun bs => (o, bs)) r next s o s.
Proof. apply (loop_settled _ _ _ _ _ _ []); reflexivity. Qed.

Lemma uleb_loops r size mask : forall result shift F S (next : iterator S) s o s',
  i_uleb_loop r size mask result shift F S next s = (o, s') ->
  loops (uleb_loop size mask result shift) r next s o s'.
Proof.
  induction r as [|r IH]; intros result shift F S next s o s' H.
  - injection H as <- <-. apply (loop_fuel _ _ _ _ _ _ []); try reflexivity.
  - cbn [i_uleb_loop] in H. unfold i_bind, i_byte in H. destruct (next s) as [[b|] s1] eqn:N.
    2: { injection H as <- <-. apply (loop_ended _ _ _ _ _ _ [] s); [reflexivity|assumption|reflexivity|]. eexists; reflexivity. }
    apply (loops_step _ (fun bs => uleb_loop size mask result shift (b :: bs)) r b _ _ s1 _ _ N (fun bs => eq_refl)).
    cbn [uleb_loop] in *.
    repeat (match goal with |- context [if ?c then _ else _] => destruct c
      | |- context [match ?c with Some _ => _ | None => _ end] => destruct c end);
    first [injection H as <- <-; apply loops_const | apply IH in H; exact H].
Qed.
Lemma sleb_loops r size mask : forall result shift positive F S (next : iterator S) s o s',
  i_sleb_loop r size mask result shift positive F S next s = (o, s') ->
  loops (sleb_loop size mask result shift positive) r next s o s'.
Proof.
  induction r as [|r IH]; intros result shift positive F S next s o s' H.
  - injection H as <- <-. apply (loop_fuel _ _ _ _ _ _ []); try reflexivity.
  - cbn [i_sleb_loop] in H. unfold i_bind, i_byte in H. destruct (next s) as [[b|] s1] eqn:N.
    2: { injection H as <- <-. apply (loop_ended _ _ _ _ _ _ [] s); [reflexivity|assumption|reflexivity|]. eexists; reflexivity. }
    apply (loops_step _ (fun bs => sleb_loop size mask result shift positive (b :: bs)) r b _ _ s1 _ _ N (fun bs => eq_refl)).
    cbn [sleb_loop] in *.
    repeat (match goal with |- context [if ?c then _ else _] => destruct c
      | |- context [match ?c with Some _ => _ | None => _ end] => destruct c end);
    first [injection H as <- <-; apply loops_const | apply IH in H; exact H].
Qed.
Lemma simulates_loops {A} (q : parser A) F {S} (next : iterator S) s o s' : loops q F next s o s' -> simulates failed q F next s o s'.
Proof.
  intros [l Y H|l s2 Y N2 H E|l -> Y L H].
  - eapply sim_settled; eauto.
  - eapply sim_ended; eauto.
  - eapply sim_fuel; eauto. lia.
Qed.
Lemma sim_unsigned size : sim (i_unsigned size) (p_unsigned size).
Proof.
  split; [apply suffixing_unsigned|]. intros F S next s o s' H. unfold i_unsigned in H. unfold p_unsigned.
  destruct (u_from_u8 size 127) as [mask|].
  - apply simulates_loops. eapply uleb_loops. exact H.
  - injection H as <- <-. apply (sim_settled _ _ _ _ _ _ _ []); reflexivity.
Qed.
Lemma sim_signed size : sim (i_signed size) (p_signed size).
Proof.
  split; [apply suffixing_signed|]. intros F S next s o s' H. unfold i_signed in H. unfold p_signed.
  destruct (s_from_u8 size 127) as [mask|].
  - apply simulates_loops. eapply sleb_loops. exact H.
  - injection H as <- <-. apply (sim_settled _ _ _ _ _ _ _ []); reflexivity.
Qed.
Lemma sim_u32 : sim i_u32 p_u32. Proof. apply sim_unsigned. Qed.

(** ** Repetition *)
Lemma sim_times {A} n (p : ip A) q : sim p q -> sim (i_times n p) (p_times n q).
Proof.
  intros P. induction n; cbn [i_times p_times]; [apply sim_ret|].
  apply sim_bind; [assumption|]. intros x. apply sim_bind; [assumption|]. intros; apply sim_ret.
Qed.
Lemma sim_vec {A} (p : ip A) q : sim p q -> sim (i_vec p) (p_vec q).
Proof. intros P. apply sim_bind; [apply sim_u32|]. intros n. apply sim_times, P. Qed.
Lemma sim_unwrapping_vec {A B} (p : ip A) q (u : A -> B) : sim p q -> sim (i_unwrapping_vec p u) (p_unwrapping_vec q u).
Proof.
  intros P. apply sim_bind; [apply sim_u32|]. intros n. apply sim_times. apply sim_bind; [assumption|]. intros; apply sim_ret.
Qed.
Lemma sim_runs {A} k (p : ip A) q : sim p q -> forall acc, sim (i_runs k p acc) (p_runs k q acc).
Proof.
  intros P. induction k; intros acc; cbn [i_runs p_runs]; [apply sim_ret|].
  apply sim_bind; [apply sim_u32|]. intros n. apply sim_bind; [assumption|]. intros v. apply IHk.
Qed.
Lemma sim_compact_vec {A} (p : ip A) q : sim p q -> sim (i_compact_vec p) (p_compact_vec q).
Proof. intros P. apply sim_bind; [apply sim_u32|]. intros n. apply sim_runs, P. Qed.
Lemma sim_float h n : sim (i_float h n) (p_float h n).
Proof. apply sim_bind; [apply sim_times, sim_byte|]. intros; apply sim_ret. Qed.
Lemma sim_string : sim i_string p_string.
Proof.
  apply sim_bind; [apply sim_unwrapping_vec, sim_byte|]. intros raw. destruct (utf8_valid raw); [apply sim_ret|apply sim_fail].
Qed.

(** ** Windows *)
Lemma windowed_yields {S} (next : iterator S) l : forall s n c w,
  yields (windowed_next next) (mkWindowed s n c) l w ->
  yields next s l (w_inner w) /\ (N.of_nat (length l) <= n) /\ w_left w = n - N.of_nat (length l) /\ w_count w = c + N.of_nat (length l).
Proof.
  induction l as [|b l IH]; intros s n c w H; cbn [yields] in H.
  - subst w. cbn. repeat split; lia.
  - destruct H as (w1 & E & H). unfold windowed_next in E. cbn [w_left w_inner w_count] in E.
    destruct (N.eqb_spec n 0) as [->|NZ]; [discriminate|].
    destruct (next s) as [[b'|] s1] eqn:N; [|discriminate]. injection E as -> <-.
    apply IH in H. destruct H as (Y & L & W & C). cbn [yields length]. repeat split.
    + exists s1. auto.
    + lia.
    + rewrite W. lia.
    + rewrite C. lia.
Qed.
Definition i_window {A} (p : ip A) (size : N) : ip A := fun fuel S next s =>
  match p fuel (windowed S) (windowed_next next) (mkWindowed s size 0) with
  | (Ok result, w) =>
    if negb (size =? w_count w) then (Err SizeMissmatch, w_inner w)
    else (Ok result, w_inner w)
  | (o, w) => (o, w_inner w)
  end.
Lemma sim_window {A} (p : ip A) q size : simw decided p q -> sim (i_window p size) (p_window q size).
Proof.
  intros [P1 P2]. split; [apply suffixing_window; assumption|]. intros F S next s o s' H. unfold i_window in H.
  destruct (p F (windowed S) (windowed_next next) (mkWindowed s size 0)) as [o1 w] eqn:E.
  set (o2 := match o1 with Ok a => if negb (size =? w_count w) then Err SizeMissmatch else Ok a | _ => o1 end).
  assert (H' : o = o2 /\ s' = w_inner w).
  { unfold o2. destruct o1; [destruct (negb _)|..]; injection H as <- <-; auto. }
  destruct H' as [-> ->]. clear H.
  destruct (P2 _ _ _ _ _ _ E) as [l Y Q|l w1 Y N Q D|l -> Y L Q].
  - apply windowed_yields in Y. destruct Y as (Y & L & _ & C). apply (sim_settled _ _ _ _ _ _ _ l); [assumption|].
    intros rest. unfold p_window.
    assert (W : firstn (N.to_nat size) (l ++ rest) = l ++ firstn (N.to_nat size - length l) rest).
    { rewrite firstn_app, (firstn_all2 l) by lia. reflexivity. }
    assert (K : skipn (N.to_nat size) (l ++ rest) = skipn (N.to_nat size - length l) rest).
    { rewrite skipn_app, (skipn_all2 l) by lia. reflexivity. }
    rewrite W, K, Q. rewrite firstn_skipn, app_length.
    replace (N.of_nat (length l + length (firstn (N.to_nat size - length l) rest) - length (firstn (N.to_nat size - length l) rest)))
      with (w_count w) by lia.
    unfold o2. destruct o1; try reflexivity. destruct (negb _); reflexivity.
  - apply windowed_yields in Y. destruct Y as (Y & L & WL & C). unfold windowed_next in N.
    destruct (N.eqb_spec (w_left w1) 0) as [Z|NZ].
    + injection N as ->. apply (sim_settled _ _ _ _ _ _ _ l); [assumption|]. intros rest. unfold p_window.
      assert (size = N.of_nat (length l)) as -> by lia. rewrite Nat2N.id.
      rewrite firstn_app, Nat.sub_diag, firstn_all, firstn_O, app_nil_r.
      rewrite skipn_app, Nat.sub_diag, skipn_all, skipn_O. rewrite Q. cbn [length app]. rewrite Nat.sub_0_r.
      unfold o2. rewrite C, N.add_0_l, N.eqb_refl. cbn [negb]. destruct o1; reflexivity.
    + destruct (next (w_inner w1)) as [[b|] s2] eqn:N1; [discriminate|]. injection N as <-. cbn [w_inner w_count] in *.
      apply (sim_ended _ _ _ _ _ _ _ l (w_inner w1)); [assumption|assumption| |].
      * unfold p_window. rewrite (firstn_all2 l), (skipn_all2 l) by lia. rewrite Q. cbn [length app]. rewrite Nat.sub_0_r.
        unfold o2. rewrite C, N.add_0_l. destruct o1; try reflexivity. destruct (negb (size =? N.of_nat (length l))); reflexivity.
      * unfold o2. destruct o1 as [a|e| |]; [|eexists; reflexivity|destruct D..].
        destruct (N.eqb_spec size (w_count w1)); [lia|]. cbn [negb]. eexists; reflexivity.
  - apply windowed_yields in Y. destruct Y as (Y & LL & _ & _). apply (sim_fuel _ _ _ _ _ _ _ l); [reflexivity|assumption..|].
    unfold p_window. rewrite (firstn_all2 l), (skipn_all2 l) by lia. destruct (q l) as [o3 r]. cbn [snd] in Q. subst r.
    destruct o3; try reflexivity. destruct (negb _); reflexivity.
Qed.
Lemma sim_sized {A} (p : ip A) q : simw decided p q -> sim (i_sized p) (p_sized q).
Proof.
  intros P. rewrite p_sized_window. apply (sim_bind i_u32 p_u32 (i_window p) (p_window q)); [apply sim_u32|].
  intros n. apply sim_window, P.
Qed.
Lemma count_loops r : forall n F S (next : iterator S) s o s', i_count r n F S next s = (o, s') ->
  (exists l s1, yields next s l s1 /\ next s1 = (None, s') /\ o = Ok (n + N.of_nat (length l))) \/
  (o = OutOfFuel /\ exists l, yields next s l s' /\ length l = r).
Proof.
  induction r as [|r IH]; intros n F S next s o s' H; cbn [i_count] in H.
  - injection H as <- <-. right. split; [reflexivity|]. exists []. split; reflexivity.
  - destruct (next s) as [[b|] s1] eqn:N.
    + apply IH in H. destruct H as [(l & s2 & Y & N2 & ->)|(-> & l & Y & L)].
      * left. exists (b :: l), s2. split; [exists s1; auto|]. split; [assumption|]. cbn [length]. f_equal. lia.
      * right. split; [reflexivity|]. exists (b :: l). split; [exists s1; auto|]. cbn. lia.
    + injection H as <- <-. left. exists [], s. split; [reflexivity|]. split; [assumption|]. cbn. f_equal. lia.
Qed.
Lemma simw_consume : simw decided i_consume p_consume.
Proof.
  split; [intros bs; exists bs; symmetry; apply app_nil_r|]. intros F S next s o s' H. apply count_loops in H.
  destruct H as [(l & s2 & Y & N2 & ->)|(-> & l & Y & L)].
  - apply (sim_ended _ _ _ _ _ _ _ l s2); [assumption..|reflexivity|exact I].
  - apply (sim_fuel _ _ _ _ _ _ _ l); [reflexivity|assumption|lia|reflexivity].
Qed.
Lemma simw_map {A B} (p : ip A) q (f : A -> B) : simw decided p q ->
  simw decided (x <~ p ;; i_ret (f x)) (x <- q ;; ret (f x)).
Proof.
  intros [P1 P2]. split; [apply suffixing_map, P1|]. intros F S next s o s' H. unfold i_bind in H.
  destruct (p F S next s) as [o1 s1] eqn:E. destruct (P2 _ _ _ _ _ _ E) as [l Y Q|l s2 Y N Q D|l -> Y L Q].
  - apply (sim_settled _ _ _ _ _ _ _ l); [destruct o1; injection H as <- <-; assumption|]. intros rest. unfold bind. rewrite Q.
    destruct o1; injection H as <- <-; reflexivity.
  - apply (sim_ended _ _ _ _ _ _ _ l s2); [assumption|destruct o1; injection H as <- <-; assumption| |].
    + unfold bind. rewrite Q. destruct o1; injection H as <- <-; reflexivity.
    + destruct o1; injection H as <- <-; exact D.
  - injection H as <- <-. apply (sim_fuel _ _ _ _ _ _ _ l); [reflexivity|assumption..|]. unfold bind.
    destruct (q l) as [o2 r]. cbn [snd] in Q. subst r. destruct o2; reflexivity.
Qed.
Lemma simw_custom : simw decided i_custom p_custom.
Proof.
  apply (simw_bind decided i_string p_string); [intros e; exact I|apply sim_string|]. intros n. apply simw_map, simw_consume.
Qed.

(** ** Types *)
Ltac m_sim := repeat first
  [ apply sim_ret | apply sim_fail | apply sim_byte | apply sim_u32 | apply sim_string
  | apply sim_vec | apply sim_compact_vec | apply sim_unwrapping_vec
  | assumption | apply sim_bind; [|intro] ].
Lemma sim_limits : sim i_limits p_limits.
Proof. unfold i_limits, p_limits. apply sim_bind; [apply sim_byte|]. intros []; m_sim. Qed.
Lemma sim_valty : sim i_valty p_valty.
Proof. unfold i_valty, p_valty. apply sim_bind; [apply sim_byte|]. intros []; m_sim. Qed.
Lemma sim_elemty : sim i_elemty p_elemty.
Proof. unfold i_elemty, p_elemty. apply sim_bind; [apply sim_byte|]. intros []; m_sim. Qed.
Lemma sim_mut : sim i_mut p_mut.
Proof. unfold i_mut, p_mut. apply sim_bind; [apply sim_byte|]. intros []; m_sim. Qed.
Lemma sim_retval : sim i_retval p_retval.
Proof.
  unfold i_retval, p_retval. apply sim_bind; [apply sim_byte|].
  intros b; destruct b; first [apply sim_ret | apply (simw_const failed)].
Qed.
Lemma sim_functy : sim i_functy p_functy.
Proof. pose proof sim_valty. unfold i_functy, p_functy. apply sim_bind; [apply sim_byte|]. intros []; m_sim. Qed.
Lemma sim_tablety : sim i_tablety p_tablety.
Proof. pose proof sim_elemty. pose proof sim_limits. unfold i_tablety, p_tablety. m_sim. Qed.
Lemma sim_memty : sim i_memty p_memty.
Proof. pose proof sim_limits. unfold i_memty, p_memty. m_sim. Qed.
Lemma sim_globalty : sim i_globalty p_globalty.
Proof. pose proof sim_valty. pose proof sim_mut. unfold i_globalty, p_globalty. m_sim. Qed.

(** ** Instructions, with the same bound on the calls *)
Lemma sim_expr_of sub sub' : sim sub sub' -> sim (i_expr_of sub) (p_expr_of sub').
Proof.
  intros S. unfold i_expr_of, p_expr_of. apply sim_bind; [assumption|]. intros [e i].
  destruct i; first [apply sim_ret | apply sim_fail].
Qed.
Lemma sim_if_of sub sub' : sim sub sub' -> sim (i_if_of sub) (p_if_of sub').
Proof.
  intros S. unfold i_if_of, p_if_of. apply sim_bind; [apply sim_retval|]. intros rt. apply sim_bind; [assumption|].
  intros [b1 n1]. apply sim_bind.
  - destruct (is_else n1); [assumption|apply sim_ret].
  - intros [b2 n2]. destruct (is_end n2); [apply sim_ret|apply sim_fail].
Qed.
Lemma sim_opcode sub sub' b : sim sub sub' -> sim (i_opcode sub b) (p_opcode sub' b).
Proof.
  intros S. pose proof (sim_expr_of _ _ S). pose proof (sim_if_of _ _ S). pose proof sim_u32. pose proof sim_retval.
  pose proof (sim_vec _ _ sim_u32). pose proof (sim_signed 32). pose proof (sim_signed 64).
  pose proof (sim_float LittleEndian 4). pose proof (sim_float LittleEndian 8).
  destruct b; unfold i_opcode, p_opcode, i_labelidx, i_funcidx, i_typeidx, i_tableidx, i_localidx, i_globalidx, i_memidx,
    p_labelidx, p_funcidx, p_typeidx, p_tableidx, p_localidx, p_globalidx, p_memidx;
  first [ apply sim_ret | apply sim_fail | assumption
        | apply sim_bind; [assumption|intros a]; first [apply sim_ret|apply sim_bind; [assumption|intros a']; apply sim_ret]].
Qed.
Lemma sim_instr_sub f : sim (i_instr f) (p_instr f) /\ forall acc, sim (i_subexpr f acc) (p_subexpr f acc).
Proof.
  induction f as [|f [IH1 IH2]]; cbn [i_instr i_subexpr p_instr p_subexpr].
  - split; intros; apply sim_oof.
  - split.
    + apply sim_bind; [apply sim_byte|]. intros b. apply sim_opcode, IH2.
    + intros acc. apply sim_bind; [assumption|]. intros i. destruct i; first [apply sim_ret | apply IH2].
Qed.

(** More fuel only reads on. *)
Definition further {A} (p q : parser A) : Prop :=
  suffixing q /\ forall bs, q bs = p bs \/ (fst (p bs) = OutOfFuel /\ exists x, snd (p bs) = x ++ snd (q bs)).
Lemma further_refl {A} (p : parser A) : suffixing p -> further p p.
Proof. intros S. split; [assumption|]. intros bs. left. reflexivity. Qed.
Lemma further_bind {A B} (p p' : parser A) (f f' : A -> parser B) :
  further p p' -> (forall a, further (f a) (f' a)) -> further (bind p f) (bind p' f').
Proof.
  intros [P1 P2] F. split; [apply suffixing_bind; [assumption|intros; apply F]|]. intros bs. unfold bind.
  destruct (P2 bs) as [E|[E [x X]]].
  - rewrite E. destruct (p bs) as [[a|e| |] r]; try (left; reflexivity). apply F.
  - right. destruct (p bs) as [o r]. cbn [fst snd] in *. subst o r. split; [reflexivity|].
    destruct (p' bs) as [[a|e| |] r]; cbn [snd]; try (exists x; reflexivity).
    destruct (proj1 (F a) r) as [y Y]. exists (x ++ y). rewrite <- app_assoc, <- Y. reflexivity.
Qed.
Lemma further_mono f : forall f', (f <= f')%nat ->
  further (p_instr f) (p_instr f') /\ forall acc, further (p_subexpr f acc) (p_subexpr f' acc).
Proof.
  induction f as [|f IH]; intros f' L.
  - split; [|intros acc]; (split; [first [apply suffixing_instr|apply suffixing_subexpr]|]); intros bs; right;
      (split; [reflexivity|]); cbn [p_instr p_subexpr out_of_fuel snd]; [apply suffixing_instr|apply suffixing_subexpr].
  - destruct f' as [|f']; [lia|]. destruct (IH f' ltac:(lia)) as [IH1 IH2]. cbn [p_instr p_subexpr]. split.
    + apply further_bind; [apply further_refl, suffixing_byte|]. intros b.
      apply (closed_opcode (fun A p q => further p q));
        first [exact (fun A a => further_refl _ (suffixing_ret _)) | exact (fun A a => further_refl _ (suffixing_fail _)) | exact @further_bind
              | apply further_refl, suffixing_u32 | apply further_refl, suffixing_signed | apply further_refl, suffixing_float
              | apply further_refl, suffixing_retval | apply further_refl, suffixing_vec, suffixing_u32 | apply IH2].
    + intros acc. apply further_bind; [assumption|]. intros i.
      destruct i; first [apply further_refl, suffixing_ret | apply IH2].
Qed.
Lemma further_expr_of sub sub' : further sub sub' -> further (p_expr_of sub) (p_expr_of sub').
Proof.
  intros S. apply (closed_expr_of (fun A p q => further p q));
    first [exact (fun A a => further_refl _ (suffixing_ret _)) | exact (fun A a => further_refl _ (suffixing_fail _))
          | exact @further_bind | exact S].
Qed.

(** From a bound on the calls to the parser supplied with enough fuel *)
Lemma sim_fueled {A} (E : outcome A -> Prop) (i : nat -> ip A) (q : nat -> parser A) (need : nat -> nat) :
  (forall o, E o -> o <> OutOfFuel) ->
  (forall n, (need n <= 2 * n + 2)%nat) ->
  (forall f, simw E (i f) (q f)) ->
  (forall f f', (f <= f')%nat -> further (q f) (q f')) ->
  (forall f bs, (need (length bs) <= f)%nat -> fst (q f bs) <> OutOfFuel) ->
  simw E (fun F => i F F) (fun bs => q (need (length bs)) bs).
Proof.
  intros EO NB SI FU EN.
  assert (SAME : forall f bs, fst (q f bs) <> OutOfFuel -> q (need (length bs)) bs = q f bs).
  { intros f bs H. destruct (Nat.le_gt_cases f (need (length bs))) as [L|L].
    - destruct (proj2 (FU _ _ L) bs) as [X|[X _]]; [assumption|contradiction].
    - destruct (proj2 (FU (need (length bs)) f ltac:(lia)) bs) as [X|[X _]]; [symmetry; assumption|].
      destruct (EN (need (length bs)) bs (Nat.le_refl _) X). }
  assert (END : forall f bs, snd (q f bs) = [] -> snd (q (need (length bs)) bs) = []).
  { intros f bs H. destruct (fst (q f bs)) eqn:O; try (rewrite (SAME f); [assumption|rewrite O; discriminate]).
    destruct (Nat.le_gt_cases (need (length bs)) f) as [L|L]; [destruct (EN _ _ L O)|].
    destruct (proj2 (FU f (need (length bs)) ltac:(lia)) bs) as [X|[_ [x X]]].
    - rewrite X. assumption.
    - rewrite H in X. symmetry in X. apply app_eq_nil in X. tauto. }
  split; [intros bs; apply (proj1 (SI (need (length bs))))|].
  intros F S next s o s' H. destruct (proj2 (SI F) _ _ _ _ _ _ H) as [l Y Q|l s2 Y N Q D|l -> Y L Q].
  - destruct o as [a|e| |] eqn:O.
    4: { pose proof (Q []) as Q0. rewrite app_nil_r in Q0. apply (sim_fuel _ _ _ _ _ _ _ l); [reflexivity|assumption| |].
         - destruct (Nat.le_gt_cases (need (length l)) F) as [LE|LE]; [destruct (EN F l LE); rewrite Q0; reflexivity|].
           specialize (NB (length l)). lia.
         - apply (END F). rewrite Q0. reflexivity. }
    all: apply (sim_settled _ _ _ _ _ _ _ l); [assumption|]; intros rest; rewrite (SAME F); [apply Q|rewrite Q; discriminate].
  - apply (sim_ended _ _ _ _ _ _ _ l s2); [assumption..| |assumption]. rewrite (SAME F); [assumption|]. rewrite Q. apply EO, D.
  - apply (sim_fuel _ _ _ _ _ _ _ l); [reflexivity|assumption..|]. apply (END F). assumption.
Qed.
Lemma failed_fuel {A} (o : outcome A) : failed o -> o <> OutOfFuel. Proof. intros [e ->]. discriminate. Qed.
Lemma decided_fuel {A} (o : outcome A) : decided o -> o <> OutOfFuel. Proof. destruct o; try discriminate. intros []. Qed.
Lemma sim_expr : sim i_expr p_expr.
Proof.
  apply (sim_fueled failed (fun f => i_expr_of (i_subexpr f [])) (fun f => p_expr_of (p_subexpr f [])) fuel_for).
  - exact failed_fuel.
  - intros n. unfold fuel_for. lia.
  - intros f. apply sim_expr_of, sim_instr_sub.
  - intros f f' L. apply further_expr_of, further_mono, L.
  - intros f bs L.
    refine (proj2 (proj1 (closed_expr_of (fun A p _ => bsafe (length bs) p) _ _ _ (p_subexpr f []) (p_subexpr f []) _ bs (Nat.le_refl _)))).
    + intros A a. apply bsafe_of; [apply safe_ret|apply suffixing_ret].
    + intros A a. apply bsafe_of; [apply safe_fail|apply suffixing_fail].
    + exact (fun A B p _ f _ => bsafe_bind (length bs) p f).
    + apply (proj2 (bsafe_instr_sub f (length bs))). unfold fuel_for in L; lia.
Qed.
Lemma sim_constexpr : sim i_constexpr p_constexpr. Proof. apply sim_expr. Qed.

(** ** Module components *)
Ltac c_sim := pose proof sim_valty; pose proof sim_limits; pose proof sim_functy; pose proof sim_tablety; pose proof sim_memty;
  pose proof sim_globalty; pose proof sim_expr; pose proof sim_constexpr; pose proof sim_u32.
Lemma sim_func : sim i_func p_func. Proof. c_sim. unfold i_func, p_func. m_sim. Qed.
Lemma sim_table : sim i_table p_table. Proof. c_sim. unfold i_table, p_table. m_sim. Qed.
Lemma sim_mem : sim i_mem p_mem. Proof. c_sim. unfold i_mem, p_mem. m_sim. Qed.
Lemma sim_global : sim i_global p_global. Proof. c_sim. unfold i_global, p_global. m_sim. Qed.
Lemma sim_elem : sim i_elem p_elem. Proof. c_sim. unfold i_elem, p_elem, i_tableidx, p_tableidx, i_funcidx, p_funcidx. m_sim. Qed.
Lemma sim_data : sim i_data p_data. Proof. c_sim. unfold i_data, p_data, i_memidx, p_memidx. m_sim. Qed.
Lemma sim_start : sim i_start p_start. Proof. c_sim. unfold i_start, p_start, i_funcidx, p_funcidx. m_sim. Qed.
Lemma sim_importdesc : sim i_importdesc p_importdesc.
Proof. c_sim. unfold i_importdesc, p_importdesc, i_typeidx, p_typeidx. apply sim_bind; [apply sim_byte|]. intros []; m_sim. Qed.
Lemma sim_exportdesc : sim i_exportdesc p_exportdesc.
Proof.
  c_sim. unfold i_exportdesc, p_exportdesc, i_funcidx, p_funcidx, i_tableidx, p_tableidx, i_memidx, p_memidx, i_globalidx, p_globalidx.
  apply sim_bind; [apply sim_byte|]. intros []; m_sim.
Qed.
Lemma sim_import : sim i_import p_import. Proof. pose proof sim_importdesc. unfold i_import, p_import. m_sim. Qed.
Lemma sim_export : sim i_export p_export. Proof. pose proof sim_exportdesc. unfold i_export, p_export. m_sim. Qed.
Lemma sim_section id s : sim (i_section id s) (p_section id s).
Proof.
  assert (Z : forall A (p : ip A) q, sim p q -> sim (i_sized p) (p_sized q)) by (intros; apply sim_sized, sim_decided; assumption).
  unfold i_section, p_section, i_typeidx, p_typeidx.
  destruct id; try apply sim_fail; (apply sim_bind; [|intro]); try apply sim_ret;
    try (apply Z; first [apply sim_vec|idtac];
         first [apply sim_functy|apply sim_import|apply sim_u32|apply sim_table|apply sim_mem|apply sim_global|apply sim_export|apply sim_elem|apply sim_data|apply sim_start]).
  - apply sim_sized, simw_custom.
  - apply Z, sim_unwrapping_vec, Z, sim_func.
  - destruct (negb _); [apply sim_fail|]. destruct (assign_types _ _ _); first [apply sim_ret|apply sim_panic].
Qed.

(** ** The section loop *)
Lemma peekable_yields {S} (next : iterator S) l : forall s p, yields (peekable_next next) (mkPeekable s None) l p ->
  pk_peeked p = None /\ yields next s l (pk_inner p).
Proof.
  induction l as [|b l IH]; intros s p H; cbn [yields] in *.
  - subst p. split; reflexivity.
  - destruct H as (p1 & E & H). unfold peekable_next in E. cbn [pk_peeked pk_inner] in E.
    destruct (next s) as [v s1] eqn:N. injection E as -> <-. apply IH in H. destruct H. split; [assumption|]. exists s1. auto.
Qed.
Lemma peekable_simulates {A} (q : parser A) F {S} (next : iterator S) s o p :
  simulates failed q F (peekable_next next) (mkPeekable s None) o p -> simulates failed q F next s o (pk_inner p) /\ (forall a, o = Ok a -> pk_peeked p = None).
Proof.
  intros [l Y Q|l p1 Y N Q D|l -> Y L Q]; apply peekable_yields in Y; destruct Y as [P Y].
  - split; [eapply sim_settled; eassumption|auto].
  - split; [|intros a ->; destruct D; discriminate]. unfold peekable_next in N. rewrite P in N.
    destruct (next (pk_inner p1)) as [v s2] eqn:N1. injection N as -> <-. eapply sim_ended; eassumption.
  - split; [eapply sim_fuel; try eassumption; reflexivity|discriminate].
Qed.
Definition i_loop (f : nat) (st : pstate) : ip pstate := fun F S next s =>
  let (o, p) := i_sections f st F S next (mkPeekable s None) in (o, pk_inner p).
Lemma sim_loop f : forall st, simw decided (i_loop f st) (p_sections f st).
Proof.
  induction f as [|f IH]; intros st; (split; [apply suffixing_sections|]); intros F S next s o s' H; unfold i_loop in H.
  - injection H as <- <-. apply (sim_settled _ _ _ _ _ _ _ []); reflexivity.
  - cbn [i_sections] in H. unfold peek in H. cbn [pk_peeked pk_inner] in H. destruct (next s) as [[b|] s1] eqn:N.
    2: { injection H as <- <-. apply (sim_ended _ _ _ _ _ _ _ [] s); [reflexivity|assumption|reflexivity|exact I]. }
    assert (L : forall rest, p_sections (Datatypes.S f) st (b :: rest) =
      (if negb (byte_is b 0) && (Byte.to_N b <=? ps_last_id st) then fail (UnexpectedSectionId b)
       else s2 <- p_section b (if byte_is b 0 then st else mkPstate (ps_result st) (ps_func_types st) (Byte.to_N b)) ;; p_sections f s2) rest)
      by reflexivity.
    unfold i_round in H. unfold i_bind, i_byte, peekable_next at 1 in H. cbn [pk_peeked pk_inner] in H.
    destruct (negb (byte_is b 0) && (Byte.to_N b <=? ps_last_id st)).
    { injection H as <- <-. apply (sim_settled _ _ _ _ _ _ _ [b]); [exists s1; split; [assumption|reflexivity]|].
      intros rest. cbn [app]. rewrite L. reflexivity. }
    set (st1 := if byte_is b 0 then st else mkPstate (ps_result st) (ps_func_types st) (Byte.to_N b)) in *.
    assert (M : simulates decided (s2 <- p_section b st1 ;; p_sections f s2) F next s1 o s').
    { refine (proj2 (simw_bind decided (fun F S next s => let (o, p) := i_section b st1 F (peekable S) (peekable_next next) (mkPeekable s None) in
          (o, pk_inner p)) (p_section b st1) (i_loop f) (p_sections f) _ _ IH) F S next s1 o s' _).
      - intros e. exact I.
      - split; [apply suffixing_section|]. clear. intros F S next s o s' H.
        destruct (i_section b st1 F (peekable S) (peekable_next next) (mkPeekable s None)) as [o1 p1] eqn:E. injection H as <- <-.
        apply (peekable_simulates _ _ next). apply (proj2 (sim_section b st1)). assumption.
      - unfold i_bind. destruct (i_section b st1 F (peekable S) (peekable_next next) (mkPeekable s1 None)) as [o1 p1] eqn:E.
        pose proof (proj2 (peekable_simulates _ _ next _ _ _ (proj2 (sim_section b st1) _ _ _ _ _ _ E))) as PN.
        destruct o1 as [st2|e| |]; try exact H. unfold i_loop. destruct p1 as [s3 pe]. cbn [pk_inner pk_peeked] in *.
        rewrite (PN st2 eq_refl) in H. exact H. }
    destruct M as [l Y Q|l s2 Y N2 Q D|l -> Y LE Q].
    + apply (sim_settled _ _ _ _ _ _ _ (b :: l)); [exists s1; auto|]. intros rest. cbn [app]. rewrite L. apply Q.
    + apply (sim_ended _ _ _ _ _ _ _ (b :: l) s2); [exists s1; auto|assumption| |assumption]. rewrite L. assumption.
    + apply (sim_fuel _ _ _ _ _ _ _ (b :: l)); [reflexivity|exists s1; auto|cbn [length]; lia|]. rewrite L. assumption.
Qed.
Lemma further_sections f : forall f' st, (f <= f')%nat -> further (p_sections f st) (p_sections f' st).
Proof.
  induction f as [|f IH]; intros f' st L; (split; [apply suffixing_sections|]); intros bs.
  - right. split; [reflexivity|]. cbn [p_sections snd]. apply suffixing_sections.
  - destruct f' as [|f']; [lia|]. cbn [p_sections]. destruct bs as [|b bs]; [left; reflexivity|].
    refine (proj2 (further_bind p_byte p_byte _ _ (further_refl _ suffixing_byte) _) (b :: bs)). intros id.
    destruct (negb _ && _); [apply further_refl, suffixing_fail|].
    apply further_bind; [apply further_refl, suffixing_section|]. intros s2. apply IH. lia.
Qed.
Lemma sim_body : simw decided i_body (fun bs => p_sections (Datatypes.S (length bs)) (mkPstate default_module [] 0) bs).
Proof.
  apply (sim_fueled decided (fun f => i_loop f (mkPstate default_module [] 0)) (fun f => p_sections f (mkPstate default_module [] 0)) Datatypes.S).
  - exact decided_fuel.
  - intros n. lia.
  - intros f. apply sim_loop.
  - intros f f' L. apply further_sections, L.
  - intros f bs L. apply safe_sections. lia.
Qed.
Lemma sim_module : simw decided i_module p_module.
Proof.
  unfold i_module, p_module. apply simw_bind; [intros; exact I|apply sim_times, sim_byte|]. intros magic.
  destruct (negb _); [apply (sim_decided _ _ (sim_fail _))|].
  apply simw_bind; [intros; exact I|apply sim_times, sim_byte|]. intros version.
  destruct (negb _); [apply (sim_decided _ _ (sim_fail _))|].
  exact (simw_map i_body _ ps_result sim_body).
Qed.
