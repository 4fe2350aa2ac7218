(** Compositional facts about parsers: what is left is a suffix of the input, no panic, locality,
    exactness. *)
From Coq Require Import Lia ZifyN ZifyNat.
From Verif Require Export ParserCore SpecFormat SpecParser LebProof Utf8Proof.
Open Scope N_scope.

Lemma suffixing_length {A} (p : parser A) bs : suffixing p -> (length (snd (p bs)) <= length bs)%nat.
Proof. intros S. destruct (S bs) as [pre E]. rewrite E at 2. rewrite app_length. lia. Qed.

(** ** ret, fail, bind *)
Lemma bind_ok {A B} (p : parser A) (f : A -> parser B) bs b r :
  bind p f bs = (Ok b, r) <-> exists a r0, p bs = (Ok a, r0) /\ f a r0 = (Ok b, r).
Proof.
  unfold bind. split.
  - destruct (p bs) as [[a|e| |] r0] eqn:E; intros H; try discriminate. eauto.
  - intros (a & r0 & -> & H). assumption.
Qed.

Lemma suffixing_ret {A} (a : A) : suffixing (ret a).
Proof. intros bs; exists []; reflexivity. Qed.
Lemma suffixing_fail {A} e : suffixing (@fail A e).
Proof. intros bs; exists []; reflexivity. Qed.
Lemma suffixing_bind {A B} (p : parser A) (f : A -> parser B) :
  suffixing p -> (forall a, suffixing (f a)) -> suffixing (bind p f).
Proof.
  intros P F bs. unfold bind. destruct (P bs) as [pre E].
  destruct (p bs) as [[a|e| |] r]; cbn in *; try (exists pre; assumption).
  destruct (F a r) as [pre2 E2]. exists (pre ++ pre2). rewrite <- app_assoc, <- E2. assumption.
Qed.

Lemma safe_ret {A} (a : A) : safe (ret a).
Proof. intros bs; cbn; split; discriminate. Qed.
Lemma safe_fail {A} e : safe (@fail A e).
Proof. intros bs; cbn; split; discriminate. Qed.
Lemma safe_bind {A B} (p : parser A) (f : A -> parser B) :
  safe p -> (forall a, safe (f a)) -> safe (bind p f).
Proof.
  intros P F bs. unfold bind. specialize (P bs).
  destruct (p bs) as [[a|e| |] r]; cbn in *; try tauto.
  - apply F.
  - split; discriminate.
Qed.

Lemma local_ok_ret {A} (a : A) : local_ok (ret a).
Proof. intros bs x r H tl. cbn in *. injection H as -> ->. reflexivity. Qed.
Lemma local_ok_fail {A} e : local_ok (@fail A e).
Proof. intros bs x r H tl. discriminate. Qed.
Lemma local_ok_bind {A B} (p : parser A) (f : A -> parser B) :
  local_ok p -> (forall a, local_ok (f a)) -> local_ok (bind p f).
Proof.
  intros P F bs b r H tl. apply bind_ok in H. destruct H as (a & r0 & H1 & H2).
  apply bind_ok. exists a, (r0 ++ tl). split; [apply P; assumption|apply F; assumption].
Qed.

Lemma local_err_ret {A} (a : A) : local_err (ret a).
Proof. intros bs e r H. discriminate. Qed.
Lemma local_err_fail {A} e : local_err (@fail A e).
Proof. intros bs e' r H. right. intros tl. cbn in *. injection H as -> ->. reflexivity. Qed.
Lemma local_err_bind {A B} (p : parser A) (f : A -> parser B) :
  local_ok p -> local_err p -> (forall a, local_err (f a)) -> local_err (bind p f).
Proof.
  intros PO P F bs e r H. unfold bind in H. destruct (p bs) as [[a|e0| |] r0] eqn:E; try discriminate.
  - destruct (F a r0 e r H) as [X|X]; [left; assumption|right]. intros tl.
    unfold bind. rewrite (PO _ _ _ E tl). apply X.
  - injection H as -> ->. destruct (P _ _ _ E) as [X|X]; [left; assumption|right].
    intros tl. unfold bind. rewrite X. reflexivity.
Qed.

Lemma progress_bind_l {A B} (p : parser A) (f : A -> parser B) :
  progress p -> (forall a, suffixing (f a)) -> progress (bind p f).
Proof.
  intros P F bs b r H. apply bind_ok in H. destruct H as (a & r0 & H1 & H2).
  apply P in H1. pose proof (suffixing_length (f a) r0 (F a)) as L. rewrite H2 in L. cbn in L. lia.
Qed.

Lemma exact_ext {A} (p : parser A) (E F : format A) :
  (forall bs a, E bs a <-> F bs a) -> exact p E -> exact p F.
Proof.
  intros X P bs a rest. rewrite (P bs a rest).
  split; intros (pre & -> & H); exists pre; split; auto; apply X; assumption.
Qed.
Lemma exact_ret {A} (a : A) : exact (ret a) (fun pre x => pre = [] /\ x = a).
Proof.
  intros bs x rest. unfold ret. split.
  - intros H; injection H as -> ->. exists []. auto.
  - intros (pre & -> & -> & ->). reflexivity.
Qed.
Lemma exact_fail {A} e : exact (@fail A e) (fun _ _ => False).
Proof. intros bs x rest. split; [discriminate|intros (? & _ & [])]. Qed.
Lemma exact_bind {A B} (p : parser A) (f : A -> parser B) E F :
  exact p E -> (forall a, exact (f a) (F a)) ->
  exact (bind p f) (fun pre b => exists a p1 p2, pre = p1 ++ p2 /\ E p1 a /\ F a p2 b).
Proof.
  intros P Q bs b rest. rewrite bind_ok. split.
  - intros (a & r0 & H1 & H2). apply P in H1. destruct H1 as (p1 & -> & E1).
    apply Q in H2. destruct H2 as (p2 & -> & E2).
    exists (p1 ++ p2). rewrite app_assoc. split; [reflexivity|]. exists a, p1, p2. auto.
  - intros (pre & -> & a & p1 & p2 & -> & E1 & E2). exists a, (p2 ++ rest). split.
    + apply P. exists p1. rewrite app_assoc. auto.
    + apply Q. exists p2. auto.
Qed.
Lemma exact_exact_all {A} (p : parser A) E : exact p E -> exact_all p E.
Proof.
  intros X bs a. rewrite (X bs a []). split.
  - intros (pre & -> & H). rewrite app_nil_r. assumption.
  - intros H. exists bs. rewrite app_nil_r. auto.
Qed.
Lemma exact_local_ok {A} (p : parser A) E : exact p E -> local_ok p.
Proof.
  intros X bs a r H tl. apply X in H. destruct H as (pre & -> & H).
  apply X. exists pre. rewrite app_assoc. auto.
Qed.
(** an exactly decoded format is deterministic and prefix free *)
Lemma exact_prefix_free {A} (p : parser A) E : exact p E ->
  forall p1 p2 r1 r2 a1 a2, E p1 a1 -> E p2 a2 -> p1 ++ r1 = p2 ++ r2 -> p1 = p2 /\ a1 = a2.
Proof.
  intros X p1 p2 r1 r2 a1 a2 E1 E2 EQ.
  assert (H1 : p (p1 ++ r1) = (Ok a1, r1)) by (apply X; eauto).
  assert (H2 : p (p2 ++ r2) = (Ok a2, r2)) by (apply X; eauto).
  rewrite EQ, H2 in H1. injection H1 as -> ->. apply app_inv_tail in EQ. auto.
Qed.

(** ** Bytes *)
Lemma suffixing_byte : suffixing p_byte.
Proof. intros [|b bs]; [exists []|exists [b]]; reflexivity. Qed.
Lemma safe_byte : safe p_byte.
Proof. intros [|b bs]; cbn; split; discriminate. Qed.
Lemma progress_byte : progress p_byte.
Proof. intros [|b bs] a r H; [discriminate|]. injection H as -> ->. cbn. lia. Qed.
Lemma exact_byte : exact p_byte (fun pre b => pre = [b]).
Proof.
  intros bs b rest. split.
  - destruct bs as [|b0 bs]; [discriminate|]. intros H; injection H as -> ->. exists [b]; auto.
  - intros (pre & -> & ->). reflexivity.
Qed.
Lemma local_ok_byte : local_ok p_byte.
Proof. exact (exact_local_ok _ _ exact_byte). Qed.
Lemma local_err_byte : local_err p_byte.
Proof. intros [|b bs] e r H; [|discriminate]. injection H as <- <-. left. left. reflexivity. Qed.

(** ** Integers *)
Lemma suffixing_unsigned size : suffixing (p_unsigned size).
Proof.
  intros bs. unfold p_unsigned. destruct (u_from_u8 size 0x7F); [apply uleb_loop_suffix|].
  exists []; reflexivity.
Qed.
Lemma suffixing_signed size : suffixing (p_signed size).
Proof.
  intros bs. unfold p_signed. destruct (s_from_u8 size 0x7F); [apply sleb_loop_suffix|].
  exists []; reflexivity.
Qed.
Lemma safe_unsigned size : 8 <= size -> safe (p_unsigned size).
Proof.
  intros S bs. rewrite p_unsigned_loop by assumption.
  destruct (uleb_loop_results size S bs 0 0) as [[v H]|[H|[H _]]]; rewrite H; cbn; split; discriminate.
Qed.
Lemma safe_signed size : 8 <= size -> safe (p_signed size).
Proof.
  intros S bs. rewrite p_signed_loop by assumption.
  destruct (sleb_loop_results size S bs 0 0 true) as [[v H]|[H|[H _]]];
    try (rewrite H; cbn; split; discriminate).
  intros _. cbn; lia.
Qed.
Lemma exact_unsigned size : 8 <= size -> exact (p_unsigned size) (enc_unsigned size).
Proof. intros S bs a rest. apply p_unsigned_exact. assumption. Qed.
Lemma exact_signed size : 8 <= size -> exact (p_signed size) (enc_signed size).
Proof. intros S bs a rest. apply p_signed_exact. assumption. Qed.
Lemma local_ok_unsigned size : 8 <= size -> local_ok (p_unsigned size).
Proof. intros S. exact (exact_local_ok _ _ (exact_unsigned size S)). Qed.
Lemma local_ok_signed size : 8 <= size -> local_ok (p_signed size).
Proof. intros S. exact (exact_local_ok _ _ (exact_signed size S)). Qed.

Lemma uleb_loop_local size mask bs : forall result shift e r,
  uleb_loop size mask result shift bs = (Err e, r) -> e <> UnexpectedEndOfFile ->
  forall tl, uleb_loop size mask result shift (bs ++ tl) = (Err e, r ++ tl).
Proof.
  induction bs as [|b bs IH]; intros result shift e r H N tl.
  - cbn in H. injection H as <- <-. congruence.
  - cbn [uleb_loop app] in *.
    repeat match goal with
      | H : context [match ?c with _ => _ end] |- _ =>
        lazymatch c with uleb_loop _ _ _ _ _ => fail | _ => destruct c end end;
      try discriminate; try (injection H as <- <-; reflexivity); apply IH; assumption.
Qed.
Lemma sleb_loop_local size mask bs : forall result shift positive e r,
  sleb_loop size mask result shift positive bs = (Err e, r) -> e <> UnexpectedEndOfFile ->
  forall tl, sleb_loop size mask result shift positive (bs ++ tl) = (Err e, r ++ tl).
Proof.
  induction bs as [|b bs IH]; intros result shift positive e r H N tl.
  - cbn in H. injection H as <- <-. congruence.
  - cbn [sleb_loop app] in *.
    repeat match goal with
      | H : context [match ?c with _ => _ end] |- _ =>
        lazymatch c with sleb_loop _ _ _ _ _ _ => fail | _ => destruct c end end;
      try discriminate; try apply IH; try assumption.
    all: injection H as <- <-; try reflexivity.
    all: match goal with H : sleb_finish _ _ _ _ = _ |- _ => rewrite H; reflexivity end.
Qed.
Lemma eof_dec (e : perror) : {e = UnexpectedEndOfFile} + {e <> UnexpectedEndOfFile}.
Proof. destruct e; (left; reflexivity) || (right; discriminate). Qed.
Lemma local_err_unsigned size : local_err (p_unsigned size).
Proof.
  intros bs e r H. unfold p_unsigned in *. destruct (u_from_u8 size 0x7F); [|discriminate].
  destruct (eof_dec e) as [->|N]; [left; left; reflexivity|right].
  apply uleb_loop_local; assumption.
Qed.
Lemma local_err_signed size : local_err (p_signed size).
Proof.
  intros bs e r H. unfold p_signed in *. destruct (s_from_u8 size 0x7F); [|discriminate].
  destruct (eof_dec e) as [->|N]; [left; left; reflexivity|right].
  apply sleb_loop_local; assumption.
Qed.
Lemma leb_nonempty pre : leb pre -> (0 < length pre)%nat.
Proof. intros []; cbn; lia. Qed.
Lemma progress_unsigned size : 8 <= size -> progress (p_unsigned size).
Proof.
  intros S bs a r H. apply exact_unsigned in H; [|assumption].
  destruct H as (pre & -> & L & _). apply leb_nonempty in L. rewrite app_length. lia.
Qed.
Lemma progress_signed size : 8 <= size -> progress (p_signed size).
Proof.
  intros S bs a r H. apply exact_signed in H; [|assumption].
  destruct H as (pre & -> & L & _). apply leb_nonempty in L. rewrite app_length. lia.
Qed.

(** ** Repetition *)
Lemma suffixing_times {A} n (p : parser A) : suffixing p -> suffixing (p_times n p).
Proof.
  intros P. induction n; cbn [p_times]; [apply suffixing_ret|].
  apply suffixing_bind; [assumption|intros a]. apply suffixing_bind; [assumption|intros l].
  apply suffixing_ret.
Qed.
Lemma safe_times {A} n (p : parser A) : safe p -> safe (p_times n p).
Proof.
  intros P. induction n; cbn [p_times]; [apply safe_ret|].
  apply safe_bind; [assumption|intros a]. apply safe_bind; [assumption|intros l].
  apply safe_ret.
Qed.
Lemma local_ok_times {A} n (p : parser A) : local_ok p -> local_ok (p_times n p).
Proof.
  intros P. induction n; cbn [p_times]; [apply local_ok_ret|].
  apply local_ok_bind; [assumption|intros a]. apply local_ok_bind; [assumption|intros l].
  apply local_ok_ret.
Qed.
Lemma local_err_times {A} n (p : parser A) : local_ok p -> local_err p -> local_err (p_times n p).
Proof.
  intros O P. induction n; cbn [p_times]; [apply local_err_ret|].
  apply local_err_bind; [assumption|assumption|intros a].
  apply local_err_bind; [apply local_ok_times; assumption|assumption|intros l].
  apply local_err_ret.
Qed.
Lemma exact_times {A} n (p : parser A) E : exact p E ->
  exact (p_times n p) (fun pre xs => length xs = n /\ enc_list E pre xs).
Proof.
  intros P. induction n as [|n IH]; cbn [p_times].
  - eapply exact_ext; [|apply exact_ret]. intros bs xs. split.
    + intros [-> ->]. split; [reflexivity|]. exists []. split; [constructor|reflexivity].
    + intros (L & ch & F & ->). destruct xs; [|discriminate]. inversion F; subst. auto.
  - eapply exact_ext; [|apply exact_bind; [exact P|intros x; apply exact_bind; [exact IH|intros xs; apply exact_ret]]].
    intros bs xs. cbn beta. split.
    + intros (x & p1 & p2 & -> & E1 & xs' & p3 & p4 & -> & (L & ch & F & ->) & -> & ->).
      split; [cbn; congruence|]. exists (p1 :: ch). split; [constructor; assumption|].
      cbn. rewrite app_nil_r. reflexivity.
    + intros (L & ch & F & ->). destruct xs as [|x xs]; [discriminate|]. inversion F; subst.
      exists x, x0, (concat l). split; [reflexivity|]. split; [assumption|].
      exists xs, (concat l), []. rewrite app_nil_r. split; [reflexivity|].
      split; [|auto]. split; [cbn in L; lia|]. exists l. auto.
Qed.

(** ** The dialect of whasm *)
Lemma enc_u_whasm size bs v : enc_u whasm_format size bs v <-> enc_unsigned size bs v.
Proof. unfold enc_u; cbn. tauto. Qed.
Lemma enc_s_whasm size bs v : enc_s whasm_format size bs v <-> enc_signed size bs v.
Proof. unfold enc_s; cbn. tauto. Qed.
Lemma exact_u32 : exact p_u32 (enc_u32 whasm_format).
Proof.
  eapply exact_ext; [|apply exact_unsigned; lia]. intros. symmetry. apply enc_u_whasm.
Qed.
Lemma exact_i32 : exact p_i32 (enc_s whasm_format 32).
Proof.
  eapply exact_ext; [|apply exact_signed; lia]. intros. symmetry. apply enc_s_whasm.
Qed.
Lemma exact_i64 : exact p_i64 (enc_s whasm_format 64).
Proof.
  eapply exact_ext; [|apply exact_signed; lia]. intros. symmetry. apply enc_s_whasm.
Qed.
Lemma suffixing_u32 : suffixing p_u32. Proof. apply suffixing_unsigned. Qed.
Lemma safe_u32 : safe p_u32. Proof. apply safe_unsigned. lia. Qed.
Lemma local_ok_u32 : local_ok p_u32. Proof. apply local_ok_unsigned. lia. Qed.
Lemma local_err_u32 : local_err p_u32. Proof. apply local_err_unsigned. Qed.
Lemma progress_u32 : progress p_u32. Proof. apply progress_unsigned. lia. Qed.

(** ** Vectors *)
Lemma suffixing_vec {A} (p : parser A) : suffixing p -> suffixing (p_vec p).
Proof. intros P. apply suffixing_bind; [apply suffixing_u32|intros n; apply suffixing_times; assumption]. Qed.
Lemma safe_vec {A} (p : parser A) : safe p -> safe (p_vec p).
Proof. intros P. apply safe_bind; [apply safe_u32|intros n; apply safe_times; assumption]. Qed.
Lemma local_ok_vec {A} (p : parser A) : local_ok p -> local_ok (p_vec p).
Proof. intros P. apply local_ok_bind; [apply local_ok_u32|intros n; apply local_ok_times; assumption]. Qed.
Lemma local_err_vec {A} (p : parser A) : local_ok p -> local_err p -> local_err (p_vec p).
Proof.
  intros O P. apply local_err_bind; [apply local_ok_u32|apply local_err_u32|].
  intros n; apply local_err_times; assumption.
Qed.
Lemma exact_vec {A} (p : parser A) E : exact p E -> exact (p_vec p) (enc_vec whasm_format E).
Proof.
  intros P. unfold p_vec.
  eapply exact_ext; [|apply exact_bind; [apply exact_u32|intros n; apply exact_times; exact P]].
  intros bs xs. cbn beta. unfold enc_vec. split.
  - intros (n & p1 & p2 & -> & E1 & L & E2). exists p1, p2. split; [reflexivity|].
    rewrite L, N2Nat.id. auto.
  - intros (p1 & p2 & -> & E1 & E2). exists (N.of_nat (length xs)), p1, p2.
    rewrite Nat2N.id. auto.
Qed.

Lemma exact_map {A B} (p : parser A) (u : A -> B) E : exact p E ->
  exact (x <- p ;; ret (u x)) (fun pre y => exists x, E pre x /\ y = u x).
Proof.
  intros P. eapply exact_ext; [|apply exact_bind; [exact P|intros x; apply exact_ret]].
  intros bs y. cbn beta. split.
  - intros (x & p1 & p2 & -> & E1 & -> & ->). rewrite app_nil_r. eauto.
  - intros (x & E1 & ->). exists x, bs, []. rewrite app_nil_r. auto.
Qed.
Lemma exact_map_id {A} (p : parser A) E : exact p E -> exact (x <- p ;; ret x) E.
Proof.
  intros P. eapply exact_ext; [|apply exact_map; exact P].
  intros bs y. split; [intros (x & H & ->); assumption|eauto].
Qed.
Lemma unwrapping_vec {A B} (p : parser A) (u : A -> B) :
  p_unwrapping_vec p u = p_vec (x <- p ;; ret (u x)).
Proof. reflexivity. Qed.
Lemma exact_unwrapping_vec {A} (p : parser A) E : exact p E ->
  exact (p_unwrapping_vec p (fun x => x)) (enc_vec whasm_format E).
Proof. intros P. rewrite unwrapping_vec. apply exact_vec, exact_map_id, P. Qed.
Lemma suffixing_map {A B} (p : parser A) (u : A -> B) : suffixing p -> suffixing (x <- p ;; ret (u x)).
Proof. intros P. apply suffixing_bind; [assumption|intros; apply suffixing_ret]. Qed.
Lemma safe_map {A B} (p : parser A) (u : A -> B) : safe p -> safe (x <- p ;; ret (u x)).
Proof. intros P. apply safe_bind; [assumption|intros; apply safe_ret]. Qed.
Lemma local_ok_map {A B} (p : parser A) (u : A -> B) : local_ok p -> local_ok (x <- p ;; ret (u x)).
Proof. intros P. apply local_ok_bind; [assumption|intros; apply local_ok_ret]. Qed.
Lemma local_err_map {A B} (p : parser A) (u : A -> B) :
  local_ok p -> local_err p -> local_err (x <- p ;; ret (u x)).
Proof. intros O P. apply local_err_bind; [assumption|assumption|intros; apply local_err_ret]. Qed.

(** ** Runs *)
Lemma suffixing_runs {A} k (p : parser A) : suffixing p -> forall acc, suffixing (p_runs k p acc).
Proof.
  intros P. induction k; intros acc; cbn [p_runs]; [apply suffixing_ret|].
  apply suffixing_bind; [apply suffixing_u32|intros n]. apply suffixing_bind; [assumption|intros l].
  apply IHk.
Qed.
Lemma safe_runs {A} k (p : parser A) : safe p -> forall acc, safe (p_runs k p acc).
Proof.
  intros P. induction k; intros acc; cbn [p_runs]; [apply safe_ret|].
  apply safe_bind; [apply safe_u32|intros n]. apply safe_bind; [assumption|intros l].
  apply IHk.
Qed.
Lemma local_ok_runs {A} k (p : parser A) : local_ok p -> forall acc, local_ok (p_runs k p acc).
Proof.
  intros P. induction k; intros acc; cbn [p_runs]; [apply local_ok_ret|].
  apply local_ok_bind; [apply local_ok_u32|intros n]. apply local_ok_bind; [assumption|intros l].
  apply IHk.
Qed.
Lemma local_err_runs {A} k (p : parser A) :
  local_ok p -> local_err p -> forall acc, local_err (p_runs k p acc).
Proof.
  intros O P. induction k; intros acc; cbn [p_runs]; [apply local_err_ret|].
  apply local_err_bind; [apply local_ok_u32|apply local_err_u32|intros n].
  apply local_err_bind; [assumption|assumption|intros l]. apply IHk.
Qed.

(** a run: count and element *)
Definition enc_pair_run {A} (fd : fdialect) (E : format A) : format (u32 * A) := fun bs r =>
  exists nb tb, bs = nb ++ tb /\ enc_u32 fd nb (fst r) /\ E tb (snd r).

Lemma exact_runs {A} k (p : parser A) E : exact p E -> forall acc,
  exact (p_runs k p acc) (fun pre v => exists runs, length runs = k /\
    enc_list (enc_pair_run whasm_format E) pre runs /\ v = acc ++ expand_runs runs).
Proof.
  intros P. induction k as [|k IH]; intros acc; cbn [p_runs].
  - eapply exact_ext; [|apply exact_ret]. intros bs v. split.
    + intros [-> ->]. exists []. repeat split; [exists []; split; [constructor|reflexivity]|].
      cbn. rewrite app_nil_r. reflexivity.
    + intros (runs & L & (ch & F & ->) & ->). destruct runs; [|discriminate].
      inversion F; subst. cbn. rewrite app_nil_r. auto.
  - eapply exact_ext; [|apply exact_bind; [apply exact_u32|intros n; apply exact_bind; [exact P|intros x; apply IH]]].
    intros bs v. cbn beta. split.
    + intros (n & p1 & p2 & -> & E1 & x & p3 & p4 & -> & E2 & runs & L & (ch & F & ->) & ->).
      exists ((n, x) :: runs). split; [cbn; congruence|]. split.
      * exists ((p1 ++ p3) :: ch). split.
        -- constructor; [|assumption]. exists p1, p3. auto.
        -- cbn. rewrite app_assoc. reflexivity.
      * cbn. rewrite app_assoc. reflexivity.
    + intros (runs & L & (ch & F & ->) & ->). destruct runs as [|[n x] runs]; [discriminate|].
      inversion F as [|c0 x0 l ? R F']; subst.
      destruct R as (p1 & p3 & -> & E1 & E2). cbn [fst snd] in *.
      exists n, p1, (p3 ++ concat l). split; [cbn; rewrite <- app_assoc; reflexivity|]. split; [assumption|].
      exists x, p3, (concat l). split; [reflexivity|]. split; [assumption|].
      exists runs. split; [cbn in L; lia|]. split; [exists l; auto|].
      cbn. rewrite app_assoc. reflexivity.
Qed.
Lemma suffixing_compact_vec {A} (p : parser A) : suffixing p -> suffixing (p_compact_vec p).
Proof. intros P. apply suffixing_bind; [apply suffixing_u32|intros n; apply suffixing_runs; assumption]. Qed.
Lemma safe_compact_vec {A} (p : parser A) : safe p -> safe (p_compact_vec p).
Proof. intros P. apply safe_bind; [apply safe_u32|intros n; apply safe_runs; assumption]. Qed.
Lemma local_ok_compact_vec {A} (p : parser A) : local_ok p -> local_ok (p_compact_vec p).
Proof. intros P. apply local_ok_bind; [apply local_ok_u32|intros n; apply local_ok_runs; assumption]. Qed.
Lemma local_err_compact_vec {A} (p : parser A) : local_ok p -> local_err p -> local_err (p_compact_vec p).
Proof.
  intros O P. apply local_err_bind; [apply local_ok_u32|apply local_err_u32|].
  intros n; apply local_err_runs; assumption.
Qed.
Lemma exact_compact_vec {A} (p : parser A) E : exact p E ->
  exact (p_compact_vec p) (fun pre v => exists runs,
    enc_vec whasm_format (enc_pair_run whasm_format E) pre runs /\ v = expand_runs runs).
Proof.
  intros P. unfold p_compact_vec.
  eapply exact_ext; [|apply exact_bind; [apply exact_u32|intros n; apply exact_runs; exact P]].
  intros bs v. cbn beta. unfold enc_vec. split.
  - intros (n & p1 & p2 & -> & E1 & runs & L & E2 & ->). exists runs. split; [|reflexivity].
    exists p1, p2. rewrite L, N2Nat.id. auto.
  - intros (runs & (p1 & p2 & -> & E1 & E2) & ->). exists (N.of_nat (length runs)), p1, p2.
    split; [reflexivity|]. split; [assumption|]. exists runs. rewrite Nat2N.id. auto.
Qed.

(** ** Sized elements *)
Definition p_window {A} (p : parser A) (size : N) : parser A := fun bs =>
  let window := firstn (N.to_nat size) bs in
  let after := skipn (N.to_nat size) bs in
  match p window with
  | (Ok result, r) =>
    let count := N.of_nat (List.length window - List.length r) in
    if negb (size =? count) then (Err SizeMissmatch, r ++ after)
    else (Ok result, r ++ after)
  | (o, r) => (o, r ++ after)
  end.
Lemma p_sized_window {A} (p : parser A) : p_sized p = bind p_u32 (p_window p).
Proof. reflexivity. Qed.

Lemma window_ok {A} (p : parser A) size bs a rest : suffixing p ->
  p_window p size bs = (Ok a, rest) <->
  exists w, bs = w ++ rest /\ size = N.of_nat (length w) /\ p w = (Ok a, []).
Proof.
  intros SP. unfold p_window. split.
  - pose proof (suffixing_length p (firstn (N.to_nat size) bs) SP) as SL.
    pose proof (firstn_skipn (N.to_nat size) bs) as FS.
    pose proof (firstn_length (N.to_nat size) bs) as FL.
    set (w := firstn (N.to_nat size) bs) in *. set (af := skipn (N.to_nat size) bs) in *.
    destruct (p w) as [[x|e| |] r] eqn:E; try discriminate. cbn [snd] in SL.
    destruct (N.eqb_spec size (N.of_nat (length w - length r))) as [C|C]; cbn [negb]; [|discriminate].
    intros H. injection H as -> <-.
    assert (r = []) as -> by (destruct r; [reflexivity|cbn [length] in C, SL; lia]).
    exists w. cbn [length] in C. cbn [app]. split; [symmetry; assumption|]. split; [lia|assumption].
  - intros (w & -> & -> & E). rewrite Nat2N.id.
    rewrite firstn_app, Nat.sub_diag, firstn_all, firstn_O, app_nil_r.
    rewrite skipn_app, Nat.sub_diag, skipn_all, skipn_O.
    rewrite E. cbn [length app]. rewrite Nat.sub_0_r, N.eqb_refl. reflexivity.
Qed.

Lemma suffixing_window {A} (p : parser A) size : suffixing p -> suffixing (p_window p size).
Proof.
  intros P bs. unfold p_window. destruct (P (firstn (N.to_nat size) bs)) as [pre E].
  exists pre. rewrite <- (firstn_skipn (N.to_nat size) bs) at 1. rewrite E at 1.
  rewrite <- app_assoc. f_equal.
  destruct (p (firstn (N.to_nat size) bs)) as [[x|e| |] r]; try reflexivity.
  destruct (negb _); reflexivity.
Qed.
Lemma safe_window {A} (p : parser A) size : safe p -> safe (p_window p size).
Proof.
  intros P bs. unfold p_window. specialize (P (firstn (N.to_nat size) bs)).
  destruct (p (firstn (N.to_nat size) bs)) as [[x|e| |] r]; cbn in *; try tauto.
  - destruct (negb _); cbn; split; discriminate.
Qed.
Lemma local_ok_window {A} (p : parser A) size : suffixing p -> local_ok (p_window p size).
Proof.
  intros SP bs a r H tl. apply window_ok in H; [|assumption]. destruct H as (w & -> & S & E).
  apply window_ok; [assumption|]. exists w. rewrite app_assoc. auto.
Qed.
Lemma local_err_window {A} (p : parser A) size : local_err p -> local_err (p_window p size).
Proof.
  intros P bs e r H. unfold p_window in *.
  destruct (p (firstn (N.to_nat size) bs)) as [[x|e0| |] r0] eqn:E; try discriminate.
  - destruct (negb _); [|discriminate]. injection H as <- <-. left. right. reflexivity.
  - injection H as -> <-. destruct (P _ _ _ E) as [X|X]; [left; assumption|right].
    intros tl. rewrite firstn_app, X, skipn_app.
    (* the window takes bytes of [tl] only when all of [bs] is inside *)
    destruct (Nat.le_gt_cases (N.to_nat size) (length bs)) as [L|L].
    + replace (N.to_nat size - length bs)%nat with O by lia. cbn.
      rewrite app_nil_r, !app_assoc. reflexivity.
    + rewrite (skipn_all2 bs) by lia. rewrite app_nil_r. cbn [app].
      rewrite <- app_assoc, firstn_skipn. reflexivity.
Qed.

Lemma suffixing_sized {A} (p : parser A) : suffixing p -> suffixing (p_sized p).
Proof.
  intros P. rewrite p_sized_window. apply suffixing_bind; [apply suffixing_u32|].
  intros n. apply suffixing_window. assumption.
Qed.
Lemma safe_sized {A} (p : parser A) : safe p -> safe (p_sized p).
Proof.
  intros P. rewrite p_sized_window. apply safe_bind; [apply safe_u32|].
  intros n. apply safe_window. assumption.
Qed.
Lemma local_ok_sized {A} (p : parser A) : suffixing p -> local_ok (p_sized p).
Proof.
  intros SP. rewrite p_sized_window. apply local_ok_bind; [apply local_ok_u32|].
  intros n. apply local_ok_window. assumption.
Qed.
Lemma local_err_sized {A} (p : parser A) : local_err p -> local_err (p_sized p).
Proof.
  intros P. rewrite p_sized_window. apply local_err_bind; [apply local_ok_u32|apply local_err_u32|].
  intros n. apply local_err_window. assumption.
Qed.
Lemma exact_sized {A} (p : parser A) E : suffixing p -> exact_all p E ->
  exact (p_sized p) (enc_sized whasm_format E).
Proof.
  intros SP P. rewrite p_sized_window.
  eapply exact_ext; [|apply exact_bind; [apply exact_u32|]].
  2: { intros n bs a rest. rewrite window_ok by assumption.
       instantiate (1 := fun n w a => n = N.of_nat (length w) /\ E w a). cbn beta. split.
       - intros (w & -> & S & H). exists w. apply P in H. auto.
       - intros (w & -> & S & H). exists w. apply P in H. auto. }
  intros bs a. unfold enc_sized. cbn beta. split.
  - intros (n & p1 & p2 & -> & E1 & -> & E2). exists p1, p2. auto.
  - intros (p1 & p2 & -> & E1 & E2). exists (N.of_nat (length p2)), p1, p2. auto.
Qed.

(** ** Floats *)
Lemma le_value_enc bs : enc_float (length bs) bs (le_value bs).
Proof.
  split; [reflexivity|]. induction bs as [|b bs [IH1 IH2]]; cbn [le_value length].
  - split; [reflexivity|]. intros [|i] b; discriminate.
  - pose proof (byte_lt b) as B. split.
    + rewrite Nat2N.inj_succ, N.pow_succ_r'. lia.
    + intros [|i] c; cbn [nth_error].
      * intros H; injection H as <-. change (256 ^ N.of_nat 0) with 1.
        rewrite N.div_1_r, N.mul_comm, N.mod_add by lia. rewrite N.mod_small by lia. reflexivity.
      * intros H. rewrite Nat2N.inj_succ, N.pow_succ_r'.
        rewrite <- N.div_div by (try apply N.pow_nonzero; lia).
        rewrite (N.mul_comm 256 (le_value bs)), N.div_add by lia. rewrite (N.div_small (Byte.to_N b) 256) by lia.
        rewrite N.add_0_l. apply IH2. assumption.
Qed.
Lemma enc_float_inj n bs v : enc_float n bs v -> v = le_value bs.
Proof.
  intros (L & B & H). subst n. revert v B H. induction bs as [|b bs IH]; intros v B H; cbn [le_value length] in *.
  - cbn in B. lia.
  - rewrite Nat2N.inj_succ, N.pow_succ_r' in B.
    rewrite (N.div_mod v 256) by lia.
    rewrite <- (IH (v / 256)).
    + specialize (H O b eq_refl). change (256 ^ N.of_nat 0) with 1 in H. rewrite N.div_1_r in H. lia.
    + apply N.div_lt_upper_bound; lia.
    + intros i c Hi. specialize (H (S i) c Hi). rewrite Nat2N.inj_succ, N.pow_succ_r' in H.
      rewrite N.div_div by (try apply N.pow_nonzero; lia). assumption.
Qed.
Lemma enc_list_bytes bs xs : enc_list enc_byte bs xs <-> bs = xs.
Proof.
  split.
  - intros (ch & F & ->). induction F as [|c b ch xs R F IH]; [reflexivity|].
    unfold enc_byte in R. subst c. cbn. f_equal. assumption.
  - intros ->. exists (map (fun b => [b]) xs). split.
    + induction xs; constructor; [reflexivity|assumption].
    + induction xs; cbn; congruence.
Qed.
Lemma exact_byte' : exact p_byte enc_byte.
Proof. eapply exact_ext; [|apply exact_byte]. intros; reflexivity. Qed.
Lemma exact_float size : exact (p_float LittleEndian size) (enc_float size).
Proof.
  unfold p_float. eapply exact_ext; [|apply exact_map, exact_times, exact_byte'].
  intros bs v. cbn beta. split.
  - intros (xs & (L & H) & ->). apply enc_list_bytes in H. subst bs size. apply le_value_enc.
  - intros H. exists bs. rewrite enc_list_bytes. pose proof H as [L _]. apply enc_float_inj in H. auto.
Qed.
Lemma suffixing_float h n : suffixing (p_float h n).
Proof. apply suffixing_map, suffixing_times, suffixing_byte. Qed.
Lemma safe_float h n : safe (p_float h n).
Proof. apply safe_map, safe_times, safe_byte. Qed.
Lemma local_ok_float h n : local_ok (p_float h n).
Proof. apply local_ok_map, local_ok_times, local_ok_byte. Qed.
Lemma local_err_float h n : local_err (p_float h n).
Proof. apply local_err_map; [apply local_ok_times, local_ok_byte|apply local_err_times; [apply local_ok_byte|apply local_err_byte]]. Qed.

(** ** Strings *)
Lemma exact_string : exact p_string (enc_name whasm_format).
Proof.
  unfold p_string. eapply exact_ext; [|apply exact_bind; [apply exact_unwrapping_vec, exact_byte'|]].
  2: { intros raw. instantiate (1 := fun raw pre x => pre = [] /\ x = raw /\ utf8 raw). cbn beta.
       intros bs a rest. 
       pose proof (utf8_valid_iff raw) as U. destruct (utf8_valid raw).
       - rewrite (exact_ret raw bs a rest). split; intros (pre & -> & H); exists pre; intuition.
       - rewrite (exact_fail InvalidUtf8Encoding bs a rest).
         split; intros (pre & -> & H); intuition discriminate. }
  intros bs v. cbn beta. unfold enc_name. split.
  - intros (raw & p1 & p2 & -> & E1 & -> & -> & U). rewrite app_nil_r. auto.
  - intros (E1 & U). exists v, bs, []. rewrite app_nil_r. auto.
Qed.
Lemma suffixing_string : suffixing p_string.
Proof.
  apply suffixing_bind; [rewrite unwrapping_vec; apply suffixing_vec, suffixing_map, suffixing_byte|].
  intros raw. destruct (utf8_valid raw); [apply suffixing_ret|apply suffixing_fail].
Qed.
Lemma safe_string : safe p_string.
Proof.
  apply safe_bind; [rewrite unwrapping_vec; apply safe_vec, safe_map, safe_byte|].
  intros raw. destruct (utf8_valid raw); [apply safe_ret|apply safe_fail].
Qed.
Lemma local_ok_string : local_ok p_string.
Proof. eapply exact_local_ok, exact_string. Qed.
Lemma local_err_string : local_err p_string.
Proof.
  apply local_err_bind.
  - rewrite unwrapping_vec. apply local_ok_vec, local_ok_map, local_ok_byte.
  - rewrite unwrapping_vec. apply local_err_vec; [apply local_ok_map, local_ok_byte|].
    apply local_err_map; [apply local_ok_byte|apply local_err_byte].
  - intros raw. destruct (utf8_valid raw); [apply local_err_ret|apply local_err_fail].
Qed.

(** ** Progress *)
Lemma exact_progress {A} (p : parser A) E : exact p E -> (forall pre a, E pre a -> pre <> []) -> progress p.
Proof.
  intros X N bs a r H. apply X in H. destruct H as (pre & -> & H). apply N in H.
  rewrite app_length. destruct pre; [congruence|cbn; lia].
Qed.

Lemma truncation {A} (p : parser A) : safe p -> local_ok p -> local_err p -> truncation_safe p.
Proof.
  intros S LO LE pre suf a r H L. destruct (p pre) as [[x|e| |] r'] eqn:E.
  - exfalso. rewrite (LO _ _ _ E suf) in H. injection H as -> <-. rewrite app_length in L. lia.
  - exists e, r'. split; [reflexivity|]. destruct (LE _ _ _ E) as [X|X]; [assumption|].
    rewrite X in H. discriminate.
  - destruct (S pre) as [X _]. rewrite E in X. contradiction X. reflexivity.
  - destruct (S pre) as [_ X]. rewrite E in X. contradiction X. reflexivity.
Qed.
