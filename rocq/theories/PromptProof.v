(** Parsers of elements without names and sizes report an error at the first offending byte. *)
From Coq Require Import Lia ZifyN ZifyNat.
From Verif Require Import ParserModule SpecFormat SpecParser SpecStream ElementSpec ParserMeta TypesProof InstrProof
  ModuleProof SectionsProof ModuleClaims ModuleClaims2 OnePass SpecPrompt.
Open Scope N_scope.
Local Notation begins p := (SpecPrompt.begins (whole p)).
Local Notation first_bad p := (SpecPrompt.first_bad (whole p)).
Local Notation prompt p := (SpecPrompt.prompt (whole p) p).

(** ** From errors that leave a viable prefix to promptness *)
Definition halts {A} (G : list byte -> Prop) (p : parser A) : Prop := forall bs e rest, p bs = (Err e, rest) ->
  (e = UnexpectedEndOfFile /\ rest = [] /\ G bs) \/
  (~ early_end e /\ exists pre b, bs = pre ++ b :: rest /\ G pre).
Definition viable {A} (p : parser A) : Prop := halts (begins p) p.
Definition framed {A} (p : parser A) : Prop := forall bs a r, p bs = (Ok a, r) ->
  exists p1, bs = p1 ++ r /\ forall x, p (p1 ++ x) = (Ok a, x).

Lemma framed_single {A} (p : parser A) : single p -> local_ok p -> framed p.
Proof.
  intros [S O] L bs a r H. destruct (S bs) as [pre E]. rewrite H in E. cbn [snd] in E. subst bs.
  exists pre. split; [reflexivity|]. intros x. destruct r as [|b r].
  - rewrite app_nil_r in H. apply (L _ _ _ H).
  - apply (O _ _ _ H). discriminate.
Qed.
Lemma framed_exact {A} (p : parser A) E : exact p E -> framed p.
Proof.
  intros X bs a r H. apply X in H. destruct H as (p1 & -> & H). exists p1. split; [reflexivity|].
  intros x. apply X. eauto.
Qed.
Lemma begins_prefix {A} (p : parser A) x y : begins p (x ++ y) -> begins p x.
Proof. intros [tl H]. rewrite <- app_assoc in H. eexists; exact H. Qed.
Lemma whole_begins {A} (p : parser A) x : whole p x -> begins p x.
Proof. intros H. exists []. rewrite app_nil_r. assumption. Qed.

Lemma prompt_viable {A} (p : parser A) : single p -> local p -> safe p -> viable p -> prompt p.
Proof.
  intros SI LO SA V. pose proof (framed_single p SI (proj1 LO)) as FR.
  assert (FE : forall bs e rest, p bs = (Err e, rest) -> ~ early_end e ->
    exists pre, bs = pre ++ rest /\ forall x, p (pre ++ x) = (Err e, x)).
  { intros bs e rest H N. destruct (proj1 SI bs) as [pre E]. rewrite H in E. cbn [snd] in E. subst bs.
    exists pre. split; [reflexivity|]. intros x. destruct rest as [|b r].
    - rewrite app_nil_r in H. destruct (proj2 LO _ _ _ H) as [K|K]; [contradiction|]. apply K.
    - apply (proj2 SI _ _ _ H). discriminate. }
  assert (TOT : forall bs, (exists a r, p bs = (Ok a, r)) \/ (exists e r, p bs = (Err e, r))).
  { intros bs. destruct (SA bs) as [S1 S2]. destruct (p bs) as [[a|e| |] r]; cbn in *; try congruence; eauto. }
  assert (BAD : forall bs e rest, p bs = (Err e, rest) -> e <> UnexpectedEndOfFile -> first_bad p bs rest).
  { intros bs e rest H N. destruct (V _ _ _ H) as [(E & _)|(NE & pre & b & -> & B)]; [contradiction|].
    exists pre, b. split; [reflexivity|]. split; [assumption|]. split.
    - intros [a W]. apply FR in W. destruct W as (p1 & E & W). rewrite app_nil_r in E. subst p1.
      rewrite W in H. discriminate.
    - intros [tl [a W]]. destruct (FE _ _ _ H NE) as (pre0 & E & K).
      assert (pre0 = pre ++ [b]) as ->.
      { change (b :: rest) with ([b] ++ rest) in E. rewrite app_assoc in E. apply app_inv_tail in E. congruence. }
      rewrite K in W. discriminate. }
  split.
  - intros bs r. split.
    + intros H. destruct (V _ _ _ H) as [(_ & -> & B)|(NE & _)].
      * repeat split; [assumption|]. intros [a W]. congruence.
      * destruct NE. left. reflexivity.
    + intros (-> & [tl [c B]] & NW). destruct (TOT bs) as [(a & r & H)|(e & r & H)].
      * destruct (FR _ _ _ H) as (p1 & -> & K). rewrite <- app_assoc, K in B. injection B as _ B.
        destruct r; [|discriminate]. destruct NW. exists a. assumption.
      * destruct (V _ _ _ H) as [(-> & -> & _)|(NE & _)]; [assumption|].
        destruct (proj2 LO _ _ _ H) as [K|K]; [contradiction|]. rewrite K in B. discriminate.
  - intros bs rest. split; [intros (e & N & H); eauto|].
    intros F. destruct (TOT bs) as [(a & r & H)|(e & r & H)].
    + exfalso. destruct F as (pre & b & -> & [tl [c B]] & NW & NB). destruct (FR _ _ _ H) as (p1 & E & K).
      destruct (Nat.le_gt_cases (length p1) (length pre)) as [L|L].
      * assert (X : exists x, pre = p1 ++ x).
        { exists (skipn (length p1) pre). rewrite <- (firstn_skipn (length p1) pre) at 1. f_equal.
          apply (f_equal (firstn (length p1))) in E. rewrite firstn_app in E.
          replace (length p1 - length pre)%nat with 0%nat in E by lia.
          rewrite firstn_O, app_nil_r, firstn_app, Nat.sub_diag, firstn_all, firstn_O, app_nil_r in E. assumption. }
        destruct X as [x ->]. rewrite <- app_assoc, K in B. injection B as _ B.
        destruct x; [|discriminate]. destruct NW. rewrite app_nil_r in *. exists a. specialize (K []). rewrite app_nil_r in K. assumption.
      * assert (X : exists y, p1 = (pre ++ [b]) ++ y).
        { exists (skipn (length (pre ++ [b])) p1). rewrite <- (firstn_skipn (length (pre ++ [b])) p1) at 1. f_equal.
          apply (f_equal (firstn (length (pre ++ [b])))) in E.
          change (b :: rest) with ([b] ++ rest) in E. rewrite app_assoc, firstn_app, Nat.sub_diag, firstn_all, firstn_O, app_nil_r, firstn_app in E.
          rewrite (app_length pre [b]) in E. cbn [length] in E. replace (length pre + 1 - length p1)%nat with 0%nat in E by lia.
          rewrite firstn_O, app_nil_r in E. rewrite app_length. cbn [length]. symmetry; assumption. }
        destruct X as [y ->]. destruct NB. apply (begins_prefix _ _ y), whole_begins. exists a.
        specialize (K []). rewrite app_nil_r in K. assumption.
    + destruct (V _ _ _ H) as [(-> & -> & B)|(NE & pre' & b' & E & B)].
      * exfalso. destruct F as (pre & b & -> & _ & _ & NB). apply NB. apply (begins_prefix _ _ rest).
        rewrite <- app_assoc. assumption.
      * assert (N : e <> UnexpectedEndOfFile) by (intros ->; apply NE; left; reflexivity).
        exists e. split; [assumption|]. rewrite H. f_equal.
        destruct (BAD _ _ _ H N) as (pre2 & b2 & E2 & B2 & _ & NB2).
        destruct F as (pre1 & b1 & E1 & B1 & _ & NB1). clear B E NE.
        assert (AUX : forall x c r1 y d r2 (S : x ++ c :: r1 = y ++ d :: r2), (length x < length y)%nat ->
          begins p y -> begins p (x ++ [c])).
        { intros x c r1 y d r2 S L BY. apply (begins_prefix p (x ++ [c]) (skipn (length (x ++ [c])) y)).
          replace ((x ++ [c]) ++ skipn (length (x ++ [c])) y) with y; [assumption|].
          rewrite <- (firstn_skipn (length (x ++ [c])) y) at 1. f_equal.
          apply (f_equal (firstn (length (x ++ [c])))) in S.
          change (c :: r1) with ([c] ++ r1) in S. rewrite app_assoc, firstn_app, Nat.sub_diag, firstn_all, firstn_O, app_nil_r, firstn_app in S.
          rewrite (app_length x [c]) in S. cbn [length] in S. replace (length x + 1 - length y)%nat with 0%nat in S by lia.
          rewrite firstn_O, app_nil_r in S. rewrite app_length. cbn [length]. symmetry; assumption. }
        assert (S : pre1 ++ b1 :: rest = pre2 ++ b2 :: r) by congruence.
        destruct (Nat.lt_trichotomy (length pre1) (length pre2)) as [L|[L|L]].
        -- destruct NB1. apply (AUX _ _ _ _ _ _ S L B2).
        -- apply (f_equal (skipn (length pre1))) in S. rewrite skipn_app, skipn_all, Nat.sub_diag in S.
           rewrite L, skipn_app, skipn_all, Nat.sub_diag in S. cbn in S. congruence.
        -- symmetry in S. destruct NB2. apply (AUX _ _ _ _ _ _ S L B1).
Qed.

(** ** Combinators *)
Definition good {A} (p : parser A) : Prop := viable p /\ framed p /\ begins p [].
Lemma good_ret {A} (a : A) : good (ret a).
Proof.
  split; [|split].
  - intros bs e rest H. discriminate.
  - intros bs a' r H. injection H as <- <-. exists []. split; reflexivity.
  - exists [], a. reflexivity.
Qed.
Lemma framed_bind {A B} (p : parser A) (f : A -> parser B) : framed p -> (forall a, framed (f a)) -> framed (bind p f).
Proof.
  intros P F bs b r H. apply bind_ok in H. destruct H as (a & r0 & H1 & H2).
  apply P in H1. destruct H1 as (p1 & -> & H1). apply F in H2. destruct H2 as (p2 & -> & H2).
  exists (p1 ++ p2). split; [apply app_assoc|]. intros x. rewrite <- app_assoc.
  eapply bind_run; [apply H1|apply H2].
Qed.
Lemma begins_bind {A B} (p : parser A) (f : A -> parser B) l : framed p -> (forall a, begins (f a) []) ->
  begins p l -> begins (bind p f) l.
Proof.
  intros P F [tl [a H]]. destruct (F a) as [tl2 [b H2]]. cbn [app] in H2. exists (tl ++ tl2), b.
  rewrite app_assoc. apply P in H. destruct H as (p1 & E & H). rewrite app_nil_r in E. rewrite E.
  eapply bind_run; [apply H|assumption].
Qed.
Lemma begins_bind2 {A B} (p : parser A) (f : A -> parser B) p1 a l : (forall x, p (p1 ++ x) = (Ok a, x)) ->
  begins (f a) l -> begins (bind p f) (p1 ++ l).
Proof.
  intros H [tl [b H2]]. exists tl, b. rewrite <- app_assoc. eapply bind_run; [apply H|assumption].
Qed.
Lemma good_bind {A B} (p : parser A) (f : A -> parser B) : good p -> (forall a, good (f a)) -> good (bind p f).
Proof.
  intros (P1 & P2 & P3) F. assert (FI : forall a, begins (f a) []) by (intros a; apply F). split; [|split].
  - intros bs e rest H. unfold bind in H. destruct (p bs) as [[a|e'| |] r] eqn:E; [| |discriminate..].
    + apply P2 in E. destruct E as (p1 & -> & E). destruct (F a) as (F1 & _ & _).
      destruct (F1 _ _ _ H) as [(-> & -> & BG)|(NE & pre & b & -> & BG)]; [left|right].
      * repeat split. apply (begins_bind2 _ _ _ _ _ E BG).
      * split; [assumption|]. exists (p1 ++ pre), b. split; [apply app_assoc|]. apply (begins_bind2 _ _ _ _ _ E BG).
    + injection H as -> ->.
      destruct (P1 _ _ _ E) as [(-> & -> & BG)|(NE & pre & b & -> & BG)]; [left|right].
      * repeat split. apply begins_bind; assumption.
      * split; [assumption|]. exists pre, b. split; [reflexivity|]. apply begins_bind; assumption.
  - apply framed_bind; [assumption|]. intros; apply F.
  - apply begins_bind; assumption.
Qed.
Lemma good_byte : good p_byte.
Proof.
  split; [|split].
  - intros [|b bs] e rest H; [|discriminate]. injection H as <- <-. left. repeat split. exists [x00], x00. reflexivity.
  - apply (framed_exact _ _ exact_byte).
  - exists [x00], x00. reflexivity.
Qed.
(** a [match] on one byte, some arms of which reject it *)
Definition rejects {A} (p : parser A) : Prop := exists e, ~ early_end e /\ forall bs, p bs = (Err e, bs).
Lemma rejects_variant {A} b s : rejects (@fail A (InvalidVariantId b s)).
Proof. eexists. split; [|reflexivity]. intros [H|H]; discriminate. Qed.
Lemma good_match {A} (f : byte -> parser A) b0 : (forall b, good (f b) \/ rejects (f b)) -> good (f b0) -> good (bind p_byte f).
Proof.
  intros F (_ & _ & [tl0 [a0 B0]]).
  assert (I : begins (bind p_byte f) []) by (exists (b0 :: tl0), a0; exact B0).
  assert (ONE : forall b l, begins (f b) l -> begins (bind p_byte f) (b :: l)).
  { intros b l [tl [a H]]. exists tl, a. exact H. }
  split; [|split; [|assumption]].
  - intros [|b bs] e rest H.
    + injection H as <- <-. left. auto.
    + change (f b bs = (Err e, rest)) in H. destruct (F b) as [(V & _)|(e' & NE & R)].
      * destruct (V _ _ _ H) as [(-> & -> & B)|(NE & pre & b' & -> & B)]; [left|right].
        -- repeat split. apply ONE, B.
        -- split; [assumption|]. exists (b :: pre), b'. split; [reflexivity|]. apply ONE, B.
      * rewrite R in H. injection H as <- <-. right. split; [assumption|]. exists [], b. auto.
  - apply framed_bind; [apply good_byte|]. intros b. destruct (F b) as [(_ & V & _)|(e' & NE & R)]; [assumption|].
    intros bs a r H. rewrite R in H. discriminate.
Qed.
Lemma good_times {A} n (p : parser A) : good p -> good (p_times n p).
Proof.
  intros P. induction n; cbn [p_times]; [apply good_ret|]. apply good_bind; [assumption|]. intros x.
  apply good_bind; [assumption|]. intros; apply good_ret.
Qed.
Lemma good_map {A B} (p : parser A) (u : A -> B) : good p -> good (x <- p ;; ret (u x)).
Proof. intros P. apply good_bind; [assumption|]. intros; apply good_ret. Qed.

(** ** Numbers *)
Lemma halts_weaken {A} (G G' : list byte -> Prop) (p : parser A) : (forall l, G l -> G' l) -> halts G p -> halts G' p.
Proof.
  intros W H bs e rest E. destruct (H _ _ _ E) as [(? & ? & ?)|(? & pre & b & ? & ?)]; [left; auto|right; split; [assumption|]; eauto].
Qed.
(** After an error, or at the end, one more byte could have finished the number. *)
Lemma uleb_halts size mask bs : forall result shift e rest, uleb_loop size mask result shift bs = (Err e, rest) ->
  8 <= size -> let done l := exists a, uleb_loop size mask result shift (l ++ [x00]) = (Ok a, []) in
  (e = UnexpectedEndOfFile /\ rest = [] /\ done bs) \/
  (~ early_end e /\ exists pre b, bs = pre ++ b :: rest /\ done pre).
Proof.
  assert (ZERO : forall result shift, 8 <= size -> exists a, uleb_loop size mask result shift [x00] = (Ok a, [])).
  { intros result shift L. cbn [uleb_loop]. change (Byte.to_N x00) with 0. rewrite N.land_0_l. unfold u_from_u8.
    assert (0 < 2 ^ size) by (apply N.neq_0_lt_0, N.pow_nonzero; lia).
    destruct (N.ltb_spec 0 (2 ^ size)); [|lia]. destruct (N.leb_spec size shift) as [C|C].
    - cbn. eauto.
    - unfold u_shl, u_shr. destruct (N.ltb_spec shift size); [|lia]. rewrite N.shiftl_0_l, N.mod_0_l by lia.
      rewrite N.shiftr_0_l, N.land_0_l. cbn. eauto. }
  induction bs as [|b bs IH]; intros result shift e rest H L done.
  - injection H as <- <-. left. repeat split. apply ZERO, L.
  - assert (HERE : forall e', ~ early_end e' -> (Err e', bs) = (@Err N e, rest) ->
      (e = UnexpectedEndOfFile /\ rest = [] /\ done (b :: bs)) \/ (~ early_end e /\ exists pre b0, b :: bs = pre ++ b0 :: rest /\ done pre)).
    { intros e' NE X. injection X as <- <-. right. split; [assumption|]. exists [], b. split; [reflexivity|]. apply ZERO, L. }
    assert (NEXT : forall re sh, (forall l, uleb_loop size mask result shift (b :: l) = uleb_loop size mask re sh l) ->
      uleb_loop size mask re sh bs = (Err e, rest) ->
      (e = UnexpectedEndOfFile /\ rest = [] /\ done (b :: bs)) \/ (~ early_end e /\ exists pre b0, b :: bs = pre ++ b0 :: rest /\ done pre)).
    { intros re sh EQ X. destruct (IH _ _ _ _ X L) as [(-> & -> & [a D])|(NE & pre & b0 & -> & [a D])]; [left|right].
      - repeat split. exists a. cbn [app]. rewrite EQ. assumption.
      - split; [assumption|]. exists (b :: pre), b0. split; [reflexivity|]. exists a. cbn [app]. rewrite EQ. assumption. }
    cbn [uleb_loop] in H, NEXT.
    repeat (match type of H with context [if ?c then _ else _] => destruct c
      | context [match ?c with Some _ => _ | None => _ end] => destruct c end);
      first [discriminate|eapply HERE; [|exact H]; intros [|]; discriminate|eapply NEXT; [reflexivity|exact H]].
Qed.
Lemma good_unsigned size : 8 <= size -> good (p_unsigned size).
Proof.
  intros L. assert (M : u_from_u8 size 127 = Some 127).
  { unfold u_from_u8. destruct (N.ltb_spec 127 (2 ^ size)) as [|C]; [reflexivity|].
    assert (2 ^ 8 <= 2 ^ size) by (apply N.pow_le_mono_r; lia). change (2 ^ 8) with 256 in *. lia. }
  assert (V : viable (p_unsigned size)).
  { intros bs e rest H. unfold p_unsigned in H. rewrite M in H.
    assert (W : forall l, (exists a, uleb_loop size 127 0 0 (l ++ [x00]) = (Ok a, [])) -> begins (p_unsigned size) l).
    { intros l [a D]. exists [x00], a. unfold p_unsigned. rewrite M. assumption. }
    destruct (uleb_halts _ _ _ _ _ _ _ H L) as [(-> & -> & D)|(NE & pre & b & -> & D)]; [left; auto|right; eauto 6]. }
  split; [assumption|]. split.
  - apply framed_single; [apply single_unsigned|apply local_ok_unsigned; assumption].
  - destruct (V [] UnexpectedEndOfFile []) as [(_ & _ & B)|(_ & pre & b & C & _)].
    + unfold p_unsigned. rewrite M. reflexivity.
    + assumption.
    + destruct pre; discriminate.
Qed.
Lemma sleb_halts size mask bs : forall result shift positive e rest, sleb_loop size mask result shift positive bs = (Err e, rest) ->
  8 <= size -> let done l := exists b a, sleb_loop size mask result shift positive (l ++ [b]) = (Ok a, []) in
  (e = UnexpectedEndOfFile /\ rest = [] /\ done bs) \/
  (~ early_end e /\ exists pre b, bs = pre ++ b :: rest /\ done pre).
Proof.
  assert (ZERO : forall result shift positive, 8 <= size -> exists b a, sleb_loop size mask result shift positive [b] = (Ok a, [])).
  { intros result shift positive L.
    assert (P : 2 ^ 7 <= 2 ^ (size - 1)) by (apply N.pow_le_mono_r; lia). change (2 ^ 7) with 128 in P.
    assert (FIN : forall r s p, exists a, sleb_finish size r s p = Ok a).
    { intros r s p. unfold sleb_finish, s_shl. destruct (N.ltb_spec s size); destruct p; cbn; eauto. }
    destruct (N.leb_spec size shift) as [C|C].
    - destruct positive; [exists x00|exists x7f]; cbn [sleb_loop]; unfold s_from_u8.
      + change (N.land (Byte.to_N x00) 127) with 0. destruct (N.ltb_spec 0 (2 ^ (size - 1))); [|lia].
        destruct (N.leb_spec size shift); [|lia]. cbn. destruct (FIN result shift true) as [a ->]. eauto.
      + change (N.land (Byte.to_N x7f) 127) with 127. destruct (N.ltb_spec 127 (2 ^ (size - 1))); [|lia].
        destruct (N.leb_spec size shift); [|lia]. cbn. destruct (FIN result shift false) as [a ->]. eauto.
    - exists x00. cbn [sleb_loop]. unfold s_from_u8. change (N.land (Byte.to_N x00) 127) with 0.
      destruct (N.ltb_spec 0 (2 ^ (size - 1))); [|lia]. destruct (N.leb_spec size shift); [lia|].
      unfold s_shl, s_shr. destruct (N.ltb_spec shift size); [|lia]. change (Z.of_N 0) with 0%Z.
      rewrite Z.shiftl_0_l.
      assert (W : s_wrap size 0 = 0%Z).
      { unfold s_wrap. rewrite Zmod_0_l. destruct (Z.ltb_spec 0 (2 ^ (Z.of_N size - 1))) as [|K]; [reflexivity|].
        assert (0 < 2 ^ (Z.of_N size - 1))%Z by (apply Z.pow_pos_nonneg; lia). lia. }
      rewrite W, Z.shiftr_0_l, Z.land_0_l. cbn.
      match goal with |- context [sleb_finish ?a ?b ?c ?d] => destruct (FIN b c d) as [x ->] end. eauto. }
  induction bs as [|b bs IH]; intros result shift positive e rest H L done.
  - injection H as <- <-. left. repeat split. apply ZERO, L.
  - assert (HERE : forall e', ~ early_end e' -> (Err e', bs) = (@Err Z e, rest) ->
      (e = UnexpectedEndOfFile /\ rest = [] /\ done (b :: bs)) \/ (~ early_end e /\ exists pre b0, b :: bs = pre ++ b0 :: rest /\ done pre)).
    { intros e' NE X. injection X as <- <-. right. split; [assumption|]. exists [], b. split; [reflexivity|]. apply ZERO, L. }
    assert (NEXT : forall re sh po, (forall l, sleb_loop size mask result shift positive (b :: l) = sleb_loop size mask re sh po l) ->
      sleb_loop size mask re sh po bs = (Err e, rest) ->
      (e = UnexpectedEndOfFile /\ rest = [] /\ done (b :: bs)) \/ (~ early_end e /\ exists pre b0, b :: bs = pre ++ b0 :: rest /\ done pre)).
    { intros re sh po EQ X. destruct (IH _ _ _ _ _ X L) as [(-> & -> & c & a & D)|(NE & pre & b0 & -> & c & a & D)]; [left|right].
      - repeat split. exists c, a. cbn [app]. rewrite EQ. assumption.
      - split; [assumption|]. exists (b :: pre), b0. split; [reflexivity|]. exists c, a. cbn [app]. rewrite EQ. assumption. }
    assert (FIN : forall r s p, (sleb_finish size r s p, bs) <> (Err e, rest)).
    { intros r s p. unfold sleb_finish, s_shl. destruct (s <? size); destruct p; cbn; discriminate. }
    cbn [sleb_loop] in H, NEXT.
    repeat (match type of H with context [if ?c then _ else _] => destruct c
      | context [match ?c with Some _ => _ | None => _ end] => destruct c end);
      first [discriminate|destruct (FIN _ _ _ H)|eapply HERE; [|exact H]; intros [|]; discriminate|eapply NEXT; [reflexivity|exact H]].
Qed.
Lemma good_signed size : 8 <= size -> good (p_signed size).
Proof.
  intros L. assert (M : s_from_u8 size 127 = Some 127%Z).
  { unfold s_from_u8. destruct (N.ltb_spec 127 (2 ^ (size - 1))) as [|C]; [reflexivity|].
    assert (2 ^ 7 <= 2 ^ (size - 1)) by (apply N.pow_le_mono_r; lia). change (2 ^ 7) with 128 in *. lia. }
  assert (V : viable (p_signed size)).
  { intros bs e rest H. unfold p_signed in H. rewrite M in H.
    assert (W : forall l, (exists b a, sleb_loop size 127 0 0 true (l ++ [b]) = (Ok a, [])) -> begins (p_signed size) l).
    { intros l (b & a & D). exists [b], a. unfold p_signed. rewrite M. assumption. }
    destruct (sleb_halts _ _ _ _ _ _ _ _ H L) as [(-> & -> & D)|(NE & pre & b & -> & D)]; [left; auto|right; eauto 6]. }
  split; [assumption|]. split.
  - apply framed_single; [apply single_signed|apply local_ok_signed; assumption].
  - destruct (V [] UnexpectedEndOfFile []) as [(_ & _ & B)|(_ & pre & b & C & _)].
    + unfold p_signed. rewrite M. reflexivity.
    + assumption.
    + destruct pre; discriminate.
Qed.
Lemma good_u32 : good p_u32. Proof. apply good_unsigned; lia. Qed.
Lemma good_float h n : good (p_float h n).
Proof. apply good_map, good_times, good_byte. Qed.
Lemma good_vec {A} (p : parser A) : good p -> good (p_vec p).
Proof. intros P. apply good_bind; [apply good_u32|]. intros n. apply good_times, P. Qed.
Lemma good_unwrapping_vec {A B} (p : parser A) (u : A -> B) : good p -> good (p_unwrapping_vec p u).
Proof. intros P. rewrite unwrapping_vec. apply good_vec, good_map, P. Qed.
Lemma good_runs {A} k (p : parser A) : good p -> forall acc, good (p_runs k p acc).
Proof.
  intros P. induction k; intros acc; cbn [p_runs]; [apply good_ret|].
  apply good_bind; [apply good_u32|]. intros n. apply good_bind; [assumption|]. intros; apply IHk.
Qed.
Lemma good_compact_vec {A} (p : parser A) : good p -> good (p_compact_vec p).
Proof. intros P. apply good_bind; [apply good_u32|]. intros n. apply good_runs, P. Qed.

(** ** Types *)
Ltac m_good := repeat first
  [ apply good_ret | apply good_byte | apply good_u32 | apply good_float | apply good_vec | apply good_compact_vec
  | apply good_unwrapping_vec | assumption | apply good_signed; lia | apply good_bind; [|intro] ].
Ltac m_arm := intros []; first [right; apply rejects_variant | left; m_good; fail].
Lemma good_limits : good p_limits.
Proof. unfold p_limits. apply (good_match _ x00); [m_arm|m_good]. Qed.
Lemma good_valty : good p_valty.
Proof. unfold p_valty. apply (good_match _ x7f); [m_arm|m_good]. Qed.
Lemma good_elemty : good p_elemty.
Proof. unfold p_elemty. apply (good_match _ x70); [m_arm|m_good]. Qed.
Lemma good_mut : good p_mut.
Proof. unfold p_mut. apply (good_match _ x00); [m_arm|m_good]. Qed.
Lemma good_retval : good p_retval.
Proof.
  unfold p_retval. apply (good_match _ x40); [|apply good_ret].
  intros []; first [left; apply good_ret|left; exact (good_ret [_])|right; eexists; split; [|reflexivity]; intros [|]; discriminate].
Qed.
Lemma good_functy : good p_functy.
Proof. pose proof good_valty. unfold p_functy. apply (good_match _ x60); [m_arm|m_good]. Qed.
Lemma good_tablety : good p_tablety.
Proof. pose proof good_elemty. pose proof good_limits. unfold p_tablety. m_good. Qed.
Lemma good_memty : good p_memty. Proof. pose proof good_limits. unfold p_memty. m_good. Qed.
Lemma good_globalty : good p_globalty.
Proof. pose proof good_valty. pose proof good_mut. unfold p_globalty. m_good. Qed.

(** ** Instructions *)
Notation W := whasm_format.
Definition starts (E : list byte -> Prop) (l : list byte) : Prop := exists tl, E (l ++ tl).
Definition an_instr (l : list byte) : Prop := exists i, enc_instr W l i.
Definition an_expr (l : list byte) : Prop := exists is, enc_expr W l is.

Lemma expr_nil : enc_expr W [x0b] []. Proof. exists []. split; [reflexivity|constructor]. Qed.
Lemma expr_cons pre i l : enc_instr W pre i -> starts an_expr l -> starts an_expr (pre ++ l).
Proof.
  intros H (tl & is & isb & E & K). exists tl, (i :: is). rewrite <- app_assoc, E. exists (pre ++ isb).
  split; [apply app_assoc|]. constructor; assumption.
Qed.
Lemma instr_expr l : starts an_instr l -> starts an_expr l.
Proof.
  intros (tl & i & H). exists (tl ++ [x0b]), [i]. exists (l ++ tl). split; [apply app_assoc|].
  rewrite <- (app_nil_r (l ++ tl)). constructor; [assumption|constructor].
Qed.
Lemma block_starts rtb rt l : enc_blockty rtb rt -> starts an_expr l ->
  starts an_instr (x02 :: rtb ++ l) /\ starts an_instr (x03 :: rtb ++ l) /\ starts an_instr (x04 :: rtb ++ l).
Proof.
  intros R (tl & is & isb & E & K).
  assert (X : forall b, (b :: rtb ++ l) ++ tl = b :: rtb ++ isb ++ [x0b]).
  { intros b. cbn [app]. rewrite <- app_assoc, E. reflexivity. }
  repeat split; exists tl; eexists; rewrite X; constructor; eassumption.
Qed.
Lemma retval_starts l : begins p_retval l ->
  starts an_instr (x02 :: l) /\ starts an_instr (x03 :: l) /\ starts an_instr (x04 :: l).
Proof.
  intros (tl & rt & H). apply exact_retval in H. destruct H as (rtb & E & R). rewrite app_nil_r in E. subst rtb.
  assert (X : forall b, (b :: l) ++ tl ++ [x0b] = b :: (l ++ tl) ++ [] ++ [x0b]).
  { intros b. cbn [app]. rewrite <- app_assoc. reflexivity. }
  repeat split; exists (tl ++ [x0b]); eexists; rewrite X; constructor; first [eassumption|constructor].
Qed.
Lemma else_starts rtb rt p1 is1 l : enc_blockty rtb rt -> enc_instrs W p1 is1 -> starts an_expr l ->
  starts an_instr (x04 :: rtb ++ p1 ++ [x05] ++ l).
Proof.
  intros R E1 (tl & is & isb & E & K). exists tl. eexists.
  replace ((x04 :: rtb ++ p1 ++ [x05] ++ l) ++ tl) with (x04 :: rtb ++ p1 ++ [x05] ++ isb ++ [x0b]).
  - apply enc_if_else; eassumption.
  - rewrite <- E. cbn [app]. rewrite <- !app_assoc. reflexivity.
Qed.
Lemma instrs_starts p is : enc_instrs W p is -> starts an_expr p.
Proof. intros H. exists [x0b], is, p. auto. Qed.

(** the same at one input *)
Definition halts_at {A} (G : list byte -> Prop) (x : outcome A * list byte) (bs : list byte) : Prop := forall e rest, x = (Err e, rest) ->
  (e = UnexpectedEndOfFile /\ rest = [] /\ G bs) \/
  (~ early_end e /\ exists pre b, bs = pre ++ b :: rest /\ G pre).
Lemma halts_bind {A B} (G : list byte -> Prop) (p : parser A) (f : A -> parser B) :
  (forall bs a r, p bs = (Ok a, r) -> exists p1, bs = p1 ++ r /\ halts_at (fun l => G (p1 ++ l)) (f a r) r) ->
  halts G p -> halts G (bind p f).
Proof.
  intros F P bs e rest H. unfold bind in H. destruct (p bs) as [[a|e'| |] r] eqn:E; [| |discriminate..].
  - destruct (F _ _ _ E) as (p1 & -> & F1).
    destruct (F1 _ _ H) as [(-> & -> & B1)|(NE & pre & b & -> & B1)]; [left; auto|right].
    split; [assumption|]. exists (p1 ++ pre), b. split; [apply app_assoc|assumption].
  - injection H as -> ->. apply (P _ _ _ E).
Qed.

(** opcodes without blocks *)
Definition blocks (b : byte) : bool := match b with x02 | x03 | x04 => true | _ => false end.
Lemma good_opcode sub b : blocks b = false -> good (p_opcode sub b) \/ rejects (p_opcode sub b).
Proof.
  intros NB. unfold p_opcode, p_labelidx, p_funcidx, p_typeidx, p_tableidx, p_localidx, p_globalidx, p_memidx, p_f32, p_f64.
  destruct b; try discriminate NB; first [right; apply rejects_variant|left; m_good; fail].
Qed.
Lemma halts_expr_of sub : sound sub enc_sub -> halts (starts an_expr) sub -> halts (starts an_expr) (p_expr_of sub).
Proof.
  intros S H bs e rest E. unfold p_expr_of, bind in E. destruct (sub bs) as [[[is t]|e'| |] r] eqn:F; [| |discriminate..].
  - apply S in F. destruct F as (pre & -> & p & tb & -> & K & [[-> T]|[-> T]]); cbn [fst snd] in *; subst t; cbn in E; [discriminate|].
    injection E as <- <-. right. split; [intros [|]; discriminate|]. exists p, x05.
    split; [rewrite <- app_assoc; reflexivity|]. apply (instrs_starts _ _ K).
  - injection E as -> ->. apply (H _ _ _ F).
Qed.
Lemma halts_if_of sub : sound sub enc_sub -> halts (starts an_expr) sub -> halts (fun l => starts an_instr (x04 :: l)) (p_if_of sub).
Proof.
  intros S H. unfold p_if_of. apply halts_bind.
  2:{ apply (halts_weaken (begins p_retval)); [intros l B; apply (retval_starts l B)|apply good_retval]. }
  intros bs rt r E. apply exact_retval in E. destruct E as (rtb & -> & R). exists rtb. split; [reflexivity|].
  intros e rest E. unfold bind at 1 in E. destruct (sub r) as [[[is t]|e'| |] r1] eqn:F; [| |discriminate..].
  - apply S in F. destruct F as (pre & -> & p & tb & -> & K & [[-> T]|[-> T]]); cbn [fst snd] in *; subst t; cbn [is_else] in E; [discriminate|].
    unfold bind in E. destruct (sub r1) as [[[is2 t]|e'| |] r2] eqn:F2; [| |discriminate..].
    + apply S in F2. destruct F2 as (pre & -> & p2 & tb & -> & K2 & [[-> T]|[-> T]]); cbn [fst snd] in *; subst t; cbn in E; [discriminate|].
      injection E as <- <-. right. split; [intros [|]; discriminate|]. exists (p ++ [x05] ++ p2), x05.
      split; [rewrite <- !app_assoc; reflexivity|]. eapply else_starts; [eassumption..|]. apply (instrs_starts _ _ K2).
    + injection E as -> ->. destruct (H _ _ _ F2) as [(-> & -> & B)|(NE & pre & b & -> & B)]; [left|right].
      * repeat split. rewrite <- (app_assoc p). eapply else_starts; eassumption.
      * split; [assumption|]. exists (p ++ [x05] ++ pre), b. split; [rewrite <- !app_assoc; reflexivity|].
        eapply else_starts; eassumption.
  - injection E as -> ->. destruct (H _ _ _ F) as [(-> & -> & B)|(NE & pre & b & -> & B)]; [left|right].
    + repeat split. apply (block_starts _ _ _ R B).
    + split; [assumption|]. exists pre, b. split; [reflexivity|]. apply (block_starts _ _ _ R B).
Qed.
Lemma halts_at_map {A B} (G : list byte -> Prop) (p : parser A) (u : A -> B) r : halts G p -> halts_at G (bind p (fun x => ret (u x)) r) r.
Proof.
  intros H e rest E. unfold bind in E. destruct (p r) as [[a|e'| |] r1] eqn:F; [discriminate| |discriminate..].
  injection E as -> ->. apply (H _ _ _ F).
Qed.
Lemma halts_opcode sub b : sound sub enc_sub -> halts (starts an_expr) sub ->
  (exists e, ~ early_end e /\ forall bs, p_opcode sub b bs = (Err e, bs)) \/
  halts (fun l => starts an_instr (b :: l)) (p_opcode sub b).
Proof.
  intros S H. destruct (blocks b) eqn:BL.
  - right. pose proof (halts_expr_of sub S H) as HE.
    assert (RT : forall l, begins p_retval l ->
      starts an_instr (x02 :: l) /\ starts an_instr (x03 :: l) /\ starts an_instr (x04 :: l)) by apply retval_starts.
    destruct b; try discriminate BL; unfold p_opcode; [| |apply halts_if_of; assumption].
    + apply halts_bind; [|apply (halts_weaken (begins p_retval)); [intros l B; apply (RT l B)|apply good_retval]].
      intros bs rt r E. apply exact_retval in E. destruct E as (rtb & -> & R). exists rtb. split; [reflexivity|].
      apply halts_at_map, (halts_weaken (starts an_expr)); [|assumption]. intros l B. apply (block_starts _ _ _ R B).
    + apply halts_bind; [|apply (halts_weaken (begins p_retval)); [intros l B; apply (RT l B)|apply good_retval]].
      intros bs rt r E. apply exact_retval in E. destruct E as (rtb & -> & R). exists rtb. split; [reflexivity|].
      apply halts_at_map, (halts_weaken (starts an_expr)); [|assumption]. intros l B. apply (block_starts _ _ _ R B).
  - destruct (good_opcode sub b BL) as [(V & _)|R]; [right|left; exact R].
    intros bs e rest E.
    assert (NT : b <> x05 /\ b <> x0b) by (split; intros ->; discriminate E).
    destruct NT as [NE NN].
    refine (halts_weaken (begins (p_opcode sub b)) _ _ _ V bs e rest E).
    intros l (tl & i & D). apply (sound_opcode sub b S) in D. destruct D as (pre & X & D). rewrite app_nil_r in X. subst pre.
    exists tl, i. destruct D as [D|[[D _]|[D _]]]; [exact D|congruence|congruence].
Qed.
Lemma instr_nil : starts an_instr []. Proof. exists [x01], I_Nop. apply enc_plain. reflexivity. Qed.
Lemma halts_instr_sub fuel : halts (starts an_instr) (p_instr fuel) /\ forall acc, halts (starts an_expr) (p_subexpr fuel acc).
Proof.
  induction fuel as [|f [IH1 IH2]]; cbn [p_instr p_subexpr].
  - split; [|intros acc]; intros bs e rest H; discriminate.
  - assert (S : sound (p_subexpr f []) enc_sub).
    { intros bs x rest H. apply sound_instr_sub in H. destruct H as (pre & -> & is & E & H).
      exists pre. split; [reflexivity|]. destruct x as [is' t]. cbn in *. subst is'. assumption. }
    split.
    + intros [|b bs] e rest H.
      * injection H as <- <-. left. repeat split. apply instr_nil.
      * change (p_opcode (p_subexpr f []) b bs = (Err e, rest)) in H.
        destruct (halts_opcode _ b S (IH2 [])) as [(e' & NE & K)|K].
        -- rewrite K in H. injection H as <- <-. right. split; [assumption|]. exists [], b. split; [reflexivity|apply instr_nil].
        -- destruct (K _ _ _ H) as [(-> & -> & B)|(NE & pre & b' & -> & B)]; [left; auto|right].
           split; [assumption|]. exists (b :: pre), b'. auto.
    + intros acc. apply halts_bind; [|apply (halts_weaken (starts an_instr)); [apply instr_expr|assumption]].
      intros bs i r E. apply (proj1 (sound_instr_sub f)) in E. destruct E as (pre & -> & E). exists pre. split; [reflexivity|].
      destruct E as [E|[[-> ->]|[-> ->]]]; [|intros e rest H; discriminate..].
      assert (X : halts (fun l => starts an_expr (pre ++ l)) (p_subexpr f (acc ++ [i]))).
      { apply (halts_weaken (starts an_expr)); [|apply IH2]. intros l. apply expr_cons with (1 := E). }
      destruct i; first [exact (X r)|inversion E; discriminate].
Qed.
Lemma good_expr : good p_expr.
Proof.
  assert (C : forall l, starts an_expr l -> begins p_expr l).
  { intros l (tl & is & H). exists tl, is. apply exact_expr. exists (l ++ tl). rewrite app_nil_r. auto. }
  split; [|split].
  - intros bs. unfold p_expr. apply (halts_weaken (starts an_expr)); [assumption|]. apply halts_expr_of.
    + intros bs' x rest H. apply sound_instr_sub in H. destruct H as (pre & -> & is & E & H).
      exists pre. split; [reflexivity|]. destruct x as [is' t]. cbn in *. subst is'. assumption.
    + apply halts_instr_sub.
  - apply (framed_exact _ _ exact_expr).
  - apply C. exists [x0b], []. apply expr_nil.
Qed.
Lemma good_instr_top : good p_instr_top.
Proof.
  assert (C : forall l, starts an_instr l -> begins p_instr_top l).
  { intros l (tl & i & H). exists tl, i. apply exact_instr_top. exists (l ++ tl). rewrite app_nil_r. split; [reflexivity|left; assumption]. }
  split; [|split].
  - intros bs. unfold p_instr_top. apply (halts_weaken (starts an_instr)); [assumption|]. apply halts_instr_sub.
  - apply (framed_exact _ _ exact_instr_top).
  - apply C, instr_nil.
Qed.

(** ** Module components *)
Lemma good_func : good p_func.
Proof. pose proof good_valty. pose proof good_expr. unfold p_func. m_good. Qed.
Lemma good_table : good p_table. Proof. pose proof good_tablety. unfold p_table. m_good. Qed.
Lemma good_mem : good p_mem. Proof. pose proof good_memty. unfold p_mem. m_good. Qed.
Lemma good_global : good p_global.
Proof. pose proof good_globalty. pose proof good_expr. unfold p_global, p_constexpr. m_good. Qed.
Lemma good_elem : good p_elem.
Proof. pose proof good_expr. unfold p_elem, p_constexpr, p_tableidx, p_funcidx. m_good. Qed.
Lemma good_data : good p_data.
Proof. pose proof good_expr. unfold p_data, p_constexpr, p_memidx. m_good. Qed.
Lemma good_start : good p_start. Proof. unfold p_start, p_funcidx. m_good. Qed.
Lemma good_importdesc : good p_importdesc.
Proof.
  pose proof good_tablety. pose proof good_memty. pose proof good_globalty. unfold p_importdesc, p_typeidx.
  apply (good_match _ x00); [m_arm|m_good].
Qed.
Lemma good_exportdesc : good p_exportdesc.
Proof.
  unfold p_exportdesc, p_funcidx, p_tableidx, p_memidx, p_globalidx. apply (good_match _ x00); [m_arm|m_good].
Qed.

Lemma good_plain A (p : parser A) : plain A p -> good p.
Proof.
  induction 1; try (first [apply good_byte|apply good_unsigned; lia|apply good_signed; lia|apply good_float
    |apply good_limits|apply good_valty|apply good_elemty|apply good_retval|apply good_functy|apply good_tablety
    |apply good_memty|apply good_mut|apply good_globalty|apply good_instr_top|apply good_expr
    |apply good_func|apply good_table|apply good_mem|apply good_global|apply good_elem|apply good_data|apply good_start
    |apply good_importdesc|apply good_exportdesc]).
  - apply good_vec; assumption.
  - apply good_unwrapping_vec; assumption.
  - apply good_compact_vec; assumption.
  - apply good_times; assumption.
Qed.
Lemma plain_element A (p : parser A) : plain A p -> element A p.
Proof. induction 1; constructor; assumption. Qed.
Lemma plain_prompt : forall A (p : parser A), plain A p -> prompt p.
Proof.
  intros A p P. pose proof (plain_element A p P) as E. destruct (element_local A p E) as (S & O & R).
  apply prompt_viable.
  - apply single_element, E.
  - split; assumption.
  - apply element_safe, E.
  - apply good_plain, P.
Qed.

(** The same in terms of the formats *)
Lemma prompt_format {A} (p : parser A) (E : format A) : exact p E -> plain A p -> SpecPrompt.prompt (encodes E) p.
Proof.
  intros X P. destruct (plain_prompt A p P) as [H1 H2].
  assert (V : forall l, whole p l <-> encodes E l).
  { intros l. unfold whole, encodes. split; intros [a H]; exists a.
    - apply X in H. destruct H as (pre & -> & H). rewrite app_nil_r. assumption.
    - apply X. exists l. rewrite app_nil_r. auto. }
  assert (B : forall l, begins p l <-> SpecPrompt.begins (encodes E) l).
  { intros l. split; intros [tl H]; exists tl; apply V, H. }
  split.
  - intros bs r. rewrite H1, B, V. reflexivity.
  - intros bs rest. rewrite H2. split; intros (pre & b & E1 & E2 & E3 & E4); exists pre, b; rewrite ?V, ?B in *; auto.
Qed.
Lemma code_prompt :
  SpecPrompt.prompt (encodes (enc_expr whasm_format)) p_expr /\
  SpecPrompt.prompt (fun l => encodes (enc_instr whasm_format) l \/ l = [x05] \/ l = [x0b]) p_instr_top /\
  SpecPrompt.prompt (encodes (enc_func whasm_format)) p_func /\
  SpecPrompt.prompt (encodes (enc_functy whasm_format)) p_functy /\
  SpecPrompt.prompt (encodes (enc_global whasm_format)) p_global /\
  SpecPrompt.prompt (encodes (enc_elem whasm_format)) p_elem /\
  SpecPrompt.prompt (encodes (enc_data whasm_format)) p_data /\
  SpecPrompt.prompt (encodes (enc_vec whasm_format (enc_table whasm_format))) (p_vec p_table).
Proof.
  assert (EXT : forall A (p : parser A) V V', (forall l, V l <-> V' l) -> SpecPrompt.prompt V p -> SpecPrompt.prompt V' p).
  { intros A p V V' X [H1 H2].
    assert (B : forall l, SpecPrompt.begins V l <-> SpecPrompt.begins V' l).
    { intros l. split; intros [tl H]; exists tl; apply X, H. }
    split.
    - intros bs r. rewrite H1, B, X. reflexivity.
    - intros bs rest. rewrite H2. split; intros (pre & b & E1 & E2 & E3 & E4); exists pre, b; rewrite ?X, ?B in *; auto. }
  split; [apply prompt_format; [apply exact_expr|constructor]|].
  split.
  { apply (EXT _ _ (encodes enc_tok)); [|apply prompt_format; [apply exact_instr_top|constructor]].
    intros l. unfold encodes, enc_tok, terminator. split.
    - intros [i [H|[[-> _]|[-> _]]]]; [left; eauto|auto|auto].
    - intros [[i H]|[->| ->]]; eauto 7. }
  split.
  { apply (EXT _ _ (encodes enc_func0)); [|apply prompt_format; [apply exact_func|constructor]].
    intros l. unfold encodes, enc_func0. split.
    - intros [f (c & H & _)]. eauto.
    - intros [c H]. eauto. }
  split; [apply prompt_format; [apply exact_functy|constructor]|].
  split; [apply prompt_format; [apply exact_global|constructor]|].
  split; [apply prompt_format; [apply exact_elem|constructor]|].
  split; [apply prompt_format; [apply exact_data|constructor]|].
  apply prompt_format; [apply exact_vec, exact_table|repeat constructor].
Qed.

(** Names and sizes *)
Lemma names_late : exists bs, p_string bs = (Err UnexpectedEndOfFile, []) /\ ~ begins p_string bs.
Proof.
  exists [x02; xff]. split; [reflexivity|]. intros [tl [a H]]. destruct tl as [|t tl]; discriminate H.
Qed.
Lemma sizes_late : exists bs rest, p_sized p_elemty (bs ++ rest) = (Err UnexpectedEndOfFile, rest) /\ rest <> [] /\
  ~ begins (p_sized p_elemty) bs.
Proof.
  exists [x00], [x70]. repeat split; [discriminate|]. intros [tl [a H]]. discriminate H.
Qed.
