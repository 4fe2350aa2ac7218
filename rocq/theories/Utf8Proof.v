(** [utf8_valid] accepts exactly the UTF-8 encodings of sequences of scalar values. *)
From Coq Require Import Lia ZifyN ZifyBool.
From Verif Require Import ParserCore SpecUtf8.
Open Scope N_scope.
Ltac Zify.zify_post_hook ::= Z.div_mod_to_equations.

Lemma in_range_iff lo hi b : in_range lo hi b = true <-> lo <= Byte.to_N b <= hi.
Proof. unfold in_range. rewrite andb_true_iff, !N.leb_le. tauto. Qed.

Lemma scalar_of c : c < 0xD800 \/ (0xE000 <= c /\ c < 0x110000) -> scalar c.
Proof. exact (fun H => H). Qed.

(** one code point in front *)
Lemma utf8_cons c bs b0 : scalar c -> map Byte.to_N b0 = utf8_bytes c -> utf8 bs -> utf8 (b0 ++ bs).
Proof.
  intros S E (cs & F & M). exists (c :: cs). split; [constructor; assumption|].
  rewrite map_app. cbn [flat_map]. rewrite E, M. reflexivity.
Qed.

Lemma utf8_valid_complete bs : utf8_valid bs = true -> utf8 bs.
Proof.
  remember (length bs) as n eqn:L. revert bs L.
  induction n as [n IH] using lt_wf_ind. intros bs -> V.
  destruct bs as [|b0 r0]; [exists []; split; [constructor|reflexivity]|].
  cbn [utf8_valid] in V.
  destruct (in_range 0x00 0x7F b0) eqn:C1.
  { apply in_range_iff in C1. apply (utf8_cons (Byte.to_N b0) r0 [b0]).
    - left. lia.
    - unfold utf8_bytes. replace (Byte.to_N b0 <? 0x80) with true by lia. reflexivity.
    - eapply IH; [|reflexivity|assumption]. cbn; lia. }
  destruct (in_range 0xC2 0xDF b0) eqn:C2.
  { apply in_range_iff in C2. destruct r0 as [|b1 r1]; [discriminate|].
    apply andb_true_iff in V. destruct V as [V1 V]. apply in_range_iff in V1.
    set (c := (Byte.to_N b0 - 0xC0) * 64 + (Byte.to_N b1 - 0x80)).
    apply (utf8_cons c r1 [b0; b1]).
    - left. lia.
    - unfold utf8_bytes. replace (c <? 0x80) with false by lia. replace (c <? 0x800) with true by lia.
      cbn [map]. repeat f_equal; lia.
    - eapply IH; [|reflexivity|assumption]. cbn; lia. }
  destruct (in_range 0xE0 0xEF b0) eqn:C3.
  { apply in_range_iff in C3. destruct r0 as [|b1 [|b2 r2]]; try discriminate.
    apply andb_true_iff in V. destruct V as [V V3]. apply andb_true_iff in V. destruct V as [V1 V2].
    apply in_range_iff in V2. unfold byte_is in V1.
    assert (B1 : 0x80 <= Byte.to_N b1 <= 0xBF /\ (Byte.to_N b0 = 0xE0 -> 0xA0 <= Byte.to_N b1)
                 /\ (Byte.to_N b0 = 0xED -> Byte.to_N b1 <= 0x9F)).
    { destruct (N.eqb_spec (Byte.to_N b0) 0xE0); [apply in_range_iff in V1; lia|].
      destruct (N.eqb_spec (Byte.to_N b0) 0xED); apply in_range_iff in V1; lia. }
    set (c := (Byte.to_N b0 - 0xE0) * 4096 + (Byte.to_N b1 - 0x80) * 64 + (Byte.to_N b2 - 0x80)).
    apply (utf8_cons c r2 [b0; b1; b2]).
    - apply scalar_of. lia.
    - unfold utf8_bytes. replace (c <? 0x80) with false by lia. replace (c <? 0x800) with false by lia.
      replace (c <? 0x10000) with true by lia.
      cbn [map]. repeat f_equal; lia.
    - eapply IH; [|reflexivity|assumption]. cbn; lia. }
  destruct (in_range 0xF0 0xF4 b0) eqn:C4; [|discriminate].
  { apply in_range_iff in C4. destruct r0 as [|b1 [|b2 [|b3 r3]]]; try discriminate.
    apply andb_true_iff in V. destruct V as [V V4]. apply andb_true_iff in V. destruct V as [V V3].
    apply andb_true_iff in V. destruct V as [V1 V2].
    apply in_range_iff in V2, V3. unfold byte_is in V1.
    assert (B1 : 0x80 <= Byte.to_N b1 <= 0xBF /\ (Byte.to_N b0 = 0xF0 -> 0x90 <= Byte.to_N b1)
                 /\ (Byte.to_N b0 = 0xF4 -> Byte.to_N b1 <= 0x8F)).
    { destruct (N.eqb_spec (Byte.to_N b0) 0xF0); [apply in_range_iff in V1; lia|].
      destruct (N.eqb_spec (Byte.to_N b0) 0xF4); apply in_range_iff in V1; lia. }
    set (c := (Byte.to_N b0 - 0xF0) * 262144 + (Byte.to_N b1 - 0x80) * 4096
              + (Byte.to_N b2 - 0x80) * 64 + (Byte.to_N b3 - 0x80)).
    apply (utf8_cons c r3 [b0; b1; b2; b3]).
    - apply scalar_of. lia.
    - unfold utf8_bytes. replace (c <? 0x80) with false by lia. replace (c <? 0x800) with false by lia.
      replace (c <? 0x10000) with false by lia.
      cbn [map]. repeat f_equal; lia.
    - eapply IH; [|reflexivity|assumption]. cbn; lia. }
Qed.

Ltac rng := match goal with
  | |- context [in_range ?l ?h ?b] =>
    first [ replace (in_range l h b) with true by (symmetry; apply in_range_iff; lia)
          | replace (in_range l h b) with false by
              (symmetry; apply Bool.not_true_iff_false; rewrite in_range_iff; lia) ]; cbv iota
  end.

Lemma cons_inv {A} (x y : A) l l' : x :: l = y :: l' -> x = y /\ l = l'.
Proof. intros H; injection H; auto. Qed.

Lemma utf8_valid_sound bs : utf8 bs -> utf8_valid bs = true.
Proof.
  intros (cs & F & M). revert bs M. induction F as [|c cs S F IH]; intros bs M.
  { destruct bs; [reflexivity|discriminate]. }
  cbn [flat_map] in M. unfold scalar in S.
  unfold utf8_bytes in M.
  destruct (N.ltb_spec c 0x80).
  { destruct bs as [|b0 bs]; [discriminate|]. cbn [map app] in M. apply cons_inv in M. destruct M as [M0 M].
    cbn [utf8_valid]. rng. apply IH. assumption. }
  destruct (N.ltb_spec c 0x800).
  { destruct bs as [|b0 [|b1 bs]]; try discriminate. cbn [map app] in M. apply cons_inv in M. destruct M as [M0 M]. apply cons_inv in M. destruct M as [M1 M].
    cbn [utf8_valid]. do 3 rng. rewrite andb_true_l. apply IH. assumption. }
  destruct (N.ltb_spec c 0x10000).
  { destruct bs as [|b0 [|b1 [|b2 bs]]]; try discriminate. cbn [map app] in M. apply cons_inv in M. destruct M as [M0 M]. apply cons_inv in M. destruct M as [M1 M]. apply cons_inv in M. destruct M as [M2 M].
    cbn [utf8_valid]. do 3 rng. 
    apply andb_true_iff; split; [|apply IH; assumption].
    apply andb_true_iff; split; [|apply in_range_iff; lia].
    unfold byte_is. destruct (N.eqb_spec (Byte.to_N b0) 0xE0); [apply in_range_iff; lia|].
    destruct (N.eqb_spec (Byte.to_N b0) 0xED); apply in_range_iff; lia. }
  destruct bs as [|b0 [|b1 [|b2 [|b3 bs]]]]; try discriminate. cbn [map app] in M.
  apply cons_inv in M. destruct M as [M0 M]. apply cons_inv in M. destruct M as [M1 M]. apply cons_inv in M. destruct M as [M2 M]. apply cons_inv in M. destruct M as [M3 M].
  cbn [utf8_valid]. do 4 rng. 
  apply andb_true_iff; split; [|apply IH; assumption].
  apply andb_true_iff; split; [|apply in_range_iff; lia].
  apply andb_true_iff; split; [|apply in_range_iff; lia].
  unfold byte_is. destruct (N.eqb_spec (Byte.to_N b0) 0xF0); [apply in_range_iff; lia|].
  destruct (N.eqb_spec (Byte.to_N b0) 0xF4); apply in_range_iff; lia.
Qed.

Lemma utf8_valid_iff bs : utf8_valid bs = true <-> utf8 bs.
Proof. split; [apply utf8_valid_complete|apply utf8_valid_sound]. Qed.
