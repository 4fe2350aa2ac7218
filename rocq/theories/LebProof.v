(** Proofs about the LEB-128 loops. *)
From Coq Require Import Lia ZifyN ZifyBool.
From Verif Require Import ParserCore SpecLeb.
Open Scope N_scope.

Lemma land_7f n : N.land n 0x7F = n mod 128.
Proof. change 0x7F with (N.ones 7). rewrite N.land_ones. reflexivity. Qed.

Lemma byte_lt b : Byte.to_N b < 256.
Proof. pose proof (Strings.Byte.to_N_bounded b). lia. Qed.

Lemma land_80 b : (N.land (Byte.to_N b) 0x80 =? 0) = (Byte.to_N b <? 128).
Proof. destruct b; reflexivity. Qed.

Lemma land_40 b : (N.land (Byte.to_N b) 0x40 =? 0) = (Byte.to_N b mod 128 <? 64).
Proof. destruct b; reflexivity. Qed.

Lemma lor_add_N a b s : a < 2 ^ s -> N.lor a (b * 2 ^ s) = a + b * 2 ^ s.
Proof.
  intros H. symmetry.
  assert (L : N.land a (b * 2 ^ s) = 0).
  { apply N.bits_inj. intros k. rewrite N.land_spec, N.bits_0.
    destruct (N.lt_ge_cases k s) as [K|K].
    - rewrite N.mul_pow2_bits_low by assumption. apply andb_false_r.
    - rewrite <- (N.mod_small a (2 ^ s)) by assumption.
      rewrite N.mod_pow2_bits_high by assumption. reflexivity. }
  rewrite N.add_nocarry_lxor by assumption. apply N.lxor_lor. assumption.
Qed.

Lemma lor_add_Z (a b s : Z) : (0 <= s)%Z -> (0 <= a < 2 ^ s)%Z ->
  Z.lor a (b * 2 ^ s) = (a + b * 2 ^ s)%Z.
Proof.
  intros S H. symmetry.
  assert (L : Z.land a (b * 2 ^ s) = 0%Z).
  { apply Z.bits_inj'. intros k K0. rewrite Z.land_spec, Z.bits_0.
    destruct (Z.lt_ge_cases k s) as [K|K].
    - rewrite Z.mul_pow2_bits_low by assumption. apply andb_false_r.
    - rewrite <- (Z.mod_small a (2 ^ s)) by assumption.
      rewrite Z.mod_pow2_bits_high by lia. reflexivity. }
  rewrite Z.add_nocarry_lxor by assumption. apply Z.lxor_lor. assumption.
Qed.

(** ** Unsigned *)

Lemma payload_lt b : payload b < 128.
Proof. unfold payload. apply N.mod_lt. lia. Qed.

Lemma u_from_u8_payload size b : 8 <= size -> u_from_u8 size (payload b) = Some (payload b).
Proof.
  intros S. unfold u_from_u8.
  assert (2 ^ 8 <= 2 ^ size) by (apply N.pow_le_mono_r; lia).
  pose proof (payload_lt b). change (2 ^ 8) with 256 in *.
  replace (payload b <? 2 ^ size) with true; [reflexivity|]. symmetry. apply N.ltb_lt. lia.
Qed.

(** The overflow test of line 81 succeeds exactly when the shifted group fits. *)
Lemma u_test size val shift : shift < size -> val < 128 ->
  (N.land ((N.shiftl val shift mod 2 ^ size) / 2 ^ shift) 0x7F =? val)
  = (val * 2 ^ shift <? 2 ^ size).
Proof.
  intros S V. rewrite land_7f, N.shiftl_mul_pow2.
  replace (2 ^ size) with (2 ^ shift * 2 ^ (size - shift))
    by (rewrite <- N.pow_add_r; f_equal; lia).
  assert (P1 : 2 ^ shift <> 0) by (apply N.pow_nonzero; lia).
  assert (P2 : 2 ^ (size - shift) <> 0) by (apply N.pow_nonzero; lia).
  rewrite (N.mul_comm val), N.mul_mod_distr_l by assumption.
  rewrite N.mul_comm, N.div_mul by assumption.
  assert (val mod 2 ^ (size - shift) <= val) by (apply N.mod_le; assumption).
  rewrite (N.mod_small (_ mod _) 128) by lia.
  destruct (N.ltb_spec (2 ^ shift * val) (2 ^ shift * 2 ^ (size - shift))) as [L|L].
  - apply N.eqb_eq. apply N.mod_small. nia.
  - apply N.eqb_neq. intros E.
    assert (val mod 2 ^ (size - shift) < 2 ^ (size - shift)) by (apply N.mod_lt; assumption). nia.
Qed.

Lemma uleb_loop_step size result shift b bs :
  8 <= size ->
  uleb_loop size 0x7F result shift (b :: bs) =
  if size <=? shift then
    if negb (payload b =? 0) then (Err OutOfRangeUnsignedInteger, bs)
    else if Byte.to_N b <? 128 then (Ok result, bs)
    else uleb_loop size 0x7F result shift bs
  else if negb (payload b * 2 ^ shift <? 2 ^ size) then (Err OutOfRangeUnsignedInteger, bs)
  else if Byte.to_N b <? 128 then (Ok (N.lor result (payload b * 2 ^ shift)), bs)
  else uleb_loop size 0x7F (N.lor result (payload b * 2 ^ shift)) (shift + 7) bs.
Proof.
  intros S. cbn [uleb_loop]. rewrite land_80, land_7f. fold (payload b).
  rewrite u_from_u8_payload by assumption.
  destruct (N.leb_spec size shift) as [L|L]; [reflexivity|].
  unfold u_shl, u_shr. replace (shift <? size) with true by (symmetry; apply N.ltb_lt; assumption).
  rewrite N.shiftr_div_pow2, u_test by (try assumption; apply payload_lt).
  destruct (N.ltb_spec (payload b * 2 ^ shift) (2 ^ size)) as [M|M]; cbn [negb]; [|reflexivity].
  rewrite N.shiftl_mul_pow2, N.mod_small by assumption. reflexivity.
Qed.

Lemma leb_inv b bs : leb (b :: bs) ->
  (Byte.to_N b < 128 /\ bs = []) \/ (128 <= Byte.to_N b /\ leb bs).
Proof. intros H; inversion H; subst; auto. Qed.

Lemma uleb_loop_exact size : 8 <= size -> forall bs result shift v rest,
  (size <= shift ->
    (uleb_loop size 0x7F result shift bs = (Ok v, rest) <->
     exists pre, bs = pre ++ rest /\ leb pre /\ v = result /\ uleb_val pre = 0)) /\
  (shift < size -> result < 2 ^ shift ->
    (uleb_loop size 0x7F result shift bs = (Ok v, rest) <->
     exists pre, bs = pre ++ rest /\ leb pre /\ v = result + 2 ^ shift * uleb_val pre /\ v < 2 ^ size)).
Proof.
  intros S. induction bs as [|b bs IH]; intros result shift v rest.
  { split; intros; split; intros H1.
    1,3: cbn in H1; discriminate.
    all: destruct H1 as (pre & E & L & _); inversion L; subst; discriminate. }
  rewrite uleb_loop_step by assumption.
  pose proof (payload_lt b) as PB.
  split.
  - intros SH. replace (size <=? shift) with true by (symmetry; apply N.leb_le; assumption).
    destruct (N.eqb_spec (payload b) 0) as [Z|Z]; cbn [negb].
    + destruct (N.ltb_spec (Byte.to_N b) 128) as [T|T].
      * split.
        -- intros E; injection E as <- <-. exists [b]. cbn [uleb_val app]. rewrite Z.
           repeat split; auto. constructor; assumption.
        -- intros (pre & E & L & -> & U). destruct pre as [|b0 pre]; [inversion L|].
           cbn in E. injection E as <- ->.
           apply leb_inv in L. destruct L as [[_ ->]|[L _]]; [reflexivity|lia].
      * destruct (IH result shift v rest) as [IH1 _]. rewrite (IH1 SH). split.
        -- intros (pre & -> & L & -> & U). exists (b :: pre). cbn [uleb_val app]. rewrite Z, U.
           repeat split; auto. constructor; assumption.
        -- intros (pre & E & L & -> & U). destruct pre as [|b0 pre]; [inversion L|].
           cbn in E. injection E as <- ->. cbn [uleb_val] in U.
           apply leb_inv in L. destruct L as [[L _]|[_ L]]; [lia|].
           exists pre. repeat split; auto. lia.
    + split; [discriminate|]. intros (pre & E & L & -> & U).
      destruct pre as [|b0 pre]; [inversion L|].
      cbn in E. injection E as <- ->. cbn [uleb_val] in U. lia.
  - intros SH R. replace (size <=? shift) with false by (symmetry; apply N.leb_gt; assumption).
    assert (P7 : 2 ^ (shift + 7) = 2 ^ shift * 128) by (rewrite N.pow_add_r; reflexivity).
    assert (P2 : 0 < 2 ^ shift) by (apply N.neq_0_lt_0, N.pow_nonzero; lia).
    assert (R2 : result + payload b * 2 ^ shift < 2 ^ shift * (payload b + 1)) by nia.
    assert (PS : 2 ^ size = 2 ^ shift * 2 ^ (size - shift))
      by (rewrite <- N.pow_add_r; f_equal; lia).
    destruct (N.ltb_spec (payload b * 2 ^ shift) (2 ^ size)) as [M|M]; cbn [negb].
    + rewrite lor_add_N by assumption.
      assert (R0 : payload b < 2 ^ (size - shift)).
      { rewrite PS in M. rewrite N.mul_comm in M. apply N.mul_lt_mono_pos_l in M; assumption. }
      assert (R3 : result + payload b * 2 ^ shift < 2 ^ size).
      { rewrite PS. apply N.lt_le_trans with (1 := R2). apply N.mul_le_mono_l. lia. }
      destruct (N.ltb_spec (Byte.to_N b) 128) as [T|T].
      * split.
        -- intros E; injection E as <- <-. exists [b]. cbn [uleb_val app].
           repeat split; auto; [constructor; assumption|lia].
        -- intros (pre & E & L & -> & U). destruct pre as [|b0 pre]; [inversion L|].
           cbn in E. injection E as <- ->.
           apply leb_inv in L. destruct L as [[_ ->]|[L _]]; [|lia].
           cbn [uleb_val app]. f_equal. f_equal. lia.
      * destruct (IH (result + payload b * 2 ^ shift) (shift + 7) v rest) as [IH1 IH2].
        destruct (N.lt_ge_cases (shift + 7) size) as [LT|GE].
        -- rewrite IH2 by (try assumption; nia). split.
           ++ intros (pre & -> & L & -> & U). exists (b :: pre). cbn [uleb_val app].
              repeat split; auto; [constructor; assumption|lia].
           ++ intros (pre & E & L & -> & U). destruct pre as [|b0 pre]; [inversion L|].
              cbn in E. injection E as <- ->. cbn [uleb_val] in *.
              apply leb_inv in L. destruct L as [[L _]|[_ L]]; [lia|].
              exists pre. repeat split; auto. lia.
        -- rewrite IH1 by assumption. 
           assert (PG : 2 ^ (size - shift) <= 128)
             by (change 128 with (2 ^ 7); apply N.pow_le_mono_r; lia).
           split.
           ++ intros (pre & -> & L & -> & U). exists (b :: pre). cbn [uleb_val app]. rewrite U.
              repeat split; auto; [constructor; assumption|lia].
           ++ intros (pre & E & L & -> & U). destruct pre as [|b0 pre]; [inversion L|].
              cbn in E. injection E as <- ->. cbn [uleb_val] in *.
              apply leb_inv in L. destruct L as [[L _]|[_ L]]; [lia|].
              assert (uleb_val pre = 0) by nia.
              exists pre. repeat split; auto. nia.
    + split; [discriminate|]. intros (pre & E & L & -> & U).
      destruct pre as [|b0 pre]; [inversion L|].
      cbn in E. injection E as <- ->. cbn [uleb_val] in U. nia.
Qed.

Lemma p_unsigned_loop size bs : 8 <= size -> p_unsigned size bs = uleb_loop size 0x7F 0 0 bs.
Proof.
  intros S. unfold p_unsigned, u_from_u8.
  assert (2 ^ 8 <= 2 ^ size) by (apply N.pow_le_mono_r; lia).
  replace (0x7F <? 2 ^ size) with true; [reflexivity|]. symmetry. apply N.ltb_lt.
  change (2 ^ 8) with 256 in *. lia.
Qed.

Lemma p_unsigned_exact size bs v rest : 8 <= size ->
  p_unsigned size bs = (Ok v, rest) <-> exists pre, bs = pre ++ rest /\ enc_unsigned size pre v.
Proof.
  intros S. rewrite p_unsigned_loop by assumption.
  destruct (uleb_loop_exact size S bs 0 0 v rest) as [_ H]. rewrite H by (cbn; lia).
  unfold enc_unsigned, fits_u. split; intros (pre & -> & L & E & U); exists pre; repeat split; auto.
  - rewrite E. cbn [N.pow]. lia.
  - rewrite <- E. cbn [N.pow]. lia.
Qed.

(** every result is Ok, out of range, or end of file; the latter only on unterminated input *)
Lemma uleb_loop_results size : 8 <= size -> forall bs result shift,
  (exists v, fst (uleb_loop size 0x7F result shift bs) = Ok v) \/
  fst (uleb_loop size 0x7F result shift bs) = Err OutOfRangeUnsignedInteger \/
  (uleb_loop size 0x7F result shift bs = (Err UnexpectedEndOfFile, []) /\
   Forall (fun b => 128 <= Byte.to_N b) bs).
Proof.
  intros S. induction bs as [|b bs IH]; intros result shift.
  - right; right; split; [reflexivity|constructor].
  - rewrite uleb_loop_step by assumption.
    repeat match goal with |- context [if ?c then _ else _] => destruct c eqn:? end;
      try (left; eexists; reflexivity); try (right; left; reflexivity).
    all: match goal with H : (_ <? 128) = false |- _ => apply N.ltb_ge in H end.
    all: match goal with IH : forall r s, _ |- context [uleb_loop _ _ ?r ?s _] =>
           destruct (IH r s) as [H|[H|[H1 H2]]] end; auto.
Qed.

(** what is left of the input is a suffix *)
Lemma uleb_loop_suffix size mask : forall bs result shift,
  exists pre, bs = pre ++ snd (uleb_loop size mask result shift bs).
Proof.
  induction bs as [|b bs IH]; intros result shift; [exists []; reflexivity|].
  cbn [uleb_loop].
  repeat match goal with |- context [match ?c with _ => _ end] =>
    lazymatch c with uleb_loop _ _ _ _ _ => fail | _ => destruct c end end;
  try (exists [b]; reflexivity).
  all: match goal with IH : forall r s, _ |- exists pre, ?b :: _ = _ ++ snd (uleb_loop _ _ ?r ?s _) =>
           destruct (IH r s) as [pre E]; exists (b :: pre); cbn [app]; rewrite <- E; reflexivity end.
Qed.

(** ** Signed *)

Lemma sval_cases b : payload7s b = Z.of_N (payload b) /\ payload b < 64
  \/ payload7s b = (Z.of_N (payload b) - 128)%Z /\ 64 <= payload b < 128.
Proof.
  unfold payload7s. pose proof (payload_lt b). destruct (N.ltb_spec (payload b) 64); auto.
Qed.

Lemma pow2_pos (s : Z) : (0 <= s)%Z -> (0 < 2 ^ s)%Z.
Proof. intros. apply Z.pow_pos_nonneg; lia. Qed.

Lemma s_wrap_small size z : 1 <= size -> fits_s size z -> s_wrap size z = z.
Proof.
  intros S [L U]. unfold s_wrap.
  assert (P : (2 ^ Z.of_N size = 2 * 2 ^ (Z.of_N size - 1))%Z).
  { rewrite <- Z.pow_succ_r by lia. f_equal. lia. }
  pose proof (pow2_pos (Z.of_N size - 1) ltac:(lia)) as Q.
  destruct (Z.lt_ge_cases z 0) as [N|N].
  - assert (E : (z mod 2 ^ Z.of_N size = z + 2 ^ Z.of_N size)%Z).
    { symmetry. apply Z.mod_unique_pos with (q := (-1)%Z); lia. }
    rewrite E. destruct (Z.ltb_spec (z + 2 ^ Z.of_N size) (2 ^ (Z.of_N size - 1))); lia.
  - rewrite Z.mod_small by lia.
    destruct (Z.ltb_spec z (2 ^ (Z.of_N size - 1))); lia.
Qed.

Lemma s_wrap_fits size z : 1 <= size -> fits_s size (s_wrap size z).
Proof.
  intros S. unfold s_wrap, fits_s.
  assert (P : (2 ^ Z.of_N size = 2 * 2 ^ (Z.of_N size - 1))%Z).
  { rewrite <- Z.pow_succ_r by lia. f_equal. lia. }
  pose proof (pow2_pos (Z.of_N size - 1) ltac:(lia)) as Q.
  pose proof (Z.mod_pos_bound z (2 ^ Z.of_N size) ltac:(lia)).
  destruct (Z.ltb_spec (z mod 2 ^ Z.of_N size) (2 ^ (Z.of_N size - 1))); lia.
Qed.

Lemma s_wrap_period size z k : 
  s_wrap size (z + k * 2 ^ Z.of_N size) = s_wrap size z.
Proof.
  unfold s_wrap. rewrite Z.mod_add; [reflexivity|]. apply Z.pow_nonzero; lia.
Qed.

(** wrapping a shifted value is shifting a wrapped value *)
Lemma s_wrap_shift size shift z : shift < size ->
  s_wrap size (z * 2 ^ Z.of_N shift) = (s_wrap (size - shift) z * 2 ^ Z.of_N shift)%Z.
Proof.
  intros S.
  set (k := (size - shift)%N).
  assert (E : Z.of_N size = (Z.of_N k + Z.of_N shift)%Z) by lia.
  assert (E1 : (Z.of_N size - 1 = (Z.of_N k - 1) + Z.of_N shift)%Z) by lia.
  unfold s_wrap. rewrite E1, E.
  rewrite !Z.pow_add_r by lia.
  pose proof (pow2_pos (Z.of_N shift) ltac:(lia)) as Q.
  rewrite Z.mul_mod_distr_r by (try lia; apply Z.pow_nonzero; lia).
  set (m := (z mod 2 ^ Z.of_N k)%Z).
  destruct (Z.ltb_spec m (2 ^ (Z.of_N k - 1))); destruct (Z.ltb_spec (m * 2 ^ Z.of_N shift) (2 ^ (Z.of_N k - 1) * 2 ^ Z.of_N shift)); nia.
Qed.

(** the overflow test of line 85: the group, read as a signed seven bit number, fits in the
    bits that are left - or, when more than seven bits are left, always *)
Lemma s_test_wide k b : 8 <= k -> s_wrap k (Z.of_N (payload b)) = Z.of_N (payload b).
Proof.
  intros K. apply s_wrap_small; [lia|]. unfold fits_s.
  assert (2 ^ 7 <= 2 ^ (Z.of_N k - 1))%Z by (apply Z.pow_le_mono_r; lia).
  pose proof (payload_lt b). change (2 ^ 7)%Z with 128%Z in *. lia.
Qed.

Lemma s_test_narrow k b : 1 <= k <= 7 ->
  (s_wrap k (Z.of_N (payload b)) mod 128 = Z.of_N (payload b))%Z <-> fits_s k (payload7s b).
Proof.
  intros K. pose proof (payload_lt b) as PB.
  assert (P : (2 ^ (Z.of_N k - 1) <= 64)%Z)
    by (change 64%Z with (2 ^ 6)%Z; apply Z.pow_le_mono_r; lia).
  split.
  - intros E. pose proof (s_wrap_fits k (Z.of_N (payload b)) ltac:(lia)) as F.
    replace (payload7s b) with (s_wrap k (Z.of_N (payload b))); [assumption|].
    unfold fits_s in F. set (w := s_wrap k (Z.of_N (payload b))) in *.
    destruct (Z.lt_ge_cases w 0) as [N|N].
    + assert (w mod 128 = w + 128)%Z by (symmetry; apply Z.mod_unique_pos with (q := (-1)%Z); lia).
      destruct (sval_cases b); lia.
    + rewrite Z.mod_small in E by lia. destruct (sval_cases b); lia.
  - intros F.
    assert (E : s_wrap k (Z.of_N (payload b)) = payload7s b).
    { rewrite <- (s_wrap_small k (payload7s b)) by (try assumption; lia).
      destruct (sval_cases b) as [[-> _]|[-> _]]; [reflexivity|].
      replace (Z.of_N (payload b) - 128)%Z with
        (Z.of_N (payload b) + (- 2 ^ (7 - Z.of_N k)) * 2 ^ Z.of_N k)%Z.
      - symmetry. apply s_wrap_period.
      - rewrite Z.mul_opp_l, <- Z.pow_add_r by lia.
        replace (7 - Z.of_N k + Z.of_N k)%Z with 7%Z by lia. reflexivity. }
    rewrite E. destruct (sval_cases b) as [[-> ?]|[-> ?]].
    + apply Z.mod_small. lia.
    + symmetry; apply Z.mod_unique_pos with (q := (-1)%Z); lia.
Qed.

Lemma s_wrap_narrow k b : 1 <= k <= 7 -> fits_s k (payload7s b) ->
  s_wrap k (Z.of_N (payload b)) = payload7s b.
Proof.
  intros K F.
  rewrite <- (s_wrap_small k (payload7s b)) by (try assumption; lia).
  destruct (sval_cases b) as [[-> _]|[-> _]]; [reflexivity|].
  replace (Z.of_N (payload b) - 128)%Z with
    (Z.of_N (payload b) + (- 2 ^ (7 - Z.of_N k)) * 2 ^ Z.of_N k)%Z.
  - symmetry. apply s_wrap_period.
  - rewrite Z.mul_opp_l, <- Z.pow_add_r by lia.
    replace (7 - Z.of_N k + Z.of_N k)%Z with 7%Z by lia. reflexivity.
Qed.

Lemma land_7f_Z z : Z.land z 0x7F = (z mod 128)%Z.
Proof. change 0x7F%Z with (Z.ones 7). rewrite Z.land_ones by lia. reflexivity. Qed.

Lemma s_from_u8_payload size b : 8 <= size ->
  s_from_u8 size (payload b) = Some (Z.of_N (payload b)).
Proof.
  intros S. unfold s_from_u8.
  assert (2 ^ 7 <= 2 ^ (size - 1)) by (apply N.pow_le_mono_r; lia).
  pose proof (payload_lt b). change (2 ^ 7) with 128 in *.
  replace (payload b <? 2 ^ (size - 1)) with true; [reflexivity|]. symmetry. apply N.ltb_lt. lia.
Qed.

(** one step of the loop, with the machine arithmetic simplified *)
Lemma sleb_loop_step size result shift positive b bs :
  8 <= size -> (0 <= result)%Z \/ size <= shift -> (shift < size -> (result < 2 ^ Z.of_N shift)%Z) ->
  sleb_loop size 0x7F result shift positive (b :: bs) =
  let pos := payload b <? 64 in
  if size <=? shift then
    if ((payload b =? 0) && positive) || ((payload b =? 127) && negb positive) then
      if Byte.to_N b <? 128 then (Ok result, bs)
      else sleb_loop size 0x7F result shift positive bs
    else (Err OutOfRangeSignedInteger, bs)
  else if shift + 8 <=? size then
    if Byte.to_N b <? 128 then (Ok (result + payload7s b * 2 ^ Z.of_N shift)%Z, bs)
    else sleb_loop size 0x7F (result + Z.of_N (payload b) * 2 ^ Z.of_N shift)%Z (shift + 7) pos bs
  else if (s_wrap (size - shift) (Z.of_N (payload b)) mod 128 =? Z.of_N (payload b))%Z then
    if Byte.to_N b <? 128 then (Ok (result + payload7s b * 2 ^ Z.of_N shift)%Z, bs)
    else sleb_loop size 0x7F (result + payload7s b * 2 ^ Z.of_N shift)%Z (shift + 7) pos bs
  else (Err OutOfRangeSignedInteger, bs).
Proof.
  intros S R0 R1. cbn [sleb_loop]. rewrite land_80, land_40, land_7f. fold (payload b).
  rewrite s_from_u8_payload by assumption. cbv zeta.
  destruct (N.leb_spec size shift) as [L|L].
  { unfold sleb_finish. replace (shift <? size) with false by (symmetry; apply N.ltb_ge; assumption).
    reflexivity. }
  assert (RP : (0 <= result < 2 ^ Z.of_N shift)%Z) by (split; [destruct R0; lia|auto]).
  unfold s_shl, s_shr. replace (shift <? size) with true by (symmetry; apply N.ltb_lt; assumption).
  rewrite Z.shiftl_mul_pow2 by lia. rewrite s_wrap_shift by assumption.
  pose proof (pow2_pos (Z.of_N shift) ltac:(lia)) as Q.
  rewrite Z.shiftr_div_pow2, Z.div_mul by lia. rewrite land_7f_Z.
  rewrite lor_add_Z by (try assumption; lia).
  destruct (N.leb_spec (shift + 8) size) as [W|W].
  - rewrite s_test_wide by lia. pose proof (payload_lt b) as PB.
    rewrite (Z.mod_small (Z.of_N (payload b))) by lia. rewrite Z.eqb_refl. cbn [negb].
    destruct (N.ltb_spec (Byte.to_N b) 128) as [T|T]; [|reflexivity].
    unfold sleb_finish, s_shl.
    replace (shift + 7 <? size) with true by (symmetry; apply N.ltb_lt; lia). cbn [andb].
    destruct (N.ltb_spec (payload b) 64) as [H|H]; cbn [negb].
    + destruct (sval_cases b) as [[-> ?]|[-> ?]]; [reflexivity|lia].
    + change (Z.lnot 0) with (-1)%Z. rewrite Z.shiftl_mul_pow2 by lia.
      rewrite s_wrap_shift by lia. rewrite s_wrap_small.
      2: lia.
      2: { unfold fits_s. pose proof (pow2_pos (Z.of_N (size - (shift + 7)) - 1)%Z ltac:(lia)). lia. }
      rewrite lor_add_Z.
      3: { rewrite N2Z.inj_add, Z.pow_add_r by lia. change (2 ^ Z.of_N 7)%Z with 128%Z. nia. }
      2: lia.
      rewrite N2Z.inj_add, Z.pow_add_r by lia. change (2 ^ Z.of_N 7)%Z with 128%Z.
      f_equal. f_equal.
      destruct (sval_cases b) as [[-> ?]|[-> ?]]; lia.
  - destruct (Z.eqb_spec (s_wrap (size - shift) (Z.of_N (payload b)) mod 128) (Z.of_N (payload b)))
      as [E|E]; cbn [negb]; [|reflexivity].
    rewrite s_wrap_narrow; [|lia|apply s_test_narrow; [lia|assumption]].
    destruct (N.ltb_spec (Byte.to_N b) 128) as [T|T]; [|reflexivity].
    unfold sleb_finish. replace (shift + 7 <? size) with false by (symmetry; apply N.ltb_ge; lia).
    reflexivity.
Qed.

Lemma sleb_val_cons b bs : leb bs -> sleb_val (b :: bs) = (Z.of_N (payload b) + 128 * sleb_val bs)%Z.
Proof. intros L. destruct bs; [inversion L|reflexivity]. Qed.

Lemma fits_split size shift result x : shift < size ->
  (0 <= result < 2 ^ Z.of_N shift)%Z ->
  fits_s size (result + x * 2 ^ Z.of_N shift) <-> fits_s (size - shift) x.
Proof.
  intros S R. unfold fits_s.
  replace (Z.of_N size - 1)%Z with ((Z.of_N (size - shift) - 1) + Z.of_N shift)%Z by lia.
  rewrite Z.pow_add_r by lia.
  pose proof (pow2_pos (Z.of_N shift) ltac:(lia)) as Q.
  set (X := (2 ^ Z.of_N shift)%Z) in *. set (Y := (2 ^ (Z.of_N (size - shift) - 1))%Z).
  assert (0 < Y)%Z by (apply pow2_pos; lia).
  split; nia.
Qed.

Definition sgn (positive : bool) : Z := if positive then 0%Z else (-1)%Z.

Lemma sleb_loop_exact size : 8 <= size -> forall bs result shift positive v rest,
  (size <= shift ->
    (sleb_loop size 0x7F result shift positive bs = (Ok v, rest) <->
     exists pre, bs = pre ++ rest /\ leb pre /\ v = result /\ sleb_val pre = sgn positive)) /\
  (shift < size -> (0 <= result < 2 ^ Z.of_N shift)%Z ->
    (sleb_loop size 0x7F result shift positive bs = (Ok v, rest) <->
     exists pre, bs = pre ++ rest /\ leb pre /\
       v = (result + sleb_val pre * 2 ^ Z.of_N shift)%Z /\ fits_s size v)).
Proof.
  intros S. induction bs as [|b bs IH]; intros result shift positive v rest.
  { split; intros; split; intros H1.
    1,3: cbn in H1; discriminate.
    all: destruct H1 as (pre & E & L & _); inversion L; subst; discriminate. }
  pose proof (payload_lt b) as PB.
  split.
  - intros SH. rewrite sleb_loop_step by (auto; lia). cbv zeta.
    replace (size <=? shift) with true by (symmetry; apply N.leb_le; assumption).
    destruct (((payload b =? 0) && positive) || ((payload b =? 127) && negb positive)) eqn:C.
    + assert (E7 : Z.of_N (payload b) = (sgn positive * (-127))%Z) by (destruct positive; cbn; lia).
      assert (E1 : payload7s b = sgn positive).
      { destruct (sval_cases b) as [[-> ?]|[-> ?]]; destruct positive; cbn [sgn] in *; lia. }
      destruct (N.ltb_spec (Byte.to_N b) 128) as [T|T].
      * split.
        -- intros E; injection E as <- <-. exists [b]. cbn [sleb_val app].
           repeat split; auto. constructor; assumption.
        -- intros (pre & E & L & -> & U). destruct pre as [|b0 pre]; [inversion L|].
           cbn in E. injection E as <- ->.
           apply leb_inv in L. destruct L as [[_ ->]|[L _]]; [reflexivity|lia].
      * destruct (IH result shift positive v rest) as [IH1 _]. rewrite (IH1 SH). split.
        -- intros (pre & -> & L & -> & U). exists (b :: pre). 
           repeat split; auto; [constructor; assumption|]. rewrite sleb_val_cons by assumption. lia.
        -- intros (pre & E & L & -> & U). destruct pre as [|b0 pre]; [inversion L|].
           cbn in E. injection E as <- ->.
           apply leb_inv in L. destruct L as [[L _]|[_ L]]; [lia|].
           rewrite sleb_val_cons in U by assumption.
           exists pre. repeat split; auto. lia.
    + split; [discriminate|]. intros (pre & E & L & -> & U).
      destruct pre as [|b0 pre]; [inversion L|].
      cbn in E. injection E as <- ->.
      apply leb_inv in L. destruct L as [[L ->]|[_ L]].
      * cbn [sleb_val] in U.
        destruct (sval_cases b) as [[E ?]|[E ?]]; rewrite E in U; destruct positive; cbn [sgn] in *; lia.
      * rewrite sleb_val_cons in U by assumption. destruct positive; cbn [sgn] in *; lia.
  - intros SH R. rewrite sleb_loop_step by (auto; lia). cbv zeta.
    replace (size <=? shift) with false by (symmetry; apply N.leb_gt; assumption).
    assert (P7 : (2 ^ Z.of_N (shift + 7) = 2 ^ Z.of_N shift * 128)%Z).
    { rewrite N2Z.inj_add, Z.pow_add_r by lia. reflexivity. }
    pose proof (pow2_pos (Z.of_N shift) ltac:(lia)) as Q.
    destruct (N.leb_spec (shift + 8) size) as [W|W].
    + assert (F7 : fits_s (size - shift) (payload7s b)).
      { unfold fits_s. assert (2 ^ 7 <= 2 ^ (Z.of_N (size - shift) - 1))%Z by (apply Z.pow_le_mono_r; lia).
        change (2 ^ 7)%Z with 128%Z in *. destruct (sval_cases b); lia. }
      destruct (N.ltb_spec (Byte.to_N b) 128) as [T|T].
      * split.
        -- intros E; injection E as <- <-. exists [b]. cbn [sleb_val app].
           repeat split; auto; try (constructor; assumption); apply fits_split; auto.
        -- intros (pre & E & L & -> & U). destruct pre as [|b0 pre]; [inversion L|].
           cbn in E. injection E as <- ->.
           apply leb_inv in L. destruct L as [[_ ->]|[L _]]; [|lia]. reflexivity.
      * destruct (IH (result + Z.of_N (payload b) * 2 ^ Z.of_N shift)%Z (shift + 7) (payload b <? 64) v rest) as [_ IH2].
        rewrite IH2 by (try lia; rewrite P7; nia). rewrite P7. split.
        -- intros (pre & -> & L & -> & U). exists (b :: pre).
           rewrite sleb_val_cons by assumption.
           repeat split; auto; try (constructor; assumption); [lia|apply U|apply U].
        -- intros (pre & E & L & -> & U). destruct pre as [|b0 pre]; [inversion L|].
           cbn in E. injection E as <- ->.
           apply leb_inv in L. destruct L as [[L _]|[_ L]]; [lia|].
           rewrite sleb_val_cons in * by assumption.
           exists pre. repeat split; auto; [lia|apply U|apply U].
    + assert (PK : (2 ^ (Z.of_N (size - shift) - 1) <= 64)%Z)
        by (change 64%Z with (2 ^ 6)%Z; apply Z.pow_le_mono_r; lia).
      pose proof (s_test_narrow (size - shift) b ltac:(lia)) as ST.
      destruct (Z.eqb_spec (s_wrap (size - shift) (Z.of_N (payload b)) mod 128) (Z.of_N (payload b))) as [E|E].
      * apply ST in E. rename E into F7.
        destruct (N.ltb_spec (Byte.to_N b) 128) as [T|T].
        -- split.
           ++ intros E; injection E as <- <-. exists [b]. cbn [sleb_val app].
              repeat split; auto; try (constructor; assumption); apply fits_split; auto.
           ++ intros (pre & E & L & -> & U). destruct pre as [|b0 pre]; [inversion L|].
              cbn in E. injection E as <- ->.
              apply leb_inv in L. destruct L as [[_ ->]|[L _]]; [|lia]. reflexivity.
        -- destruct (IH (result + payload7s b * 2 ^ Z.of_N shift)%Z (shift + 7) (payload b <? 64) v rest) as [IH1 _].
           rewrite IH1 by lia. 
           assert (SG : payload7s b = (Z.of_N (payload b) + 128 * sgn (payload b <? 64)%N)%Z).
           { destruct (sval_cases b) as [[-> ?]|[-> ?]].
             - replace (payload b <? 64) with true by (symmetry; apply N.ltb_lt; lia). cbn; lia.
             - replace (payload b <? 64) with false by (symmetry; apply N.ltb_ge; lia). cbn; lia. }
           split.
           ++ intros (pre & -> & L & -> & U). exists (b :: pre).
              rewrite sleb_val_cons by assumption. rewrite U, <- SG.
              repeat split; auto; try (constructor; assumption); apply fits_split; auto.
           ++ intros (pre & E & L & -> & U). destruct pre as [|b0 pre]; [inversion L|].
              cbn in E. injection E as <- ->.
              apply leb_inv in L. destruct L as [[L _]|[_ L]]; [lia|].
              rewrite sleb_val_cons in * by assumption.
              apply fits_split in U; [|assumption|assumption]. unfold fits_s in U, F7.
              assert (X : sleb_val pre = sgn (payload b <? 64)).
              { destruct (sval_cases b) as [[Y ?]|[Y ?]].
                - replace (payload b <? 64) with true by (symmetry; apply N.ltb_lt; lia). cbn; lia.
                - replace (payload b <? 64) with false by (symmetry; apply N.ltb_ge; lia). cbn; lia. }
              exists pre. repeat split; auto. rewrite X, <- SG. reflexivity.
      * split; [discriminate|]. intros (pre & X & L & -> & U). exfalso. apply E. apply ST. clear E ST.
        destruct pre as [|b0 pre]; [inversion L|].
        cbn in X. injection X as <- ->.
        apply leb_inv in L. destruct L as [[L ->]|[_ L]].
        -- cbn [sleb_val] in U. apply fits_split in U; assumption.
        -- rewrite sleb_val_cons in U by assumption.
           apply fits_split in U; [|assumption|assumption]. unfold fits_s in *.
           destruct (sval_cases b) as [[-> ?]|[-> ?]]; lia.
Qed.

Lemma p_signed_loop size bs : 8 <= size -> p_signed size bs = sleb_loop size 0x7F 0 0 true bs.
Proof.
  intros S. unfold p_signed, s_from_u8.
  assert (2 ^ 7 <= 2 ^ (size - 1)) by (apply N.pow_le_mono_r; lia).
  replace (0x7F <? 2 ^ (size - 1)) with true; [reflexivity|]. symmetry. apply N.ltb_lt.
  change (2 ^ 7) with 128 in *. lia.
Qed.

Lemma p_signed_exact size bs v rest : 8 <= size ->
  p_signed size bs = (Ok v, rest) <-> exists pre, bs = pre ++ rest /\ enc_signed size pre v.
Proof.
  intros S. rewrite p_signed_loop by assumption.
  destruct (sleb_loop_exact size S bs 0 0 true v rest) as [_ H]. rewrite H by (cbn; lia).
  unfold enc_signed. split; intros (pre & -> & L & E & U); exists pre; repeat split; auto.
  all: try apply U. all: cbn in *; lia.
Qed.

Lemma sleb_loop_results size : 8 <= size -> forall bs result shift positive,
  (shift < size -> (0 <= result < 2 ^ Z.of_N shift)%Z) ->
  (exists v, fst (sleb_loop size 0x7F result shift positive bs) = Ok v) \/
  fst (sleb_loop size 0x7F result shift positive bs) = Err OutOfRangeSignedInteger \/
  (sleb_loop size 0x7F result shift positive bs = (Err UnexpectedEndOfFile, []) /\
   Forall (fun b => 128 <= Byte.to_N b) bs).
Proof.
  intros S. induction bs as [|b bs IH]; intros result shift positive R.
  - right; right; split; [reflexivity|constructor].
  - rewrite sleb_loop_step; [|assumption| |intros; apply R; assumption].
    2: { destruct (N.lt_ge_cases shift size); [left; apply R; assumption|right; assumption]. }
    cbv zeta.
    assert (P7 : (2 ^ Z.of_N (shift + 7) = 2 ^ Z.of_N shift * 128)%Z).
    { rewrite N2Z.inj_add, Z.pow_add_r by lia. reflexivity. }
    pose proof (pow2_pos (Z.of_N shift) ltac:(lia)) as Q.
    pose proof (payload_lt b) as PB.
    destruct (N.leb_spec size shift) as [SH|SH].
    + destruct (((payload b =? 0) && positive) || ((payload b =? 127) && negb positive)); [|auto].
      destruct (N.ltb_spec (Byte.to_N b) 128) as [T|T]; [left; eexists; reflexivity|].
      destruct (IH result shift positive R) as [H|[H|[H1 H2]]]; auto.
    + specialize (R SH). destruct (N.leb_spec (shift + 8) size) as [W|W].
      * destruct (N.ltb_spec (Byte.to_N b) 128) as [T|T]; [left; eexists; reflexivity|].
        destruct (IH (result + Z.of_N (payload b) * 2 ^ Z.of_N shift)%Z (shift + 7) (payload b <? 64)) as [H|[H|[H1 H2]]]; auto.
        intros _. rewrite P7. nia.
      * destruct (_ =? _)%Z; [|auto].
        destruct (N.ltb_spec (Byte.to_N b) 128) as [T|T]; [left; eexists; reflexivity|].
        destruct (IH (result + payload7s b * 2 ^ Z.of_N shift)%Z (shift + 7) (payload b <? 64)) as [H|[H|[H1 H2]]]; auto.
        intros; lia.
Qed.

Lemma sleb_loop_suffix size mask : forall bs result shift positive,
  exists pre, bs = pre ++ snd (sleb_loop size mask result shift positive bs).
Proof.
  induction bs as [|b bs IH]; intros result shift positive; [exists []; reflexivity|].
  cbn [sleb_loop].
  repeat match goal with |- context [match ?c with _ => _ end] =>
    lazymatch c with sleb_loop _ _ _ _ _ _ => fail | _ => destruct c end end;
  try (exists [b]; reflexivity).
  all: match goal with IH : forall r s p, _ |- exists pre, ?b :: _ = _ ++ snd (sleb_loop _ _ ?r ?s ?p _) =>
           destruct (IH r s p) as [pre E]; exists (b :: pre); cbn [app]; rewrite <- E; reflexivity end.
Qed.

(** ** Uniqueness of the encoded prefix *)
Lemma leb_prefix_unique p1 : forall p2 r1 r2, leb p1 -> leb p2 -> p1 ++ r1 = p2 ++ r2 -> p1 = p2 /\ r1 = r2.
Proof.
  induction p1 as [|b p1 IH]; intros p2 r1 r2 L1 L2 E; [inversion L1|].
  destruct p2 as [|b2 p2]; [inversion L2|]. cbn in E. injection E as <- E.
  apply leb_inv in L1, L2.
  destruct L1 as [[? ->]|[? L1]], L2 as [[? ->]|[? L2]]; try lia.
  - cbn in E. subst. auto.
  - destruct (IH p2 r1 r2 L1 L2 E) as [-> ->]. auto.
Qed.

Lemma leb_not_all_cont pre rest : leb pre -> ~ Forall (fun b => 128 <= Byte.to_N b) (pre ++ rest).
Proof.
  induction 1 as [b H|b bs H L IH]; cbn; intros F; inversion F; subst; [lia|auto].
Qed.

(** ** The official grammar is the unrestricted one plus a length bound *)
Lemma payload_last b : Byte.to_N b < 128 -> payload b = Byte.to_N b.
Proof. intros. apply N.mod_small. assumption. Qed.
Lemma payload_cont b : 128 <= Byte.to_N b -> payload b = Byte.to_N b - 128.
Proof.
  intros. pose proof (byte_lt b). unfold payload.
  symmetry. apply N.mod_unique with (q := 1); lia.
Qed.

Lemma len_bound_iff n len : (1 <= len -> (len <= (n + 6) / 7 <-> 7 * (len - 1) < n)).
Proof.
  intros L. pose proof (N.div_mod' (n + 6) 7). pose proof (N.mod_lt (n + 6) 7 ltac:(lia)). lia.
Qed.

Lemma wasm_u_iff bs : forall n v, 1 <= n ->
  wasm_u n bs v <-> enc_unsigned n bs v /\ N.of_nat (length bs) <= (n + 6) / 7.
Proof.
  unfold enc_unsigned, fits_u. induction bs as [|b bs IH]; intros n v Hn.
  { split; [intros H; inversion H|intros [[H _] _]; inversion H]. }
  split.
  - intros H. inversion H; subst.
    + cbn [uleb_val length]. rewrite payload_last by assumption.
      repeat split; [constructor; assumption|lia|assumption|]. apply len_bound_iff; cbn; lia.
    + apply IH in H6; [|lia]. destruct H6 as [(L & <- & F) LB]. cbn [uleb_val length].
      rewrite payload_cont by assumption.
      assert (2 ^ n = 2 ^ (n - 7) * 128) by (change 128 with (2 ^ 7); rewrite <- N.pow_add_r; f_equal; lia).
      pose proof (byte_lt b).
      repeat split; [constructor; assumption|lia|nia|].
      rewrite Nat2N.inj_succ. destruct bs; [inversion L|]. cbn [length] in *. rewrite Nat2N.inj_succ in *.
      apply len_bound_iff in LB; [|lia]. apply len_bound_iff; lia.
  - intros [(L & E & F) LB]. cbn [uleb_val length] in *. apply leb_inv in L. destruct L as [[L ->]|[L1 L2]].
    + cbn [uleb_val] in E. rewrite payload_last in E by assumption.
      replace v with (Byte.to_N b) by lia. constructor; lia.
    + rewrite payload_cont in E by assumption. 
      rewrite Nat2N.inj_succ in *. destruct bs; [inversion L2|]. cbn [length] in LB. rewrite Nat2N.inj_succ in *.
      apply len_bound_iff in LB; [|lia].
      replace v with (128 * uleb_val (b0 :: bs) + (Byte.to_N b - 128)) by lia.
      assert (2 ^ n = 2 ^ (n - 7) * 128) by (change 128 with (2 ^ 7); rewrite <- N.pow_add_r; f_equal; lia).
      constructor; [assumption|lia|]. apply IH; [lia|]. repeat split; [assumption|nia|].
      cbn [length]. rewrite Nat2N.inj_succ. apply len_bound_iff; lia.
Qed.

Lemma Npow_Zpow n : Z.of_N (2 ^ n) = (2 ^ Z.of_N n)%Z.
Proof. rewrite N2Z.inj_pow. reflexivity. Qed.

Lemma wasm_s_iff bs : forall n v, 1 <= n ->
  wasm_s n bs v <-> enc_signed n bs v /\ N.of_nat (length bs) <= (n + 6) / 7.
Proof.
  unfold enc_signed, fits_s. induction bs as [|b bs IH]; intros n v Hn.
  { split; [intros H; inversion H|intros [[H _] _]; inversion H]. }
  pose proof (pow2_pos (Z.of_N n - 1) ltac:(lia)) as Q.
  assert (NP : Z.of_N (2 ^ (n - 1)) = (2 ^ (Z.of_N n - 1))%Z) by (rewrite Npow_Zpow; f_equal; lia).
  split.
  - intros H. inversion H; subst.
    + cbn [sleb_val length]. unfold payload7s. rewrite payload_last by lia.
      replace (Byte.to_N b <? 64) with true by (symmetry; apply N.ltb_lt; assumption).
      repeat split; [constructor; lia|lia|lia|]. apply len_bound_iff; cbn; lia.
    + cbn [sleb_val length]. unfold payload7s. rewrite payload_last by lia.
      replace (Byte.to_N b <? 64) with false by (symmetry; apply N.ltb_ge; lia).
      repeat split; [constructor; lia|lia|lia|]. apply len_bound_iff; cbn; lia.
    + apply IH in H6; [|lia]. destruct H6 as [(L & <- & F) LB].
      rewrite sleb_val_cons by assumption.
      rewrite payload_cont by assumption. cbn [length].
      assert (2 ^ (Z.of_N n - 1) = 2 ^ (Z.of_N (n - 7) - 1) * 128)%Z
        by (change 128%Z with (2 ^ 7)%Z; rewrite <- Z.pow_add_r by lia; f_equal; lia).
      pose proof (byte_lt b).
      repeat split; [constructor; assumption|lia|lia|lia|].
      rewrite Nat2N.inj_succ. destruct bs; [inversion L|]. cbn [length] in *. rewrite Nat2N.inj_succ in *.
      apply len_bound_iff in LB; [|lia]. apply len_bound_iff; lia.
  - intros [(L & E & F) LB]. apply leb_inv in L. destruct L as [[L ->]|[L1 L2]].
    + cbn [sleb_val] in E. unfold payload7s in E. rewrite payload_last in E by assumption.
      destruct (N.ltb_spec (Byte.to_N b) 64); subst v; constructor; lia.
    + rewrite sleb_val_cons in E by assumption. rewrite payload_cont in E by assumption.
      cbn [length] in LB.
      rewrite Nat2N.inj_succ in *. destruct bs; [inversion L2|]. cbn [length] in LB. rewrite Nat2N.inj_succ in *.
      apply len_bound_iff in LB; [|lia].
      replace v with (128 * sleb_val (b0 :: bs) + (Z.of_N (Byte.to_N b) - 128))%Z by lia.
      assert (2 ^ (Z.of_N n - 1) = 2 ^ (Z.of_N (n - 7) - 1) * 128)%Z
        by (change 128%Z with (2 ^ 7)%Z; rewrite <- Z.pow_add_r by lia; f_equal; lia).
      pose proof (byte_lt b).
      constructor; [assumption|lia|]. apply IH; [lia|]. repeat split; [assumption|nia|nia|].
      cbn [length]. rewrite Nat2N.inj_succ. apply len_bound_iff; lia.
Qed.
