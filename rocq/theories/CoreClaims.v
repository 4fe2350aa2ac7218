(** Lemmas behind the property theorems about the primitive parsers (Props_Core.v). *)
From Coq Require Import Lia ZifyN ZifyNat.
From Verif Require Import ParserMeta.
Open Scope N_scope.

Lemma unsigned_all bs rest v :
  (p_u8 bs = (Ok v, rest) <-> exists pre, bs = pre ++ rest /\ leb pre /\ uleb_val pre = v /\ v < 2 ^ 8) /\
  (p_u16 bs = (Ok v, rest) <-> exists pre, bs = pre ++ rest /\ leb pre /\ uleb_val pre = v /\ v < 2 ^ 16) /\
  (p_u32 bs = (Ok v, rest) <-> exists pre, bs = pre ++ rest /\ leb pre /\ uleb_val pre = v /\ v < 2 ^ 32) /\
  (p_u64 bs = (Ok v, rest) <-> exists pre, bs = pre ++ rest /\ leb pre /\ uleb_val pre = v /\ v < 2 ^ 64).
Proof. repeat split; intros H; apply p_unsigned_exact in H; try assumption; lia. Qed.

Lemma signed_all bs rest v :
  (p_i8 bs = (Ok v, rest) <-> exists pre, bs = pre ++ rest /\ leb pre /\ sleb_val pre = v /\ (- 2 ^ 7 <= v < 2 ^ 7)%Z) /\
  (p_i16 bs = (Ok v, rest) <-> exists pre, bs = pre ++ rest /\ leb pre /\ sleb_val pre = v /\ (- 2 ^ 15 <= v < 2 ^ 15)%Z) /\
  (p_i32 bs = (Ok v, rest) <-> exists pre, bs = pre ++ rest /\ leb pre /\ sleb_val pre = v /\ (- 2 ^ 31 <= v < 2 ^ 31)%Z) /\
  (p_i64 bs = (Ok v, rest) <-> exists pre, bs = pre ++ rest /\ leb pre /\ sleb_val pre = v /\ (- 2 ^ 63 <= v < 2 ^ 63)%Z).
Proof.
  exact (conj (p_signed_exact 8 bs v rest ltac:(lia)) (conj (p_signed_exact 16 bs v rest ltac:(lia))
    (conj (p_signed_exact 32 bs v rest ltac:(lia)) (p_signed_exact 64 bs v rest ltac:(lia))))).
Qed.

Lemma unsigned_errors size bs : 8 <= size ->
  (forall pre rest, bs = pre ++ rest -> leb pre -> 2 ^ size <= uleb_val pre ->
     fst (p_unsigned size bs) = Err OutOfRangeUnsignedInteger) /\
  ((forall pre rest, bs = pre ++ rest -> ~ leb pre) ->
     fst (p_unsigned size bs) = Err UnexpectedEndOfFile \/
     fst (p_unsigned size bs) = Err OutOfRangeUnsignedInteger) /\
  ((exists v, fst (p_unsigned size bs) = Ok v) \/
   fst (p_unsigned size bs) = Err UnexpectedEndOfFile \/
   fst (p_unsigned size bs) = Err OutOfRangeUnsignedInteger).
Proof.
  intros S. pose proof (uleb_loop_results size S bs 0 0) as R.
  rewrite <- p_unsigned_loop in R by assumption.
  assert (OK : forall v, fst (p_unsigned size bs) = Ok v ->
    exists pre rest, bs = pre ++ rest /\ enc_unsigned size pre v).
  { intros v H. destruct (p_unsigned size bs) as [o r] eqn:E. cbn in H. subst o.
    apply p_unsigned_exact in E; [|assumption]. destruct E as (pre & ? & ?). eauto. }
  repeat split.
  - intros pre rest -> L V. destruct R as [(v & H)|[H|[_ H]]]; [|assumption|].
    + apply OK in H. destruct H as (pre' & rest' & E & L' & <- & F).
      destruct (leb_prefix_unique _ _ _ _ L L' E) as [<- _]. unfold fits_u in F. lia.
    + exfalso. eapply leb_not_all_cont; eassumption.
  - intros N. destruct R as [(v & H)|[H|[H _]]].
    + apply OK in H. destruct H as (pre' & rest' & E & L' & _). exfalso. eapply N; eassumption.
    + auto.
    + rewrite H. auto.
  - destruct R as [(v & H)|[H|[H _]]]; eauto. rewrite H. auto.
Qed.

Lemma signed_errors size bs : 8 <= size ->
  (forall pre rest, bs = pre ++ rest -> leb pre -> ~ fits_s size (sleb_val pre) ->
     fst (p_signed size bs) = Err OutOfRangeSignedInteger) /\
  ((forall pre rest, bs = pre ++ rest -> ~ leb pre) ->
     fst (p_signed size bs) = Err UnexpectedEndOfFile \/
     fst (p_signed size bs) = Err OutOfRangeSignedInteger) /\
  ((exists v, fst (p_signed size bs) = Ok v) \/
   fst (p_signed size bs) = Err UnexpectedEndOfFile \/
   fst (p_signed size bs) = Err OutOfRangeSignedInteger).
Proof.
  intros S. pose proof (sleb_loop_results size S bs 0 0 true ltac:(cbn; lia)) as R.
  rewrite <- p_signed_loop in R by assumption.
  assert (OK : forall v, fst (p_signed size bs) = Ok v ->
    exists pre rest, bs = pre ++ rest /\ enc_signed size pre v).
  { intros v H. destruct (p_signed size bs) as [o r] eqn:E. cbn in H. subst o.
    apply p_signed_exact in E; [|assumption]. destruct E as (pre & ? & ?). eauto. }
  repeat split.
  - intros pre rest -> L V. destruct R as [(v & H)|[H|[_ H]]]; [|assumption|].
    + apply OK in H. destruct H as (pre' & rest' & E & L' & <- & F).
      destruct (leb_prefix_unique _ _ _ _ L L' E) as [<- _]. contradiction.
    + exfalso. eapply leb_not_all_cont; eassumption.
  - intros N. destruct R as [(v & H)|[H|[H _]]].
    + apply OK in H. destruct H as (pre' & rest' & E & L' & _). exfalso. eapply N; eassumption.
    + auto.
    + rewrite H. auto.
  - destruct R as [(v & H)|[H|[H _]]]; eauto. rewrite H. auto.
Qed.

(** Padding: any number of 0x80 bytes before 0x00 *)
Lemma leb_padding n : leb (repeat x80 n ++ [x00]).
Proof. induction n; [constructor; cbn; lia|]. cbn [repeat app]. constructor; [cbn; lia|assumption]. Qed.
Lemma uleb_padding n : uleb_val (repeat x80 n ++ [x00]) = 0.
Proof.
  induction n; [reflexivity|]. cbn [repeat app uleb_val]. rewrite IHn. reflexivity.
Qed.
Lemma sleb_padding n : sleb_val (repeat x80 n ++ [x00]) = 0%Z.
Proof.
  induction n; [reflexivity|]. cbn [repeat app]. rewrite sleb_val_cons by apply leb_padding.
  rewrite IHn. reflexivity.
Qed.
Lemma padding_accepted size n : 8 <= size ->
  p_unsigned size (repeat x80 n ++ [x00]) = (Ok 0, []) /\
  p_signed size (repeat x80 n ++ [x00]) = (Ok 0%Z, []).
Proof.
  intros S. split.
  - apply p_unsigned_exact; [assumption|]. eexists. rewrite app_nil_r. split; [reflexivity|].
    split; [apply leb_padding|]. split; [apply uleb_padding|]. unfold fits_u. apply N.neq_0_lt_0, N.pow_nonzero; lia.
  - apply p_signed_exact; [assumption|]. eexists. rewrite app_nil_r. split; [reflexivity|].
    split; [apply leb_padding|]. split; [apply sleb_padding|]. unfold fits_s.
    pose proof (pow2_pos (Z.of_N size - 1) ltac:(lia)). lia.
Qed.
Lemma length_unbounded size n : 8 <= size ->
  (exists bs v, p_unsigned size bs = (Ok v, []) /\ (n < length bs)%nat) /\
  (exists bs v, p_signed size bs = (Ok v, []) /\ (n < length bs)%nat).
Proof.
  intros S. destruct (padding_accepted size n S) as [H1 H2].
  split; exists (repeat x80 n ++ [x00]); eexists; (split; [eassumption|]);
    rewrite app_length, repeat_length; cbn; lia.
Qed.
Lemma short_is_official size pre rest :
  8 <= size -> N.of_nat (length pre) <= (size + 6) / 7 ->
  (forall v, p_unsigned size (pre ++ rest) = (Ok v, rest) <-> wasm_u size pre v) /\
  (forall v, p_signed size (pre ++ rest) = (Ok v, rest) <-> wasm_s size pre v).
Proof.
  intros S L. split; intros v.
  - rewrite p_unsigned_exact, wasm_u_iff by lia. split.
    + intros (p & E & H). apply app_inv_tail in E. subst. auto.
    + intros [H _]. eauto.
  - rewrite p_signed_exact, wasm_s_iff by lia. split.
    + intros (p & E & H). apply app_inv_tail in E. subst. auto.
    + intros [H _]. eauto.
Qed.

(** Floats *)
Lemma floats_exact : exact p_f32 (enc_float 4) /\ exact p_f64 (enc_float 8).
Proof. split; apply exact_float. Qed.
Lemma float_enough size bs : (size <= length bs)%nat ->
  exists v, p_float LittleEndian size bs = (Ok v, skipn size bs).
Proof.
  intros L. exists (le_value (firstn size bs)). apply exact_float.
  exists (firstn size bs). rewrite firstn_skipn. split; [reflexivity|].
  pose proof (le_value_enc (firstn size bs)) as H. rewrite firstn_length, Nat.min_l in H by lia. assumption.
Qed.
Lemma times_byte_short size : forall bs, (length bs < size)%nat -> p_times size p_byte bs = (Err UnexpectedEndOfFile, []).
Proof.
  induction size as [|n IH]; intros bs L; [lia|]. cbn [p_times]. unfold bind.
  destruct bs as [|b bs]; [reflexivity|]. cbn [p_byte]. cbn in L. rewrite IH by lia. reflexivity.
Qed.
Lemma float_short size bs : (length bs < size)%nat ->
  p_float LittleEndian size bs = (Err UnexpectedEndOfFile, []).
Proof. intros L. unfold p_float, bind. rewrite times_byte_short by assumption. reflexivity. Qed.
Lemma floats_total bs :
  ((4 <= length bs)%nat -> exists v, p_f32 bs = (Ok v, skipn 4 bs)) /\
  ((length bs < 4)%nat -> p_f32 bs = (Err UnexpectedEndOfFile, [])) /\
  ((8 <= length bs)%nat -> exists v, p_f64 bs = (Ok v, skipn 8 bs)) /\
  ((length bs < 8)%nat -> p_f64 bs = (Err UnexpectedEndOfFile, [])).
Proof. repeat split; intros L; first [apply (float_enough 4 bs L)|apply (float_short 4 bs L)|apply (float_enough 8 bs L)|apply (float_short 8 bs L)]. Qed.
Lemma float_full :
  exact p_f32 (enc_float 4) /\ exact p_f64 (enc_float 8) /\
  forall bs,
    ((4 <= length bs)%nat -> exists v, p_f32 bs = (Ok v, skipn 4 bs)) /\
    ((length bs < 4)%nat -> p_f32 bs = (Err UnexpectedEndOfFile, [])) /\
    ((8 <= length bs)%nat -> exists v, p_f64 bs = (Ok v, skipn 8 bs)) /\
    ((length bs < 8)%nat -> p_f64 bs = (Err UnexpectedEndOfFile, [])).
Proof. split; [apply exact_float|]. split; [apply exact_float|]. apply floats_total. Qed.
(** on a big-endian host, 1.0f32 = 3F800000 *)
Lemma float_big_endian :
  exists bs v w, enc_float 4 bs v /\ p_float BigEndian 4 bs = (Ok w, []) /\ v <> w.
Proof.
  exists [x00; x00; x80; x3f], 0x3F800000, 0x0000803F. split.
  - apply (le_value_enc [x00; x00; x80; x3f]).
  - split; [vm_compute; reflexivity|discriminate].
Qed.

Lemma exact_float_big size : exact (p_float BigEndian size) (fun bs v => enc_float size (rev bs) v).
Proof.
  unfold p_float. eapply exact_ext; [|apply exact_map, exact_times, exact_byte'].
  intros bs v. cbn beta. split.
  - intros (xs & (L & H) & ->). apply enc_list_bytes in H. subst bs size. rewrite <- rev_length. apply le_value_enc.
  - intros H. exists bs. rewrite enc_list_bytes. pose proof H as [L _]. rewrite rev_length in L. apply enc_float_inj in H. auto.
Qed.
Lemma byte_to_N_inj a b : Byte.to_N a = Byte.to_N b -> a = b.
Proof. intros H. assert (E : Some a = Some b) by (rewrite <- !Byte.of_to_N, H; reflexivity). congruence. Qed.
Lemma nth_error_ext {A} (l l' : list A) : (forall i, nth_error l i = nth_error l' i) -> l = l'.
Proof.
  revert l'. induction l as [|x l IH]; intros [|y l'] H; [reflexivity| | |].
  - discriminate (H O).
  - discriminate (H O).
  - assert (E : Some x = Some y) by exact (H O). injection E as ->. f_equal. apply IH. intros i. exact (H (S i)).
Qed.
Lemma enc_float_bytes size bs bs' v : enc_float size bs v -> enc_float size bs' v -> bs = bs'.
Proof.
  intros (L & _ & H) (L' & _ & H'). apply nth_error_ext. intros i.
  destruct (nth_error bs i) as [a|] eqn:A, (nth_error bs' i) as [b|] eqn:B; try reflexivity.
  - f_equal. apply byte_to_N_inj. rewrite (H _ _ A), (H' _ _ B). reflexivity.
  - apply nth_error_None in B. assert (I : (i < length bs)%nat) by (apply nth_error_Some; congruence). lia.
  - apply nth_error_None in A. assert (I : (i < length bs')%nat) by (apply nth_error_Some; congruence). lia.
Qed.
Lemma float_big_full size : exact (p_float BigEndian size) (fun bs v => enc_float size (rev bs) v) /\
  forall bs v, enc_float size bs v -> p_float BigEndian size bs = (Ok v, []) <-> rev bs = bs.
Proof.
  split; [apply exact_float_big|]. intros bs v E. rewrite (exact_float_big size bs v []). split.
  - intros (pre & Ep & F). rewrite app_nil_r in Ep. subst pre. eapply enc_float_bytes; eassumption.
  - intros R. exists bs. rewrite app_nil_r, R. auto.
Qed.

(** Strings *)
Lemma string_full :
  exact p_string (enc_name whasm_format) /\
  forall n raw rest, enc_u32 whasm_format n (N.of_nat (length raw)) -> ~ utf8 raw ->
    p_string (n ++ raw ++ rest) = (Err InvalidUtf8Encoding, rest).
Proof.
  split; [apply exact_string|]. intros n raw rest H U.
  assert (E : p_unwrapping_vec p_byte (fun b => b) (n ++ raw ++ rest) = (Ok raw, rest)).
  { apply (exact_unwrapping_vec p_byte enc_byte exact_byte'). exists (n ++ raw).
    rewrite app_assoc. split; [reflexivity|]. exists n, raw. split; [reflexivity|].
    split; [assumption|]. apply enc_list_bytes. reflexivity. }
  unfold p_string, bind. rewrite E.
  destruct (utf8_valid raw) eqn:V; [apply utf8_valid_iff in V; contradiction|reflexivity].
Qed.

(** Vectors *)
Lemma vectors_exact {A} (p : parser A) (E : format A) : exact p E ->
  exact (p_vec p) (enc_vec whasm_format E) /\
  exact (p_unwrapping_vec p (fun x => x)) (enc_vec whasm_format E) /\
  forall n, exact (p_array n p) (fun bs xs => length xs = n /\ enc_list E bs xs).
Proof.
  intros P. split; [apply exact_vec; assumption|]. split; [apply exact_unwrapping_vec; assumption|].
  intros n. apply exact_times. assumption.
Qed.

(** Sized elements *)
Lemma sized_run {A} (p : parser A) n s bs : enc_u32 whasm_format n s ->
  p_sized p (n ++ bs) = p_window p s bs.
Proof.
  intros H. rewrite p_sized_window. unfold bind.
  assert (E : p_u32 (n ++ bs) = (Ok s, bs)) by (apply exact_u32; eauto). rewrite E. reflexivity.
Qed.
Lemma sized_full {A} (p : parser A) (E : format A) : suffixing p ->
  (exact_all p E -> exact (p_sized p) (enc_sized whasm_format E)) /\
  (forall n w rest, enc_u32 whasm_format n (N.of_nat (length w)) ->
     fst (p_sized p (n ++ w ++ rest)) = fst (p_sized p (n ++ w)) /\
     snd (p_sized p (n ++ w ++ rest)) = snd (p_sized p (n ++ w)) ++ rest) /\
  (forall n size bs a r, enc_u32 whasm_format n size ->
     p (firstn (N.to_nat size) bs) = (Ok a, r) -> (r <> [] \/ (length bs < N.to_nat size)%nat) ->
     fst (p_sized p (n ++ bs)) = Err SizeMissmatch).
Proof.
  intros SP. split; [apply exact_sized; assumption|]. split.
  - intros n w rest H. rewrite !(sized_run p n _ _ H). unfold p_window. rewrite Nat2N.id.
    rewrite firstn_app, Nat.sub_diag, firstn_all, firstn_O, app_nil_r.
    rewrite skipn_app, Nat.sub_diag, skipn_all, skipn_O. cbn [app].
    destruct (p w) as [[x|e| |] r]; cbn [fst snd]; rewrite ?app_nil_r; auto.
    destruct (negb _); cbn [fst snd]; auto.
  - intros n size bs a r H PW C. rewrite (sized_run p n _ _ H). unfold p_window.
    pose proof (suffixing_length p (firstn (N.to_nat size) bs) SP) as SL.
    rewrite PW in *. cbn [snd] in SL. rewrite firstn_length in *.
    destruct (N.eqb_spec size (N.of_nat (Nat.min (N.to_nat size) (length bs) - length r))) as [X|X]; [|reflexivity].
    exfalso. destruct C as [C|C]; [|lia]. destruct r; [congruence|]. cbn [length] in *. lia.
Qed.
