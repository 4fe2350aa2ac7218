(** Property theorems C01-C09: integers, floats, strings, vectors, sized elements. *)
From Verif Require Import CoreClaims ParserMeta IntEndProof.
Open Scope N_scope.

(** C01 *)
Theorem C01_unsigned_exact : forall bs rest v,
  (p_u8 bs = (Ok v, rest) <-> exists pre, bs = pre ++ rest /\ leb pre /\ uleb_val pre = v /\ v < 2 ^ 8) /\
  (p_u16 bs = (Ok v, rest) <-> exists pre, bs = pre ++ rest /\ leb pre /\ uleb_val pre = v /\ v < 2 ^ 16) /\
  (p_u32 bs = (Ok v, rest) <-> exists pre, bs = pre ++ rest /\ leb pre /\ uleb_val pre = v /\ v < 2 ^ 32) /\
  (p_u64 bs = (Ok v, rest) <-> exists pre, bs = pre ++ rest /\ leb pre /\ uleb_val pre = v /\ v < 2 ^ 64).
Proof. exact unsigned_all. Qed.
Print Assumptions C01_unsigned_exact.
Example C01_example : p_u32 [xe5; x8e; x26; xff] = (Ok 624485, [xff]) /\ uleb_val [xe5; x8e; x26] = 624485.
Proof. split; vm_compute; reflexivity. Qed.

(** C02 *)
Theorem C02_signed_exact : forall bs rest v,
  (p_i8 bs = (Ok v, rest) <-> exists pre, bs = pre ++ rest /\ leb pre /\ sleb_val pre = v /\ (- 2 ^ 7 <= v < 2 ^ 7)%Z) /\
  (p_i16 bs = (Ok v, rest) <-> exists pre, bs = pre ++ rest /\ leb pre /\ sleb_val pre = v /\ (- 2 ^ 15 <= v < 2 ^ 15)%Z) /\
  (p_i32 bs = (Ok v, rest) <-> exists pre, bs = pre ++ rest /\ leb pre /\ sleb_val pre = v /\ (- 2 ^ 31 <= v < 2 ^ 31)%Z) /\
  (p_i64 bs = (Ok v, rest) <-> exists pre, bs = pre ++ rest /\ leb pre /\ sleb_val pre = v /\ (- 2 ^ 63 <= v < 2 ^ 63)%Z).
Proof. exact signed_all. Qed.
Print Assumptions C02_signed_exact.
Example C02_example : p_i32 [xc0; xbb; x78; x01] = (Ok (-123456)%Z, [x01]) /\ sleb_val [xc0; xbb; x78] = (-123456)%Z.
Proof. split; vm_compute; reflexivity. Qed.

(** C03 *)
Theorem C03_unsigned_errors : forall size bs, 8 <= size ->
  (forall pre rest, bs = pre ++ rest -> leb pre -> 2 ^ size <= uleb_val pre ->
     fst (p_unsigned size bs) = Err OutOfRangeUnsignedInteger) /\
  ((forall pre rest, bs = pre ++ rest -> ~ leb pre) ->
     fst (p_unsigned size bs) = Err UnexpectedEndOfFile \/
     fst (p_unsigned size bs) = Err OutOfRangeUnsignedInteger) /\
  ((exists v, fst (p_unsigned size bs) = Ok v) \/
   fst (p_unsigned size bs) = Err UnexpectedEndOfFile \/
   fst (p_unsigned size bs) = Err OutOfRangeUnsignedInteger).
Proof. exact unsigned_errors. Qed.
Print Assumptions C03_unsigned_errors.
Theorem C03_signed_errors : forall size bs, 8 <= size ->
  (forall pre rest, bs = pre ++ rest -> leb pre -> ~ fits_s size (sleb_val pre) ->
     fst (p_signed size bs) = Err OutOfRangeSignedInteger) /\
  ((forall pre rest, bs = pre ++ rest -> ~ leb pre) ->
     fst (p_signed size bs) = Err UnexpectedEndOfFile \/
     fst (p_signed size bs) = Err OutOfRangeSignedInteger) /\
  ((exists v, fst (p_signed size bs) = Ok v) \/
   fst (p_signed size bs) = Err UnexpectedEndOfFile \/
   fst (p_signed size bs) = Err OutOfRangeSignedInteger).
Proof. exact signed_errors. Qed.
Print Assumptions C03_signed_errors.
(** an integer that the input ends in is out of range exactly if no more groups bring it into the range *)
Theorem C03_unsigned_unended : forall size bs, size = 8 \/ size = 16 \/ size = 32 \/ size = 64 -> Forall (fun b => 128 <= Byte.to_N b) bs ->
  (uleb_val bs < 2 ^ size -> p_unsigned size bs = (Err UnexpectedEndOfFile, [])) /\
  (2 ^ size <= uleb_val bs -> fst (p_unsigned size bs) = Err OutOfRangeUnsignedInteger).
Proof. exact unsigned_unended. Qed.
Print Assumptions C03_unsigned_unended.
Theorem C03_signed_unended : forall size bs, size = 8 \/ size = 16 \/ size = 32 \/ size = 64 -> Forall (fun b => 128 <= Byte.to_N b) bs ->
  ((Z.of_N (uleb_val bs) < 2 ^ (Z.of_N size - 1) \/ Z.of_N (128 ^ N.of_nat (length bs) - uleb_val bs) <= 2 ^ (Z.of_N size - 1))%Z ->
     p_signed size bs = (Err UnexpectedEndOfFile, [])) /\
  ((2 ^ (Z.of_N size - 1) <= Z.of_N (uleb_val bs) /\ 2 ^ (Z.of_N size - 1) < Z.of_N (128 ^ N.of_nat (length bs) - uleb_val bs))%Z ->
     fst (p_signed size bs) = Err OutOfRangeSignedInteger).
Proof. exact signed_unended. Qed.
Print Assumptions C03_signed_unended.
Example C03_example : fst (p_u8 [x80; x02]) = Err OutOfRangeUnsignedInteger
  /\ fst (p_i8 [x80; x01]) = Err OutOfRangeSignedInteger /\ fst (p_u32 [x80; x80]) = Err UnexpectedEndOfFile.
Proof. repeat split; vm_compute; reflexivity. Qed.
(** after two groups of 8 bits: 255 can be gone on with, 256 cannot; -128 and 127 can, -129 and 128 cannot *)
Example C03_example_unended : p_u8 [xff; x81] = (Err UnexpectedEndOfFile, []) /\ p_u8 [x80; x82] = (Err OutOfRangeUnsignedInteger, [])
  /\ p_i8 [xff; x80] = (Err UnexpectedEndOfFile, []) /\ p_i8 [x80; x81] = (Err OutOfRangeSignedInteger, [])
  /\ p_i8 [x80; xff] = (Err UnexpectedEndOfFile, []) /\ p_i8 [xff; xfe] = (Err OutOfRangeSignedInteger, []).
Proof. repeat split; vm_compute; reflexivity. Qed.

(** C04: the full statement is false of the code ... *)
Theorem C04_int_length_refuted : forall size n, 8 <= size ->
  (exists bs v, p_unsigned size bs = (Ok v, []) /\ (n < length bs)%nat) /\
  (exists bs v, p_signed size bs = (Ok v, []) /\ (n < length bs)%nat).
Proof. exact length_unbounded. Qed.
Print Assumptions C04_int_length_refuted.
(** ... up to the length ceil(size/7) exactly the official grammar is accepted. *)
Theorem C04_int_length_partial : forall size pre rest,
  8 <= size -> N.of_nat (length pre) <= (size + 6) / 7 ->
  (forall v, p_unsigned size (pre ++ rest) = (Ok v, rest) <-> wasm_u size pre v) /\
  (forall v, p_signed size (pre ++ rest) = (Ok v, rest) <-> wasm_s size pre v).
Proof. exact short_is_official. Qed.
Print Assumptions C04_int_length_partial.
Example C04_example : p_u8 [x83; x80; x80; x00] = (Ok 3, []) /\ (8 + 6) / 7 = 2.
Proof. split; vm_compute; reflexivity. Qed.

(** C05: on little-endian hosts ... *)
Theorem C05_float_exact_partial :
  exact p_f32 (enc_float 4) /\ exact p_f64 (enc_float 8) /\
  forall bs,
    ((4 <= length bs)%nat -> exists v, p_f32 bs = (Ok v, skipn 4 bs)) /\
    ((length bs < 4)%nat -> p_f32 bs = (Err UnexpectedEndOfFile, [])) /\
    ((8 <= length bs)%nat -> exists v, p_f64 bs = (Ok v, skipn 8 bs)) /\
    ((length bs < 8)%nat -> p_f64 bs = (Err UnexpectedEndOfFile, [])).
Proof. exact float_full. Qed.
Print Assumptions C05_float_exact_partial.
(** ... but not on big-endian ones. *)
Theorem C05_float_big_endian_refuted :
  exists bs v w, enc_float 4 bs v /\ p_float BigEndian 4 bs = (Ok w, []) /\ v <> w.
Proof. exact float_big_endian. Qed.
Print Assumptions C05_float_big_endian_refuted.
(** There the bytes are read in reverse; the number is right exactly for palindromes. *)
Theorem C05_float_big_endian_partial : forall size,
  exact (p_float BigEndian size) (fun bs v => enc_float size (rev bs) v) /\
  forall bs v, enc_float size bs v -> p_float BigEndian size bs = (Ok v, []) <-> rev bs = bs.
Proof. exact float_big_full. Qed.
Print Assumptions C05_float_big_endian_partial.
(** a signalling NaN with payload keeps its bits *)
Example C05_example : p_f32 [x01; x00; xa0; xff; x07] = (Ok 0xFFA00001, [x07])
  /\ p_float BigEndian 4 [x01; x00; xa0; xff; x07] = (Ok 0x0100A0FF, [x07])
  /\ p_float BigEndian 4 [x01; xa0; xa0; x01] = p_f32 [x01; xa0; xa0; x01].
Proof. repeat split; vm_compute; reflexivity. Qed.

(** C06 *)
Theorem C06_string_exact :
  exact p_string (enc_name whasm_format) /\
  forall n raw rest, enc_u32 whasm_format n (N.of_nat (length raw)) -> ~ utf8 raw ->
    p_string (n ++ raw ++ rest) = (Err InvalidUtf8Encoding, rest).
Proof. exact string_full. Qed.
Print Assumptions C06_string_exact.
Example C06_example : p_string [x03; xe2; x82; xac; x00] = (Ok [xe2; x82; xac], [x00])
  /\ p_string [x03; xed; xa0; x80] = (Err InvalidUtf8Encoding, []).
Proof. split; vm_compute; reflexivity. Qed.

(** C07 *)
Theorem C07_vectors_exact : forall A (p : parser A) (E : format A), exact p E ->
  exact (p_vec p) (enc_vec whasm_format E) /\
  exact (p_unwrapping_vec p (fun x => x)) (enc_vec whasm_format E) /\
  forall n, exact (p_array n p) (fun bs xs => length xs = n /\ enc_list E bs xs).
Proof. exact @vectors_exact. Qed.
Print Assumptions C07_vectors_exact.
Example C07_example : exact p_u32 (enc_u32 whasm_format)
  /\ p_vec p_u32 [x03; x05; x80; x01; x07; xff] = (Ok [5; 128; 7], [xff]).
Proof. split; [exact exact_u32|vm_compute; reflexivity]. Qed.

(** C08 *)
Theorem C08_compact_vec_exact : forall A (p : parser A) (E : format A), exact p E ->
  exact (p_compact_vec p) (fun bs v => exists runs,
    enc_vec whasm_format (enc_pair_run whasm_format E) bs runs /\ v = expand_runs runs).
Proof. exact @exact_compact_vec. Qed.
Print Assumptions C08_compact_vec_exact.
Example C08_example : p_compact_vec p_u32 [x03; x02; x09; x00; x08; x01; x07; xff] = (Ok [9; 9; 7], [xff]).
Proof. vm_compute; reflexivity. Qed.

(** C09 *)
Theorem C09_sized_exact : forall A (p : parser A) (E : format A), suffixing p ->
  (exact_all p E -> exact (p_sized p) (enc_sized whasm_format E)) /\
  (forall n w rest, enc_u32 whasm_format n (N.of_nat (length w)) ->
     fst (p_sized p (n ++ w ++ rest)) = fst (p_sized p (n ++ w)) /\
     snd (p_sized p (n ++ w ++ rest)) = snd (p_sized p (n ++ w)) ++ rest) /\
  (forall n size bs a r, enc_u32 whasm_format n size ->
     p (firstn (N.to_nat size) bs) = (Ok a, r) -> (r <> [] \/ (length bs < N.to_nat size)%nat) ->
     fst (p_sized p (n ++ bs)) = Err SizeMissmatch).
Proof. exact @sized_full. Qed.
Print Assumptions C09_sized_exact.
Example C09_example : suffixing (p_vec p_u32)
  /\ p_sized (p_vec p_u32) [x03; x02; x05; x06; xff] = (Ok [5; 6], [xff])
  /\ fst (p_sized (p_vec p_u32) [x04; x02; x05; x06; xff]) = Err SizeMissmatch.
Proof. split; [apply suffixing_vec, suffixing_u32|split; vm_compute; reflexivity]. Qed.
