(** The parser reports the errors of SpecBlame.v, and no others. *)
From Coq Require Import Lia ZifyN ZifyNat String.
From Verif Require Import ParserModule SpecFormat SpecPrompt SpecReserved ParserMeta TypesProof InstrProof ModuleProof
  SectionsProof PromptProof SpecBlame.
Open Scope N_scope.
Open Scope list_scope.
Local Notation W := whasm_format.
Local Notation length := List.length.

Definition blames {A} (p : parser A) (F : failure) : Prop := forall bs e r, p bs = (Err e, r) <-> F bs e r.

Lemma blames_ext {A} (p : parser A) (F G : failure) : (forall bs e r, F bs e r <-> G bs e r) -> blames p F -> blames p G.
Proof. intros H B bs e r. rewrite <- H. apply B. Qed.
Lemma blames_ret {A} (a : A) : blames (ret a) f_never.
Proof. intros bs e r. split; [discriminate|intros []]. Qed.
Lemma blames_fail {A} e : blames (@fail A e) (f_fail e).
Proof. intros bs e' r. unfold fail, f_fail. split; [intros H; injection H as <- <-; auto|intros [-> ->]; reflexivity]. Qed.
Lemma bind_err {A B} (p : parser A) (f : A -> parser B) bs e r : bind p f bs = (Err e, r) <->
  p bs = (Err e, r) \/ exists a r0, p bs = (Ok a, r0) /\ f a r0 = (Err e, r).
Proof.
  unfold bind. destruct (p bs) as [[a|e'| |] r0]; split.
  - intros H. right. eauto.
  - intros [H|(a' & r' & H & K)]; [discriminate|]. injection H as <- <-. assumption.
  - intros H. left. congruence.
  - intros [H|(a' & r' & H & K)]; congruence.
  - discriminate.
  - intros [H|(a' & r' & H & K)]; discriminate.
  - discriminate.
  - intros [H|(a' & r' & H & K)]; discriminate.
Qed.
Lemma blames_after {A B} (p : parser A) (f : A -> parser B) E F G : exact p E -> blames p F ->
  (forall a, blames (f a) (G a)) -> blames (bind p f) (fun bs e r => F bs e r \/ f_after E G bs e r).
Proof.
  intros X P Q bs e r. rewrite bind_err, (P bs e r). split.
  - intros [H|(a & r0 & H & K)]; [auto|right]. apply X in H. destruct H as (pre & -> & H).
    exists pre, a, r0. split; [reflexivity|]. split; [assumption|]. apply Q. assumption.
  - intros [H|(pre & a & tl & -> & H & K)]; [auto|right]. exists a, tl. split; [apply X; eauto|apply Q; assumption].
Qed.
Lemma blames_seq {A B} (p : parser A) (f : A -> parser B) E F G : exact p E -> blames p F ->
  (forall a, blames (f a) G) -> blames (bind p f) (f_seq E F G).
Proof. intros X P Q. apply (blames_after p f E F (fun _ => G) X P Q). Qed.
Lemma blames_map {A B} (p : parser A) (u : A -> B) F : blames p F -> blames (x <- p ;; ret (u x)) F.
Proof.
  intros P bs e r. rewrite bind_err, (P bs e r). split; [|auto]. intros [H|(a & r0 & _ & K)]; [assumption|discriminate K].
Qed.
Lemma blames_byte : blames p_byte f_byte.
Proof.
  intros [|b bs] e r; cbn [p_byte]; unfold f_byte; split.
  - intros H. injection H as <- <-. auto.
  - intros (_ & -> & ->). reflexivity.
  - discriminate.
  - intros (H & _). discriminate.
Qed.
Lemma blames_tag {A} (f : byte -> parser A) G : (forall b, blames (f b) (G b)) -> blames (bind p_byte f) (f_tag G).
Proof.
  intros Q. eapply blames_ext; [|apply blames_after; [apply exact_byte|apply blames_byte|exact Q]].
  intros bs e r. unfold f_tag, f_after. split.
  - intros [H|(pre & a & tl & -> & -> & K)]; [auto|right]. exists a, tl. auto.
  - intros [H|(b & tl & -> & K)]; [auto|right]. exists [b], b, tl. auto.
Qed.

(** ** Integers *)
Lemma uleb_kind size mask bs : forall result shift e r, uleb_loop size mask result shift bs = (Err e, r) ->
  e = UnexpectedEndOfFile \/ e = OutOfRangeUnsignedInteger.
Proof.
  induction bs as [|b bs IH]; intros result shift e r H; cbn [uleb_loop] in H; [injection H as <- <-; auto|].
  cbv zeta in H.
  destruct (u_from_u8 size _) as [val|]; [|discriminate].
  destruct (size <=? shift).
  - destruct (negb _); [injection H as <- <-; auto|]. destruct (_ =? 0); [discriminate|]. eapply IH, H.
  - destruct (u_shl _ _ _) as [shl|]; [|discriminate]. destruct (u_shr _ _ _) as [back|]; [|discriminate].
    destruct (negb _); [injection H as <- <-; auto|].
    destruct (shift <? size); (destruct (_ =? 0); [discriminate|]; eapply IH, H).
Qed.
Lemma sleb_kind size mask bs : forall result shift pos e r, sleb_loop size mask result shift pos bs = (Err e, r) ->
  e = UnexpectedEndOfFile \/ e = OutOfRangeSignedInteger.
Proof.
  assert (FIN : forall result shift pos, sleb_finish size result shift pos <> Err UnexpectedEndOfFile /\
    forall e, sleb_finish size result shift pos <> Err e).
  { intros result shift pos. unfold sleb_finish. destruct (_ && _); [destruct (s_shl _ _ _)|]; split; intros; discriminate. }
  induction bs as [|b bs IH]; intros result shift pos e r H; cbn [sleb_loop] in H; [injection H as <- <-; auto|].
  cbv zeta in H.
  destruct (s_from_u8 size _) as [val|]; [|discriminate].
  destruct (size <=? shift).
  - destruct (_ || _); [|injection H as <- <-; auto]. destruct (_ =? 0).
    + injection H as H _. apply FIN in H. destruct H.
    + eapply IH, H.
  - destruct (s_shl _ _ _) as [shl|]; [|discriminate]. destruct (s_shr _ _ _) as [back|]; [|discriminate].
    destruct (negb _); [injection H as <- <-; auto|].
    destruct (shift <? size); (destruct (N.land _ 0x80 =? 0);
      [injection H as H _; apply FIN in H; destruct H|eapply IH, H]).
Qed.
Lemma blames_num {A} (p : parser A) (E : format A) range : SpecPrompt.prompt (encodes E) p -> range <> UnexpectedEndOfFile ->
  (forall bs e r, p bs = (Err e, r) -> e = UnexpectedEndOfFile \/ e = range) -> blames p (f_num (encodes E) range).
Proof.
  intros [P1 P2] NR K bs e r. unfold f_num. split.
  - intros H. destruct (K _ _ _ H) as [-> | ->]; [left|right].
    + apply P1 in H. tauto.
    + split; [reflexivity|]. apply P2. eauto.
  - intros [(-> & -> & H1 & H2)|(-> & H)].
    + apply P1. auto.
    + apply P2 in H. destruct H as (e & NE & H). destruct (K _ _ _ H) as [-> | ->]; [contradiction|assumption].
Qed.

Lemma blames_unsigned size : exact (p_unsigned size) (enc_u W size) -> plain _ (p_unsigned size) -> blames (p_unsigned size) (f_u size).
Proof.
  intros X P. apply blames_num; [apply prompt_format; assumption|discriminate|].
  intros bs e r H. unfold p_unsigned in H. destruct (u_from_u8 _ _); [|discriminate]. apply uleb_kind in H. assumption.
Qed.
Lemma blames_signed size : exact (p_signed size) (enc_s W size) -> plain _ (p_signed size) -> blames (p_signed size) (f_s size).
Proof.
  intros X P. apply blames_num; [apply prompt_format; assumption|discriminate|].
  intros bs e r H. unfold p_signed in H. destruct (s_from_u8 _ _); [|discriminate]. apply sleb_kind in H. assumption.
Qed.
Lemma exact_u size : 8 <= size -> exact (p_unsigned size) (enc_u W size).
Proof. intros L. eapply exact_ext; [|apply exact_unsigned, L]. intros bs v. symmetry. apply enc_u_whasm. Qed.
Lemma exact_s size : 8 <= size -> exact (p_signed size) (enc_s W size).
Proof. intros L. eapply exact_ext; [|apply exact_signed, L]. intros bs v. symmetry. apply enc_s_whasm. Qed.
Lemma blames_u8 : blames p_u8 (f_u 8). Proof. apply blames_unsigned; [apply exact_u; lia|constructor]. Qed.
Lemma blames_u16 : blames p_u16 (f_u 16). Proof. apply blames_unsigned; [apply exact_u; lia|constructor]. Qed.
Lemma blames_u32 : blames p_u32 f_u32. Proof. apply blames_unsigned; [apply exact_u; lia|constructor]. Qed.
Lemma blames_u64 : blames p_u64 (f_u 64). Proof. apply blames_unsigned; [apply exact_u; lia|constructor]. Qed.
Lemma blames_i8 : blames p_i8 (f_s 8). Proof. apply blames_signed; [apply exact_s; lia|constructor]. Qed.
Lemma blames_i16 : blames p_i16 (f_s 16). Proof. apply blames_signed; [apply exact_s; lia|constructor]. Qed.
Lemma blames_i32 : blames p_i32 (f_s 32). Proof. apply blames_signed; [apply exact_s; lia|constructor]. Qed.
Lemma blames_i64 : blames p_i64 (f_s 64). Proof. apply blames_signed; [apply exact_s; lia|constructor]. Qed.

(** ** Repetition *)
Lemma elems_0 {A} (E : format A) F bs e r : ~ f_elems 0 E F bs e r.
Proof. intros (pre & xs & tl & _ & _ & H & _). lia. Qed.
Lemma elems_S {A} n (E : format A) F bs e r : f_elems (N.of_nat (S n)) E F bs e r <->
  f_seq E F (f_elems (N.of_nat n) E F) bs e r.
Proof.
  unfold f_seq, f_after. split.
  - intros (pre & xs & tl & -> & (ch & H & ->) & L & K). destruct H as [|c x ch xs C H].
    + left. assumption.
    + right. exists c, x, (concat ch ++ tl). cbn [concat]. rewrite <- app_assoc. split; [reflexivity|].
      split; [assumption|]. exists (concat ch), xs, tl. split; [reflexivity|]. split; [exists ch; auto|].
      cbn [List.length] in L. split; [lia|assumption].
  - intros [H|(pre & x & tl & -> & C & pre' & xs & tl' & -> & (ch & H & ->) & L & K)].
    + exists [], [], bs. split; [reflexivity|]. split; [exists []; split; [constructor|reflexivity]|].
      split; [cbn [List.length]; lia|assumption].
    + exists (pre ++ concat ch), (x :: xs), tl'. rewrite <- app_assoc. split; [reflexivity|].
      split; [exists (pre :: ch); split; [constructor; assumption|reflexivity]|].
      cbn [List.length]. split; [lia|assumption].
Qed.
Lemma blames_times {A} n (p : parser A) E F : exact p E -> blames p F -> blames (p_times n p) (f_elems (N.of_nat n) E F).
Proof.
  intros X P. induction n as [|n IH]; cbn [p_times].
  - eapply blames_ext; [|apply blames_ret]. intros bs e r. split; [intros []|apply elems_0].
  - eapply blames_ext; [|apply blames_seq; [exact X|exact P|intros a; apply blames_map, IH]].
    intros bs e r. symmetry. apply elems_S.
Qed.
Lemma blames_vec {A} (p : parser A) E F : exact p E -> blames p F -> blames (p_vec p) (f_vec E F).
Proof.
  intros X P. apply blames_after; [apply exact_u32|apply blames_u32|]. intros n.
  rewrite <- (N2Nat.id n) at 2. apply blames_times; assumption.
Qed.
Lemma blames_unwrapping_vec {A B} (p : parser A) (u : A -> B) E F : exact p E -> blames p F ->
  blames (p_unwrapping_vec p u) (f_vec E F).
Proof.
  intros X P. apply blames_after; [apply exact_u32|apply blames_u32|]. intros n.
  rewrite <- (N2Nat.id n) at 2. generalize (N.to_nat n). clear n.
  induction n as [|n IH]; cbn [p_times].
  - eapply blames_ext; [|apply blames_ret]. intros bs e r. split; [intros []|apply elems_0].
  - intros bs e r. rewrite elems_S.
    assert (M : forall C (q : B -> parser C), bind (x <- p ;; ret (u x)) q bs = bind p (fun x => q (u x)) bs).
    { intros C q. unfold bind. destruct (p bs) as [[a|e'| |] r0]; reflexivity. }
    rewrite M. apply blames_seq; [exact X|exact P|intros a; apply blames_map, IH].
Qed.
Lemma blames_runs {A} (p : parser A) E F : exact p E -> blames p F -> forall k acc,
  blames (p_runs k p acc) (f_elems (N.of_nat k) (enc_pair_run W E) (f_seq (enc_u32 W) f_u32 F)).
Proof.
  intros X P. induction k as [|k IH]; intros acc; cbn [p_runs].
  - eapply blames_ext; [|apply blames_ret]. intros bs e r. split; [intros []|apply elems_0].
  - intros bs e r. rewrite elems_S.
    revert bs e r. eapply blames_ext;
      [|apply blames_seq; [apply exact_u32|apply blames_u32|intros n; apply blames_seq; [exact X|exact P|intros a; apply IH]]].
    intros bs e r. cbn beta. unfold f_seq, f_after. split.
    + intros [H|(pre & n & tl & -> & H & [K|(pre' & a & tl' & -> & J & K)])]; [auto| |].
      * left. right. eauto 10.
      * right. exists (pre ++ pre'), (n, a), tl'. rewrite <- app_assoc. split; [reflexivity|].
        split; [exists pre, pre'; auto|assumption].
    + intros [[H|(pre & n & tl & -> & H & K)]|(pre & [n a] & tl & -> & (nb & tb & -> & H & J) & K)]; [auto| |].
      * right. eauto 10.
      * right. exists nb, n, (tb ++ tl). rewrite <- app_assoc. split; [reflexivity|]. split; [assumption|].
        right. exists tb, a, tl. auto.
Qed.
Lemma blames_compact_vec {A} (p : parser A) E F : exact p E -> blames p F ->
  blames (p_compact_vec p) (f_vec (enc_pair_run W E) (f_seq (enc_u32 W) f_u32 F)).
Proof.
  intros X P. apply blames_after; [apply exact_u32|apply blames_u32|]. intros n.
  rewrite <- (N2Nat.id n) at 2. apply blames_runs; assumption.
Qed.
Lemma blames_float h n : blames (p_float h n) (f_bytes (N.of_nat n)).
Proof. apply blames_map, blames_times; [apply exact_byte'|apply blames_byte]. Qed.
Lemma blames_string : blames p_string f_name.
Proof.
  unfold p_string. intros bs e r. rewrite bind_err.
  rewrite (blames_unwrapping_vec p_byte (fun b => b) _ _ exact_byte' blames_byte bs e r). unfold f_name.
  assert (XV : exact (p_unwrapping_vec p_byte (fun b => b)) (enc_vec W enc_byte)) by apply exact_unwrapping_vec, exact_byte'.
  split; (intros [H|H]; [auto|right]).
  - destruct H as (raw & r0 & H & K). apply XV in H. destruct H as (pre & -> & H).
    destruct (utf8_valid raw) eqn:U; [discriminate|]. injection K as <- <-. exists pre, raw.
    repeat split; [assumption|]. intros V. apply utf8_valid_iff in V. congruence.
  - destruct H as (pre & raw & -> & H & U & ->). exists raw, r. split; [apply XV; eauto|].
    destruct (utf8_valid raw) eqn:V; [apply utf8_valid_iff in V; contradiction|reflexivity].
Qed.

(** ** Sizes *)
Lemma window_err {A} (p : parser A) n bs e r : p_window p n bs = (Err e, r) <->
  exists w tl, bs = w ++ tl /\ N.of_nat (length w) <= n /\ (N.of_nat (length w) < n -> tl = []) /\
    ((exists rw, p w = (Err e, rw) /\ r = rw ++ tl) \/
     (exists a rw, p w = (Ok a, rw) /\ N.of_nat (length w - length rw) <> n /\ e = SizeMissmatch /\ r = rw ++ tl)).
Proof.
  unfold p_window. split.
  - intros H. exists (firstn (N.to_nat n) bs), (skipn (N.to_nat n) bs).
    split; [symmetry; apply firstn_skipn|]. rewrite firstn_length. split; [lia|]. split.
    { intros L. apply length_zero_iff_nil. rewrite skipn_length. lia. }
    set (w := firstn _ _) in *. set (tl := skipn _ _) in *.
    destruct (p w) as [[a|e'| |] rw] eqn:P; [right|left|discriminate|discriminate].
    + destruct (N.eqb_spec n (N.of_nat (length w - length rw))) as [E|E]; cbn [negb] in H; [discriminate|].
      injection H as <- <-. exists a, rw. split; [reflexivity|]. unfold w in E. rewrite firstn_length in E.
      split; [congruence|auto].
    + injection H as -> <-. eauto.
  - intros (w & tl & -> & L & T & H).
    assert (FS : firstn (N.to_nat n) (w ++ tl) = w /\ skipn (N.to_nat n) (w ++ tl) = tl).
    { destruct (N.eq_dec (N.of_nat (length w)) n) as [E|E].
      - replace (N.to_nat n) with (length w) by lia.
        rewrite firstn_app, Nat.sub_diag, firstn_all, firstn_O, app_nil_r.
        rewrite skipn_app, Nat.sub_diag, skipn_all, skipn_O. auto.
      - rewrite (T ltac:(lia)), app_nil_r. rewrite firstn_all2 by lia. rewrite skipn_all2 by lia. auto. }
    destruct FS as [-> ->]. destruct H as [(rw & -> & ->)|(a & rw & -> & NE & -> & ->)]; [reflexivity|].
    destruct (N.eqb_spec n (N.of_nat (length w - length rw))); [congruence|reflexivity].
Qed.
Lemma blames_window {A B} (p : parser A) E (E' : format B) F n : exact p E -> blames p F ->
  (forall u, (exists a, E u a) <-> (exists b, E' u b)) -> blames (p_window p n) (f_window E' F n).
Proof.
  intros X P V bs e r. rewrite window_err. unfold f_window.
  split; intros (w & tl & -> & L & T & H); exists w, tl; (split; [reflexivity|]); (split; [assumption|]); (split; [assumption|]).
  - destruct H as [(rw & H & ->)|(a & rw & H & NE & -> & ->)]; [left|right].
    + exists rw. split; [apply P; assumption|reflexivity].
    + apply X in H. destruct H as (u & -> & H). destruct (proj1 (V u) (ex_intro _ a H)) as [b K].
      exists u, b, rw. split; [reflexivity|]. split; [assumption|].
      rewrite app_length in NE. split; [|auto]. replace (length u) with (length u + length rw - length rw)%nat by lia. assumption.
  - destruct H as [(rw & H & ->)|(u & b & rw & -> & H & NE & -> & ->)]; [left|right].
    + exists rw. split; [apply P; assumption|reflexivity].
    + destruct (proj2 (V u) (ex_intro _ b H)) as [a K]. exists a, rw. split; [apply X; eauto|].
      rewrite app_length. split; [|auto]. replace (length u + length rw - length rw)%nat with (length u) by lia. assumption.
Qed.
Lemma blames_sized' {A B} (p : parser A) E (E' : format B) F : exact p E -> blames p F ->
  (forall u, (exists a, E u a) <-> (exists b, E' u b)) -> blames (p_sized p) (f_sized E' F).
Proof.
  intros X P V. rewrite p_sized_window. apply blames_after; [apply exact_u32|apply blames_u32|].
  intros n. eapply blames_window; eassumption.
Qed.
Lemma blames_sized {A} (p : parser A) E F : exact p E -> blames p F -> blames (p_sized p) (f_sized E F).
Proof. intros X P. eapply blames_sized'; [eassumption..|reflexivity]. Qed.

(** ** Types *)
Ltac tag_cases := apply blames_tag; let b := fresh "b" in intros b; destruct b; cbv beta iota;
  try (apply blames_ret); try (apply blames_fail).
Lemma blames_limits : blames p_limits f_limits.
Proof.
  unfold p_limits, f_limits. tag_cases.
  - apply blames_map, blames_u32.
  - apply blames_seq; [apply exact_u32|apply blames_u32|intros n; apply blames_map, blames_u32].
Qed.
Lemma blames_valty : blames p_valty f_valty. Proof. unfold p_valty, f_valty. tag_cases. Qed.
Lemma blames_elemty : blames p_elemty f_elemty. Proof. unfold p_elemty, f_elemty. tag_cases. Qed.
Lemma blames_mut : blames p_mut f_mut. Proof. unfold p_mut, f_mut. tag_cases. Qed.
Lemma blames_retval : blames p_retval f_blockty.
Proof.
  unfold p_retval, f_blockty. tag_cases; cbn [p_valty p_byte bind];
  first [apply (blames_fail (A := retval)) | intros bs e r; split; [discriminate|intros []]].
Qed.
Lemma blames_functy : blames p_functy f_functy.
Proof.
  unfold p_functy, f_functy. tag_cases.
  apply blames_seq; [apply exact_vec, exact_valty|apply blames_vec; [apply exact_valty|apply blames_valty]|].
  intros ps. apply blames_map, blames_vec; [apply exact_valty|apply blames_valty].
Qed.
Lemma exact_elemty' : exact p_elemty enc_elemty.
Proof.
  intros bs a r. split.
  - intros H. destruct bs as [|b bs]; [discriminate|]. destruct b; try discriminate H.
    injection H as <- <-. exists [x70]. split; reflexivity.
  - intros (pre & -> & ->). destruct a. reflexivity.
Qed.
Lemma blames_tablety : blames p_tablety f_tablety.
Proof. apply blames_seq; [apply exact_elemty'|apply blames_elemty|intros a; apply blames_map, blames_limits]. Qed.
Lemma blames_memty : blames p_memty f_limits.
Proof. apply blames_map, blames_limits. Qed.
Lemma blames_globalty : blames p_globalty f_globalty.
Proof. apply blames_seq; [apply exact_valty|apply blames_valty|intros a; apply blames_map, blames_mut]. Qed.

(** ** Instructions *)
Lemma blames_imm sub b : blocks b = false -> blames (p_opcode sub b) (f_imm b).
Proof.
  intros NB. destruct b; try discriminate NB;
  unfold p_opcode, f_imm, p_labelidx, p_funcidx, p_typeidx, p_tableidx, p_localidx, p_globalidx, p_memidx, p_f32, p_f64;
  try (eapply blames_ext; [|apply blames_ret]; intros bs e r; split; [intros []|];
       intros [H _]; revert H; unfold reserved_opcode; cbv zeta; cbn [Byte.to_N]; intros H; exfalso; lia);
  try (eapply blames_ext; [|apply blames_fail]; intros bs e r; unfold f_variant; split; [|tauto];
       intros H; split; [|assumption]; unfold reserved_opcode; cbv zeta; cbn [Byte.to_N]; lia);
  try (apply blames_map; first [apply blames_u32|apply blames_i32|apply blames_i64|apply (blames_float _ 4)|apply (blames_float _ 8)]);
  try (apply blames_seq; [apply exact_u32|apply blames_u32|intros a; apply blames_map, blames_u32]).
  apply blames_seq; [apply exact_vec, exact_u32|apply blames_vec; [apply exact_u32|apply blames_u32]|].
  intros a; apply blames_map, blames_u32.
Qed.
Lemma opens_blocks b : opens b <-> blocks b = true.
Proof. unfold opens. split; [intros [->|[-> | ->]]; reflexivity|destruct b; try discriminate; auto]. Qed.
(** the body of a block fails *)
Definition f_body : failure := fun bs e r => exists isb is tl, bs = isb ++ tl /\ enc_instrs W isb is /\ f_instr tl e r.

Lemma instr_sub_blamed fuel :
  (forall bs e r, p_instr fuel bs = (Err e, r) -> f_instr bs e r) /\
  (forall acc bs e r, p_subexpr fuel acc bs = (Err e, r) -> f_body bs e r).
Proof.
  induction fuel as [|f [IH1 IH2]]; [split; intros; discriminate|]. cbn [p_instr p_subexpr]. split.
  - intros bs e r H. apply bind_err in H. destruct H as [H|(b & r0 & H & K)].
    + apply blames_byte in H. destruct H as (-> & -> & ->). constructor.
    + apply exact_byte in H. destruct H as (pre & -> & ->). cbn [app].
      assert (S : sound (p_subexpr f []) enc_sub).
      { intros bs x rest' H. apply sound_instr_sub in H. destruct H as (pre & -> & is & E & H).
        exists pre. split; [reflexivity|]. destruct x as [is' t]. cbn in *. subst is'. assumption. }
      set (sub := p_subexpr f []) in *.
      assert (XB : forall bs e r, p_expr_of sub bs = (Err e, r) -> f_expr bs e r).
      { intros bs e' r' H. unfold p_expr_of in H. apply bind_err in H. destruct H as [H|([is t] & r1 & H & H2)].
        - apply IH2 in H. destruct H as (isb & is & tl & -> & H1 & H2). exists isb, is, tl. auto.
        - apply S in H. destruct H as (pre & -> & p & tb & -> & E & [[-> T]|[-> T]]); cbn [fst snd] in *; subst t; cbn in H2; [discriminate|].
          injection H2 as <- <-. exists p, is, (x05 :: r1). rewrite <- app_assoc. auto. }
      destruct (blocks b) eqn:BL; [|apply fi_imm; apply (blames_imm sub b BL) in K; assumption].
      assert (O : opens b) by (apply opens_blocks; assumption).
      assert (Q : b = x04 \/ ((b = x02 \/ b = x03) /\ exists (mk : retval -> expr -> instr), p_opcode sub b = (rt <- p_retval ;; is <- p_expr_of sub ;; ret (mk rt is)))).
      { destruct b; try discriminate BL; auto; right; split; auto; eexists; reflexivity. }
      destruct Q as [->|(Q & mk & QE)].
      * unfold p_opcode, p_if_of in K. apply bind_err in K. destruct K as [K|(rt & r1 & K1 & K)].
        { apply fi_blockty; [assumption|]. apply blames_retval, K. }
        apply exact_retval in K1. destruct K1 as (rtb & -> & R).
        apply bind_err in K. destruct K as [K|([is1 t] & r2 & K1 & K)].
        { apply IH2 in K. destruct K as (isb & is & tl & -> & H1 & H2). eapply fi_body; eassumption. }
        apply S in K1. destruct K1 as (pre & -> & p & tb & -> & E & [[-> T]|[-> T]]); cbn [fst snd] in *; subst t; cbn [is_else] in K; [discriminate|].
        apply bind_err in K. rewrite <- (app_assoc p). cbn [app]. destruct K as [K|([is2 t] & r3 & K1 & K)].
        { apply IH2 in K. destruct K as (isb & is & tl & -> & H1 & H2). eapply fi_branch; eassumption. }
        apply S in K1. destruct K1 as (pre & -> & p2 & tb & -> & E2 & [[-> T]|[-> T]]); cbn [fst snd] in *; subst t; cbn in K; [discriminate|].
        injection K as <- <-. rewrite <- (app_assoc p2). cbn [app]. eapply fi_else_else; eassumption.
      * rewrite QE in K. apply bind_err in K. destruct K as [K|(rt & r1 & K1 & K)].
        { apply fi_blockty; [assumption|]. apply blames_retval, K. }
        apply exact_retval in K1. destruct K1 as (rtb & -> & R).
        apply bind_err in K. destruct K as [K|(is & r2 & _ & K)]; [|discriminate K].
        apply XB in K. destruct K as (isb & is & tl & -> & H1 & [H2|[-> ->]]).
        -- eapply fi_body; eassumption.
        -- eapply fi_else; eassumption.
  - intros acc bs e r H. apply bind_err in H. destruct H as [H|(i & r0 & H & K)].
    + apply IH1 in H. exists [], [], bs. split; [reflexivity|]. split; [constructor|assumption].
    + apply sound_instr_sub in H. destruct H as (pre & -> & [E|T]).
      * assert (K' : exists acc', p_subexpr f acc' r0 = (Err e, r)) by (destruct i; try discriminate K; eauto).
        destruct K' as (acc' & K'). apply IH2 in K'. destruct K' as (isb & is & tl & -> & H1 & H2).
        exists (pre ++ isb), (i :: is), tl. rewrite app_assoc. split; [reflexivity|]. split; [constructor; assumption|assumption].
      * destruct T as [[-> ->]|[-> ->]]; discriminate K.
Qed.
(** the other way: with enough fuel *)
Lemma sub_fails n f isb is tl e r : enc_instrs W isb is -> (forall n', (n <= n')%nat -> p_instr n' tl = (Err e, r)) ->
  (2 * length isb + n + 2 <= f)%nat -> forall acc, p_subexpr f acc (isb ++ tl) = (Err e, r).
Proof.
  intros H P. revert f. induction H as [|i is ib isb E H IH]; intros f L acc.
  - destruct f as [|f]; [lia|]. cbn [p_subexpr app]. unfold bind. rewrite P by (cbn [List.length] in L; lia). reflexivity.
  - rewrite app_length in L. destruct f as [|f]; [lia|].
    assert (NI : (0 < length ib)%nat) by (inversion E; cbn [List.length]; lia).
    cbn [p_subexpr]. rewrite <- app_assoc. unfold bind.
    rewrite (proj1 complete_instr_sub ib i E) by lia.
    assert (T : i <> I_End /\ i <> I_Else) by (split; intros ->; inversion E; discriminate).
    destruct T. destruct i; try congruence; apply IH; lia.
Qed.
Lemma sub_terminated f isb is tb t r acc : enc_instrs W isb is -> terminator tb t -> (2 * length isb + 2 <= f)%nat ->
  p_subexpr f acc (isb ++ tb ++ r) = (Ok (acc ++ is, t), r).
Proof. intros H T L. apply (proj2 complete_instr_sub isb is H); assumption. Qed.
Lemma instr_step f op tl : p_instr (S f) (op :: tl) = p_opcode (p_subexpr f []) op tl.
Proof. reflexivity. Qed.
Lemma retval_run rtb rt tl : enc_blockty rtb rt -> p_retval (rtb ++ tl) = (Ok rt, tl).
Proof. intros H. apply exact_retval. eauto. Qed.
Lemma blamed_instr bs e r : f_instr bs e r -> exists n, forall n', (n <= n')%nat -> p_instr n' bs = (Err e, r).
Proof.
  induction 1 as [|op tl e r H|op tl e r O H|op rtb rt isb is tl e r O R I H [n IH]|op rtb rt isb is r O R I
    |rtb rt b1 is1 b2 is2 tl e r R I1 I2 H [n IH]|rtb rt b1 is1 b2 is2 r R I1 I2].
  - exists 1%nat. intros [|n'] L; [lia|]. reflexivity.
  - exists 1%nat. intros [|n'] L; [lia|]. rewrite instr_step. apply blames_imm; [|assumption].
    destruct op; try reflexivity; destruct H.
  - exists 1%nat. intros [|n'] L; [lia|]. rewrite instr_step. apply blames_retval in H.
    destruct O as [->|[-> | ->]]; unfold p_opcode, p_if_of; apply bind_err; auto.
  - exists (S (2 * length isb + n + 2)). intros [|n'] L; [lia|]. rewrite instr_step.
    assert (SF : p_subexpr n' [] (isb ++ tl) = (Err e, r)) by (eapply sub_fails; [eassumption..|lia]).
    destruct O as [->|[-> | ->]]; unfold p_opcode, p_if_of; unfold bind at 1; rewrite (retval_run _ _ _ R).
    + apply bind_err. left. apply bind_err. auto.
    + apply bind_err. left. apply bind_err. auto.
    + apply bind_err. auto.
  - exists (S (2 * length isb + 2)). intros [|n'] L; [lia|]. rewrite instr_step.
    assert (SF : p_subexpr n' [] (isb ++ [x05] ++ r) = (Ok (is, I_Else), r)).
    { apply (sub_terminated n' isb is [x05] I_Else r []); [assumption|right; auto|lia]. }
    destruct O as [-> | ->]; unfold p_opcode; unfold bind at 1; rewrite (retval_run _ _ _ R);
      apply bind_err; left; apply bind_err; right; exists (is, I_Else), r; auto.
  - exists (S (2 * length b1 + 2 * length b2 + n + 2)). intros [|n'] L; [lia|]. rewrite instr_step.
    unfold p_opcode, p_if_of; unfold bind at 1; rewrite (retval_run _ _ _ R).
    unfold bind at 1. change (b1 ++ x05 :: b2 ++ tl) with (b1 ++ [x05] ++ b2 ++ tl).
    rewrite (sub_terminated n' b1 is1 [x05] I_Else _ []) by (try assumption; try lia; right; auto).
    cbn [is_else app]. apply bind_err. left. eapply sub_fails; [eassumption..|lia].
  - exists (S (2 * length b1 + 2 * length b2 + 2)). intros [|n'] L; [lia|]. rewrite instr_step.
    unfold p_opcode, p_if_of; unfold bind at 1; rewrite (retval_run _ _ _ R).
    unfold bind at 1. change (b1 ++ x05 :: b2 ++ x05 :: r) with (b1 ++ [x05] ++ b2 ++ [x05] ++ r).
    rewrite (sub_terminated n' b1 is1 [x05] I_Else _ []) by (try assumption; try lia; right; auto).
    cbn [is_else app]. unfold bind at 1. change (b2 ++ x05 :: r) with (b2 ++ [x05] ++ r).
    rewrite (sub_terminated n' b2 is2 [x05] I_Else _ []) by (try assumption; try lia; right; auto). reflexivity.
Qed.
Lemma blames_instr_top : blames p_instr_top f_instr.
Proof.
  intros bs e r. split; [apply instr_sub_blamed|]. intros H. apply blamed_instr in H. destruct H as [n H].
  pose proof (proj2 (safe_instr_top bs)) as S. unfold p_instr_top in *.
  rewrite <- (proj1 (fuel_mono (fuel_for (length bs)) (n + fuel_for (length bs)) ltac:(lia)) bs S). apply H. lia.
Qed.
Lemma blames_expr : blames p_expr f_expr.
Proof.
  intros bs e r. unfold p_expr, p_expr_of. rewrite bind_err. unfold f_expr. split.
  - intros [H|([is t] & r1 & H & H2)].
    + apply instr_sub_blamed in H. destruct H as (isb & is & tl & -> & H1 & H2). eauto 10.
    + apply sound_instr_sub in H. destruct H as (pre & -> & is' & E & p & tb & -> & K & [[-> T]|[-> T]]);
        cbn [fst snd app] in *; subst is' t; cbn in H2; [discriminate|].
      injection H2 as <- <-. exists p, is, (x05 :: r1). rewrite <- app_assoc. auto.
  - intros (isb & is & tl & -> & I & [H|[-> ->]]).
    + left. apply blamed_instr in H. destruct H as [n H].
      assert (SF : p_subexpr (2 * length isb + n + 2 + fuel_for (length (isb ++ tl))) [] (isb ++ tl) = (Err e, r))
        by (eapply sub_fails; [eassumption..|lia]).
      rewrite <- SF. symmetry. apply fuel_mono; [lia|].
      apply (proj2 (bsafe_instr_sub (fuel_for (length (isb ++ tl))) (length (isb ++ tl)))); unfold fuel_for; lia.
    + right. exists (is, I_Else), r. split; [|reflexivity].
      apply (sub_terminated _ isb is [x05] I_Else r []); [assumption|right; auto|].
      unfold fuel_for. rewrite app_length. lia.
Qed.

(** ** Components of modules *)
Lemma elems_ext {A B} (E : format A) (E' : format B) F n :
  (forall pre k, (exists xs, enc_list E pre xs /\ length xs = k) <-> (exists xs, enc_list E' pre xs /\ length xs = k)) ->
  forall bs e r, f_elems n E F bs e r <-> f_elems n E' F bs e r.
Proof.
  intros H bs e r. unfold f_elems. split; intros (pre & xs & tl & -> & L & N & K).
  - destruct (proj1 (H pre (length xs)) (ex_intro _ xs (conj L eq_refl))) as (ys & L' & E1).
    exists pre, ys, tl. rewrite E1. auto.
  - destruct (proj2 (H pre (length xs)) (ex_intro _ xs (conj L eq_refl))) as (ys & L' & E1).
    exists pre, ys, tl. rewrite E1. auto.
Qed.
Lemma vec_ext {A B} (E : format A) (E' : format B) F :
  (forall pre k, (exists xs, enc_list E pre xs /\ length xs = k) <-> (exists xs, enc_list E' pre xs /\ length xs = k)) ->
  forall bs e r, f_vec E F bs e r <-> f_vec E' F bs e r.
Proof.
  intros H bs e r. unfold f_vec, f_after. split; (intros [K|(pre & n & tl & -> & U & K)]; [auto|right]; exists pre, n, tl;
    split; [reflexivity|]; split; [assumption|]; revert K; apply elems_ext; auto).
  intros; symmetry; apply H.
Qed.
Lemma seq_ext {A B} (E : format A) (E' : format B) F F' G : (forall u, (exists a, E u a) <-> (exists b, E' u b)) ->
  (forall bs e r, F bs e r <-> F' bs e r) -> forall bs e r, f_seq E F G bs e r <-> f_seq E' F' G bs e r.
Proof.
  intros H HF bs e r. unfold f_seq, f_after. rewrite HF. split; (intros [K|(pre & a & tl & -> & U & K)]; [auto|right]).
  - destruct (proj1 (H pre) (ex_intro _ a U)) as [b U']. eauto 10.
  - destruct (proj2 (H pre) (ex_intro _ a U)) as [b U']. eauto 10.
Qed.
Lemma blames_func : blames p_func f_func.
Proof.
  unfold p_func, f_func.
  eapply blames_ext; [|eapply blames_seq; [apply exact_compact_vec, exact_valty
    |apply blames_compact_vec; [apply exact_valty|apply blames_valty]|intros a; apply blames_map, blames_expr]].
  apply seq_ext; [|reflexivity]. intros u. cbn beta. split.
  - intros (a & runs & H & _). exists runs. exact H.
  - intros (runs & H). exists (expand_runs runs), runs. auto.
Qed.
Lemma blames_table : blames p_table f_tablety. Proof. apply blames_map, blames_tablety. Qed.
Lemma blames_mem : blames p_mem f_limits. Proof. apply blames_map, blames_memty. Qed.
Lemma blames_global : blames p_global f_global.
Proof. apply blames_seq; [apply exact_globalty|apply blames_globalty|intros t; apply blames_map, blames_expr]. Qed.
Lemma blames_elem : blames p_elem f_elem.
Proof.
  apply blames_seq; [apply exact_u32|apply blames_u32|intros t]. apply blames_seq; [apply exact_expr|apply blames_expr|intros o].
  apply blames_map, blames_vec; [apply exact_u32|apply blames_u32].
Qed.
Lemma blames_data : blames p_data f_data.
Proof.
  apply blames_seq; [apply exact_u32|apply blames_u32|intros t]. apply blames_seq; [apply exact_expr|apply blames_expr|intros o].
  apply blames_map, blames_unwrapping_vec; [apply exact_byte'|apply blames_byte].
Qed.
Lemma blames_start : blames p_start f_u32. Proof. apply blames_map, blames_u32. Qed.
Lemma blames_importdesc : blames p_importdesc f_importdesc.
Proof.
  unfold p_importdesc, f_importdesc. tag_cases; apply blames_map;
    [apply blames_u32|apply blames_tablety|apply blames_memty|apply blames_globalty].
Qed.
Lemma blames_exportdesc : blames p_exportdesc f_exportdesc.
Proof. unfold p_exportdesc, f_exportdesc. tag_cases; apply blames_map; apply blames_u32. Qed.
Lemma blames_import : blames p_import f_import.
Proof.
  apply blames_seq; [apply exact_string|apply blames_string|intros m]. apply blames_seq; [apply exact_string|apply blames_string|intros n].
  apply blames_map, blames_importdesc.
Qed.
Lemma blames_export : blames p_export f_export.
Proof. apply blames_seq; [apply exact_string|apply blames_string|intros n; apply blames_map, blames_exportdesc]. Qed.
Lemma enc_func_exists u : (exists f, enc_func0 u f) <-> (exists c, enc_func W u c).
Proof. split; [intros (f & c & H & _); eauto|intros (c & H); exists (mkFunc 0 (fst c) (snd c)), c; auto]. Qed.
Lemma blames_code : blames (p_sized p_func) f_code.
Proof. apply (blames_sized' p_func enc_func0); [apply exact_func|apply blames_func|apply enc_func_exists]. Qed.
Lemma enc_code_exists pre k :
  (exists xs, enc_list (enc_sized W enc_func0) pre xs /\ length xs = k) <-> (exists cs, enc_list (enc_code W) pre cs /\ length cs = k).
Proof.
  split; intros (xs & (ch & H & ->) & <-).
  - induction H as [|c x ch xs C H IH]; [exists []; split; [exists []; split; [constructor|reflexivity]|reflexivity]|].
    destruct IH as (cs & (ch' & H' & E) & L). destruct C as (n & cont & -> & U & cd & F & _).
    exists (cd :: cs). split; [|cbn [List.length]; congruence].
    exists ((n ++ cont) :: ch'). split; [constructor; [exists n, cont; auto|assumption]|cbn [concat]; congruence].
  - induction H as [|c x ch xs C H IH]; [exists []; split; [exists []; split; [constructor|reflexivity]|reflexivity]|].
    destruct IH as (cs & (ch' & H' & E) & L). destruct C as (n & cont & -> & U & F).
    exists (mkFunc 0 (fst x) (snd x) :: cs). split; [|cbn [List.length]; congruence].
    exists ((n ++ cont) :: ch'). split; [constructor; [exists n, cont; split; [reflexivity|]; split; [assumption|exists x; auto]|assumption]
      |cbn [concat]; congruence].
Qed.
Lemma exact_code : exact (p_sized p_func) (enc_sized W enc_func0).
Proof. apply exact_sized; [apply suffixing_func|apply exact_exact_all, exact_func]. Qed.
Lemma blames_codes : blames (p_sized (p_unwrapping_vec (p_sized p_func) (fun f => f)))
  (f_sized (enc_vec W (enc_code W)) (f_vec (enc_code W) f_code)).
Proof.
  apply (blames_sized' _ (enc_vec W (enc_sized W enc_func0))).
  - apply exact_unwrapping_vec, exact_code.
  - eapply blames_ext; [|apply blames_unwrapping_vec; [apply exact_code|apply blames_code]].
    apply vec_ext, enc_code_exists.
  - intros u. unfold enc_vec. split; intros (xs & n & es & -> & U & L).
    + destruct (proj1 (enc_code_exists es (length xs)) (ex_intro _ xs (conj L eq_refl))) as (ys & L' & E).
      exists ys, n, es. rewrite E. auto.
    + destruct (proj2 (enc_code_exists es (length xs)) (ex_intro _ xs (conj L eq_refl))) as (ys & L' & E).
      exists ys, n, es. rewrite E. auto.
Qed.
Lemma blames_custom : blames p_custom f_name.
Proof.
  intros bs e r. unfold p_custom. rewrite bind_err, (blames_string bs e r). split; [|auto].
  intros [H|(n & r0 & _ & K)]; [assumption|discriminate K].
Qed.
Lemma blames_custom_sized : blames (p_sized p_custom) (fun bs e r => f_u32 bs e r \/ f_after (enc_u32 W) f_custom_window bs e r).
Proof.
  rewrite p_sized_window. apply blames_after; [apply exact_u32|apply blames_u32|]. intros n bs e r.
  rewrite window_err. unfold f_custom_window.
  split; intros (w & tl & -> & L & T & H); exists w, tl; (split; [reflexivity|]); (split; [assumption|]); (split; [assumption|]).
  - destruct H as [(rw & H & ->)|([nm c] & rw & H & NE & -> & ->)]; [left|right].
    + exists rw. split; [apply blames_custom; assumption|reflexivity].
    + apply custom_ok in H. destruct H as (-> & p1 & p2 & -> & H & ->).
      split; [exists (nm, p2), p1; auto|]. cbn [List.length] in NE. rewrite Nat.sub_0_r in NE.
      split; [assumption|]. split; [reflexivity|]. cbn [app]. apply T. lia.
  - destruct H as [(rw & H & ->)|(([nm p2] & p1 & -> & H) & NE & -> & ->)]; [left|right].
    + exists rw. split; [apply blames_custom; assumption|reflexivity].
    + cbn [fst snd] in *. exists (nm, N.of_nat (length p2)), []. split; [apply custom_ok; split; [reflexivity|]; eauto|].
      cbn [List.length]. rewrite Nat.sub_0_r. split; [assumption|]. split; [reflexivity|]. rewrite T by lia. reflexivity.
Qed.

(** ** Modules *)
Lemma blames_section id s : blames (p_section id s) (fun bs e r => f_content id bs e r \/
  (id = x0a /\ e = UnexpectedEndOfFile /\ exists pre cs, bs = pre ++ r /\ enc_sized W (enc_vec W (enc_code W)) pre cs /\
     length cs <> length (ps_func_types s))).
Proof.
  assert (P : forall F : failure, id <> x0a -> blames (p_section id s) F -> blames (p_section id s) (fun bs e r => F bs e r \/
    (id = x0a /\ e = UnexpectedEndOfFile /\ exists pre cs, bs = pre ++ r /\ enc_sized W (enc_vec W (enc_code W)) pre cs /\
     length cs <> length (ps_func_types s)))).
  { intros F N B. eapply blames_ext; [|exact B]. intros bs e r. split; [auto|]. intros [H|[H _]]; [assumption|contradiction]. }
  destruct id; try (apply P; [discriminate|unfold p_section, f_content; apply blames_fail]); clear P || idtac.
  all: try (match goal with |- blames (p_section x0a _) _ => fail 1 | _ => idtac end;
    eapply blames_ext; [|unfold p_section; apply blames_map; first
      [ apply blames_custom_sized
      | apply blames_sized; [apply exact_vec, exact_functy|apply blames_vec; [apply exact_functy|apply blames_functy]]
      | apply blames_sized; [apply exact_vec, exact_import|apply blames_vec; [apply exact_import|apply blames_import]]
      | apply blames_sized; [apply exact_vec, exact_u32|apply blames_vec; [apply exact_u32|apply blames_u32]]
      | apply blames_sized; [apply exact_vec, exact_table|apply blames_vec; [apply exact_table|apply blames_table]]
      | apply blames_sized; [apply exact_vec, exact_mem|apply blames_vec; [apply exact_mem|apply blames_mem]]
      | apply blames_sized; [apply exact_vec, exact_global|apply blames_vec; [apply exact_global|apply blames_global]]
      | apply blames_sized; [apply exact_vec, exact_export|apply blames_vec; [apply exact_export|apply blames_export]]
      | apply blames_sized; [apply exact_start|apply blames_start]
      | apply blames_sized; [apply exact_vec, exact_elem|apply blames_vec; [apply exact_elem|apply blames_elem]]
      | apply blames_sized; [apply exact_vec, exact_data|apply blames_vec; [apply exact_data|apply blames_data]] ]];
    intros bs e r; split; [left; assumption|intros [H|[H _]]; [assumption|discriminate H]]).
  intros bs e r. unfold p_section. cbv zeta. rewrite bind_err, (blames_codes bs e r). unfold f_content.
  assert (XC : exact (p_sized (p_unwrapping_vec (p_sized p_func) (fun f => f))) (fun pre fs =>
    exists cs, enc_sized W (enc_vec W (enc_code W)) pre cs /\ fs = map (fun c : code => mkFunc 0 (fst c) (snd c)) cs)).
  { eapply exact_ext; [|apply exact_sized; [|apply exact_code_vec]].
    - intros b fs. cbn beta. apply enc_sized_map.
    - rewrite unwrapping_vec. pose proof suffixing_func. m_suffixing. }
  split; (intros [H|H]; [auto|right]).
  - destruct H as (fs & r0 & H & K). apply XC in H. destruct H as (pre & -> & cs & H & ->). rewrite map_length in K.
    destruct (Nat.eqb_spec (length cs) (length (ps_func_types s))) as [L|L]; cbn [negb] in K.
    + rewrite assign_types_pair in K by assumption. discriminate K.
    + injection K as <- <-. split; [reflexivity|]. split; [reflexivity|]. eauto 10.
  - destruct H as (_ & -> & pre & cs & -> & H & L). exists (map (fun c : code => mkFunc 0 (fst c) (snd c)) cs), r.
    split; [apply XC; eauto|]. rewrite map_length. apply Nat.eqb_neq in L. rewrite L. reflexivity.
Qed.
Definition breaks_off (s1 : pstate) (id : byte) (tl : list byte) (e : perror) (r : list byte) : Prop :=
  (id <> x00 /\ Byte.to_N id <= ps_last_id s1 /\ e = UnexpectedSectionId id /\ r = tl) \/
  ((id = x00 \/ ps_last_id s1 < Byte.to_N id) /\ p_section id (mark s1 id) tl = (Err e, r)).
Lemma id_custom id : byte_is id 0 = true <-> id = x00.
Proof. unfold byte_is. rewrite N.eqb_eq. split; [intros H; apply (to_N_inj id x00 H)|intros ->; reflexivity]. Qed.
Lemma breaks_off_step f s id tl e r :
  p_sections (S f) s (id :: tl) = (Err e, r) <->
  breaks_off s id tl e r \/
  ((id = x00 \/ ps_last_id s < Byte.to_N id) /\ exists s' r0, p_section id (mark s id) tl = (Ok s', r0) /\ p_sections f s' r0 = (Err e, r)).
Proof.
  rewrite sections_cons. unfold breaks_off.
  destruct (byte_is id 0) eqn:C; cbn [negb andb].
  - apply id_custom in C. rewrite bind_err. split.
    + intros [H|H]; [left; right; auto|right; auto].
    + intros [[(N & _)|(_ & H)]|(_ & H)]; [contradiction|auto|auto].
  - assert (NC : id <> x00) by (intros E; apply id_custom in E; congruence).
    destruct (N.leb_spec (Byte.to_N id) (ps_last_id s)) as [L|L].
    + split.
      * intros H. injection H as <- <-. left. left. auto.
      * intros [[(_ & _ & -> & ->)|([E|E] & _)]|([E|E] & _)]; try contradiction; try lia. reflexivity.
    + rewrite bind_err. split.
      * intros [H|H]; [left; right; auto|right; auto].
      * intros [[(_ & L' & _)|(_ & H)]|(_ & H)]; [lia|auto|auto].
Qed.
Lemma sections_err fuel : forall s bs e r, (length bs < fuel)%nat -> p_sections fuel s bs = (Err e, r) <->
  exists b1 secs id tl s1, bs = b1 ++ id :: tl /\ enc_list (enc_section W) b1 secs /\ run s secs s1 /\ breaks_off s1 id tl e r.
Proof.
  induction fuel as [|f IH]; intros s bs e r L; [lia|].
  destruct bs as [|id bs].
  - rewrite sections_nil. split; [discriminate|]. intros ([|? b1] & secs & id & tl & s1 & H & _); discriminate.
  - rewrite breaks_off_step. split.
    + intros [H|(O & s' & r0 & H1 & H2)].
      * exists [], [], id, bs, s. split; [reflexivity|]. split; [exists []; split; [constructor|reflexivity]|]. split; [constructor|assumption].
      * pose proof (suffixing_length _ bs (suffixing_section id (mark s id))) as SL. rewrite H1 in SL. cbn [snd] in SL.
        cbn [List.length] in L. apply IH in H2; [|lia].
        apply exact_section in H1. destruct H1 as (pre & -> & sec & E & OK & ->).
        destruct H2 as (b1 & secs & id' & tl & s1 & -> & (ch & F & ->) & R & B).
        destruct (section_first _ _ _ E) as (id2 & r2 & E1 & E2 & E3). injection E1 as <- <-.
        assert (M : mark s id = marks s sec) by (unfold mark, marks; rewrite E3, E2; reflexivity).
        exists ((id :: pre) ++ concat ch), (sec :: secs), id', tl, s1. split; [cbn [app]; rewrite <- app_assoc; reflexivity|].
        split; [exists ((id :: pre) :: ch); split; [constructor; assumption|reflexivity]|].
        rewrite M in *. split; [|assumption]. constructor; [|assumption|assumption].
        intros C. destruct O as [->|O]; [|congruence]. rewrite C in E3. discriminate E3.
    + intros (b1 & secs & id' & tl & s1 & E & (ch & F & ->) & R & B).
      destruct F as [|c sec ch secs C F].
      * left. cbn [concat app] in E. injection E as <- <-. inversion R; subst. assumption.
      * right. inversion R as [|? ? ? ? O OK R']; subst.
        destruct (section_first _ _ _ C) as (id2 & r2 & -> & E2 & E3). cbn [concat app] in E. injection E as <- ->.
        assert (M : mark s id = marks s sec) by (unfold mark, marks; rewrite E3, E2; reflexivity).
        split.
        { destruct (is_custom sec) eqn:IC; [left; apply id_custom; assumption|right]. rewrite E2. auto. }
        exists (step (marks s sec) sec), (concat ch ++ id' :: tl). split.
        -- rewrite M. apply exact_section. exists r2. rewrite <- app_assoc. eauto 10.
        -- cbn [List.length] in L. rewrite !app_length in L. cbn [List.length] in L.
           apply IH; [rewrite app_length; cbn [List.length]; lia|].
           exists (concat ch), secs, id', tl, s1. split; [reflexivity|]. split; [exists ch; auto|auto].
Qed.
Lemma last_id_bound secs : forall lo, increasing lo (ids secs) ->
  (forall s, In s secs -> section_id s <= last_id lo secs) /\
  (last_id lo secs = lo \/ exists s, In s secs /\ last_id lo secs = section_id s).
Proof.
  induction secs as [|s secs IH]; intros lo I; [split; [intros s []|left; reflexivity]|].
  unfold ids in *. cbn [filter] in I. cbn [last_id]. destruct (is_custom s) eqn:C; cbn [negb map increasing] in I.
  - destruct (IH lo I) as [H1 H2]. split.
    + intros x [<-|H]; [|auto]. destruct s; try discriminate C. cbn. lia.
    + destruct H2 as [H2|(x & H2 & H3)]; [auto|]. right. exists x. cbn. auto.
  - destruct I as [I1 I2]. destruct (IH _ I2) as [H1 H2]. split.
    + intros x [<-|H]; [|auto]. apply (last_id_ge _ secs), I2.
    + right. destruct H2 as [H2|(x & H2 & H3)]; [exists s; cbn; auto|]. exists x. cbn. auto.
Qed.
Lemma out_of_order_iff id secs : ordered secs -> out_of_order id secs <-> id <> x00 /\ Byte.to_N id <= last_id 0 secs.
Proof.
  intros O. destruct (last_id_bound secs 0 O) as [H1 H2]. unfold out_of_order. split.
  - intros (N & s & I & L). split; [assumption|]. specialize (H1 s I). lia.
  - intros (N & L). split; [assumption|]. destruct H2 as [H2|(s & I & H2)].
    + exfalso. apply N, (to_N_inj id x00). cbn. lia.
    + exists s. split; [assumption|]. lia.
Qed.
Lemma mark_types s id : ps_func_types (mark s id) = ps_func_types s.
Proof. unfold mark. destruct (byte_is id 0); reflexivity. Qed.
Lemma breaks_off_init secs id tl e r : ordered secs -> breaks_off (state_of secs) id tl e r <-> f_section secs id tl e r.
Proof.
  intros O. unfold breaks_off, f_section. rewrite (out_of_order_iff id secs O).
  rewrite (blames_section id (mark (state_of secs) id) tl e r), mark_types. cbn [ps_last_id ps_func_types state_of].
  assert (D : (id = x00 \/ last_id 0 secs < Byte.to_N id) <-> ~ (id <> x00 /\ Byte.to_N id <= last_id 0 secs)).
  { split; [intros [->|H] [N L]; [congruence|lia]|]. intros H.
    destruct (Byte.byte_eq_dec id x00) as [E|E]; [auto|right]. destruct (N.lt_ge_cases (last_id 0 secs) (Byte.to_N id)); [assumption|].
    exfalso. auto. }
  rewrite D. tauto.
Qed.
Lemma blames_body : blames p_body f_sections.
Proof.
  intros bs e r. unfold p_body. rewrite sections_err by lia. unfold f_sections. split.
  - intros (b1 & secs & id & tl & s1 & -> & E & R & B). apply run_init in R. destruct R as (O & C & ->).
    exists b1, secs, id, tl. repeat split; try assumption. apply breaks_off_init; assumption.
  - intros (b1 & secs & id & tl & -> & E & O & C & B). exists b1, secs, id, tl, (state_of secs).
    split; [reflexivity|]. split; [assumption|]. split; [apply run_init; auto|apply breaks_off_init; assumption].
Qed.
Lemma blames_four {A} (ns : list N) l (w : perror) (q : parser A) (G : failure) : map Byte.to_N l = ns -> length l = 4%nat -> blames q G ->
  blames (m <- p_array 4 p_byte ;; if negb (bytes_are m ns) then fail w else q)
    (fun bs e r => f_four l w bs e r \/ exists tl, bs = l ++ tl /\ G tl e r).
Proof.
  intros M L Q bs e r. rewrite bind_err. unfold p_array.
  rewrite (blames_times 4 p_byte _ _ exact_byte' blames_byte bs e r). unfold f_four. change (N.of_nat 4) with 4.
  assert (X : forall a r0, p_times 4 p_byte bs = (Ok a, r0) <-> length a = 4%nat /\ bs = a ++ r0).
  { intros a r0. rewrite (exact_times 4 p_byte _ exact_byte' bs a r0). split.
    - intros (pre & -> & L' & E). apply enc_list_bytes in E. subst. auto.
    - intros (L' & ->). exists a. split; [reflexivity|]. split; [assumption|]. apply enc_list_bytes. reflexivity. }
  split.
  - intros [H|(a & r0 & H & K)]; [auto|]. apply X in H. destruct H as [La ->].
    destruct (bytes_are a ns) eqn:B; cbn [negb] in K.
    + right. exists r0. split; [|apply Q; assumption]. f_equal. apply bytes_are_iff in B. apply map_to_N_inj. congruence.
    + injection K as <- <-. left. right. exists a. split; [assumption|]. split; [reflexivity|]. split; [|reflexivity].
      intros ->. apply bytes_are_iff in M. congruence.
  - intros [[H|(a & La & -> & N & ->)]|(tl & -> & K)]; [auto| |].
    + right. exists a, r. split; [apply X; auto|]. destruct (bytes_are a ns) eqn:B; [|reflexivity].
      apply bytes_are_iff in B. destruct N. apply map_to_N_inj. congruence.
    + right. exists l, tl. split; [apply X; auto|]. apply bytes_are_iff in M. rewrite M. apply Q. assumption.
Qed.
Lemma blames_module : blames p_module f_module.
Proof.
  eapply blames_ext; [|unfold p_module; apply (blames_four _ [x00; x61; x73; x6d]); [reflexivity..|];
    apply (blames_four _ [x01; x00; x00; x00]); [reflexivity..|]; apply (blames_map p_body ps_result), blames_body].
  intros bs e r. unfold f_module. split.
  - intros [H|(tl & -> & [H|(tl' & -> & H)])]; [auto|right; left; eauto|]. right; right. exists tl'. auto.
  - intros [H|[(tl & -> & H)|(tl & -> & H)]]; [auto|right; eauto|]. right. exists ([x01; x00; x00; x00] ++ tl).
    split; [reflexivity|]. right. eauto.
Qed.

(** ** All the parsers *)
Definition described {A} (p : parser A) (E : format A) (F : failure) : Prop :=
  exact p E /\ blames p F.
Lemma reads_described A (p : parser A) E F : reads A p E F -> suffixing p /\ described p E F.
Proof.
  unfold described. induction 1 as [ | | | | | | | | | | | | | | | | | | | | | | | | | | | | | | | | | |A p E F R (S & X & B)|A p E F R (S & X & B)|A n p E F R (S & X & B)|A p E F R (S & X & B)].
  - split; [apply suffixing_byte|split; [apply exact_byte'|apply blames_byte]].
  - split; [apply suffixing_unsigned|split; [apply exact_u; lia|apply blames_u8]].
  - split; [apply suffixing_unsigned|split; [apply exact_u; lia|apply blames_u16]].
  - split; [apply suffixing_unsigned|split; [apply exact_u; lia|apply blames_u32]].
  - split; [apply suffixing_unsigned|split; [apply exact_u; lia|apply blames_u64]].
  - split; [apply suffixing_signed|split; [apply exact_s; lia|apply blames_i8]].
  - split; [apply suffixing_signed|split; [apply exact_s; lia|apply blames_i16]].
  - split; [apply suffixing_signed|split; [apply exact_s; lia|apply blames_i32]].
  - split; [apply suffixing_signed|split; [apply exact_s; lia|apply blames_i64]].
  - split; [apply suffixing_float|split; [apply (exact_float 4)|apply (blames_float _ 4)]].
  - split; [apply suffixing_float|split; [apply (exact_float 8)|apply (blames_float _ 8)]].
  - split; [apply suffixing_string|split; [apply exact_string|apply blames_string]].
  - split; [apply suffixing_limits|split; [apply exact_limits|apply blames_limits]].
  - split; [apply suffixing_valty|split; [apply exact_valty|apply blames_valty]].
  - split; [apply suffixing_elemty|split; [apply exact_elemty'|apply blames_elemty]].
  - split; [apply suffixing_retval|split; [apply exact_retval|apply blames_retval]].
  - split; [apply suffixing_functy|split; [apply exact_functy|apply blames_functy]].
  - split; [apply suffixing_tablety|split; [apply exact_tablety|apply blames_tablety]].
  - split; [apply suffixing_memty|split; [apply exact_memty|apply blames_memty]].
  - split; [apply suffixing_globalty|split; [apply exact_globalty|apply blames_globalty]].
  - split; [apply suffixing_instr_top|split; [apply exact_instr_top|apply blames_instr_top]].
  - split; [apply suffixing_expr|split; [apply exact_expr|apply blames_expr]].
  - split; [apply suffixing_expr|split; [apply exact_expr|apply blames_expr]].
  - split; [apply suffixing_func|split; [apply exact_func|apply blames_func]].
  - split; [apply suffixing_table|split; [apply exact_table|apply blames_table]].
  - split; [apply suffixing_mem|split; [apply exact_mem|apply blames_mem]].
  - split; [apply suffixing_global|split; [apply exact_global|apply blames_global]].
  - split; [apply suffixing_elem|split; [apply exact_elem|apply blames_elem]].
  - split; [apply suffixing_data|split; [apply exact_data|apply blames_data]].
  - split; [apply suffixing_start|split; [apply exact_start|apply blames_start]].
  - split; [apply suffixing_importdesc|split; [apply exact_importdesc|apply blames_importdesc]].
  - split; [apply suffixing_exportdesc|split; [apply exact_exportdesc|apply blames_exportdesc]].
  - split; [apply suffixing_import|split; [apply exact_import|apply blames_import]].
  - split; [apply suffixing_export|split; [apply exact_export|apply blames_export]].
  - split; [apply suffixing_vec, S|split; [apply exact_vec, X|apply blames_vec; assumption]].
  - split; [rewrite unwrapping_vec; apply suffixing_vec, suffixing_map, S|split; [apply exact_unwrapping_vec, X|apply blames_unwrapping_vec; assumption]].
  - split; [apply suffixing_times, S|split; [apply exact_times, X|apply blames_times; assumption]].
  - split; [apply suffixing_sized, S|split; [apply exact_sized; [exact S|apply exact_exact_all, X]|apply blames_sized; assumption]].
Qed.
Lemma elements_described A (p : parser A) E F : reads A p E F -> forall bs,
  (forall a rest, p bs = (Ok a, rest) <-> exists pre, bs = pre ++ rest /\ E pre a) /\
  (forall e rest, p bs = (Err e, rest) <-> F bs e rest).
Proof. intros R bs. apply reads_described in R. destruct R as (_ & X & B). split; [apply X|apply B]. Qed.
Lemma module_either bs :
  ((exists m, enc_module W bs m) \/ (exists e r, f_module bs e r)) /\
  ~ ((exists m, enc_module W bs m) /\ (exists e r, f_module bs e r)) /\
  (forall e r e' r', f_module bs e r -> f_module bs e' r' -> e = e' /\ r = r').
Proof.
  split; [|split].
  - destruct (safe_module bs) as [S1 S2]. destruct (p_module bs) as [[m|e| |] r] eqn:H; cbn [fst] in *; [left|right|congruence|congruence].
    + exists m. apply (module_exact bs m r) in H. apply H.
    + exists e, r. apply blames_module. assumption.
  - intros [(m & M) (e & r & F)]. apply blames_module in F. pose proof (proj2 (module_exact bs m []) (conj eq_refl M)). congruence.
  - intros e r e' r' F F'. apply blames_module in F, F'. rewrite F in F'. injection F' as <- <-. auto.
Qed.
