(** Error texts tell errors apart, except for the two kinds of integers. *)
From Coq Require Import String Ascii HexString DecimalString Lia.
From Verif Require Import Display SpecDisplay SpecFormat CliProof.
Open Scope string_scope.

Definition all_bytes : list byte :=
  map (fun n => match Byte.of_N (N.of_nat n) with Some b => b | None => x00 end) (seq 0 256).
Lemma show_u8_inj a b : show_u8 a = show_u8 b -> a = b.
Proof.
  assert (F : forall c, find (fun d => String.eqb (show_u8 d) (show_u8 c)) all_bytes = Some c) by (intros []; vm_compute; reflexivity).
  intros E. pose proof (F a) as A. rewrite E, F in A. congruence.
Qed.
Lemma show_byte_inj a b : show_byte a = show_byte b -> a = b.
Proof.
  assert (F : forall c, find (fun d => String.eqb (show_byte d) (show_byte c)) all_bytes = Some c) by (intros []; vm_compute; reflexivity).
  intros E. pose proof (F a) as A. rewrite E, F in A. congruence.
Qed.
(** text up to the first backtick *)
Fixpoint before_tick (s : string) : string :=
  match s with
  | "" => ""
  | String "096" _ => ""
  | String c s' => String c (before_tick s')
  end.
Lemma tick_u8 b s : before_tick (show_u8 b ++ String "096" s) = show_u8 b.
Proof. destruct b; reflexivity. Qed.
Lemma tick_byte b s : before_tick (show_byte b ++ String "096" s) = show_byte b.
Proof. destruct b; reflexivity. Qed.
Lemma app_head a b c : (a ++ b = a ++ c)%string -> b = c.
Proof. induction a as [|x a IH]; cbn; intros H; [exact H|]. injection H as H. auto. Qed.
Lemma str_app_length a b : String.length (a ++ b) = (String.length a + String.length b)%nat.
Proof. induction a as [|x a IH]; cbn; [reflexivity|]. rewrite IH. reflexivity. Qed.
Lemma app_tail a b c : (a ++ c = b ++ c)%string -> a = b.
Proof.
  intros H. assert (L : String.length a = String.length b).
  { apply (f_equal String.length) in H. rewrite !str_app_length in H. revert H. generalize (String.length a), (String.length b), (String.length c).
    intros n m k H. apply (f_equal (fun x => (x - k)%nat)) in H. now rewrite !Nat.add_sub in H. }
  revert b H L. induction a as [|x a IH]; intros [|y b] H L; try discriminate L; [reflexivity|].
  cbn in H. injection H as -> H. injection L as L. f_equal. apply IH; assumption.
Qed.

(** the two errors with one text *)
Lemma display_exact e1 e2 : show_perror e1 = show_perror e2 <-> e1 = e2 \/ (out_of_range e1 /\ out_of_range e2).
Proof.
  split; [|intros [ -> | [ [ -> | -> ] [ -> | -> ] ] ]; reflexivity].
  unfold out_of_range. intros H. destruct e1, e2; auto; try discriminate H; left; cbn [show_perror] in H;
    repeat match type of H with String ?c _ = String ?c _ => injection H as H | (String ?c _ ++ _ = String ?c _ ++ _)%string => idtac end.
  - apply (app_head "Unexpected variant id `") in H. pose proof H as T. apply (f_equal before_tick) in T. 
    change (before_tick (show_u8 id ++ String "096" (" for type `" ++ ty ++ "`.")) = before_tick (show_u8 id0 ++ String "096" (" for type `" ++ ty0 ++ "`."))) in T.
    rewrite !tick_u8 in T.
    apply show_u8_inj in T. subst id0. apply app_head in H. apply (app_head "` for type `") in H. apply app_tail in H. subst. reflexivity.
  - apply (app_head "Unexpected `") in H. apply app_tail in H. subst. reflexivity.
  - apply (app_head "Unexpected section id `") in H. apply app_tail in H. apply show_byte_inj in H. subst. reflexivity.
  - apply (app_head "Invalid section id `") in H. apply app_tail in H. apply show_byte_inj in H. subst. reflexivity.
  - apply (app_head "The size of section with id `") in H. apply app_tail in H. apply show_byte_inj in H. subst. reflexivity.
Qed.

(** messages *)
Lemma message_exact prog f os1 os2 m1 m2 t : show_message prog f os1 m1 = Some t -> show_message prog f os2 m2 = Some t ->
  m1 = m2 \/ exists e1 e2, m1 = MsgParse e1 /\ m2 = MsgParse e2 /\ out_of_range e1 /\ out_of_range e2.
Proof.
  destruct m1, m2; cbn [show_message]; intros A B; try discriminate A; try discriminate B; auto;
    rewrite <- A in B; injection B as B; try discriminate B.
  apply (app_head) in B. apply app_tail in B. symmetry in B. apply display_exact in B.
  destruct B as [ -> | [B1 B2]]; [auto|right; eauto 10].
Qed.
Lemma texts args fs1 fs2 os1 os2 m1 m2 t :
  cli args fs1 = Exit 1 [m1] -> cli args fs2 = Exit 1 [m2] -> stdout args fs1 os1 = Some t -> stdout args fs2 os2 = Some t ->
  m1 = m2 \/ exists e1 e2, m1 = MsgParse e1 /\ m2 = MsgParse e2 /\ out_of_range e1 /\ out_of_range e2.
Proof. unfold stdout. intros -> ->. apply message_exact. Qed.
Lemma failures_speak args fs os m : cli args fs = Exit 1 [m] -> exists t, stdout args fs os = Some t.
Proof.
  intros H. unfold stdout. pose proof H as C. rewrite H. apply cli_codes in C. destruct C as [C|[_ [msg [E N]]]]; [discriminate C|].
  injection E as <-. destruct m; cbn [show_message]; eauto. now specialize (N m).
Qed.

Definition unsigned_bytes : list byte := (preamble ++ [x01; xff; xff; xff; xff; x7f])%list.
Definition signed_bytes : list byte := (preamble ++ [x06; x0a; x01; x7f; x00; x41; xff; xff; xff; xff; x3f; x0b])%list.
Lemma texts_refuted : exists args fs1 fs2 m1 m2 t,
  cli args fs1 = Exit 1 [m1] /\ cli args fs2 = Exit 1 [m2] /\ m1 <> m2 /\ (forall os, stdout args fs1 os = Some t /\ stdout args fs2 os = Some t).
Proof.
  exists ["x"; "f"], (fun _ => Contents unsigned_bytes), (fun _ => Contents signed_bytes),
    (MsgParse OutOfRangeUnsignedInteger), (MsgParse OutOfRangeSignedInteger). eexists.
  split; [vm_compute; reflexivity|]. split; [vm_compute; reflexivity|]. split; [discriminate|].
  intros os. split; vm_compute; reflexivity.
Qed.
(** a rejected module is blamed on the end of the file *)
Lemma validate_text_refuted : exists args fs bytes m t,
  p_module bytes = (Ok m, []) /\ (forall name, fs name = Contents bytes) /\ cli args fs = Exit 1 [MsgValidate] /\
  (forall os, stdout args fs os = Some (t ++ show_perror UnexpectedEndOfFile ++ newline)).
Proof.
  exists ["x"; "f"], (fun _ => Contents (preamble ++ [x05; x05; x01; x00; xff; xff; x07])%list), (preamble ++ [x05; x05; x01; x00; xff; xff; x07])%list.
  eexists. eexists (String.append "Error validating file " (String.append quote (String.append "f" (String.append quote (String.append "." newline))))).
  split; [vm_compute; reflexivity|]. split; [reflexivity|]. split; [vm_compute; reflexivity|].
  intros os. vm_compute. reflexivity.
Qed.
Lemma numbers_read b :
  (exists c d, show_byte b = "0x" ++ String c (String d "") /\ upper_hex c /\ upper_hex d /\ HexString.to_N (show_byte b) = Byte.to_N b) /\
  option_map N.of_uint (DecimalString.NilZero.uint_of_string (show_u8 b)) = Some (Byte.to_N b) /\ (show_u8 b = "0" \/ prefix "0" (show_u8 b) = false).
Proof.
  split; [|split; [destruct b; vm_compute; reflexivity|destruct b; vm_compute; auto]].
  exists (hex_digit (Byte.to_N b / 16)), (hex_digit (Byte.to_N b mod 16)). split; [reflexivity|].
  assert (D : forall n, In (hex_digit (N.of_nat n)) (list_ascii_of_string "0123456789ABCDEF") \/ (16 <= n)%nat).
  { intros n. do 16 (destruct n as [|n]; [left; vm_compute; tauto|]). right. repeat apply le_n_S. apply Nat.le_0_l. }
  assert (L : (Byte.to_N b / 16 < 16)%N /\ (Byte.to_N b mod 16 < 16)%N) by (destruct b; vm_compute; auto).
  destruct L as [L1 L2]. split; [|split; [|destruct b; vm_compute; reflexivity]].
  - destruct (D (N.to_nat (Byte.to_N b / 16))) as [H|H]; [rewrite N2Nat.id in H; exact H|lia].
  - destruct (D (N.to_nat (Byte.to_N b mod 16))) as [H|H]; [rewrite N2Nat.id in H; exact H|lia].
Qed.
