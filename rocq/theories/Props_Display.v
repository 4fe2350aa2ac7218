(** Property theorems C56 and C57: the failures of the parser and the text the tool prints on failure. *)
From Coq Require Import String DecimalString HexString.
From Verif Require Import Display SpecDisplay SpecCli SpecFormat SpecErrors DisplayProof ErrorsProof.
Open Scope string_scope.

(** C56.  The full statement is the second theorem without the exception: equal texts mean equal failures. *)
Theorem C56_every_failure_speaks : forall args fs os m, cli args fs = Exit 1 [m] -> exists t, stdout args fs os = Some t.
Proof. exact failures_speak. Qed.
Print Assumptions C56_every_failure_speaks.
Theorem C56_text_partial : forall args fs1 fs2 os1 os2 m1 m2 t,
  cli args fs1 = Exit 1 [m1] -> cli args fs2 = Exit 1 [m2] -> stdout args fs1 os1 = Some t -> stdout args fs2 os2 = Some t ->
  m1 = m2 \/ exists e1 e2, m1 = MsgParse e1 /\ m2 = MsgParse e2 /\ out_of_range e1 /\ out_of_range e2.
Proof. exact texts. Qed.
Print Assumptions C56_text_partial.
Theorem C56_text_refuted : exists args fs1 fs2 m1 m2 t,
  cli args fs1 = Exit 1 [m1] /\ cli args fs2 = Exit 1 [m2] /\ m1 <> m2 /\
  (forall os, stdout args fs1 os = Some t /\ stdout args fs2 os = Some t).
Proof. exact texts_refuted. Qed.
Print Assumptions C56_text_refuted.
(** the exception, exactly *)
Theorem C56_error_text : forall e1 e2, show_perror e1 = show_perror e2 <-> e1 = e2 \/ (out_of_range e1 /\ out_of_range e2).
Proof. exact display_exact. Qed.
Print Assumptions C56_error_text.
(** the numbers in the texts are those of the failure: two upper case hexadecimal digits, or decimal *)
Theorem C56_numbers : forall b,
  (exists c d, show_byte b = "0x" ++ String c (String d "") /\ upper_hex c /\ upper_hex d /\ HexString.to_N (show_byte b) = Byte.to_N b) /\
  option_map N.of_uint (NilZero.uint_of_string (show_u8 b)) = Some (Byte.to_N b) /\ (show_u8 b = "0" \/ prefix "0" (show_u8 b) = false).
Proof. exact numbers_read. Qed.
Print Assumptions C56_numbers.
(** a file that was parsed to its end and rejected by the validator is reported with the text for a premature end of file *)
Theorem C56_validation_text_refuted : exists args fs bytes m t,
  p_module bytes = (Ok m, []) /\ (forall name, fs name = Contents bytes) /\ cli args fs = Exit 1 [MsgValidate] /\
  (forall os, stdout args fs os = Some (t ++ show_perror UnexpectedEndOfFile ++ newline)).
Proof. exact validate_text_refuted. Qed.
Print Assumptions C56_validation_text_refuted.

Definition text_fs (name : string) : file :=
  if String.eqb name "v" then Contents (preamble ++ [x05; x05; x01; x00; xff; xff; x07])%list
  else if String.eqb name "s" then Contents (preamble ++ [x0c])%list
  else if String.eqb name "t" then Contents (preamble ++ [x01; x02; x01; x7f])%list
  else if String.eqb name "l" then Contents (preamble ++ [x05; x04; x01; x00; x01; x00])%list
  else CannotOpen.
Definition lines (l : list string) : option string := Some (String.concat "" (map println l)).
Example C56_example :
  stdout ["x"; "s"] text_fs "" = lines ["Error parsing file ""s""."; "Invalid section id `0x0C`."]
  /\ stdout ["x"; "l"] text_fs "" = lines ["Error parsing file ""l""."; "The size of the element does not match its content."]
  /\ stdout ["x"; "v"] text_fs "" = lines ["Error validating file ""v""."; "Unexpected end of file."]
  /\ stdout ["x"; "n"] text_fs "No such file" = lines ["Could not open file ""n"""; "No such file"]
  /\ stdout ["x"; "-p"] text_fs "" = lines ["Problem pargin input arguments: Not enough arguments."; "Usage: x [-p|--print] file.wasm"].
Proof. repeat split; vm_compute; reflexivity. Qed.

(** C57 *)
Theorem C57_possible_errors : forall e, (exists bs rest, p_module bs = (Err e, rest)) <-> possible_error e.
Proof. exact possible_errors. Qed.
Print Assumptions C57_possible_errors.
(** The errors made for sections and functions of the wrong size are among those that never occur; and the second [else] of an
    [if] is reported as an unknown opcode, whereas an [else] without [if] is reported as [Else]. *)
Example C57_example :
  (forall bs b rest, p_module bs <> (Err (SectionSizeMissmatch b), rest))
  /\ (forall bs rest, p_module bs <> (Err FunctionSizeMissmatch, rest))
  /\ fst (p_module (preamble ++ [x05; x04; x01; x00; x01; x00])%list) = Err SizeMissmatch
  /\ fst (p_module (preamble ++ [x03; x02; x01; x00; x0a; x05; x01; x03; x00; x0b; x01])%list) = Err SizeMissmatch
  /\ fst (p_module (preamble ++ [x06; x07; x01; x7f; x00; x04; x40; x05; x05])%list) = Err (UnexpectedOpcode "Unknown")
  /\ fst (p_module (preamble ++ [x06; x04; x01; x7f; x00; x05])%list) = Err (UnexpectedOpcode "Else").
Proof.
  split; [intros bs b rest H; exact (proj1 (C57_possible_errors _) (ex_intro _ bs (ex_intro _ rest H)))|].
  split; [intros bs rest H; exact (proj1 (C57_possible_errors _) (ex_intro _ bs (ex_intro _ rest H)))|].
  repeat split; vm_compute; reflexivity.
Qed.
