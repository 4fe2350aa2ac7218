(** Specification for the texts of errors: the two failures that the tool does not tell apart. *)
From Coq Require Import String Ascii.
From Verif Require Export ParserCore.

Definition out_of_range (e : perror) : Prop := e = OutOfRangeSignedInteger \/ e = OutOfRangeUnsignedInteger.

(** An upper case hexadecimal digit *)
Definition upper_hex (c : ascii) : Prop := In c (list_ascii_of_string "0123456789ABCDEF").
