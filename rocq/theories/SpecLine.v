(** Specification vocabulary for errors as values: the strings inside an error. *)
From Coq Require Import String.
From Verif Require Export ParserCore.
Definition error_strings (e : perror) : list (list byte) :=
  match e with
  | InvalidVariantId _ ty => [list_byte_of_string ty]
  | UnexpectedOpcode i => [list_byte_of_string i]
  | _ => []
  end.
