(** What the command line means, stated without the argument loop. *)
From Coq Require Import String.
From Verif Require Export Cli.

Definition is_flag (a : string) : Prop := a = "-p"%string \/ a = "--print"%string.
(** the file name is the last argument that is not a flag; it must not be empty *)
Definition names_file (args : list string) (name : string) : Prop :=
  exists prog pre post, args = prog :: pre ++ name :: post /\ ~ is_flag name /\ Forall is_flag post /\ name <> EmptyString.
(** some argument after the program name asks for printing *)
Definition asks_print (args : list string) : Prop := exists prog rest a, args = prog :: rest /\ In a rest /\ is_flag a.
