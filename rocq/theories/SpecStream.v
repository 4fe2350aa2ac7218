(** Reading a stream in one pass: what a parser has read settles what it reports. *)
From Verif Require Import ParserCore.

(** If the parser stopped, with success or with an error, before the end of its input, then the bytes
    it left alone do not matter: any others could have been there instead, or none. *)
Definition one_pass {A} (p : parser A) : Prop :=
  forall pre r o, p (pre ++ r) = (o, r) -> r <> [] -> forall r', p (pre ++ r') = (o, r').
