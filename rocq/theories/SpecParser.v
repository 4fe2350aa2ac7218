(** What it means for a parser to be correct: exactness with respect to a format, locality, absence
    of panics.  A parser maps the bytes of an iterator to an outcome and the bytes left. *)
From Verif Require Import ParserCore SpecFormat.
Open Scope N_scope.

(** The iterator is always left at a suffix of the input. *)
Definition suffixing {A} (p : parser A) : Prop := forall bs, exists pre, bs = pre ++ snd (p bs).

(** Neither a panic nor (in the model) lack of fuel. *)
Definition safe {A} (p : parser A) : Prop :=
  forall bs, fst (p bs) <> Panic /\ fst (p bs) <> OutOfFuel.

(** Bytes behind the parsed element do not matter. *)
Definition local_ok {A} (p : parser A) : Prop :=
  forall bs a r, p bs = (Ok a, r) -> forall tl, p (bs ++ tl) = (Ok a, r ++ tl).
(** Errors other than the two an early end of the input causes are stable as well. *)
Definition early_end (e : perror) : Prop := e = UnexpectedEndOfFile \/ e = SizeMissmatch.
Definition local_err {A} (p : parser A) : Prop :=
  forall bs e r, p bs = (Err e, r) -> early_end e \/ forall tl, p (bs ++ tl) = (Err e, r ++ tl).

(** At least one byte is consumed on success. *)
Definition progress {A} (p : parser A) : Prop :=
  forall bs a r, p bs = (Ok a, r) -> (length r < length bs)%nat.

(** A parser decodes a format [E] exactly. *)
Definition exact {A} (p : parser A) (E : format A) : Prop :=
  forall bs a rest, p bs = (Ok a, rest) <-> exists pre, bs = pre ++ rest /\ E pre a.
(** The same for parsers that are given exactly their bytes. *)
Definition exact_all {A} (p : parser A) (E : format A) : Prop :=
  forall bs a, p bs = (Ok a, []) <-> E bs a.

(** A proper prefix of an encoding fails with one of the two errors of an early end. *)
Definition truncation_safe {A} (p : parser A) : Prop :=
  forall pre suf a r, p (pre ++ suf) = (Ok a, r) -> (length r < length suf)%nat ->
    exists e r', p pre = (Err e, r') /\ early_end e.
