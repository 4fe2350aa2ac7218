(** Specification: the failures with which the parsing of a module can end. *)
From Coq Require Import String.
From Verif Require Export ParserCore SpecReserved.
From Verif Require Import SpecFormat.
Open Scope N_scope.

(** the name of a kind of element, and the bytes with which an element of that kind cannot start *)
Definition unexpected_in (ty : string) (b : byte) : Prop :=
  (ty = "instr::Instr"%string /\ reserved_opcode b) \/
  (ty = "ty::Val"%string /\ forall t, b <> valty_byte t) \/
  (ty = "ty::Func"%string /\ b <> x60) \/
  (ty = "ty::Limits"%string /\ 1 < Byte.to_N b) \/
  (ty = "ty::Elem"%string /\ b <> x70) \/
  (ty = "ty::Mut"%string /\ 1 < Byte.to_N b) \/
  (ty = "module::desc::Import"%string /\ 3 < Byte.to_N b) \/
  (ty = "module::desc::Export"%string /\ 3 < Byte.to_N b).
Definition possible_error (e : perror) : Prop :=
  match e with
  | UnexpectedEndOfFile | OutOfRangeSignedInteger | OutOfRangeUnsignedInteger | InvalidUtf8Encoding
  | InvalidPreambleMagic | InvalidPreambleVersion | SizeMissmatch => True
  | InvalidVariantId b ty => unexpected_in ty b
  | UnexpectedOpcode i => i = "Else"%string \/ i = "Unknown"%string
  | UnexpectedSectionId b => 1 <= Byte.to_N b <= 11
  | InvalidSectionId b => 12 <= Byte.to_N b
  | SectionSizeMissmatch _ | FunctionSizeMissmatch => False
  end.
