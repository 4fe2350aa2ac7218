(** The one-line form ([{:?}]) of a [Debug] text, and the errors and proxies of the library as values: [Debug] and [PartialEq] of
    binary::Error (whasm/src/binary/core/error.rs:7-47), [Debug] of validation::Error (whasm/src/validation/error.rs:5-9),
    [Debug], [PartialEq] and [From] of Byte (whasm/src/binary/core/byte.rs:60-100) and of Sized (whasm/src/binary/core/sized.rs:61-82). *)
From Coq Require Import String Ascii.
From Verif Require Export DebugText.
Open Scope string_scope.

(** [DebugStruct], [DebugTuple], [DebugList] without the alternate flag.  Numbers and strings have the same text in both forms. *)
Fixpoint line (t : dtree) : string :=
  match t with
  | D_leaf s => s
  | D_struct nm [] => nm
  | D_struct nm fs => nm ++ " { " ++ String.concat ", " (map (fun f => fst f ++ ": " ++ line (snd f)) fs) ++ " }"
  | D_tuple nm [] => nm
  | D_tuple nm ts => nm ++ "(" ++ String.concat ", " (map line ts) ++ ")"
  | D_list ts => "[" ++ String.concat ", " (map line ts) ++ "]"
  end.

(** byte.rs:66-70 *)
Definition d_byte (b : byte) : dtree := D_leaf (show_byte b).
(** [Debug] of a [&'static str] *)
Definition d_str (std : std_texts) (s : string) : dtree := d_name std (list_byte_of_string s).
(** error.rs:7, derived *)
Definition d_perror (std : std_texts) (e : perror) : dtree :=
  match e with
  | UnexpectedEndOfFile => D_leaf "UnexpectedEndOfFile"
  | InvalidVariantId id ty => D_struct "InvalidVariantId" [("id", d_u8 id); ("ty", d_str std ty)]
  | OutOfRangeSignedInteger => D_leaf "OutOfRangeSignedInteger"
  | OutOfRangeUnsignedInteger => D_leaf "OutOfRangeUnsignedInteger"
  | InvalidUtf8Encoding => D_leaf "InvalidUtf8Encoding"
  | UnexpectedOpcode i => D_struct "UnexpectedOpcode" [("instr", d_str std i)]
  | InvalidPreambleMagic => D_leaf "InvalidPreambleMagic"
  | InvalidPreambleVersion => D_leaf "InvalidPreambleVersion"
  | UnexpectedSectionId id => D_struct "UnexpectedSectionId" [("id", d_byte id)]
  | InvalidSectionId id => D_struct "InvalidSectionId" [("id", d_byte id)]
  | SectionSizeMissmatch id => D_struct "SectionSizeMissmatch" [("id", d_byte id)]
  | FunctionSizeMissmatch => D_leaf "FunctionSizeMissmatch"
  | SizeMissmatch => D_leaf "SizeMissmatch"
  end.
(** validation/error.rs:5, derived *)
Definition d_verror : dtree := D_leaf "UnexpectedEndOfFile".
(** sized.rs:78-82 *)
Definition d_sized {A} (d : A -> dtree) (x : A) : dtree := D_tuple "Sized" [d x].

(** byte.rs:72-94; a [char] by its code point *)
Definition byte_eq_u8 (b : byte) (n : N) : bool := (Byte.to_N b =? n)%N.
Definition byte_eq_char (b : byte) (c : N) : bool := (Byte.to_N b =? c)%N.
Definition byte_eq (a b : byte) : bool := (Byte.to_N a =? Byte.to_N b)%N.
(** byte.rs:96-102 *)
Definition u8_from_byte (b : byte) : N := Byte.to_N b.
Definition char_from_byte (b : byte) : N := Byte.to_N b.
(** sized.rs:66-76 *)
Definition sized_eq_inner {A} (eq : A -> A -> bool) (x y : A) : bool := eq x y.
Definition sized_eq {A} (eq : A -> A -> bool) (x y : A) : bool := eq x y.
(** error.rs:7, derived: the same variant, and equal fields; the fields of the section errors are compared by [PartialEq<Byte>] of [Byte] *)
Definition perror_eq (e1 e2 : perror) : bool :=
  match e1, e2 with
  | UnexpectedEndOfFile, UnexpectedEndOfFile => true
  | InvalidVariantId i1 t1, InvalidVariantId i2 t2 => (Byte.to_N i1 =? Byte.to_N i2)%N && String.eqb t1 t2
  | OutOfRangeSignedInteger, OutOfRangeSignedInteger => true
  | OutOfRangeUnsignedInteger, OutOfRangeUnsignedInteger => true
  | InvalidUtf8Encoding, InvalidUtf8Encoding => true
  | UnexpectedOpcode s1, UnexpectedOpcode s2 => String.eqb s1 s2
  | InvalidPreambleMagic, InvalidPreambleMagic => true
  | InvalidPreambleVersion, InvalidPreambleVersion => true
  | UnexpectedSectionId i1, UnexpectedSectionId i2 => byte_eq i1 i2
  | InvalidSectionId i1, InvalidSectionId i2 => byte_eq i1 i2
  | SectionSizeMissmatch i1, SectionSizeMissmatch i2 => byte_eq i1 i2
  | FunctionSizeMissmatch, FunctionSizeMissmatch => true
  | SizeMissmatch, SizeMissmatch => true
  | _, _ => false
  end.
