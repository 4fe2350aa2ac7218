(** Vocabulary for claims about the older parser (Grammar.v). *)
From Verif Require Export Grammar SpecFormat.

(** The parser reads exactly the encodings of the format, whatever follows them. *)
Definition gexact {A} (p : gparser A) (E : format A) : Prop :=
  forall bs a rest, p bs = (GOk a, rest) <-> exists pre, bs = pre ++ rest /\ E pre a.
(** A value or an error, whatever the input. *)
Definition gtotal {A} (p : gparser A) : Prop :=
  forall bs, (exists a rest, p bs = (GOk a, rest)) \/ exists e rest, p bs = (GErr e, rest).
(** Two parsers end in the same way: with the same value and the same rest, or both with an error
    (which error may differ), or both with a panic. *)
Definition same {A} (x : outcome A * list byte) (y : gresult A * list byte) : Prop :=
  match x, y with
  | (Ok a, r), (GOk b, r') => a = b /\ r = r'
  | (Err _, _), (GErr _, _) => True
  | (Panic, _), (GPanic, _) => True
  | (OutOfFuel, _), (GOutOfFuel, _) => True
  | _, _ => False
  end.
Definition agree {A} (p : parser A) (g : gparser A) : Prop := forall bs, same (p bs) (g bs).

(** Its sections are those of the specification. *)
Definition section_of (s : gsection) : section :=
  match s with
  | GS_Custom v => S_Custom v | GS_Type v => S_Type v | GS_Import v => S_Import v | GS_Function v => S_Function v
  | GS_Table v => S_Table v | GS_Memory v => S_Memory v | GS_Global v => S_Global v | GS_Export v => S_Export v
  | GS_Start v => S_Start v | GS_Element v => S_Element v | GS_Code v => S_Code v | GS_Data v => S_Data v
  end.
