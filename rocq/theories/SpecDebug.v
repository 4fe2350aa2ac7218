(** Specification vocabulary for the printout of a module: floating point texts of the standard library, and modules up to the
    payload of NaNs. *)
From Coq Require Import String Ascii.
From Verif Require Export SpecFloat.
From Verif Require Import Structure DebugText.
Open Scope N_scope.

(** letters, digits, [+], [-], [.] *)
Definition float_char (c : ascii) : bool :=
  let n := N_of_ascii c in
  ((48 <=? n) && (n <=? 57)) || ((65 <=? n) && (n <=? 90)) || ((97 <=? n) && (n <=? 122)) || (n =? 43) || (n =? 45) || (n =? 46).
Definition float_text (s : string) : Prop := s <> EmptyString /\ Forall (fun c => float_char c = true) (list_ascii_of_string s).
(** What the standard library is assumed to do: texts of different numbers differ, all NaNs have the same text *)
Record honest (std : std_texts) : Prop := mkHonest {
  text32 : forall x y, std_f32 std x = std_f32 std y <-> x = y \/ (nan32 x = true /\ nan32 y = true);
  text64 : forall x y, std_f64 std x = std_f64 std y <-> x = y \/ (nan64 x = true /\ nan64 y = true);
  chars32 : forall x, float_text (std_f32 std x);
  chars64 : forall x, float_text (std_f64 std x)
}.

(** a module with every NaN replaced by the same one *)
Fixpoint one_nan (i : instr) : instr :=
  match i with
  | I_Block rt b => I_Block rt (map one_nan b)
  | I_Loop rt b => I_Loop rt (map one_nan b)
  | I_If rt b c => I_If rt (map one_nan b) (map one_nan c)
  | I_ConstF32 x => I_ConstF32 (if nan32 x then 0x7FC00000 else x)
  | I_ConstF64 x => I_ConstF64 (if nan64 x then 0x7FF8000000000000 else x)
  | _ => i
  end.
Definition module_one_nan (m : module) : module := map_code one_nan m.
