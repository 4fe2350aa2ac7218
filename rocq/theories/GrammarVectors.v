(** The unit tests and documentation examples of whasm/src/grammar/core, replayed on Grammar.v.  Those of derive.rs are the
    evidence that [g_sized], [g_enum], [g_forward] and [g_matching] do what the documentation of the macro promises. *)
From Verif Require Import Grammar.
Open Scope N_scope.

Definition gfails {A} (p : gparser A) (bs : list byte) : Prop := exists e r, p bs = (GErr e, r).
Ltac replay := first [vm_compute; reflexivity | eexists _, _; vm_compute; reflexivity].

(** *** unsigned.rs *)
Example unsigned_doc : g_u8 [x2a] = (GOk 42, []) /\ g_u8 [xaa; x80; x00] = (GOk 42, []) /\ gfails g_u8 [xaa; x80] /\ gfails g_u8 [xaa; x02].
Proof. repeat match goal with |- _ /\ _ => split end; replay. Qed.
Example unsigned_tests : g_u8 [x03] = (GOk 3, []) /\ g_u8 [x83; x00] = (GOk 3, []) /\ gfails g_u8 [x83; x10]
  /\ g_u8 [x8e; x81; x80; x00] = (GOk 142, []) /\ gfails g_u8 [x8e; x82; x80; x00].
Proof. repeat match goal with |- _ /\ _ => split end; replay. Qed.
(** *** signed.rs *)
Example signed_doc : g_i8 [x56] = (GOk (-42)%Z, []) /\ g_i8 [xd6; xff; x7f] = (GOk (-42)%Z, []) /\ gfails g_i8 [xd6; xff] /\ gfails g_i8 [xd6; x7e].
Proof. repeat match goal with |- _ /\ _ => split end; replay. Qed.
Example signed_tests : g_i8 [x7e] = (GOk (-2)%Z, []) /\ g_i8 [xfe; x7f] = (GOk (-2)%Z, []) /\ g_i8 [xfe; xff; x7f] = (GOk (-2)%Z, [])
  /\ gfails g_i8 [x83; x3e] /\ gfails g_i8 [xff; x7b] /\ g_i8 [x2a] = (GOk 42%Z, []) /\ g_i8 [xea; x00] = (GOk 106%Z, [])
  /\ gfails g_i8 [xd6; x81; x80; x00] /\ gfails g_i8 [xd6; xfe; x80; x7f].
Proof. repeat match goal with |- _ /\ _ => split end; replay. Qed.
(** *** byte.rs, array.rs *)
Example byte_tests : g_byte [x8e] = (GOk x8e, []) /\ (x <~ g_byte ;; g_byte) [x00] = (GErr G_UnexpectedEndOfStream, [])
  /\ g_times 0 g_byte [] = (GOk [], []) /\ g_times 4 g_byte [x01; x02; x03; x04] = (GOk [x01; x02; x03; x04], []).
Proof. repeat match goal with |- _ /\ _ => split end; replay. Qed.
(** *** vec.rs *)
Example vec_tests : g_vec g_u8 [x04; x01; x02; x03; x04] = (GOk [1; 2; 3; 4], [])
  /\ g_vecvec g_u8 [x02; x02; x2a; x03; x8e; x01] = (GOk [42; 42; 142; 142; 142], []).
Proof. repeat match goal with |- _ /\ _ => split end; replay. Qed.
(** *** list.rs *)
Example list_tests : g_list g_byte [x01; x02; x03; x04] = (GOk [x01; x02; x03; x04], [])
  /\ gfails (g_list g_f32) [x00; x00; x00; x00; x05; x06]
  /\ g_list g_u8 [x2a; xaa; x00; xaa; x80; x00] = (GOk [42; 42; 42], []).
Proof. repeat match goal with |- _ /\ _ => split end; replay. Qed.
(** *** float.rs: pi *)
Example float_tests : g_f32 [xdb; x0f; x49; x40] = (GOk 0x40490fdb, [])
  /\ g_f64 [x18; x2d; x44; x54; xfb; x21; x09; x40] = (GOk 0x400921fb54442d18, []).
Proof. repeat match goal with |- _ /\ _ => split end; replay. Qed.
(** *** string.rs *)
Example string_tests : g_string [x0a; x48; x65; x61; x72; x74; x20; xf0; x9f; x92; x96]
  = (GOk [x48; x65; x61; x72; x74; x20; xf0; x9f; x92; x96], []).
Proof. replay. Qed.

(** *** derive.rs:1-78 *)
Inductive programming := Rust (edition : N) | Cpp | JavaScript.
Inductive language := English | French | Spanish | Programming (p : programming).
Definition g_programming : gparser programming := g_enum (fun b =>
  match b with
  | x04 => e <~ g_u32 ;; gret (Rust e)
  | x05 => gret Cpp
  | x06 => gret JavaScript
  | _ => g_no_variant
  end).
Definition g_language : gparser language := g_enum (fun b =>
  match b with
  | x00 => gret English
  | x01 => gret French
  | x02 => gret Spanish
  | _ => p <~ g_forward b g_programming ;; gret (Programming p)
  end).
Example derive_person :
  (n <~ g_string ;; a <~ g_u32 ;; l <~ g_vec g_language ;; gret (n, a, l)) [x03; x4a; x6f; x65; x2a; x02; x00; x04; xe2; x0f]
  = (GOk ([x4a; x6f; x65], 42, [English; Programming (Rust 2018)]), []).
Proof. replay. Qed.
(** derive.rs:88-150, 415-430, 492-501: fields in order, of a [struct] and of a variant *)
Example derive_struct :
  (a <~ g_u32 ;; n <~ g_string ;; gret (a, n)) [x2a; x04; x74; x65; x73; x74] = (GOk (42, [x74; x65; x73; x74]), [])
  /\ g_enum (fun b => match b with x03 => a <~ g_u32 ;; n <~ g_string ;; gret (a, n) | _ => g_no_variant end)
       [x03; x2a; x04; x74; x65; x73; x74] = (GOk (42, [x74; x65; x73; x74]), [])
  /\ (a <~ g_u32 ;; n <~ g_string ;; gret (a, n)) [x2a; x02; x34; x32; x03; x01; x02; x03] = (GOk (42, [x34; x32]), [x03; x01; x02; x03]).
Proof. repeat match goal with |- _ /\ _ => split end; replay. Qed.
(** derive.rs:161-213, 455-489, 525-553 *)
Example derive_sized :
  g_sized g_string [x05; x04; x74; x65; x73; x74] = (GOk [x74; x65; x73; x74], [])
  /\ gfails (g_sized g_string) [x04; x04; x74; x65; x73; x74; x00] /\ gfails (g_sized g_string) [x06; x04; x74; x65; x73; x74; x00]
  /\ g_sized g_u32 [x04; xaa; x80; x80; x00] = (GOk 42, [])
  /\ gfails (g_sized g_u32) [x05; xaa; x80; x80; x00; x00] /\ gfails (g_sized g_u32) [x04; xaa; x80; x80; x80; x00]
  /\ g_enum (fun b => match b with x11 => g_sized g_u32 | _ => g_no_variant end) [x11; x04; xaa; x80; x80; x00] = (GOk 42, [])
  /\ gfails (g_enum (fun b => match b with x11 => g_sized g_u32 | _ => g_no_variant end)) [x11; x05; xaa; x80; x80; x00; x00]
  /\ gfails (g_enum (fun b => match b with x11 => g_sized g_u32 | _ => g_no_variant end)) [x11; x04; xaa; x80; x80; x80; x00].
Proof. repeat match goal with |- _ /\ _ => split end; replay. Qed.
(** derive.rs:215-271, 432-452 *)
Example derive_matching :
  g_matching (g_times 4 g_byte) (fun a => bytes_are a [1; 2; 3; 4]) [x01; x02; x03; x04] = (GOk [x01; x02; x03; x04], [])
  /\ gfails (g_matching g_u8 (fun v => v =? 42)) [x6f] /\ g_matching g_u32 (fun v => v =? 42) [x2a] = (GOk 42, [])
  /\ gfails (g_matching g_u32 (fun v => v =? 42)) [x2b].
Proof. repeat match goal with |- _ /\ _ => split end; replay. Qed.
(** derive.rs:276-324, 503-522: patterns in order; derive.rs:328-406, 555-575: the byte goes to the variant as well *)
Definition some_enum : gparser nat := g_enum (fun b =>
  if (Byte.to_N b <=? 0x10) || (Byte.to_N b =? 0x80) then gret 1%nat else if 0x60 <? Byte.to_N b then gret 2%nat else g_no_variant).
Definition forwarding : gparser (option byte) := g_enum (fun b =>
  if Byte.to_N b =? 0 then gret None
  else if (0x10 <=? Byte.to_N b) && (Byte.to_N b <=? 0x7F) then x <~ g_forward b g_byte ;; gret (Some x) else g_no_variant).
Definition inner : gparser (nat * N) := g_enum (fun b =>
  if (0x11 <=? Byte.to_N b) && (Byte.to_N b <=? 0x21) then v <~ g_u8 ;; gret (1%nat, v)
  else if Byte.to_N b =? 0x22 then v <~ g_u8 ;; gret (2%nat, v) else g_no_variant).
Definition outer : gparser (nat * N + nat * N) := g_enum (fun b =>
  match b with
  | x33 => v <~ g_u8 ;; gret (inl (1%nat, v))
  | x44 => v <~ g_u8 ;; gret (inl (2%nat, v))
  | _ => e <~ g_forward b inner ;; gret (inr e)
  end).
Example derive_enum :
  some_enum [x80] = (GOk 1%nat, []) /\ gfails some_enum [x20] /\ forwarding [x2a] = (GOk (Some x2a), [])
  /\ inner [x11; x03] = (GOk (1%nat, 3), []) /\ gfails inner [x55; x03]
  /\ outer [x22; x03] = (GOk (inr (2%nat, 3)), []) /\ gfails outer [x55; x03].
Proof. repeat match goal with |- _ /\ _ => split end; replay. Qed.
