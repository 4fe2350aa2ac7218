(** The unit tests and documentation examples of the repository, replayed on the model.
    Each [Example] is one assertion of the cited test; all are decided by computation. *)
From Coq Require Import String.
From Verif Require Import ParserModule ValidatorModule.
Open Scope N_scope.

(** The value parsed and whether the iterator is then empty are both visible in the result. *)

(** *** binary/core/byte.rs:23-43 and 102-121 *)
Example t_can_parse_byte : p_byte [x8e] = (Ok x8e, []). Proof. reflexivity. Qed.
Example t_can_return_eof_error : p_byte [] = (Err UnexpectedEndOfFile, []). Proof. reflexivity. Qed.

(** *** binary/core/unsigned.rs:9-33 *)
Example t_u8_doc1 : p_u8 [x2a] = (Ok 42, []). Proof. reflexivity. Qed.
Example t_u8_doc2 : p_u8 [xaa; x80; x00] = (Ok 42, []). Proof. reflexivity. Qed.
Example t_u8_doc3 : fst (p_u8 [xaa; x02]) = Err OutOfRangeUnsignedInteger. Proof. reflexivity. Qed.
(** *** binary/core/unsigned.rs:99-135 *)
Example t_can_parse_spec_u8 : p_u8 [x03] = (Ok 3, []). Proof. reflexivity. Qed.
Example t_can_parse_multibyte_spec_u8 : p_u8 [x83; x00] = (Ok 3, []). Proof. reflexivity. Qed.
Example t_fails_to_parse_spec_multibyte_u8 :
  fst (p_u8 [x83; x10]) = Err OutOfRangeUnsignedInteger. Proof. reflexivity. Qed.
Example t_can_parse_multibyte_u8 : p_u8 [x8e; x81; x80; x00] = (Ok 142, []). Proof. reflexivity. Qed.
Example t_fails_to_parse_overflowing_u8 :
  fst (p_u8 [x8e; x82; x80; x00]) = Err OutOfRangeUnsignedInteger. Proof. reflexivity. Qed.

(** *** binary/core/signed.rs:9-34 *)
Example t_i8_doc1 : p_i8 [x56] = (Ok (-42)%Z, []). Proof. reflexivity. Qed.
Example t_i8_doc2 : p_i8 [xd6; xff; x7f] = (Ok (-42)%Z, []). Proof. reflexivity. Qed.
Example t_i8_doc3 : fst (p_i8 [xd6; x7e]) = Err OutOfRangeSignedInteger. Proof. reflexivity. Qed.
(** *** binary/core/signed.rs:107-171 *)
Example t_can_parse_spec_i8 : p_i8 [x7e] = (Ok (-2)%Z, []). Proof. reflexivity. Qed.
Example t_can_parse_spec_multibyte_i8 : p_i8 [xfe; x7f] = (Ok (-2)%Z, []). Proof. reflexivity. Qed.
Example t_can_parse_second_spec_multibyte_i8 :
  p_i8 [xfe; xff; x7f] = (Ok (-2)%Z, []). Proof. reflexivity. Qed.
Example t_fails_to_parse_spec_multibyte_i8 :
  fst (p_i8 [x83; x3e]) = Err OutOfRangeSignedInteger. Proof. reflexivity. Qed.
Example t_fails_to_parse_second_spec_multibyte_i8 :
  fst (p_i8 [xff; x7b]) = Err OutOfRangeSignedInteger. Proof. reflexivity. Qed.
Example t_can_parse_positive_i8 : p_i8 [x2a] = (Ok 42%Z, []). Proof. reflexivity. Qed.
Example t_can_parse_multibyte_positive_i8 : p_i8 [xea; x00] = (Ok 106%Z, []). Proof. reflexivity. Qed.
Example t_fails_to_parse_overflowing_positive_i8 :
  fst (p_i8 [xd6; x81; x80; x00]) = Err OutOfRangeSignedInteger. Proof. reflexivity. Qed.
Example t_fails_to_parse_overflowing_negative_i8 :
  fst (p_i8 [xd6; xfe; x80; x7f]) = Err OutOfRangeSignedInteger. Proof. reflexivity. Qed.

(** *** binary/core/float.rs:10-26 and 54-71.  Pi is the nearest float to pi, here as its bits
    [0x40490FDB] and [0x400921FB54442D18]. *)
Example t_can_parse_f32_pi : p_f32 [xdb; x0f; x49; x40] = (Ok 0x40490FDB, []). Proof. reflexivity. Qed.
Example t_can_parse_f64_pi :
  p_f64 [x18; x2d; x44; x54; xfb; x21; x09; x40] = (Ok 0x400921FB54442D18, []).
Proof. reflexivity. Qed.

(** *** binary/core/array.rs:8-13 and 119-131 *)
Example t_can_deserialize_empty_array : p_array 0 p_byte [] = (Ok [], []). Proof. reflexivity. Qed.
Example t_can_deserialize_4_element_array :
  p_array 4 p_byte [x01; x02; x03; x04] = (Ok [x01; x02; x03; x04], []). Proof. reflexivity. Qed.

(** *** binary/core/vec.rs:27-52 and 107-126 *)
Example t_can_deserialize_vec :
  p_vec p_u8 [x04; x01; x02; x03; x04] = (Ok [1; 2; 3; 4], []). Proof. reflexivity. Qed.
Example t_compact_vec_doc :
  p_compact_vec p_u8 [x02; x01; x02; x03; x04] = (Ok [2; 4; 4; 4], []). Proof. reflexivity. Qed.
Example t_can_deserialize_compact_vec :
  p_compact_vec p_u8 [x02; x02; x2a; x03; x8e; x01] = (Ok [42; 42; 142; 142; 142], []).
Proof. reflexivity. Qed.
Example t_unwrapping_vec_doc :
  p_unwrapping_vec p_byte (fun b => b) [x03; x2a; x8a; x42] = (Ok [x2a; x8a; x42], []).
Proof. reflexivity. Qed.
Example t_can_deserialize_unwrapping_vec :
  p_unwrapping_vec p_byte (fun b => b) [x03; x2a; x2a; x2a] = (Ok [x2a; x2a; x2a], []).
Proof. reflexivity. Qed.

(** *** binary/core/sized.rs:13-41 and 91-114 *)
Example t_sized_doc1 : p_sized (p_array 2 p_byte) [x02; x2a; x2b] = (Ok [x2a; x2b], []).
Proof. reflexivity. Qed.
Example t_sized_doc2 : fst (p_sized p_byte [x02; x2a; x2b]) = Err SizeMissmatch.
Proof. reflexivity. Qed.
Example t_sized_doc3 : (_ <- p_sized p_consume ;; p_byte) [x02; x2a; x2b; x2c] = (Ok x2c, []).
Proof. reflexivity. Qed.
Example t_can_parse_sized_element : p_sized (p_array 2 p_byte) [x02; x01; x02] = (Ok [x01; x02], []).
Proof. reflexivity. Qed.
Example t_fails_to_parse_sized_element :
  fst (p_sized (p_array 2 p_byte) [x03; x01; x02; x03]) = Err SizeMissmatch. Proof. reflexivity. Qed.
Example t_can_parse_consume : exists c, p_sized p_consume [x02; x01; x02] = (Ok c, []).
Proof. eexists. reflexivity. Qed.

(** *** binary/module.rs:190-235; the bytes are also those of the file test.wasm *)
Definition test_wasm : list byte := [
  x00; x61; x73; x6d; x01; x00; x00; x00; x01; x85; x80; x80; x80; x00; x01; x60;
  x00; x01; x7f; x03; x82; x80; x80; x80; x00; x01; x00; x04; x84; x80; x80; x80;
  x00; x01; x70; x00; x00; x06; x81; x80; x80; x80; x00; x00; x07; x88; x80; x80;
  x80; x00; x01; x04; x74; x65; x73; x74; x00; x00; x0a; x8a; x80; x80; x80; x00;
  x01; x84; x80; x80; x80; x00; x00; x41; x2a; x0b].
Definition test_module : module := {|
  m_types := [mkFuncTy [] [T_I32]];
  m_funcs := [mkFunc 0 [] [I_ConstI32 42%Z]];
  m_tables := [mkTable (mkTableTy (mkLimits 0 None) FuncRef)];
  m_mems := [];
  m_globals := [];
  m_elem := [];
  m_data := [];
  m_start := None;
  m_imports := [];
  m_exports := [mkExport [x74; x65; x73; x74] (ED_Func 0)] |}.
Example t_can_deserialize_wasm_file : p_module test_wasm = (Ok test_module, []).
Proof. vm_compute. reflexivity. Qed.
(** The command line applied to test.wasm goes on to validate the module. *)
Example t_test_wasm_is_valid : match validate test_module with VOk _ => True | _ => False end.
Proof. vm_compute. exact I. Qed.
