(** IEEE 754 binary formats as bit patterns, and modules up to a change of their code. *)
From Verif Require Import Structure.
Open Scope N_scope.

(** binary32: sign, 8 bits of exponent, 23 bits of mantissa *)
Definition exponent32 (x : f32) : N := x / 2 ^ 23 mod 2 ^ 8.
Definition mantissa32 (x : f32) : N := x mod 2 ^ 23.
Definition nan32 (x : f32) : bool := (exponent32 x =? 255) && negb (mantissa32 x =? 0).
Definition zero32 (x : f32) : bool := (exponent32 x =? 0) && (mantissa32 x =? 0).
(** binary64: sign, 11 bits of exponent, 52 bits of mantissa *)
Definition exponent64 (x : f64) : N := x / 2 ^ 52 mod 2 ^ 11.
Definition mantissa64 (x : f64) : N := x mod 2 ^ 52.
Definition nan64 (x : f64) : bool := (exponent64 x =? 2047) && negb (mantissa64 x =? 0).
Definition zero64 (x : f64) : bool := (exponent64 x =? 0) && (mantissa64 x =? 0).

(** a module with every expression changed by [h], instruction by instruction *)
Definition map_code (h : instr -> instr) (m : module) : module :=
  mkModule (m_types m) (map (fun f => mkFunc (fn_ty f) (fn_locals f) (map h (fn_body f))) (m_funcs m))
    (m_tables m) (m_mems m) (map (fun g => mkGlobal (glob_ty g) (map h (glob_init g))) (m_globals m))
    (map (fun e => mkElem (el_table e) (map h (el_offset e)) (el_init e)) (m_elem m))
    (map (fun d => mkData (da_mem d) (map h (da_offset d)) (da_init d)) (m_data m))
    (m_start m) (m_imports m) (m_exports m).
