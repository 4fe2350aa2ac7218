(** The elements that can be parsed (see ElementSpec.v), each with its two models: on an iterator that may panic and
    on the list of the bytes the iterator yields. *)
From Verif Require Export ParserFaulty.
Open Scope N_scope.

Inductive faulty_models : forall A, jp A -> parser A -> Prop :=
| fm_byte : faulty_models _ j_byte p_byte
| fm_u8 : faulty_models _ j_u8 p_u8
| fm_u16 : faulty_models _ j_u16 p_u16
| fm_u32 : faulty_models _ j_u32 p_u32
| fm_u64 : faulty_models _ j_u64 p_u64
| fm_i8 : faulty_models _ j_i8 p_i8
| fm_i16 : faulty_models _ j_i16 p_i16
| fm_i32 : faulty_models _ j_i32 p_i32
| fm_i64 : faulty_models _ j_i64 p_i64
| fm_f32 : faulty_models _ j_f32 p_f32
| fm_f64 : faulty_models _ j_f64 p_f64
| fm_string : faulty_models _ j_string p_string
| fm_limits : faulty_models _ j_limits p_limits
| fm_valty : faulty_models _ j_valty p_valty
| fm_elemty : faulty_models _ j_elemty p_elemty
| fm_retval : faulty_models _ j_retval p_retval
| fm_functy : faulty_models _ j_functy p_functy
| fm_tablety : faulty_models _ j_tablety p_tablety
| fm_memty : faulty_models _ j_memty p_memty
| fm_mut : faulty_models _ j_mut p_mut
| fm_globalty : faulty_models _ j_globalty p_globalty
| fm_instr_top : faulty_models _ j_instr_top p_instr_top
| fm_expr : faulty_models _ j_expr p_expr
| fm_constexpr : faulty_models _ j_constexpr p_constexpr
| fm_func : faulty_models _ j_func p_func
| fm_table : faulty_models _ j_table p_table
| fm_mem : faulty_models _ j_mem p_mem
| fm_global : faulty_models _ j_global p_global
| fm_elem : faulty_models _ j_elem p_elem
| fm_data : faulty_models _ j_data p_data
| fm_start : faulty_models _ j_start p_start
| fm_importdesc : faulty_models _ j_importdesc p_importdesc
| fm_exportdesc : faulty_models _ j_exportdesc p_exportdesc
| fm_import : faulty_models _ j_import p_import
| fm_export : faulty_models _ j_export p_export
| fm_custom : faulty_models _ (j_sized j_custom) (p_sized p_custom)
| fm_section id s : faulty_models _ (j_section id s) (p_section id s)
| fm_vec A j (p : parser A) : faulty_models A j p -> faulty_models _ (j_vec j) (p_vec p)
| fm_unwrapping_vec A B j (p : parser A) (u : A -> B) : faulty_models A j p -> faulty_models _ (j_unwrapping_vec j u) (p_unwrapping_vec p u)
| fm_compact_vec A j (p : parser A) : faulty_models A j p -> faulty_models _ (j_compact_vec j) (p_compact_vec p)
| fm_array A n j (p : parser A) : faulty_models A j p -> faulty_models _ (j_array n j) (p_array n p)
| fm_sized A j (p : parser A) : faulty_models A j p -> faulty_models _ (j_sized j) (p_sized p).
