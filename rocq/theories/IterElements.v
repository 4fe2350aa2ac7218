(** The elements that can be parsed (see ElementSpec.v), each with its two models: on an iterator and
    on the list of the bytes the iterator yields. *)
From Verif Require Export ParserIter.
Open Scope N_scope.

Inductive models : forall A, ip A -> parser A -> Prop :=
| mo_byte : models _ i_byte p_byte
| mo_u8 : models _ i_u8 p_u8
| mo_u16 : models _ i_u16 p_u16
| mo_u32 : models _ i_u32 p_u32
| mo_u64 : models _ i_u64 p_u64
| mo_i8 : models _ i_i8 p_i8
| mo_i16 : models _ i_i16 p_i16
| mo_i32 : models _ i_i32 p_i32
| mo_i64 : models _ i_i64 p_i64
| mo_f32 : models _ i_f32 p_f32
| mo_f64 : models _ i_f64 p_f64
| mo_string : models _ i_string p_string
| mo_limits : models _ i_limits p_limits
| mo_valty : models _ i_valty p_valty
| mo_elemty : models _ i_elemty p_elemty
| mo_retval : models _ i_retval p_retval
| mo_functy : models _ i_functy p_functy
| mo_tablety : models _ i_tablety p_tablety
| mo_memty : models _ i_memty p_memty
| mo_mut : models _ i_mut p_mut
| mo_globalty : models _ i_globalty p_globalty
| mo_instr_top : models _ i_instr_top p_instr_top
| mo_expr : models _ i_expr p_expr
| mo_constexpr : models _ i_constexpr p_constexpr
| mo_func : models _ i_func p_func
| mo_table : models _ i_table p_table
| mo_mem : models _ i_mem p_mem
| mo_global : models _ i_global p_global
| mo_elem : models _ i_elem p_elem
| mo_data : models _ i_data p_data
| mo_start : models _ i_start p_start
| mo_importdesc : models _ i_importdesc p_importdesc
| mo_exportdesc : models _ i_exportdesc p_exportdesc
| mo_import : models _ i_import p_import
| mo_export : models _ i_export p_export
| mo_custom : models _ (i_sized i_custom) (p_sized p_custom)
| mo_section id s : models _ (i_section id s) (p_section id s)
| mo_vec A i (p : parser A) : models A i p -> models _ (i_vec i) (p_vec p)
| mo_unwrapping_vec A B i (p : parser A) (u : A -> B) : models A i p -> models _ (i_unwrapping_vec i u) (p_unwrapping_vec p u)
| mo_compact_vec A i (p : parser A) : models A i p -> models _ (i_compact_vec i) (p_compact_vec p)
| mo_array A n i (p : parser A) : models A i p -> models _ (i_array n i) (p_array n p)
| mo_sized A i (p : parser A) : models A i p -> models _ (i_sized i) (p_sized p).
