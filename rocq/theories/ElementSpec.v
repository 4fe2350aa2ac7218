(** The elements that can be parsed: the types of whasm/src with an implementation of [Parse]
    (binary/core/*.rs, binary/idx.rs, ty.rs, instr.rs, module.rs), closed under the generic ones.
    Modules, which take all of their input, are not in the list. *)
From Verif Require Export ParserModule.
Open Scope N_scope.

Inductive element : forall A, parser A -> Prop :=
(* core *)
| el_byte : element _ p_byte
| el_u8 : element _ p_u8
| el_u16 : element _ p_u16
| el_u32 : element _ p_u32
| el_u64 : element _ p_u64
| el_i8 : element _ p_i8
| el_i16 : element _ p_i16
| el_i32 : element _ p_i32
| el_i64 : element _ p_i64
| el_f32 : element _ p_f32
| el_f64 : element _ p_f64
| el_string : element _ p_string
(* types *)
| el_limits : element _ p_limits
| el_valty : element _ p_valty
| el_elemty : element _ p_elemty
| el_retval : element _ p_retval
| el_functy : element _ p_functy
| el_tablety : element _ p_tablety
| el_memty : element _ p_memty
| el_mut : element _ p_mut
| el_globalty : element _ p_globalty
(* instructions *)
| el_instr : element _ p_instr_top
| el_expr : element _ p_expr
| el_constexpr : element _ p_constexpr
(* module components *)
| el_func : element _ p_func
| el_table : element _ p_table
| el_mem : element _ p_mem
| el_global : element _ p_global
| el_elem : element _ p_elem
| el_data : element _ p_data
| el_start : element _ p_start
| el_importdesc : element _ p_importdesc
| el_exportdesc : element _ p_exportdesc
| el_import : element _ p_import
| el_export : element _ p_export
| el_custom : element _ (p_sized p_custom)
| el_section id s : element _ (p_section id s)
(* generic elements *)
| el_vec A (p : parser A) : element A p -> element _ (p_vec p)
| el_unwrapping_vec A B (p : parser A) (u : A -> B) : element A p -> element _ (p_unwrapping_vec p u)
| el_compact_vec A (p : parser A) : element A p -> element _ (p_compact_vec p)
| el_array A n (p : parser A) : element A p -> element _ (p_array n p)
| el_sized A (p : parser A) : element A p -> element _ (p_sized p).
