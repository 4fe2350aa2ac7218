(** Reporting an error at once: a parser that fails has read nothing behind the first byte with which
    its input could not be completed any more. *)
From Verif Require Import ParserModule SpecFormat.
Open Scope N_scope.

(** [l] is an encoding that the parser accepts. *)
Definition whole {A} (p : parser A) (l : list byte) : Prop := exists a, p l = (Ok a, []).
(** [l] is an encoding in a format. *)
Definition encodes {A} (E : format A) (l : list byte) : Prop := exists a, E l a.

(** [V] says which inputs are complete; [l] can be completed. *)
Definition begins (V : list byte -> Prop) (l : list byte) : Prop := exists tl, V (l ++ tl).

(** In [bs], which begins with [pre] and continues with [b] and then [rest], [b] is the first byte
    that cannot be there. *)
Definition first_bad (V : list byte -> Prop) (bs rest : list byte) : Prop :=
  exists pre b, bs = pre ++ b :: rest /\ begins V pre /\ ~ V pre /\ ~ begins V (pre ++ [b]).

(** The end of the input is reported for the inputs that can be completed but are not complete; all of
    the input has been read then.  Any other error is reported having read all up to the first byte that
    cannot be there, and that byte. *)
Definition prompt {A} (V : list byte -> Prop) (p : parser A) : Prop :=
  (forall bs r, p bs = (Err UnexpectedEndOfFile, r) <-> r = [] /\ begins V bs /\ ~ V bs) /\
  (forall bs rest, (exists e, e <> UnexpectedEndOfFile /\ p bs = (Err e, rest)) <-> first_bad V bs rest).

(** The elements without names in them and without announced sizes. *)
Inductive plain : forall A, parser A -> Prop :=
| pl_byte : plain _ p_byte
| pl_u8 : plain _ p_u8
| pl_u16 : plain _ p_u16
| pl_u32 : plain _ p_u32
| pl_u64 : plain _ p_u64
| pl_i8 : plain _ p_i8
| pl_i16 : plain _ p_i16
| pl_i32 : plain _ p_i32
| pl_i64 : plain _ p_i64
| pl_f32 : plain _ p_f32
| pl_f64 : plain _ p_f64
| pl_limits : plain _ p_limits
| pl_valty : plain _ p_valty
| pl_elemty : plain _ p_elemty
| pl_retval : plain _ p_retval
| pl_functy : plain _ p_functy
| pl_tablety : plain _ p_tablety
| pl_memty : plain _ p_memty
| pl_mut : plain _ p_mut
| pl_globalty : plain _ p_globalty
| pl_instr : plain _ p_instr_top
| pl_expr : plain _ p_expr
| pl_constexpr : plain _ p_constexpr
| pl_func : plain _ p_func
| pl_table : plain _ p_table
| pl_mem : plain _ p_mem
| pl_global : plain _ p_global
| pl_elem : plain _ p_elem
| pl_data : plain _ p_data
| pl_start : plain _ p_start
| pl_importdesc : plain _ p_importdesc
| pl_exportdesc : plain _ p_exportdesc
| pl_vec A (p : parser A) : plain A p -> plain _ (p_vec p)
| pl_unwrapping_vec A B (p : parser A) (u : A -> B) : plain A p -> plain _ (p_unwrapping_vec p u)
| pl_compact_vec A (p : parser A) : plain A p -> plain _ (p_compact_vec p)
| pl_array A n (p : parser A) : plain A p -> plain _ (p_array n p).
