(** The declarative type system of WebAssembly 1.0 for instructions, transcribed from sections 3.1 and 3.3 of
    the specification.  Stack types are lists whose last element is the top of the stack.  The rules are
    parameterised by one switch, [align]: whether the alignment premise of loads and stores is present. *)
From Verif Require Export SpecCode.
Open Scope N_scope.

(** 3.1.1 Contexts *)
Record tenv := mkTenv {
  te_types : list functy;
  te_funcs : list functy;
  te_tables : list tablety;
  te_mems : list memty;
  te_globals : list globalty;
  te_locals : list valty;
  te_labels : list (list valty);       (* innermost first *)
  te_return : option (list valty);
}.
Definition add_label (rt : list valty) (C : tenv) : tenv :=
  mkTenv (te_types C) (te_funcs C) (te_tables C) (te_mems C) (te_globals C) (te_locals C)
         (rt :: te_labels C) (te_return C).

(** [xs[i] = x] *)
Definition at_index {A} (xs : list A) (i : N) (x : A) : Prop := nth_error xs (N.to_nat i) = Some x.

(** 3.3.1 Numeric instructions: the types are fixed *)
Definition plain_type (i : instr) : option (list valty * list valty) :=
  match i with
  (* t.const *)
  | I_ConstI32 _ => Some ([], [T_I32])
  | I_ConstI64 _ => Some ([], [T_I64])
  | I_ConstF32 _ => Some ([], [T_F32])
  | I_ConstF64 _ => Some ([], [T_F64])
  (* t.unop *)
  | I_I32Clz | I_I32Ctz | I_I32Popcnt => Some ([T_I32], [T_I32])
  | I_I64Clz | I_I64Ctz | I_I64Popcnt => Some ([T_I64], [T_I64])
  | I_F32Abs | I_F32Neg | I_F32Ceil | I_F32Floor | I_F32Trunc | I_F32Nearest | I_F32Sqrt =>
    Some ([T_F32], [T_F32])
  | I_F64Abs | I_F64Neg | I_F64Ceil | I_F64Floor | I_F64Trunc | I_F64Nearest | I_F64Sqrt =>
    Some ([T_F64], [T_F64])
  (* t.binop *)
  | I_I32Add | I_I32Sub | I_I32Mul | I_I32DivS | I_I32DivU | I_I32RemS | I_I32RemU | I_I32And | I_I32Or
  | I_I32Xor | I_I32Shl | I_I32ShrS | I_I32ShrU | I_I32Rotl | I_I32Rotr => Some ([T_I32; T_I32], [T_I32])
  | I_I64Add | I_I64Sub | I_I64Mul | I_I64DivS | I_I64DivU | I_I64RemS | I_I64RemU | I_I64And | I_I64Or
  | I_I64Xor | I_I64Shl | I_I64ShrS | I_I64ShrU | I_I64Rotl | I_I64Rotr => Some ([T_I64; T_I64], [T_I64])
  | I_F32Add | I_F32Sub | I_F32Mul | I_F32Div | I_F32Min | I_F32Max | I_F32Copysign =>
    Some ([T_F32; T_F32], [T_F32])
  | I_F64Add | I_F64Sub | I_F64Mul | I_F64Div | I_F64Min | I_F64Max | I_F64Copysign =>
    Some ([T_F64; T_F64], [T_F64])
  (* t.testop *)
  | I_I32Eqz => Some ([T_I32], [T_I32])
  | I_I64Eqz => Some ([T_I64], [T_I32])
  (* t.relop *)
  | I_I32Eq | I_I32Ne | I_I32LtS | I_I32LtU | I_I32GtS | I_I32GtU | I_I32LeS | I_I32LeU | I_I32GeS
  | I_I32GeU => Some ([T_I32; T_I32], [T_I32])
  | I_I64Eq | I_I64Ne | I_I64LtS | I_I64LtU | I_I64GtS | I_I64GtU | I_I64LeS | I_I64LeU | I_I64GeS
  | I_I64GeU => Some ([T_I64; T_I64], [T_I32])
  | I_F32Eq | I_F32Ne | I_F32Lt | I_F32Gt | I_F32Le | I_F32Ge => Some ([T_F32; T_F32], [T_I32])
  | I_F64Eq | I_F64Ne | I_F64Lt | I_F64Gt | I_F64Le | I_F64Ge => Some ([T_F64; T_F64], [T_I32])
  (* t2.cvtop_t1 *)
  | I_I32WrapI64 => Some ([T_I64], [T_I32])
  | I_I32TruncF32S | I_I32TruncF32U | I_I32ReinterpretF32 => Some ([T_F32], [T_I32])
  | I_I32TruncF64S | I_I32TruncF64U => Some ([T_F64], [T_I32])
  | I_I64ExtendI32S | I_I64ExtendI32U => Some ([T_I32], [T_I64])
  | I_I64TruncF32S | I_I64TruncF32U => Some ([T_F32], [T_I64])
  | I_I64TruncF64S | I_I64TruncF64U | I_I64ReinterpretF64 => Some ([T_F64], [T_I64])
  | I_F32ConvertI32S | I_F32ConvertI32U | I_F32ReinterpretI32 => Some ([T_I32], [T_F32])
  | I_F32ConvertI64S | I_F32ConvertI64U => Some ([T_I64], [T_F32])
  | I_F32DemoteF64 => Some ([T_F64], [T_F32])
  | I_F64ConvertI32S | I_F64ConvertI32U => Some ([T_I32], [T_F64])
  | I_F64ConvertI64S | I_F64ConvertI64U | I_F64ReinterpretI64 => Some ([T_I64], [T_F64])
  | I_F64PromoteF32 => Some ([T_F32], [T_F64])
  | _ => None
  end.

(** 3.3.4 Memory instructions: the alignment exponent (first immediate in the binary format), the number of
    bytes accessed, and the type of the value loaded or stored *)
Definition load_type (i : instr) : option (N * N * valty) :=
  match i with
  | I_I32Load a _ => Some (a, 4, T_I32)
  | I_I64Load a _ => Some (a, 8, T_I64)
  | I_F32Load a _ => Some (a, 4, T_F32)
  | I_F64Load a _ => Some (a, 8, T_F64)
  | I_I32Load8S a _ | I_I32Load8U a _ => Some (a, 1, T_I32)
  | I_I32Load16S a _ | I_I32Load16U a _ => Some (a, 2, T_I32)
  | I_I64Load8S a _ | I_I64Load8U a _ => Some (a, 1, T_I64)
  | I_I64Load16S a _ | I_I64Load16U a _ => Some (a, 2, T_I64)
  | I_I64Load32S a _ | I_I64Load32U a _ => Some (a, 4, T_I64)
  | _ => None
  end.
Definition store_type (i : instr) : option (N * N * valty) :=
  match i with
  | I_I32Store a _ => Some (a, 4, T_I32)
  | I_I64Store a _ => Some (a, 8, T_I64)
  | I_F32Store a _ => Some (a, 4, T_F32)
  | I_F64Store a _ => Some (a, 8, T_F64)
  | I_I32Store8 a _ => Some (a, 1, T_I32)
  | I_I32Store16 a _ => Some (a, 2, T_I32)
  | I_I64Store8 a _ => Some (a, 1, T_I64)
  | I_I64Store16 a _ => Some (a, 2, T_I64)
  | I_I64Store32 a _ => Some (a, 4, T_I64)
  | _ => None
  end.
Definition alignment_ok (a bytes : N) : Prop := 2 ^ a <= bytes.

(** Code in the sense of the specification, which has no pseudo instructions *)
Definition no_pseudo (e : expr) : Prop := ~ occurs I_End e /\ ~ occurs I_Else e.

(** [instr_type align C i ts1 ts2]: C |- i : [ts1] -> [ts2];
    [seq_type align C is ts1 ts2]: C |- i* : [ts1] -> [ts2].  There is no rule for the pseudo instructions
    [I_Else] and [I_End], which are not instructions of WebAssembly. *)
Inductive instr_type (align : bool) : tenv -> instr -> list valty -> list valty -> Prop :=
| T_plain C i ts1 ts2 : plain_type i = Some (ts1, ts2) -> instr_type align C i ts1 ts2
(* 3.3.2 *)
| T_drop C t : instr_type align C I_Drop [t] []
| T_select C t : instr_type align C I_Select [t; t; T_I32] [t]
(* 3.3.3 *)
| T_local_get C x t : at_index (te_locals C) x t -> instr_type align C (I_LocalGet x) [] [t]
| T_local_set C x t : at_index (te_locals C) x t -> instr_type align C (I_LocalSet x) [t] []
| T_local_tee C x t : at_index (te_locals C) x t -> instr_type align C (I_LocalTee x) [t] [t]
| T_global_get C x g : at_index (te_globals C) x g -> instr_type align C (I_GlobalGet x) [] [gt_val g]
| T_global_set C x g : at_index (te_globals C) x g -> gt_mut g = Var ->
    instr_type align C (I_GlobalSet x) [gt_val g] []
(* 3.3.4 *)
| T_load C i a bytes t m : load_type i = Some (a, bytes, t) -> at_index (te_mems C) 0 m ->
    (align = true -> alignment_ok a bytes) -> instr_type align C i [T_I32] [t]
| T_store C i a bytes t m : store_type i = Some (a, bytes, t) -> at_index (te_mems C) 0 m ->
    (align = true -> alignment_ok a bytes) -> instr_type align C i [T_I32; t] []
| T_mem_size C x m : at_index (te_mems C) x m -> instr_type align C (I_MemSize x) [] [T_I32]
| T_mem_grow C x m : at_index (te_mems C) x m -> instr_type align C (I_MemGrow x) [T_I32] [T_I32]
(* 3.3.5 *)
| T_nop C : instr_type align C I_Nop [] []
| T_unreachable C ts1 ts2 : instr_type align C I_Unreachable ts1 ts2
| T_block C rt b : seq_type align (add_label rt C) b [] rt -> instr_type align C (I_Block rt b) [] rt
| T_loop C rt b : seq_type align (add_label [] C) b [] rt -> instr_type align C (I_Loop rt b) [] rt
| T_if C rt b1 b2 : seq_type align (add_label rt C) b1 [] rt -> seq_type align (add_label rt C) b2 [] rt ->
    instr_type align C (I_If rt b1 b2) [T_I32] rt
| T_br C l ts ts1 ts2 : at_index (te_labels C) l ts -> instr_type align C (I_Br l) (ts1 ++ ts) ts2
| T_br_if C l ts : at_index (te_labels C) l ts -> instr_type align C (I_BrIf l) (ts ++ [T_I32]) ts
| T_br_table C ls ld ts ts1 ts2 :
    Forall (fun l => at_index (te_labels C) l ts) ls -> at_index (te_labels C) ld ts ->
    instr_type align C (I_BrTable ls ld) (ts1 ++ ts ++ [T_I32]) ts2
| T_return C ts ts1 ts2 : te_return C = Some ts -> instr_type align C I_Return (ts1 ++ ts) ts2
| T_call C x ft : at_index (te_funcs C) x ft ->
    instr_type align C (I_Call x) (ft_params ft) (ft_results ft)
| T_call_indirect C x y tb ft : at_index (te_tables C) y tb -> tt_elem tb = FuncRef ->
    at_index (te_types C) x ft ->
    instr_type align C (I_CallIndirect x y) (ft_params ft ++ [T_I32]) (ft_results ft)
(* 3.3.6 *)
with seq_type (align : bool) : tenv -> list instr -> list valty -> list valty -> Prop :=
| S_nil C ts : seq_type align C [] ts ts
| S_snoc C is i ts1 ts0 ts ts3 :
    seq_type align C is ts1 (ts0 ++ ts) -> instr_type align C i ts ts3 ->
    seq_type align C (is ++ [i]) ts1 (ts0 ++ ts3).

(** 3.3.7 Expressions *)
Definition expr_type (align : bool) (C : tenv) (e : expr) (ts : list valty) : Prop := seq_type align C e [] ts.

(** Constant expressions: only constants and reads of immutable globals *)
Definition const_instr (C : tenv) (i : instr) : Prop :=
  match i with
  | I_ConstI32 _ | I_ConstI64 _ | I_ConstF32 _ | I_ConstF64 _ => True
  | I_GlobalGet x => exists g, at_index (te_globals C) x g /\ gt_mut g = Const
  | _ => False
  end.
Definition const_expr (C : tenv) (e : expr) : Prop := Forall (const_instr C) e.

(** 3.4.1 The context in which the body of a function is checked.  [own_label]: whether the body is itself a
    branch target, as the specification says. *)
Definition func_env (own_label : bool) (C : tenv) (ft : functy) (locals : list valty) : tenv :=
  mkTenv (te_types C) (te_funcs C) (te_tables C) (te_mems C) (te_globals C) (ft_params ft ++ locals)
         (if own_label then [ft_results ft] else []) (Some (ft_results ft)).
Definition func_type (align own_label : bool) (C : tenv) (f : func) (ft : functy) : Prop :=
  at_index (te_types C) (fn_ty f) ft /\
  expr_type align (func_env own_label C ft (fn_locals f)) (fn_body f) (ft_results ft).
