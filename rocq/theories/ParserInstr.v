(** Parsers of indices, types and instructions.
    Models whasm/src/binary/idx.rs, ty.rs and instr.rs. *)
From Coq Require Import String.
From Verif Require Export ParserCore.
Open Scope N_scope.

(** ** Indices: binary/idx.rs:6-46, all newtypes around [u32] *)
Definition p_typeidx : parser typeidx := p_u32.
Definition p_funcidx : parser funcidx := p_u32.
Definition p_tableidx : parser tableidx := p_u32.
Definition p_memidx : parser memidx := p_u32.
Definition p_globalidx : parser globalidx := p_u32.
Definition p_localidx : parser localidx := p_u32.
Definition p_labelidx : parser labelidx := p_u32.

(** ** Types *)

(** binary/ty.rs:6-21 *)
Definition p_limits : parser limits :=
  b <- p_byte ;;
  match b with
  | x00 => n <- p_u32 ;; ret {| lim_min := n; lim_max := None |}
  | x01 => n <- p_u32 ;; m <- p_u32 ;; ret {| lim_min := n; lim_max := Some m |}
  | id => fail (InvalidVariantId id "ty::Limits")
  end.

(** binary/ty.rs:23-34 *)
Definition p_valty : parser valty :=
  b <- p_byte ;;
  match b with
  | x7f => ret T_I32
  | x7e => ret T_I64
  | x7d => ret T_F32
  | x7c => ret T_F64
  | id => fail (InvalidVariantId id "ty::Val")
  end.

(** binary/ty.rs:36-44 *)
Definition p_elemty : parser elemty :=
  b <- p_byte ;;
  match b with
  | x70 => ret FuncRef
  | id => fail (InvalidVariantId id "ty::Elem")
  end.

(** binary/ty.rs:46-58.  The single byte is parsed again as a [ty::Val], from an iterator of its own. *)
Definition p_retval : parser retval :=
  b <- p_byte ;;
  match b with
  | x40 => ret []
  | _ => fun bs =>
    match p_valty [b] with
    | (Ok t, _) => (Ok [t], bs)
    | (Err e, _) => (Err e, bs)
    | (Panic, _) => (Panic, bs)
    | (OutOfFuel, _) => (OutOfFuel, bs)
    end
  end.

(** binary/ty.rs:60-71 *)
Definition p_functy : parser functy :=
  b <- p_byte ;;
  match b with
  | x60 =>
    ps <- p_vec p_valty ;; rs <- p_vec p_valty ;;
    ret {| ft_params := ps; ft_results := rs |}
  | id => fail (InvalidVariantId id "ty::Func")
  end.

(** binary/ty.rs:73-80 *)
Definition p_tablety : parser tablety :=
  e <- p_elemty ;; l <- p_limits ;; ret {| tt_lim := l; tt_elem := e |}.

(** binary/ty.rs:82-88 *)
Definition p_memty : parser memty := l <- p_limits ;; ret {| mt_lim := l |}.

(** binary/ty.rs:90-99 *)
Definition p_mut : parser mut :=
  b <- p_byte ;;
  match b with
  | x00 => ret Const
  | x01 => ret Var
  | id => fail (InvalidVariantId id "ty::Mut")
  end.

(** binary/ty.rs:101-108 *)
Definition p_globalty : parser globalty :=
  v <- p_valty ;; m <- p_mut ;; ret {| gt_mut := m; gt_val := v |}.

(** ** Instructions *)

(** binary/instr.rs:6-14, on top of the parser of [SubExpr] *)
Definition p_expr_of (sub : parser (list instr * instr)) : parser (list instr) :=
  se <- sub ;;
  match se with
  | (e, I_End) => ret e
  | (_, I_Else) => fail (UnexpectedOpcode "Else")
  | (_, _) => fail (UnexpectedOpcode "Unknown")
  end.

(** [next == Instr::Else], [next == Instr::End] (derived [PartialEq]) *)
Definition is_else (i : instr) : bool := match i with I_Else => true | _ => false end.
Definition is_end (i : instr) : bool := match i with I_End => true | _ => false end.

(** binary/instr.rs:243-274, on top of the parser of [SubExpr] *)
Definition p_if_of (sub : parser (list instr * instr)) : parser instr :=
  ret_val <- p_retval ;;
  bn <- sub ;;
  let '(branch_1, next) := bn in
  b2n <- (if is_else next then sub else ret ([], next)) ;;
  let '(branch_2, next) := b2n in
  if is_end next then ret (I_If ret_val branch_1 branch_2)
  else fail (UnexpectedOpcode "Unknown").

(** binary/instr.rs:26-221, the [match] over the opcode, on top of the parser of [SubExpr] *)
Definition p_opcode (sub : parser (list instr * instr)) (b : byte) : parser instr :=
  match b with
  | x00 => ret I_Unreachable
  | x01 => ret I_Nop
  | x02 => a <- p_retval ;; b <- p_expr_of sub ;; ret (I_Block a b)
  | x03 => a <- p_retval ;; b <- p_expr_of sub ;; ret (I_Loop a b)
  | x04 => p_if_of sub
  | x05 => ret I_Else
  | x0b => ret I_End
  | x0c => a <- p_labelidx ;; ret (I_Br a)
  | x0d => a <- p_labelidx ;; ret (I_BrIf a)
  | x0e => a <- p_vec p_labelidx ;; b <- p_labelidx ;; ret (I_BrTable a b)
  | x0f => ret I_Return
  | x10 => a <- p_funcidx ;; ret (I_Call a)
  | x11 => a <- p_typeidx ;; b <- p_tableidx ;; ret (I_CallIndirect a b)
  | x1a => ret I_Drop
  | x1b => ret I_Select
  | x20 => a <- p_localidx ;; ret (I_LocalGet a)
  | x21 => a <- p_localidx ;; ret (I_LocalSet a)
  | x22 => a <- p_localidx ;; ret (I_LocalTee a)
  | x23 => a <- p_globalidx ;; ret (I_GlobalGet a)
  | x24 => a <- p_globalidx ;; ret (I_GlobalSet a)
  | x28 => a <- p_u32 ;; b <- p_u32 ;; ret (I_I32Load a b)
  | x29 => a <- p_u32 ;; b <- p_u32 ;; ret (I_I64Load a b)
  | x2a => a <- p_u32 ;; b <- p_u32 ;; ret (I_F32Load a b)
  | x2b => a <- p_u32 ;; b <- p_u32 ;; ret (I_F64Load a b)
  | x2c => a <- p_u32 ;; b <- p_u32 ;; ret (I_I32Load8S a b)
  | x2d => a <- p_u32 ;; b <- p_u32 ;; ret (I_I32Load8U a b)
  | x2e => a <- p_u32 ;; b <- p_u32 ;; ret (I_I32Load16S a b)
  | x2f => a <- p_u32 ;; b <- p_u32 ;; ret (I_I32Load16U a b)
  | x30 => a <- p_u32 ;; b <- p_u32 ;; ret (I_I64Load8S a b)
  | x31 => a <- p_u32 ;; b <- p_u32 ;; ret (I_I64Load8U a b)
  | x32 => a <- p_u32 ;; b <- p_u32 ;; ret (I_I64Load16S a b)
  | x33 => a <- p_u32 ;; b <- p_u32 ;; ret (I_I64Load16U a b)
  | x34 => a <- p_u32 ;; b <- p_u32 ;; ret (I_I64Load32S a b)
  | x35 => a <- p_u32 ;; b <- p_u32 ;; ret (I_I64Load32U a b)
  | x36 => a <- p_u32 ;; b <- p_u32 ;; ret (I_I32Store a b)
  | x37 => a <- p_u32 ;; b <- p_u32 ;; ret (I_I64Store a b)
  | x38 => a <- p_u32 ;; b <- p_u32 ;; ret (I_F32Store a b)
  | x39 => a <- p_u32 ;; b <- p_u32 ;; ret (I_F64Store a b)
  | x3a => a <- p_u32 ;; b <- p_u32 ;; ret (I_I32Store8 a b)
  | x3b => a <- p_u32 ;; b <- p_u32 ;; ret (I_I32Store16 a b)
  | x3c => a <- p_u32 ;; b <- p_u32 ;; ret (I_I64Store8 a b)
  | x3d => a <- p_u32 ;; b <- p_u32 ;; ret (I_I64Store16 a b)
  | x3e => a <- p_u32 ;; b <- p_u32 ;; ret (I_I64Store32 a b)
  | x3f => a <- p_memidx ;; ret (I_MemSize a)
  | x40 => a <- p_memidx ;; ret (I_MemGrow a)
  | x41 => a <- p_i32 ;; ret (I_ConstI32 a)
  | x42 => a <- p_i64 ;; ret (I_ConstI64 a)
  | x43 => a <- p_f32 ;; ret (I_ConstF32 a)
  | x44 => a <- p_f64 ;; ret (I_ConstF64 a)
  | x45 => ret I_I32Eqz
  | x46 => ret I_I32Eq
  | x47 => ret I_I32Ne
  | x48 => ret I_I32LtS
  | x49 => ret I_I32LtU
  | x4a => ret I_I32GtS
  | x4b => ret I_I32GtU
  | x4c => ret I_I32LeS
  | x4d => ret I_I32LeU
  | x4e => ret I_I32GeS
  | x4f => ret I_I32GeU
  | x50 => ret I_I64Eqz
  | x51 => ret I_I64Eq
  | x52 => ret I_I64Ne
  | x53 => ret I_I64LtS
  | x54 => ret I_I64LtU
  | x55 => ret I_I64GtS
  | x56 => ret I_I64GtU
  | x57 => ret I_I64LeS
  | x58 => ret I_I64LeU
  | x59 => ret I_I64GeS
  | x5a => ret I_I64GeU
  | x5b => ret I_F32Eq
  | x5c => ret I_F32Ne
  | x5d => ret I_F32Lt
  | x5e => ret I_F32Gt
  | x5f => ret I_F32Le
  | x60 => ret I_F32Ge
  | x61 => ret I_F64Eq
  | x62 => ret I_F64Ne
  | x63 => ret I_F64Lt
  | x64 => ret I_F64Gt
  | x65 => ret I_F64Le
  | x66 => ret I_F64Ge
  | x67 => ret I_I32Clz
  | x68 => ret I_I32Ctz
  | x69 => ret I_I32Popcnt
  | x6a => ret I_I32Add
  | x6b => ret I_I32Sub
  | x6c => ret I_I32Mul
  | x6d => ret I_I32DivS
  | x6e => ret I_I32DivU
  | x6f => ret I_I32RemS
  | x70 => ret I_I32RemU
  | x71 => ret I_I32And
  | x72 => ret I_I32Or
  | x73 => ret I_I32Xor
  | x74 => ret I_I32Shl
  | x75 => ret I_I32ShrS
  | x76 => ret I_I32ShrU
  | x77 => ret I_I32Rotl
  | x78 => ret I_I32Rotr
  | x79 => ret I_I64Clz
  | x7a => ret I_I64Ctz
  | x7b => ret I_I64Popcnt
  | x7c => ret I_I64Add
  | x7d => ret I_I64Sub
  | x7e => ret I_I64Mul
  | x7f => ret I_I64DivS
  | x80 => ret I_I64DivU
  | x81 => ret I_I64RemS
  | x82 => ret I_I64RemU
  | x83 => ret I_I64And
  | x84 => ret I_I64Or
  | x85 => ret I_I64Xor
  | x86 => ret I_I64Shl
  | x87 => ret I_I64ShrS
  | x88 => ret I_I64ShrU
  | x89 => ret I_I64Rotl
  | x8a => ret I_I64Rotr
  | x8b => ret I_F32Abs
  | x8c => ret I_F32Neg
  | x8d => ret I_F32Ceil
  | x8e => ret I_F32Floor
  | x8f => ret I_F32Trunc
  | x90 => ret I_F32Nearest
  | x91 => ret I_F32Sqrt
  | x92 => ret I_F32Add
  | x93 => ret I_F32Sub
  | x94 => ret I_F32Mul
  | x95 => ret I_F32Div
  | x96 => ret I_F32Min
  | x97 => ret I_F32Max
  | x98 => ret I_F32Copysign
  | x99 => ret I_F64Abs
  | x9a => ret I_F64Neg
  | x9b => ret I_F64Ceil
  | x9c => ret I_F64Floor
  | x9d => ret I_F64Trunc
  | x9e => ret I_F64Nearest
  | x9f => ret I_F64Sqrt
  | xa0 => ret I_F64Add
  | xa1 => ret I_F64Sub
  | xa2 => ret I_F64Mul
  | xa3 => ret I_F64Div
  | xa4 => ret I_F64Min
  | xa5 => ret I_F64Max
  | xa6 => ret I_F64Copysign
  | xa7 => ret I_I32WrapI64
  | xa8 => ret I_I32TruncF32S
  | xa9 => ret I_I32TruncF32U
  | xaa => ret I_I32TruncF64S
  | xab => ret I_I32TruncF64U
  | xac => ret I_I64ExtendI32S
  | xad => ret I_I64ExtendI32U
  | xae => ret I_I64TruncF32S
  | xaf => ret I_I64TruncF32U
  | xb0 => ret I_I64TruncF64S
  | xb1 => ret I_I64TruncF64U
  | xb2 => ret I_F32ConvertI32S
  | xb3 => ret I_F32ConvertI32U
  | xb4 => ret I_F32ConvertI64S
  | xb5 => ret I_F32ConvertI64U
  | xb6 => ret I_F32DemoteF64
  | xb7 => ret I_F64ConvertI32S
  | xb8 => ret I_F64ConvertI32U
  | xb9 => ret I_F64ConvertI64S
  | xba => ret I_F64ConvertI64U
  | xbb => ret I_F64PromoteF32
  | xbc => ret I_I32ReinterpretF32
  | xbd => ret I_I64ReinterpretF64
  | xbe => ret I_F32ReinterpretI32
  | xbf => ret I_F64ReinterpretI64
  | id => fail (InvalidVariantId id "instr::Instr")
  end.

(** binary/instr.rs:23-223 ([Instr]) and 225-241 ([SubExpr]).
    The recursion of the Rust code is on the call stack; here it consumes [fuel]
    ([p_expr] supplies enough, see InstrProof.v). *)
Fixpoint p_instr (fuel : nat) : parser instr :=
  match fuel with
  | O => out_of_fuel
  | S f => b <- p_byte ;; p_opcode (p_subexpr f []) b
  end
with p_subexpr (fuel : nat) (expr : list instr) : parser (list instr * instr) :=
  match fuel with
  | O => out_of_fuel
  | S f =>
    next <- p_instr f ;;
    match next with
    | I_End => ret (expr, next)
    | I_Else => ret (expr, next)
    | _ => p_subexpr f (expr ++ [next])
    end
  end.

(** Fuel for an input of [n] bytes *)
Definition fuel_for (n : nat) : nat := 2 * n + 2.

(** binary/instr.rs:6-14 *)
Definition p_expr : parser expr := fun bs =>
  p_expr_of (p_subexpr (fuel_for (List.length bs)) []) bs.

(** binary/instr.rs:16-21 *)
Definition p_constexpr : parser constexpr := p_expr.

(** binary/instr.rs:23-223 as an entry point of its own ([iter.parse::<Instr>()]) *)
Definition p_instr_top : parser instr := fun bs => p_instr (fuel_for (List.length bs)) bs.
