(** Parsing from an iterator whose [next] may panic.

    The code is generic in the iterator (binary/core/traits.rs:22-31), and a caller may well pass one that
    panics, such as [reader.bytes().map(|b| b.unwrap())], which panics when reading fails.  Here the
    functions of ParserIter.v are modelled on such iterators.  Nothing in the code catches a panic, so
    that it passes through all callers; nothing is asked of the iterator while it does, as no type of
    the code implements [Drop].  FaultyProof.v relates this model to the one of ParserIter.v. *)
From Coq Require Import String.
From Verif Require Export ParserIter.
Open Scope N_scope.

(** ** Iterators: a state and [fn next(&mut self) -> Option<u8>]; [None]: the call panics *)
Definition faulty (S : Type) := S -> option (option byte * S).

(** As [ip] in ParserIter.v.  With an outcome comes the state of the iterator; after a panic of the iterator
    it is the state in which the iterator was called. *)
Definition jp (A : Type) := forall (fuel : nat) (S : Type), faulty S -> S -> outcome A * S.

Definition j_ret {A} (a : A) : jp A := fun _ _ _ s => (Ok a, s).
Definition j_fail {A} (e : perror) : jp A := fun _ _ _ s => (Err e, s).
Definition j_panic {A} : jp A := fun _ _ _ s => (Panic, s).
Definition j_out_of_fuel {A} : jp A := fun _ _ _ s => (OutOfFuel, s).
Definition j_bind {A B} (p : jp A) (f : A -> jp B) : jp B := fun fuel S next s =>
  match p fuel S next s with
  | (Ok a, s') => f a fuel S next s'
  | (Err e, s') => (Err e, s')
  | (Panic, s') => (Panic, s')
  | (OutOfFuel, s') => (OutOfFuel, s')
  end.
Notation "x <! p ;; q" := (j_bind p (fun x => q))
  (at level 61, p at next level, right associativity).

(** binary/core/byte.rs:47-54 *)
Definition j_byte : jp byte := fun _ _ next s =>
  match next s with
  | None => (Panic, s)
  | Some (Some b, s') => (Ok b, s')
  | Some (None, s') => (Err UnexpectedEndOfFile, s')
  end.

(** binary/core/unsigned.rs:68-91 *)
Fixpoint j_uleb_loop (rounds : nat) (size mask result shift : N) : jp N :=
  match rounds with
  | O => j_out_of_fuel
  | S rounds' =>
    b <! j_byte ;;
    let byte := Byte.to_N b in
    match u_from_u8 size (N.land byte 0x7F) with
    | None => j_panic
    | Some val =>
      if size <=? shift then
        if negb (N.land byte 0x7F =? 0) then j_fail OutOfRangeUnsignedInteger
        else if N.land byte 0x80 =? 0 then j_ret result
        else j_uleb_loop rounds' size mask result shift
      else
        match u_shl size val shift with
        | None => j_panic
        | Some shl =>
          match u_shr size shl shift with
          | None => j_panic
          | Some back =>
            if negb (N.land back mask =? val) then j_fail OutOfRangeUnsignedInteger
            else
              let '(result', shift') :=
                if shift <? size then (N.lor result shl, shift + 7) else (result, shift) in
              if N.land byte 0x80 =? 0 then j_ret result'
              else j_uleb_loop rounds' size mask result' shift'
          end
        end
    end
  end.
(** binary/core/unsigned.rs:62-93 *)
Definition j_unsigned (size : N) : jp N := fun fuel =>
  match u_from_u8 size 0x7F with
  | None => j_panic fuel
  | Some mask => j_uleb_loop fuel size mask 0 0 fuel
  end.
(** binary/core/unsigned.rs:38-60 *)
Definition j_u8 : jp N := j_unsigned 8.
Definition j_u16 : jp N := j_unsigned 16.
Definition j_u32 : jp u32 := j_unsigned 32.
Definition j_u64 : jp N := j_unsigned 64.

(** binary/core/signed.rs:70-96 and 97-100 *)
Definition j_outcome {A} (o : outcome A) : jp A := fun _ _ _ s => (o, s).
Fixpoint j_sleb_loop (rounds : nat) (size : N) (mask result : Z) (shift : N) (positive : bool) : jp Z :=
  match rounds with
  | O => j_out_of_fuel
  | S rounds' =>
    b <! j_byte ;;
    let byte := Byte.to_N b in
    match s_from_u8 size (N.land byte 0x7F) with
    | None => j_panic
    | Some val =>
      if size <=? shift then
        if ((N.land byte 0x7F =? 0x00) && positive)
           || ((N.land byte 0x7F =? 0x7F) && negb positive)
        then
          if N.land byte 0x80 =? 0
          then j_outcome (sleb_finish size result shift positive)
          else j_sleb_loop rounds' size mask result shift positive
        else j_fail OutOfRangeSignedInteger
      else
        match s_shl size val shift with
        | None => j_panic
        | Some shl =>
          match s_shr size shl shift with
          | None => j_panic
          | Some back =>
            if negb (Z.land back mask =? val)%Z then j_fail OutOfRangeSignedInteger
            else
              let '(result', shift') :=
                if shift <? size then (Z.lor result shl, shift + 7) else (result, shift) in
              let positive' := N.land byte 0x40 =? 0 in
              if N.land byte 0x80 =? 0
              then j_outcome (sleb_finish size result' shift' positive')
              else j_sleb_loop rounds' size mask result' shift' positive'
          end
        end
    end
  end.
(** binary/core/signed.rs:63-101 *)
Definition j_signed (size : N) : jp Z := fun fuel =>
  match s_from_u8 size 0x7F with
  | None => j_panic fuel
  | Some mask => j_sleb_loop fuel size mask 0 0 true fuel
  end.
(** binary/core/signed.rs:39-61 *)
Definition j_i8 : jp Z := j_signed 8.
Definition j_i16 : jp Z := j_signed 16.
Definition j_i32 : jp i32 := j_signed 32.
Definition j_i64 : jp i64 := j_signed 64.

(** binary/core/array.rs:17-113, vec.rs:59-61 and 91-93 *)
Fixpoint j_times {A} (n : nat) (p : jp A) : jp (list A) :=
  match n with
  | O => j_ret []
  | S n' => x <! p ;; xs <! j_times n' p ;; j_ret (x :: xs)
  end.
Definition j_array {A} (n : nat) (p : jp A) : jp (list A) := j_times n p.
(** binary/core/vec.rs:55-64 *)
Definition j_vec {A} (p : jp A) : jp (list A) :=
  n <! j_u32 ;; j_times (N.to_nat n) p.
(** binary/core/vec.rs:86-96 *)
Definition j_unwrapping_vec {A B} (p : jp A) (u : A -> B) : jp (list B) :=
  n <! j_u32 ;; j_times (N.to_nat n) (x <! p ;; j_ret (u x)).
(** binary/core/vec.rs:66-80 *)
Fixpoint j_runs {A} (k : nat) (p : jp A) (result : list A) : jp (list A) :=
  match k with
  | O => j_ret result
  | S k' =>
    n <! j_u32 ;;
    val <! p ;;
    j_runs k' p (result ++ repeat val (N.to_nat n))
  end.
Definition j_compact_vec {A} (p : jp A) : jp (list A) :=
  k <! j_u32 ;; j_runs (N.to_nat k) p [].

(** ** [bin.take(size as usize).inspect(|_| count = count + 1)], binary/core/sized.rs:49-52 *)
Definition faulty_windowed {S} (next : faulty S) : faulty (windowed S) := fun w =>
  if w_left w =? 0 then Some (None, w)
  else
    match next (w_inner w) with
    | None => None
    | Some (Some b, s') => Some (Some b, mkWindowed s' (w_left w - 1) (w_count w + 1))
    | Some (None, s') => Some (None, mkWindowed s' (w_left w - 1) (w_count w))
    end.
(** binary/core/sized.rs:46-60 *)
Definition j_sized {A} (p : jp A) : jp A :=
  size <! j_u32 ;;
  fun fuel S next s =>
    match p fuel (windowed S) (faulty_windowed next) (mkWindowed s size 0) with
    | (Ok result, w) =>
      if negb (size =? w_count w) then (Err SizeMissmatch, w_inner w)      (* line 54 *)
      else (Ok result, w_inner w)
    | (o, w) => (o, w_inner w)
    end.

(** [Iterator::count]: calls [next] until it yields [None].  binary/core/sized.rs:84-89 *)
Fixpoint j_count (rounds : nat) (n : N) : jp N := fun fuel S next s =>
  match rounds with
  | O => (OutOfFuel, s)
  | Datatypes.S rounds' =>
    match next s with
    | None => (Panic, s)
    | Some (Some _, s') => j_count rounds' (n + 1) fuel S next s'
    | Some (None, s') => (Ok n, s')
    end
  end.
Definition j_consume : jp N := fun fuel => j_count fuel 0 fuel.

(** binary/core/float.rs:43-52 *)
Definition j_float (host : endian) (size : nat) : jp N :=
  mem <! j_times size j_byte ;; j_ret (float_of_memory host mem).
Definition j_f32 : jp f32 := j_float LittleEndian 4.
Definition j_f64 : jp f64 := j_float LittleEndian 8.

(** binary/core/string.rs:18-23 *)
Definition j_string : jp name :=
  raw <! j_unwrapping_vec j_byte (fun b => b) ;;
  if utf8_valid raw then j_ret raw else j_fail InvalidUtf8Encoding.

(** ** Indices: binary/idx.rs:6-46, all newtypes around [u32] *)
Definition j_typeidx : jp typeidx := j_u32.
Definition j_funcidx : jp funcidx := j_u32.
Definition j_tableidx : jp tableidx := j_u32.
Definition j_memidx : jp memidx := j_u32.
Definition j_globalidx : jp globalidx := j_u32.
Definition j_localidx : jp localidx := j_u32.
Definition j_labelidx : jp labelidx := j_u32.

(** ** Types *)

(** binary/ty.rs:6-21 *)
Definition j_limits : jp limits :=
  b <! j_byte ;;
  match b with
  | x00 => n <! j_u32 ;; j_ret {| lim_min := n; lim_max := None |}
  | x01 => n <! j_u32 ;; m <! j_u32 ;; j_ret {| lim_min := n; lim_max := Some m |}
  | id => j_fail (InvalidVariantId id "ty::Limits")
  end.

(** binary/ty.rs:23-34 *)
Definition j_valty : jp valty :=
  b <! j_byte ;;
  match b with
  | x7f => j_ret T_I32
  | x7e => j_ret T_I64
  | x7d => j_ret T_F32
  | x7c => j_ret T_F64
  | id => j_fail (InvalidVariantId id "ty::Val")
  end.

(** binary/ty.rs:36-44 *)
Definition j_elemty : jp elemty :=
  b <! j_byte ;;
  match b with
  | x70 => j_ret FuncRef
  | id => j_fail (InvalidVariantId id "ty::Elem")
  end.

(** The iterator over the bytes of a slice does not panic. *)
Definition faulty_slice : faulty (list byte) := fun bs =>
  match bs with
  | b :: r => Some (Some b, r)
  | [] => Some (None, [])
  end.
(** binary/ty.rs:46-58: the byte is parsed again, from an iterator over an array of its own *)
Definition j_retval : jp retval :=
  b <! j_byte ;;
  match b with
  | x40 => j_ret []
  | _ => fun fuel S next s =>
    match j_valty fuel (list byte) faulty_slice [b] with
    | (Ok t, _) => (Ok [t], s)
    | (Err e, _) => (Err e, s)
    | (Panic, _) => (Panic, s)
    | (OutOfFuel, _) => (OutOfFuel, s)
    end
  end.

(** binary/ty.rs:60-71 *)
Definition j_functy : jp functy :=
  b <! j_byte ;;
  match b with
  | x60 =>
    ps <! j_vec j_valty ;; rs <! j_vec j_valty ;;
    j_ret {| ft_params := ps; ft_results := rs |}
  | id => j_fail (InvalidVariantId id "ty::Func")
  end.

(** binary/ty.rs:73-80 *)
Definition j_tablety : jp tablety :=
  e <! j_elemty ;; l <! j_limits ;; j_ret {| tt_lim := l; tt_elem := e |}.

(** binary/ty.rs:82-88 *)
Definition j_memty : jp memty := l <! j_limits ;; j_ret {| mt_lim := l |}.

(** binary/ty.rs:90-99 *)
Definition j_mut : jp mut :=
  b <! j_byte ;;
  match b with
  | x00 => j_ret Const
  | x01 => j_ret Var
  | id => j_fail (InvalidVariantId id "ty::Mut")
  end.

(** binary/ty.rs:101-108 *)
Definition j_globalty : jp globalty :=
  v <! j_valty ;; m <! j_mut ;; j_ret {| gt_mut := m; gt_val := v |}.

(** ** Instructions *)

(** binary/instr.rs:6-14, on top of the parser of [SubExpr] *)
Definition j_expr_of (sub : jp (list instr * instr)) : jp (list instr) :=
  se <! sub ;;
  match se with
  | (e, I_End) => j_ret e
  | (_, I_Else) => j_fail (UnexpectedOpcode "Else")
  | (_, _) => j_fail (UnexpectedOpcode "Unknown")
  end.

(** binary/instr.rs:243-274, on top of the parser of [SubExpr] *)
Definition j_if_of (sub : jp (list instr * instr)) : jp instr :=
  ret_val <! j_retval ;;
  bn <! sub ;;
  let '(branch_1, next) := bn in
  b2n <! (if is_else next then sub else j_ret ([], next)) ;;
  let '(branch_2, next) := b2n in
  if is_end next then j_ret (I_If ret_val branch_1 branch_2)
  else j_fail (UnexpectedOpcode "Unknown").

(** binary/instr.rs:26-221, the [match] over the opcode, on top of the parser of [SubExpr] *)
Definition j_opcode (sub : jp (list instr * instr)) (b : byte) : jp instr :=
  match b with
  | x00 => j_ret I_Unreachable
  | x01 => j_ret I_Nop
  | x02 => a <! j_retval ;; b <! j_expr_of sub ;; j_ret (I_Block a b)
  | x03 => a <! j_retval ;; b <! j_expr_of sub ;; j_ret (I_Loop a b)
  | x04 => j_if_of sub
  | x05 => j_ret I_Else
  | x0b => j_ret I_End
  | x0c => a <! j_labelidx ;; j_ret (I_Br a)
  | x0d => a <! j_labelidx ;; j_ret (I_BrIf a)
  | x0e => a <! j_vec j_labelidx ;; b <! j_labelidx ;; j_ret (I_BrTable a b)
  | x0f => j_ret I_Return
  | x10 => a <! j_funcidx ;; j_ret (I_Call a)
  | x11 => a <! j_typeidx ;; b <! j_tableidx ;; j_ret (I_CallIndirect a b)
  | x1a => j_ret I_Drop
  | x1b => j_ret I_Select
  | x20 => a <! j_localidx ;; j_ret (I_LocalGet a)
  | x21 => a <! j_localidx ;; j_ret (I_LocalSet a)
  | x22 => a <! j_localidx ;; j_ret (I_LocalTee a)
  | x23 => a <! j_globalidx ;; j_ret (I_GlobalGet a)
  | x24 => a <! j_globalidx ;; j_ret (I_GlobalSet a)
  | x28 => a <! j_u32 ;; b <! j_u32 ;; j_ret (I_I32Load a b)
  | x29 => a <! j_u32 ;; b <! j_u32 ;; j_ret (I_I64Load a b)
  | x2a => a <! j_u32 ;; b <! j_u32 ;; j_ret (I_F32Load a b)
  | x2b => a <! j_u32 ;; b <! j_u32 ;; j_ret (I_F64Load a b)
  | x2c => a <! j_u32 ;; b <! j_u32 ;; j_ret (I_I32Load8S a b)
  | x2d => a <! j_u32 ;; b <! j_u32 ;; j_ret (I_I32Load8U a b)
  | x2e => a <! j_u32 ;; b <! j_u32 ;; j_ret (I_I32Load16S a b)
  | x2f => a <! j_u32 ;; b <! j_u32 ;; j_ret (I_I32Load16U a b)
  | x30 => a <! j_u32 ;; b <! j_u32 ;; j_ret (I_I64Load8S a b)
  | x31 => a <! j_u32 ;; b <! j_u32 ;; j_ret (I_I64Load8U a b)
  | x32 => a <! j_u32 ;; b <! j_u32 ;; j_ret (I_I64Load16S a b)
  | x33 => a <! j_u32 ;; b <! j_u32 ;; j_ret (I_I64Load16U a b)
  | x34 => a <! j_u32 ;; b <! j_u32 ;; j_ret (I_I64Load32S a b)
  | x35 => a <! j_u32 ;; b <! j_u32 ;; j_ret (I_I64Load32U a b)
  | x36 => a <! j_u32 ;; b <! j_u32 ;; j_ret (I_I32Store a b)
  | x37 => a <! j_u32 ;; b <! j_u32 ;; j_ret (I_I64Store a b)
  | x38 => a <! j_u32 ;; b <! j_u32 ;; j_ret (I_F32Store a b)
  | x39 => a <! j_u32 ;; b <! j_u32 ;; j_ret (I_F64Store a b)
  | x3a => a <! j_u32 ;; b <! j_u32 ;; j_ret (I_I32Store8 a b)
  | x3b => a <! j_u32 ;; b <! j_u32 ;; j_ret (I_I32Store16 a b)
  | x3c => a <! j_u32 ;; b <! j_u32 ;; j_ret (I_I64Store8 a b)
  | x3d => a <! j_u32 ;; b <! j_u32 ;; j_ret (I_I64Store16 a b)
  | x3e => a <! j_u32 ;; b <! j_u32 ;; j_ret (I_I64Store32 a b)
  | x3f => a <! j_memidx ;; j_ret (I_MemSize a)
  | x40 => a <! j_memidx ;; j_ret (I_MemGrow a)
  | x41 => a <! j_i32 ;; j_ret (I_ConstI32 a)
  | x42 => a <! j_i64 ;; j_ret (I_ConstI64 a)
  | x43 => a <! j_f32 ;; j_ret (I_ConstF32 a)
  | x44 => a <! j_f64 ;; j_ret (I_ConstF64 a)
  | x45 => j_ret I_I32Eqz
  | x46 => j_ret I_I32Eq
  | x47 => j_ret I_I32Ne
  | x48 => j_ret I_I32LtS
  | x49 => j_ret I_I32LtU
  | x4a => j_ret I_I32GtS
  | x4b => j_ret I_I32GtU
  | x4c => j_ret I_I32LeS
  | x4d => j_ret I_I32LeU
  | x4e => j_ret I_I32GeS
  | x4f => j_ret I_I32GeU
  | x50 => j_ret I_I64Eqz
  | x51 => j_ret I_I64Eq
  | x52 => j_ret I_I64Ne
  | x53 => j_ret I_I64LtS
  | x54 => j_ret I_I64LtU
  | x55 => j_ret I_I64GtS
  | x56 => j_ret I_I64GtU
  | x57 => j_ret I_I64LeS
  | x58 => j_ret I_I64LeU
  | x59 => j_ret I_I64GeS
  | x5a => j_ret I_I64GeU
  | x5b => j_ret I_F32Eq
  | x5c => j_ret I_F32Ne
  | x5d => j_ret I_F32Lt
  | x5e => j_ret I_F32Gt
  | x5f => j_ret I_F32Le
  | x60 => j_ret I_F32Ge
  | x61 => j_ret I_F64Eq
  | x62 => j_ret I_F64Ne
  | x63 => j_ret I_F64Lt
  | x64 => j_ret I_F64Gt
  | x65 => j_ret I_F64Le
  | x66 => j_ret I_F64Ge
  | x67 => j_ret I_I32Clz
  | x68 => j_ret I_I32Ctz
  | x69 => j_ret I_I32Popcnt
  | x6a => j_ret I_I32Add
  | x6b => j_ret I_I32Sub
  | x6c => j_ret I_I32Mul
  | x6d => j_ret I_I32DivS
  | x6e => j_ret I_I32DivU
  | x6f => j_ret I_I32RemS
  | x70 => j_ret I_I32RemU
  | x71 => j_ret I_I32And
  | x72 => j_ret I_I32Or
  | x73 => j_ret I_I32Xor
  | x74 => j_ret I_I32Shl
  | x75 => j_ret I_I32ShrS
  | x76 => j_ret I_I32ShrU
  | x77 => j_ret I_I32Rotl
  | x78 => j_ret I_I32Rotr
  | x79 => j_ret I_I64Clz
  | x7a => j_ret I_I64Ctz
  | x7b => j_ret I_I64Popcnt
  | x7c => j_ret I_I64Add
  | x7d => j_ret I_I64Sub
  | x7e => j_ret I_I64Mul
  | x7f => j_ret I_I64DivS
  | x80 => j_ret I_I64DivU
  | x81 => j_ret I_I64RemS
  | x82 => j_ret I_I64RemU
  | x83 => j_ret I_I64And
  | x84 => j_ret I_I64Or
  | x85 => j_ret I_I64Xor
  | x86 => j_ret I_I64Shl
  | x87 => j_ret I_I64ShrS
  | x88 => j_ret I_I64ShrU
  | x89 => j_ret I_I64Rotl
  | x8a => j_ret I_I64Rotr
  | x8b => j_ret I_F32Abs
  | x8c => j_ret I_F32Neg
  | x8d => j_ret I_F32Ceil
  | x8e => j_ret I_F32Floor
  | x8f => j_ret I_F32Trunc
  | x90 => j_ret I_F32Nearest
  | x91 => j_ret I_F32Sqrt
  | x92 => j_ret I_F32Add
  | x93 => j_ret I_F32Sub
  | x94 => j_ret I_F32Mul
  | x95 => j_ret I_F32Div
  | x96 => j_ret I_F32Min
  | x97 => j_ret I_F32Max
  | x98 => j_ret I_F32Copysign
  | x99 => j_ret I_F64Abs
  | x9a => j_ret I_F64Neg
  | x9b => j_ret I_F64Ceil
  | x9c => j_ret I_F64Floor
  | x9d => j_ret I_F64Trunc
  | x9e => j_ret I_F64Nearest
  | x9f => j_ret I_F64Sqrt
  | xa0 => j_ret I_F64Add
  | xa1 => j_ret I_F64Sub
  | xa2 => j_ret I_F64Mul
  | xa3 => j_ret I_F64Div
  | xa4 => j_ret I_F64Min
  | xa5 => j_ret I_F64Max
  | xa6 => j_ret I_F64Copysign
  | xa7 => j_ret I_I32WrapI64
  | xa8 => j_ret I_I32TruncF32S
  | xa9 => j_ret I_I32TruncF32U
  | xaa => j_ret I_I32TruncF64S
  | xab => j_ret I_I32TruncF64U
  | xac => j_ret I_I64ExtendI32S
  | xad => j_ret I_I64ExtendI32U
  | xae => j_ret I_I64TruncF32S
  | xaf => j_ret I_I64TruncF32U
  | xb0 => j_ret I_I64TruncF64S
  | xb1 => j_ret I_I64TruncF64U
  | xb2 => j_ret I_F32ConvertI32S
  | xb3 => j_ret I_F32ConvertI32U
  | xb4 => j_ret I_F32ConvertI64S
  | xb5 => j_ret I_F32ConvertI64U
  | xb6 => j_ret I_F32DemoteF64
  | xb7 => j_ret I_F64ConvertI32S
  | xb8 => j_ret I_F64ConvertI32U
  | xb9 => j_ret I_F64ConvertI64S
  | xba => j_ret I_F64ConvertI64U
  | xbb => j_ret I_F64PromoteF32
  | xbc => j_ret I_I32ReinterpretF32
  | xbd => j_ret I_I64ReinterpretF64
  | xbe => j_ret I_F32ReinterpretI32
  | xbf => j_ret I_F64ReinterpretI64
  | id => j_fail (InvalidVariantId id "instr::Instr")
  end.

(** binary/instr.rs:23-223 ([Instr]) and 225-241 ([SubExpr]) *)
Fixpoint j_instr (calls : nat) : jp instr :=
  match calls with
  | O => j_out_of_fuel
  | S f => b <! j_byte ;; j_opcode (j_subexpr f []) b
  end
with j_subexpr (calls : nat) (expr : list instr) : jp (list instr * instr) :=
  match calls with
  | O => j_out_of_fuel
  | S f =>
    next <! j_instr f ;;
    match next with
    | I_End => j_ret (expr, next)
    | I_Else => j_ret (expr, next)
    | _ => j_subexpr f (expr ++ [next])
    end
  end.
(** binary/instr.rs:6-14 *)
Definition j_expr : jp expr := fun fuel => j_expr_of (j_subexpr fuel []) fuel.
(** binary/instr.rs:16-21 *)
Definition j_constexpr : jp constexpr := j_expr.
(** binary/instr.rs:23-223 as an entry point of its own *)
Definition j_instr_top : jp instr := fun fuel => j_instr fuel fuel.

(** binary/module.rs:74-85 *)
Definition j_func : jp func :=
  locals <! j_compact_vec j_valty ;;
  body <! j_expr ;;
  j_ret {| fn_ty := 0; fn_locals := locals; fn_body := body |}.

(** binary/module.rs:87-93 *)
Definition j_table : jp table := t <! j_tablety ;; j_ret {| tab_ty := t |}.

(** binary/module.rs:95-101 *)
Definition j_mem : jp mem := t <! j_memty ;; j_ret {| mem_ty := t |}.

(** binary/module.rs:103-110 *)
Definition j_global : jp global :=
  t <! j_globalty ;; i <! j_constexpr ;; j_ret {| glob_ty := t; glob_init := i |}.

(** binary/module.rs:112-120 *)
Definition j_elem : jp elem :=
  t <! j_tableidx ;; o <! j_constexpr ;; i <! j_vec j_funcidx ;;
  j_ret {| el_table := t; el_offset := o; el_init := i |}.

(** binary/module.rs:122-130 *)
Definition j_data : jp data :=
  m <! j_memidx ;; o <! j_constexpr ;; i <! j_unwrapping_vec j_byte (fun b => b) ;;
  j_ret {| da_mem := m; da_offset := o; da_init := i |}.

(** binary/module.rs:132-138 *)
Definition j_start : jp start := f <! j_funcidx ;; j_ret {| st_func := f |}.

(** binary/module.rs:140-151 *)
Definition j_importdesc : jp importdesc :=
  b <! j_byte ;;
  match b with
  | x00 => t <! j_typeidx ;; j_ret (ID_Func t)
  | x01 => t <! j_tablety ;; j_ret (ID_Table t)
  | x02 => t <! j_memty ;; j_ret (ID_Mem t)
  | x03 => t <! j_globalty ;; j_ret (ID_Global t)
  | id => j_fail (InvalidVariantId id "module::desc::Import")
  end.

(** binary/module.rs:153-164 *)
Definition j_exportdesc : jp exportdesc :=
  b <! j_byte ;;
  match b with
  | x00 => i <! j_funcidx ;; j_ret (ED_Func i)
  | x01 => i <! j_tableidx ;; j_ret (ED_Table i)
  | x02 => i <! j_memidx ;; j_ret (ED_Mem i)
  | x03 => i <! j_globalidx ;; j_ret (ED_Global i)
  | id => j_fail (InvalidVariantId id "module::desc::Export")
  end.

(** binary/module.rs:166-174 *)
Definition j_import : jp import :=
  m <! j_string ;; n <! j_string ;; d <! j_importdesc ;;
  j_ret {| im_module := m; im_name := n; im_desc := d |}.

(** binary/module.rs:176-183 *)
Definition j_export : jp export :=
  n <! j_string ;; d <! j_exportdesc ;; j_ret {| ex_name := n; ex_desc := d |}.

(** binary/module.rs:7-11, the payload of a custom section *)
Definition j_custom : jp (name * N) := n <! j_string ;; c <! j_consume ;; j_ret (n, c).

(** binary/module.rs:42-67, the body of one section with identifier [id] *)
Definition j_section (id : byte) (s : pstate) : jp pstate :=
  let m := ps_result s in
  match id with
  | x00 => _ <! j_sized j_custom ;; j_ret s
  | x01 => v <! j_sized (j_vec j_functy) ;; j_ret (with_result s (set_types m v))
  | x02 => v <! j_sized (j_vec j_import) ;; j_ret (with_result s (set_imports m v))
  | x03 => v <! j_sized (j_vec j_typeidx) ;; j_ret (mkPstate m v (ps_last_id s))
  | x04 => v <! j_sized (j_vec j_table) ;; j_ret (with_result s (set_tables m v))
  | x05 => v <! j_sized (j_vec j_mem) ;; j_ret (with_result s (set_mems m v))
  | x06 => v <! j_sized (j_vec j_global) ;; j_ret (with_result s (set_globals m v))
  | x07 => v <! j_sized (j_vec j_export) ;; j_ret (with_result s (set_exports m v))
  | x08 => v <! j_sized j_start ;; j_ret (with_result s (set_start m (Some v)))
  | x09 => v <! j_sized (j_vec j_elem) ;; j_ret (with_result s (set_elem m v))
  | x0a =>
    funcs <! j_sized (j_unwrapping_vec (j_sized j_func) (fun f => f)) ;;
    let n := List.length (ps_func_types s) in
    if negb (Nat.eqb (List.length funcs) n) then j_fail UnexpectedEndOfFile
    else
      match assign_types n funcs (ps_func_types s) with
      | Ok fs => j_ret (with_result s (set_funcs m fs))
      | _ => j_panic
      end
  | x0b => v <! j_sized (j_vec j_data) ;; j_ret (with_result s (set_data m v))
  | _ => j_fail (InvalidSectionId id)
  end.

(** ** [bin.peekable()], binary/module.rs:27 *)
Definition faulty_peekable {S} (next : faulty S) : faulty (peekable S) := fun p =>
  match pk_peeked p with
  | Some v => Some (v, mkPeekable (pk_inner p) None)
  | None =>
    match next (pk_inner p) with
    | None => None
    | Some (v, s') => Some (v, mkPeekable s' None)
    end
  end.
Definition faulty_peek {S} (next : faulty S) (p : peekable S) : option (option byte * peekable S) :=
  match pk_peeked p with
  | Some v => Some (v, p)
  | None =>
    match next (pk_inner p) with
    | None => None
    | Some (v, s') => Some (v, mkPeekable s' (Some v))
    end
  end.

(** binary/module.rs:31-67, the body of the loop *)
Definition j_round (s : pstate) : jp pstate :=
  id <! j_byte ;;
  if negb (byte_is id 0x00) && (Byte.to_N id <=? ps_last_id s)
  then j_fail (UnexpectedSectionId id)
  else j_section id (if byte_is id 0x00 then s
                     else mkPstate (ps_result s) (ps_func_types s) (Byte.to_N id)).
(** binary/module.rs:30-68, the [while] loop *)
Fixpoint j_sections (rounds : nat) (s : pstate) (fuel : nat) (S : Type) (next : faulty S) (p : peekable S)
    : outcome pstate * peekable S :=
  match rounds with
  | O => (OutOfFuel, p)
  | Datatypes.S rounds' =>
    match faulty_peek next p with
    | None => (Panic, p)
    | Some (None, p') => (Ok s, p')
    | Some (Some _, p') =>
      match j_round s fuel (peekable S) (faulty_peekable next) p' with
      | (Ok s2, p2) => j_sections rounds' s2 fuel S next p2
      | (Err e, p2) => (Err e, p2)
      | (Panic, p2) => (Panic, p2)
      | (OutOfFuel, p2) => (OutOfFuel, p2)
      end
    end
  end.
(** binary/module.rs:24-68, on the iterator wrapped by [peekable] *)
Definition j_body : jp pstate := fun fuel S next s =>
  let (o, p) := j_sections fuel (mkPstate default_module [] 0) fuel S next (mkPeekable s None) in
  (o, pk_inner p).

(** binary/module.rs:13-72 *)
Definition j_module : jp module :=
  magic <! j_array 4 j_byte ;;
  if negb (bytes_are magic [0x00; 0x61; 0x73; 0x6D]) then j_fail InvalidPreambleMagic
  else
    version <! j_array 4 j_byte ;;
    if negb (bytes_are version [1; 0; 0; 0]) then j_fail InvalidPreambleVersion
    else s <! j_body ;; j_ret (ps_result s).
