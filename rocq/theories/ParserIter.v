(** Parsing from an arbitrary iterator.

    The parsers of ParserCore.v, ParserInstr.v and ParserModule.v take the finite list of the bytes
    an iterator still yields.  The Rust code is generic in the iterator
    (binary/core/traits.rs:22-31: any [Iterator<Item=u8>]), which may be endless, may have a state of
    its own, and may yield bytes again after a [None].  Here the same functions are modelled on such an
    iterator, together with the standard adapters the code wraps around it ([Take], [Inspect],
    [Peekable], [count]).  IterProof.v relates the two models. *)
From Coq Require Import String.
From Verif Require Export ParserModule.
Open Scope N_scope.

(** ** Iterators: a state and [fn next(&mut self) -> Option<u8>] *)
Definition iterator (S : Type) := S -> option byte * S.

(** [fn parse<Binary: WasmBinary>(bin: &mut Binary) -> Result<Self>], binary/core/traits.rs:67-69: generic in
    the iterator, so a parser can do nothing but call [next].  Since an iterator may be endless the
    loops of the code need not stop; [fuel] bounds the rounds of each loop (not all together), and
    [OutOfFuel] says that a loop has not stopped within that many rounds. *)
Definition ip (A : Type) := forall (fuel : nat) (S : Type), iterator S -> S -> outcome A * S.

Definition i_ret {A} (a : A) : ip A := fun _ _ _ s => (Ok a, s).
Definition i_fail {A} (e : perror) : ip A := fun _ _ _ s => (Err e, s).
Definition i_panic {A} : ip A := fun _ _ _ s => (Panic, s).
Definition i_out_of_fuel {A} : ip A := fun _ _ _ s => (OutOfFuel, s).
Definition i_bind {A B} (p : ip A) (f : A -> ip B) : ip B := fun fuel S next s =>
  match p fuel S next s with
  | (Ok a, s') => f a fuel S next s'
  | (Err e, s') => (Err e, s')
  | (Panic, s') => (Panic, s')
  | (OutOfFuel, s') => (OutOfFuel, s')
  end.
Notation "x <~ p ;; q" := (i_bind p (fun x => q))
  (at level 61, p at next level, right associativity).

(** binary/core/byte.rs:47-54 *)
Definition i_byte : ip byte := fun _ _ next s =>
  match next s with
  | (Some b, s') => (Ok b, s')
  | (None, s') => (Err UnexpectedEndOfFile, s')
  end.

(** binary/core/unsigned.rs:68-91 *)
Fixpoint i_uleb_loop (rounds : nat) (size mask result shift : N) : ip N :=
  match rounds with
  | O => i_out_of_fuel
  | S rounds' =>
    b <~ i_byte ;;
    let byte := Byte.to_N b in
    match u_from_u8 size (N.land byte 0x7F) with
    | None => i_panic
    | Some val =>
      if size <=? shift then
        if negb (N.land byte 0x7F =? 0) then i_fail OutOfRangeUnsignedInteger
        else if N.land byte 0x80 =? 0 then i_ret result
        else i_uleb_loop rounds' size mask result shift
      else
        match u_shl size val shift with
        | None => i_panic
        | Some shl =>
          match u_shr size shl shift with
          | None => i_panic
          | Some back =>
            if negb (N.land back mask =? val) then i_fail OutOfRangeUnsignedInteger
            else
              let '(result', shift') :=
                if shift <? size then (N.lor result shl, shift + 7) else (result, shift) in
              if N.land byte 0x80 =? 0 then i_ret result'
              else i_uleb_loop rounds' size mask result' shift'
          end
        end
    end
  end.
(** binary/core/unsigned.rs:62-93 *)
Definition i_unsigned (size : N) : ip N := fun fuel =>
  match u_from_u8 size 0x7F with
  | None => i_panic fuel
  | Some mask => i_uleb_loop fuel size mask 0 0 fuel
  end.
(** binary/core/unsigned.rs:38-60 *)
Definition i_u8 : ip N := i_unsigned 8.
Definition i_u16 : ip N := i_unsigned 16.
Definition i_u32 : ip u32 := i_unsigned 32.
Definition i_u64 : ip N := i_unsigned 64.

(** binary/core/signed.rs:70-96 and 97-100 *)
Definition i_outcome {A} (o : outcome A) : ip A := fun _ _ _ s => (o, s).
Fixpoint i_sleb_loop (rounds : nat) (size : N) (mask result : Z) (shift : N) (positive : bool) : ip Z :=
  match rounds with
  | O => i_out_of_fuel
  | S rounds' =>
    b <~ i_byte ;;
    let byte := Byte.to_N b in
    match s_from_u8 size (N.land byte 0x7F) with
    | None => i_panic
    | Some val =>
      if size <=? shift then
        if ((N.land byte 0x7F =? 0x00) && positive)
           || ((N.land byte 0x7F =? 0x7F) && negb positive)
        then
          if N.land byte 0x80 =? 0
          then i_outcome (sleb_finish size result shift positive)
          else i_sleb_loop rounds' size mask result shift positive
        else i_fail OutOfRangeSignedInteger
      else
        match s_shl size val shift with
        | None => i_panic
        | Some shl =>
          match s_shr size shl shift with
          | None => i_panic
          | Some back =>
            if negb (Z.land back mask =? val)%Z then i_fail OutOfRangeSignedInteger
            else
              let '(result', shift') :=
                if shift <? size then (Z.lor result shl, shift + 7) else (result, shift) in
              let positive' := N.land byte 0x40 =? 0 in
              if N.land byte 0x80 =? 0
              then i_outcome (sleb_finish size result' shift' positive')
              else i_sleb_loop rounds' size mask result' shift' positive'
          end
        end
    end
  end.
(** binary/core/signed.rs:63-101 *)
Definition i_signed (size : N) : ip Z := fun fuel =>
  match s_from_u8 size 0x7F with
  | None => i_panic fuel
  | Some mask => i_sleb_loop fuel size mask 0 0 true fuel
  end.
(** binary/core/signed.rs:39-61 *)
Definition i_i8 : ip Z := i_signed 8.
Definition i_i16 : ip Z := i_signed 16.
Definition i_i32 : ip i32 := i_signed 32.
Definition i_i64 : ip i64 := i_signed 64.

(** binary/core/array.rs:17-113, vec.rs:59-61 and 91-93 *)
Fixpoint i_times {A} (n : nat) (p : ip A) : ip (list A) :=
  match n with
  | O => i_ret []
  | S n' => x <~ p ;; xs <~ i_times n' p ;; i_ret (x :: xs)
  end.
Definition i_array {A} (n : nat) (p : ip A) : ip (list A) := i_times n p.
(** binary/core/vec.rs:55-64 *)
Definition i_vec {A} (p : ip A) : ip (list A) :=
  n <~ i_u32 ;; i_times (N.to_nat n) p.
(** binary/core/vec.rs:86-96 *)
Definition i_unwrapping_vec {A B} (p : ip A) (u : A -> B) : ip (list B) :=
  n <~ i_u32 ;; i_times (N.to_nat n) (x <~ p ;; i_ret (u x)).
(** binary/core/vec.rs:66-80 *)
Fixpoint i_runs {A} (k : nat) (p : ip A) (result : list A) : ip (list A) :=
  match k with
  | O => i_ret result
  | S k' =>
    n <~ i_u32 ;;
    val <~ p ;;
    i_runs k' p (result ++ repeat val (N.to_nat n))
  end.
Definition i_compact_vec {A} (p : ip A) : ip (list A) :=
  k <~ i_u32 ;; i_runs (N.to_nat k) p [].

(** ** [bin.take(size as usize).inspect(|_| count = count + 1)], binary/core/sized.rs:49-52.
    [Take] asks the inner iterator only while bytes are left to take, and counts a call of [next]
    whether it yields a byte or not; [Inspect] counts the bytes it passes on. *)
Record windowed (S : Type) := mkWindowed { w_inner : S; w_left : N; w_count : N }.
Arguments mkWindowed {S}. Arguments w_inner {S}. Arguments w_left {S}. Arguments w_count {S}.
Definition windowed_next {S} (next : iterator S) : iterator (windowed S) := fun w =>
  if w_left w =? 0 then (None, w)
  else
    match next (w_inner w) with
    | (Some b, s') => (Some b, mkWindowed s' (w_left w - 1) (w_count w + 1))
    | (None, s') => (None, mkWindowed s' (w_left w - 1) (w_count w))
    end.
(** binary/core/sized.rs:46-60 *)
Definition i_sized {A} (p : ip A) : ip A :=
  size <~ i_u32 ;;
  fun fuel S next s =>
    match p fuel (windowed S) (windowed_next next) (mkWindowed s size 0) with
    | (Ok result, w) =>
      if negb (size =? w_count w) then (Err SizeMissmatch, w_inner w)      (* line 54 *)
      else (Ok result, w_inner w)
    | (o, w) => (o, w_inner w)
    end.

(** [Iterator::count]: calls [next] until it yields [None].  binary/core/sized.rs:84-89 *)
Fixpoint i_count (rounds : nat) (n : N) : ip N := fun fuel S next s =>
  match rounds with
  | O => (OutOfFuel, s)
  | Datatypes.S rounds' =>
    match next s with
    | (Some _, s') => i_count rounds' (n + 1) fuel S next s'
    | (None, s') => (Ok n, s')
    end
  end.
Definition i_consume : ip N := fun fuel => i_count fuel 0 fuel.

(** binary/core/float.rs:43-52 *)
Definition i_float (host : endian) (size : nat) : ip N :=
  mem <~ i_times size i_byte ;; i_ret (float_of_memory host mem).
Definition i_f32 : ip f32 := i_float LittleEndian 4.
Definition i_f64 : ip f64 := i_float LittleEndian 8.

(** binary/core/string.rs:18-23 *)
Definition i_string : ip name :=
  raw <~ i_unwrapping_vec i_byte (fun b => b) ;;
  if utf8_valid raw then i_ret raw else i_fail InvalidUtf8Encoding.

(** ** Indices: binary/idx.rs:6-46, all newtypes around [u32] *)
Definition i_typeidx : ip typeidx := i_u32.
Definition i_funcidx : ip funcidx := i_u32.
Definition i_tableidx : ip tableidx := i_u32.
Definition i_memidx : ip memidx := i_u32.
Definition i_globalidx : ip globalidx := i_u32.
Definition i_localidx : ip localidx := i_u32.
Definition i_labelidx : ip labelidx := i_u32.

(** ** Types *)

(** binary/ty.rs:6-21 *)
Definition i_limits : ip limits :=
  b <~ i_byte ;;
  match b with
  | x00 => n <~ i_u32 ;; i_ret {| lim_min := n; lim_max := None |}
  | x01 => n <~ i_u32 ;; m <~ i_u32 ;; i_ret {| lim_min := n; lim_max := Some m |}
  | id => i_fail (InvalidVariantId id "ty::Limits")
  end.

(** binary/ty.rs:23-34 *)
Definition i_valty : ip valty :=
  b <~ i_byte ;;
  match b with
  | x7f => i_ret T_I32
  | x7e => i_ret T_I64
  | x7d => i_ret T_F32
  | x7c => i_ret T_F64
  | id => i_fail (InvalidVariantId id "ty::Val")
  end.

(** binary/ty.rs:36-44 *)
Definition i_elemty : ip elemty :=
  b <~ i_byte ;;
  match b with
  | x70 => i_ret FuncRef
  | id => i_fail (InvalidVariantId id "ty::Elem")
  end.

(** The iterator over the bytes of a slice, [bytes.iter().copied()]; its state are the bytes left. *)
Definition slice_next : iterator (list byte) := fun bs =>
  match bs with
  | b :: r => (Some b, r)
  | [] => (None, [])
  end.
(** binary/ty.rs:46-58: the byte is parsed again, from an iterator over an array of its own *)
Definition i_retval : ip retval :=
  b <~ i_byte ;;
  match b with
  | x40 => i_ret []
  | _ => fun fuel S next s =>
    match i_valty fuel (list byte) slice_next [b] with
    | (Ok t, _) => (Ok [t], s)
    | (Err e, _) => (Err e, s)
    | (Panic, _) => (Panic, s)
    | (OutOfFuel, _) => (OutOfFuel, s)
    end
  end.

(** binary/ty.rs:60-71 *)
Definition i_functy : ip functy :=
  b <~ i_byte ;;
  match b with
  | x60 =>
    ps <~ i_vec i_valty ;; rs <~ i_vec i_valty ;;
    i_ret {| ft_params := ps; ft_results := rs |}
  | id => i_fail (InvalidVariantId id "ty::Func")
  end.

(** binary/ty.rs:73-80 *)
Definition i_tablety : ip tablety :=
  e <~ i_elemty ;; l <~ i_limits ;; i_ret {| tt_lim := l; tt_elem := e |}.

(** binary/ty.rs:82-88 *)
Definition i_memty : ip memty := l <~ i_limits ;; i_ret {| mt_lim := l |}.

(** binary/ty.rs:90-99 *)
Definition i_mut : ip mut :=
  b <~ i_byte ;;
  match b with
  | x00 => i_ret Const
  | x01 => i_ret Var
  | id => i_fail (InvalidVariantId id "ty::Mut")
  end.

(** binary/ty.rs:101-108 *)
Definition i_globalty : ip globalty :=
  v <~ i_valty ;; m <~ i_mut ;; i_ret {| gt_mut := m; gt_val := v |}.

(** ** Instructions *)

(** binary/instr.rs:6-14, on top of the parser of [SubExpr] *)
Definition i_expr_of (sub : ip (list instr * instr)) : ip (list instr) :=
  se <~ sub ;;
  match se with
  | (e, I_End) => i_ret e
  | (_, I_Else) => i_fail (UnexpectedOpcode "Else")
  | (_, _) => i_fail (UnexpectedOpcode "Unknown")
  end.

(** binary/instr.rs:243-274, on top of the parser of [SubExpr] *)
Definition i_if_of (sub : ip (list instr * instr)) : ip instr :=
  ret_val <~ i_retval ;;
  bn <~ sub ;;
  let '(branch_1, next) := bn in
  b2n <~ (if is_else next then sub else i_ret ([], next)) ;;
  let '(branch_2, next) := b2n in
  if is_end next then i_ret (I_If ret_val branch_1 branch_2)
  else i_fail (UnexpectedOpcode "Unknown").

(** binary/instr.rs:26-221, the [match] over the opcode, on top of the parser of [SubExpr] *)
Definition i_opcode (sub : ip (list instr * instr)) (b : byte) : ip instr :=
  match b with
  | x00 => i_ret I_Unreachable
  | x01 => i_ret I_Nop
  | x02 => a <~ i_retval ;; b <~ i_expr_of sub ;; i_ret (I_Block a b)
  | x03 => a <~ i_retval ;; b <~ i_expr_of sub ;; i_ret (I_Loop a b)
  | x04 => i_if_of sub
  | x05 => i_ret I_Else
  | x0b => i_ret I_End
  | x0c => a <~ i_labelidx ;; i_ret (I_Br a)
  | x0d => a <~ i_labelidx ;; i_ret (I_BrIf a)
  | x0e => a <~ i_vec i_labelidx ;; b <~ i_labelidx ;; i_ret (I_BrTable a b)
  | x0f => i_ret I_Return
  | x10 => a <~ i_funcidx ;; i_ret (I_Call a)
  | x11 => a <~ i_typeidx ;; b <~ i_tableidx ;; i_ret (I_CallIndirect a b)
  | x1a => i_ret I_Drop
  | x1b => i_ret I_Select
  | x20 => a <~ i_localidx ;; i_ret (I_LocalGet a)
  | x21 => a <~ i_localidx ;; i_ret (I_LocalSet a)
  | x22 => a <~ i_localidx ;; i_ret (I_LocalTee a)
  | x23 => a <~ i_globalidx ;; i_ret (I_GlobalGet a)
  | x24 => a <~ i_globalidx ;; i_ret (I_GlobalSet a)
  | x28 => a <~ i_u32 ;; b <~ i_u32 ;; i_ret (I_I32Load a b)
  | x29 => a <~ i_u32 ;; b <~ i_u32 ;; i_ret (I_I64Load a b)
  | x2a => a <~ i_u32 ;; b <~ i_u32 ;; i_ret (I_F32Load a b)
  | x2b => a <~ i_u32 ;; b <~ i_u32 ;; i_ret (I_F64Load a b)
  | x2c => a <~ i_u32 ;; b <~ i_u32 ;; i_ret (I_I32Load8S a b)
  | x2d => a <~ i_u32 ;; b <~ i_u32 ;; i_ret (I_I32Load8U a b)
  | x2e => a <~ i_u32 ;; b <~ i_u32 ;; i_ret (I_I32Load16S a b)
  | x2f => a <~ i_u32 ;; b <~ i_u32 ;; i_ret (I_I32Load16U a b)
  | x30 => a <~ i_u32 ;; b <~ i_u32 ;; i_ret (I_I64Load8S a b)
  | x31 => a <~ i_u32 ;; b <~ i_u32 ;; i_ret (I_I64Load8U a b)
  | x32 => a <~ i_u32 ;; b <~ i_u32 ;; i_ret (I_I64Load16S a b)
  | x33 => a <~ i_u32 ;; b <~ i_u32 ;; i_ret (I_I64Load16U a b)
  | x34 => a <~ i_u32 ;; b <~ i_u32 ;; i_ret (I_I64Load32S a b)
  | x35 => a <~ i_u32 ;; b <~ i_u32 ;; i_ret (I_I64Load32U a b)
  | x36 => a <~ i_u32 ;; b <~ i_u32 ;; i_ret (I_I32Store a b)
  | x37 => a <~ i_u32 ;; b <~ i_u32 ;; i_ret (I_I64Store a b)
  | x38 => a <~ i_u32 ;; b <~ i_u32 ;; i_ret (I_F32Store a b)
  | x39 => a <~ i_u32 ;; b <~ i_u32 ;; i_ret (I_F64Store a b)
  | x3a => a <~ i_u32 ;; b <~ i_u32 ;; i_ret (I_I32Store8 a b)
  | x3b => a <~ i_u32 ;; b <~ i_u32 ;; i_ret (I_I32Store16 a b)
  | x3c => a <~ i_u32 ;; b <~ i_u32 ;; i_ret (I_I64Store8 a b)
  | x3d => a <~ i_u32 ;; b <~ i_u32 ;; i_ret (I_I64Store16 a b)
  | x3e => a <~ i_u32 ;; b <~ i_u32 ;; i_ret (I_I64Store32 a b)
  | x3f => a <~ i_memidx ;; i_ret (I_MemSize a)
  | x40 => a <~ i_memidx ;; i_ret (I_MemGrow a)
  | x41 => a <~ i_i32 ;; i_ret (I_ConstI32 a)
  | x42 => a <~ i_i64 ;; i_ret (I_ConstI64 a)
  | x43 => a <~ i_f32 ;; i_ret (I_ConstF32 a)
  | x44 => a <~ i_f64 ;; i_ret (I_ConstF64 a)
  | x45 => i_ret I_I32Eqz
  | x46 => i_ret I_I32Eq
  | x47 => i_ret I_I32Ne
  | x48 => i_ret I_I32LtS
  | x49 => i_ret I_I32LtU
  | x4a => i_ret I_I32GtS
  | x4b => i_ret I_I32GtU
  | x4c => i_ret I_I32LeS
  | x4d => i_ret I_I32LeU
  | x4e => i_ret I_I32GeS
  | x4f => i_ret I_I32GeU
  | x50 => i_ret I_I64Eqz
  | x51 => i_ret I_I64Eq
  | x52 => i_ret I_I64Ne
  | x53 => i_ret I_I64LtS
  | x54 => i_ret I_I64LtU
  | x55 => i_ret I_I64GtS
  | x56 => i_ret I_I64GtU
  | x57 => i_ret I_I64LeS
  | x58 => i_ret I_I64LeU
  | x59 => i_ret I_I64GeS
  | x5a => i_ret I_I64GeU
  | x5b => i_ret I_F32Eq
  | x5c => i_ret I_F32Ne
  | x5d => i_ret I_F32Lt
  | x5e => i_ret I_F32Gt
  | x5f => i_ret I_F32Le
  | x60 => i_ret I_F32Ge
  | x61 => i_ret I_F64Eq
  | x62 => i_ret I_F64Ne
  | x63 => i_ret I_F64Lt
  | x64 => i_ret I_F64Gt
  | x65 => i_ret I_F64Le
  | x66 => i_ret I_F64Ge
  | x67 => i_ret I_I32Clz
  | x68 => i_ret I_I32Ctz
  | x69 => i_ret I_I32Popcnt
  | x6a => i_ret I_I32Add
  | x6b => i_ret I_I32Sub
  | x6c => i_ret I_I32Mul
  | x6d => i_ret I_I32DivS
  | x6e => i_ret I_I32DivU
  | x6f => i_ret I_I32RemS
  | x70 => i_ret I_I32RemU
  | x71 => i_ret I_I32And
  | x72 => i_ret I_I32Or
  | x73 => i_ret I_I32Xor
  | x74 => i_ret I_I32Shl
  | x75 => i_ret I_I32ShrS
  | x76 => i_ret I_I32ShrU
  | x77 => i_ret I_I32Rotl
  | x78 => i_ret I_I32Rotr
  | x79 => i_ret I_I64Clz
  | x7a => i_ret I_I64Ctz
  | x7b => i_ret I_I64Popcnt
  | x7c => i_ret I_I64Add
  | x7d => i_ret I_I64Sub
  | x7e => i_ret I_I64Mul
  | x7f => i_ret I_I64DivS
  | x80 => i_ret I_I64DivU
  | x81 => i_ret I_I64RemS
  | x82 => i_ret I_I64RemU
  | x83 => i_ret I_I64And
  | x84 => i_ret I_I64Or
  | x85 => i_ret I_I64Xor
  | x86 => i_ret I_I64Shl
  | x87 => i_ret I_I64ShrS
  | x88 => i_ret I_I64ShrU
  | x89 => i_ret I_I64Rotl
  | x8a => i_ret I_I64Rotr
  | x8b => i_ret I_F32Abs
  | x8c => i_ret I_F32Neg
  | x8d => i_ret I_F32Ceil
  | x8e => i_ret I_F32Floor
  | x8f => i_ret I_F32Trunc
  | x90 => i_ret I_F32Nearest
  | x91 => i_ret I_F32Sqrt
  | x92 => i_ret I_F32Add
  | x93 => i_ret I_F32Sub
  | x94 => i_ret I_F32Mul
  | x95 => i_ret I_F32Div
  | x96 => i_ret I_F32Min
  | x97 => i_ret I_F32Max
  | x98 => i_ret I_F32Copysign
  | x99 => i_ret I_F64Abs
  | x9a => i_ret I_F64Neg
  | x9b => i_ret I_F64Ceil
  | x9c => i_ret I_F64Floor
  | x9d => i_ret I_F64Trunc
  | x9e => i_ret I_F64Nearest
  | x9f => i_ret I_F64Sqrt
  | xa0 => i_ret I_F64Add
  | xa1 => i_ret I_F64Sub
  | xa2 => i_ret I_F64Mul
  | xa3 => i_ret I_F64Div
  | xa4 => i_ret I_F64Min
  | xa5 => i_ret I_F64Max
  | xa6 => i_ret I_F64Copysign
  | xa7 => i_ret I_I32WrapI64
  | xa8 => i_ret I_I32TruncF32S
  | xa9 => i_ret I_I32TruncF32U
  | xaa => i_ret I_I32TruncF64S
  | xab => i_ret I_I32TruncF64U
  | xac => i_ret I_I64ExtendI32S
  | xad => i_ret I_I64ExtendI32U
  | xae => i_ret I_I64TruncF32S
  | xaf => i_ret I_I64TruncF32U
  | xb0 => i_ret I_I64TruncF64S
  | xb1 => i_ret I_I64TruncF64U
  | xb2 => i_ret I_F32ConvertI32S
  | xb3 => i_ret I_F32ConvertI32U
  | xb4 => i_ret I_F32ConvertI64S
  | xb5 => i_ret I_F32ConvertI64U
  | xb6 => i_ret I_F32DemoteF64
  | xb7 => i_ret I_F64ConvertI32S
  | xb8 => i_ret I_F64ConvertI32U
  | xb9 => i_ret I_F64ConvertI64S
  | xba => i_ret I_F64ConvertI64U
  | xbb => i_ret I_F64PromoteF32
  | xbc => i_ret I_I32ReinterpretF32
  | xbd => i_ret I_I64ReinterpretF64
  | xbe => i_ret I_F32ReinterpretI32
  | xbf => i_ret I_F64ReinterpretI64
  | id => i_fail (InvalidVariantId id "instr::Instr")
  end.

(** binary/instr.rs:23-223 ([Instr]) and 225-241 ([SubExpr]) *)
Fixpoint i_instr (calls : nat) : ip instr :=
  match calls with
  | O => i_out_of_fuel
  | S f => b <~ i_byte ;; i_opcode (i_subexpr f []) b
  end
with i_subexpr (calls : nat) (expr : list instr) : ip (list instr * instr) :=
  match calls with
  | O => i_out_of_fuel
  | S f =>
    next <~ i_instr f ;;
    match next with
    | I_End => i_ret (expr, next)
    | I_Else => i_ret (expr, next)
    | _ => i_subexpr f (expr ++ [next])
    end
  end.
(** binary/instr.rs:6-14 *)
Definition i_expr : ip expr := fun fuel => i_expr_of (i_subexpr fuel []) fuel.
(** binary/instr.rs:16-21 *)
Definition i_constexpr : ip constexpr := i_expr.
(** binary/instr.rs:23-223 as an entry point of its own *)
Definition i_instr_top : ip instr := fun fuel => i_instr fuel fuel.

(** binary/module.rs:74-85 *)
Definition i_func : ip func :=
  locals <~ i_compact_vec i_valty ;;
  body <~ i_expr ;;
  i_ret {| fn_ty := 0; fn_locals := locals; fn_body := body |}.

(** binary/module.rs:87-93 *)
Definition i_table : ip table := t <~ i_tablety ;; i_ret {| tab_ty := t |}.

(** binary/module.rs:95-101 *)
Definition i_mem : ip mem := t <~ i_memty ;; i_ret {| mem_ty := t |}.

(** binary/module.rs:103-110 *)
Definition i_global : ip global :=
  t <~ i_globalty ;; i <~ i_constexpr ;; i_ret {| glob_ty := t; glob_init := i |}.

(** binary/module.rs:112-120 *)
Definition i_elem : ip elem :=
  t <~ i_tableidx ;; o <~ i_constexpr ;; i <~ i_vec i_funcidx ;;
  i_ret {| el_table := t; el_offset := o; el_init := i |}.

(** binary/module.rs:122-130 *)
Definition i_data : ip data :=
  m <~ i_memidx ;; o <~ i_constexpr ;; i <~ i_unwrapping_vec i_byte (fun b => b) ;;
  i_ret {| da_mem := m; da_offset := o; da_init := i |}.

(** binary/module.rs:132-138 *)
Definition i_start : ip start := f <~ i_funcidx ;; i_ret {| st_func := f |}.

(** binary/module.rs:140-151 *)
Definition i_importdesc : ip importdesc :=
  b <~ i_byte ;;
  match b with
  | x00 => t <~ i_typeidx ;; i_ret (ID_Func t)
  | x01 => t <~ i_tablety ;; i_ret (ID_Table t)
  | x02 => t <~ i_memty ;; i_ret (ID_Mem t)
  | x03 => t <~ i_globalty ;; i_ret (ID_Global t)
  | id => i_fail (InvalidVariantId id "module::desc::Import")
  end.

(** binary/module.rs:153-164 *)
Definition i_exportdesc : ip exportdesc :=
  b <~ i_byte ;;
  match b with
  | x00 => i <~ i_funcidx ;; i_ret (ED_Func i)
  | x01 => i <~ i_tableidx ;; i_ret (ED_Table i)
  | x02 => i <~ i_memidx ;; i_ret (ED_Mem i)
  | x03 => i <~ i_globalidx ;; i_ret (ED_Global i)
  | id => i_fail (InvalidVariantId id "module::desc::Export")
  end.

(** binary/module.rs:166-174 *)
Definition i_import : ip import :=
  m <~ i_string ;; n <~ i_string ;; d <~ i_importdesc ;;
  i_ret {| im_module := m; im_name := n; im_desc := d |}.

(** binary/module.rs:176-183 *)
Definition i_export : ip export :=
  n <~ i_string ;; d <~ i_exportdesc ;; i_ret {| ex_name := n; ex_desc := d |}.

(** binary/module.rs:7-11, the payload of a custom section *)
Definition i_custom : ip (name * N) := n <~ i_string ;; c <~ i_consume ;; i_ret (n, c).

(** binary/module.rs:42-67, the body of one section with identifier [id] *)
Definition i_section (id : byte) (s : pstate) : ip pstate :=
  let m := ps_result s in
  match id with
  | x00 => _ <~ i_sized i_custom ;; i_ret s
  | x01 => v <~ i_sized (i_vec i_functy) ;; i_ret (with_result s (set_types m v))
  | x02 => v <~ i_sized (i_vec i_import) ;; i_ret (with_result s (set_imports m v))
  | x03 => v <~ i_sized (i_vec i_typeidx) ;; i_ret (mkPstate m v (ps_last_id s))
  | x04 => v <~ i_sized (i_vec i_table) ;; i_ret (with_result s (set_tables m v))
  | x05 => v <~ i_sized (i_vec i_mem) ;; i_ret (with_result s (set_mems m v))
  | x06 => v <~ i_sized (i_vec i_global) ;; i_ret (with_result s (set_globals m v))
  | x07 => v <~ i_sized (i_vec i_export) ;; i_ret (with_result s (set_exports m v))
  | x08 => v <~ i_sized i_start ;; i_ret (with_result s (set_start m (Some v)))
  | x09 => v <~ i_sized (i_vec i_elem) ;; i_ret (with_result s (set_elem m v))
  | x0a =>
    funcs <~ i_sized (i_unwrapping_vec (i_sized i_func) (fun f => f)) ;;
    let n := List.length (ps_func_types s) in
    if negb (Nat.eqb (List.length funcs) n) then i_fail UnexpectedEndOfFile
    else
      match assign_types n funcs (ps_func_types s) with
      | Ok fs => i_ret (with_result s (set_funcs m fs))
      | _ => i_panic
      end
  | x0b => v <~ i_sized (i_vec i_data) ;; i_ret (with_result s (set_data m v))
  | _ => i_fail (InvalidSectionId id)
  end.

(** ** [bin.peekable()], binary/module.rs:27: the inner iterator and the byte (or end) peeked *)
Record peekable (S : Type) := mkPeekable { pk_inner : S; pk_peeked : option (option byte) }.
Arguments mkPeekable {S}. Arguments pk_inner {S}. Arguments pk_peeked {S}.
Definition peekable_next {S} (next : iterator S) : iterator (peekable S) := fun p =>
  match pk_peeked p with
  | Some v => (v, mkPeekable (pk_inner p) None)
  | None => let (v, s') := next (pk_inner p) in (v, mkPeekable s' None)
  end.
Definition peek {S} (next : iterator S) (p : peekable S) : option byte * peekable S :=
  match pk_peeked p with
  | Some v => (v, p)
  | None => let (v, s') := next (pk_inner p) in (v, mkPeekable s' (Some v))
  end.

(** binary/module.rs:31-67, the body of the loop *)
Definition i_round (s : pstate) : ip pstate :=
  id <~ i_byte ;;
  if negb (byte_is id 0x00) && (Byte.to_N id <=? ps_last_id s)
  then i_fail (UnexpectedSectionId id)
  else i_section id (if byte_is id 0x00 then s
                     else mkPstate (ps_result s) (ps_func_types s) (Byte.to_N id)).
(** binary/module.rs:30-68, the [while] loop *)
Fixpoint i_sections (rounds : nat) (s : pstate) (fuel : nat) (S : Type) (next : iterator S) (p : peekable S)
    : outcome pstate * peekable S :=
  match rounds with
  | O => (OutOfFuel, p)
  | Datatypes.S rounds' =>
    match peek next p with
    | (None, p') => (Ok s, p')
    | (Some _, p') =>
      match i_round s fuel (peekable S) (peekable_next next) p' with
      | (Ok s2, p2) => i_sections rounds' s2 fuel S next p2
      | (Err e, p2) => (Err e, p2)
      | (Panic, p2) => (Panic, p2)
      | (OutOfFuel, p2) => (OutOfFuel, p2)
      end
    end
  end.
(** binary/module.rs:24-68, on the iterator wrapped by [peekable] *)
Definition i_body : ip pstate := fun fuel S next s =>
  let (o, p) := i_sections fuel (mkPstate default_module [] 0) fuel S next (mkPeekable s None) in
  (o, pk_inner p).

(** binary/module.rs:13-72 *)
Definition i_module : ip module :=
  magic <~ i_array 4 i_byte ;;
  if negb (bytes_are magic [0x00; 0x61; 0x73; 0x6D]) then i_fail InvalidPreambleMagic
  else
    version <~ i_array 4 i_byte ;;
    if negb (bytes_are version [1; 0; 0; 0]) then i_fail InvalidPreambleVersion
    else s <~ i_body ;; i_ret (ps_result s).
