(** The older, declarative parser of the repository: whasm/src/grammar/**.  The crate does not compile it any more (lib.rs),
    and its derive macro is a crate of its own that is not in the repository; [g_enum] etc. below follow the documentation
    of that macro, grammar/core/derive.rs:1-393.
    Newtypes around [u32] are their number; [BlockType::Empty] is [[]] and [BlockType::Value(t)] is [[t]], the
    other types are those of Structure.v with the same fields. *)
From Coq Require Import String.
From Verif Require Export ParserCore.
Open Scope N_scope.

(** grammar/core/error.rs:28-70, without the texts; [G_Utf8] is the boxed [FromUtf8Error] of string.rs:23 *)
Inductive gerror :=
| G_InvalidEnumDiscriminant
| G_OutOfRangeSignedInteger
| G_OutOfRangeUnsignedInteger
| G_UnexpectedEndOfStream
| G_RemainingBytesInStream
| G_UnexpectedInstruction
| G_UnsatisfiedMatch
| G_Utf8.
(** grammar/core/mod.rs:8, with panics and the fuel of the model as in ParserCore.v *)
Inductive gresult (A : Type) :=
| GOk (a : A)
| GErr (e : gerror)
| GPanic
| GOutOfFuel.
Arguments GOk {A}. Arguments GErr {A}. Arguments GPanic {A}. Arguments GOutOfFuel {A}.
(** grammar/core/mod.rs:36-44 *)
Definition gparser (A : Type) := list byte -> gresult A * list byte.
Definition gret {A} (a : A) : gparser A := fun bs => (GOk a, bs).
Definition gfail {A} (e : gerror) : gparser A := fun bs => (GErr e, bs).
Definition gbind {A B} (p : gparser A) (f : A -> gparser B) : gparser B := fun bs =>
  match p bs with
  | (GOk a, r) => f a r
  | (GErr e, r) => (GErr e, r)
  | (GPanic, r) => (GPanic, r)
  | (GOutOfFuel, r) => (GOutOfFuel, r)
  end.
Notation "x <~ p ;; q" := (gbind p (fun x => q)) (at level 61, p at next level, right associativity).

(** ** grammar/core *)
(** byte.rs:47-56 *)
Definition g_byte : gparser byte := fun bs =>
  match bs with
  | b :: r => (GOk b, r)
  | [] => (GErr G_UnexpectedEndOfStream, [])
  end.

(** unsigned.rs:51-74 *)
Fixpoint g_uleb_loop (size mask result shift : N) (bs : list byte) : gresult N * list byte :=
  match bs with
  | [] => (GErr G_UnexpectedEndOfStream, [])                               (* line 52 *)
  | b :: bs' =>
    let byte := Byte.to_N b in
    match u_from_u8 size (N.land byte 0x7F) with                           (* line 53 *)
    | None => (GPanic, bs')
    | Some val =>
      if size <=? shift then                                               (* line 54 *)
        if negb (N.land byte 0x7F =? 0) then (GErr G_OutOfRangeUnsignedInteger, bs')
        else if N.land byte 0x80 =? 0 then (GOk result, bs')
        else g_uleb_loop size mask result shift bs'
      else
        match u_shl size val shift with
        | None => (GPanic, bs')
        | Some shl =>
          match u_shr size shl shift with
          | None => (GPanic, bs')
          | Some back =>
            if negb (N.land back mask =? val)                              (* line 64 *)
            then (GErr G_OutOfRangeUnsignedInteger, bs')
            else
              let '(result', shift') :=                                    (* lines 67-70 *)
                if shift <? size then (N.lor result shl, shift + 7) else (result, shift) in
              if N.land byte 0x80 =? 0 then (GOk result', bs')             (* line 71 *)
              else g_uleb_loop size mask result' shift' bs'
          end
        end
    end
  end.
(** unsigned.rs:45-76 *)
Definition g_unsigned (size : N) : gparser N := fun bs =>
  match u_from_u8 size 0x7F with
  | None => (GPanic, bs)
  | Some mask => g_uleb_loop size mask 0 0 bs
  end.
(** unsigned.rs:78-102 *)
Definition g_u8 : gparser N := g_unsigned 8.
Definition g_u16 : gparser N := g_unsigned 16.
Definition g_u32 : gparser u32 := g_unsigned 32.
Definition g_u64 : gparser N := g_unsigned 64.

(** signed.rs:79-82 *)
Definition g_sleb_finish (size : N) (result : Z) (shift : N) (positive : bool) : gresult Z :=
  if (shift <? size) && negb positive then
    match s_shl size (Z.lnot 0) shift with
    | None => GPanic
    | Some ones => GOk (Z.lor result ones)
    end
  else GOk result.
(** signed.rs:52-78 *)
Fixpoint g_sleb_loop (size : N) (mask result : Z) (shift : N) (positive : bool)
    (bs : list byte) : gresult Z * list byte :=
  match bs with
  | [] => (GErr G_UnexpectedEndOfStream, [])                               (* line 53 *)
  | b :: bs' =>
    let byte := Byte.to_N b in
    match s_from_u8 size (N.land byte 0x7F) with                           (* line 54 *)
    | None => (GPanic, bs')
    | Some val =>
      if size <=? shift then                                               (* line 55 *)
        if ((N.land byte 0x7F =? 0x00) && positive) || ((N.land byte 0x7F =? 0x7F) && negb positive)
        then
          if N.land byte 0x80 =? 0
          then (g_sleb_finish size result shift positive, bs')
          else g_sleb_loop size mask result shift positive bs'
        else (GErr G_OutOfRangeSignedInteger, bs')
      else
        match s_shl size val shift with
        | None => (GPanic, bs')
        | Some shl =>
          match s_shr size shl shift with
          | None => (GPanic, bs')
          | Some back =>
            if negb (Z.land back mask =? val)%Z                            (* line 67 *)
            then (GErr G_OutOfRangeSignedInteger, bs')
            else
              let '(result', shift') :=                                    (* lines 70-73 *)
                if shift <? size then (Z.lor result shl, shift + 7) else (result, shift) in
              let positive' := N.land byte 0x40 =? 0 in                    (* line 74 *)
              if N.land byte 0x80 =? 0                                     (* line 75 *)
              then (g_sleb_finish size result' shift' positive', bs')
              else g_sleb_loop size mask result' shift' positive' bs'
          end
        end
    end
  end.
(** signed.rs:45-83 *)
Definition g_signed (size : N) : gparser Z := fun bs =>
  match s_from_u8 size 0x7F with
  | None => (GPanic, bs)
  | Some mask => g_sleb_loop size mask 0 0 true bs
  end.
(** signed.rs:85-109 *)
Definition g_i8 : gparser Z := g_signed 8.
Definition g_i16 : gparser Z := g_signed 16.
Definition g_i32 : gparser i32 := g_signed 32.
Definition g_i64 : gparser i64 := g_signed 64.

(** array.rs:19-113 and the loops of vec.rs:34-36 *)
Fixpoint g_times {A} (n : nat) (p : gparser A) : gparser (list A) :=
  match n with
  | O => gret []
  | S n' => x <~ p ;; xs <~ g_times n' p ;; gret (x :: xs)
  end.
(** vec.rs:30-39 *)
Definition g_vec {A} (p : gparser A) : gparser (list A) := n <~ g_u32 ;; g_times (N.to_nat n) p.
(** vec.rs:48-54 *)
Fixpoint g_runs {A} (k : nat) (p : gparser A) (result : list A) : gparser (list A) :=
  match k with
  | O => gret result
  | S k' => n <~ g_u32 ;; elem <~ p ;; g_runs k' p (result ++ repeat elem (N.to_nat n))
  end.
(** vec.rs:44-59 *)
Definition g_vecvec {A} (p : gparser A) : gparser (list A) := k <~ g_u32 ;; g_runs (N.to_nat k) p [].
(** list.rs:52-54; every element takes at least one byte, so [S (length bs)] is enough fuel *)
Fixpoint g_until {A} (fuel : nat) (p : gparser A) : gparser (list A) := fun bs =>
  match fuel with
  | O => (GOutOfFuel, bs)
  | S f =>
    match bs with
    | [] => (GOk [], [])
    | _ => (x <~ p ;; xs <~ g_until f p ;; gret (x :: xs)) bs
    end
  end.
(** list.rs:48-59 *)
Definition g_list {A} (p : gparser A) : gparser (list A) := fun bs => g_until (S (List.length bs)) p bs.
(** float.rs:20-40, on a little-endian host *)
Definition g_float (size : nat) : gparser N := mem <~ g_times size g_byte ;; gret (float_of_memory LittleEndian mem).
Definition g_f32 : gparser f32 := g_float 4.
Definition g_f64 : gparser f64 := g_float 8.
(** string.rs:19-25 *)
Definition g_string : gparser name := raw <~ g_vec g_byte ;; if utf8_valid raw then gret raw else gfail G_Utf8.

(** ** The derive macro *)
(** derive.rs:161-213: the attribute [sized]: a [u32], then contents that take exactly that many bytes *)
Definition g_sized {A} (p : gparser A) : gparser A :=
  size <~ g_u32 ;;
  fun bs =>
    let window := firstn (N.to_nat size) bs in
    let after := skipn (N.to_nat size) bs in
    match p window with
    | (GOk a, r) =>
      if N.of_nat (List.length window - List.length r) =? size then (GOk a, r ++ after)
      else (GErr G_RemainingBytesInStream, r ++ after)
    | (o, r) => (o, r ++ after)
    end.
(** derive.rs:119-156, 276-326: an [enum] without [forward] reads a byte and continues with the matching variant *)
Definition g_enum {A} (variant : byte -> gparser A) : gparser A := b <~ g_byte ;; variant b.
Definition g_no_variant {A} : gparser A := gfail G_InvalidEnumDiscriminant.
(** derive.rs:328-392: the attribute [forward]: the byte read is given back *)
Definition g_forward {A} (b : byte) (p : gparser A) : gparser A := fun bs => p (b :: bs).
(** derive.rs:215-274: the attribute [matching] *)
Definition g_matching {A} (p : gparser A) (ok : A -> bool) : gparser A :=
  a <~ p ;; if ok a then gret a else gfail G_UnsatisfiedMatch.

(** ** grammar/idx.rs:4-23 *)
Definition g_typeidx : gparser typeidx := g_u32.
Definition g_funcidx : gparser funcidx := g_u32.
Definition g_tableidx : gparser tableidx := g_u32.
Definition g_memidx : gparser memidx := g_u32.
Definition g_globalidx : gparser globalidx := g_u32.
Definition g_localidx : gparser localidx := g_u32.
Definition g_labelidx : gparser labelidx := g_u32.

(** ** grammar/ty.rs *)
(** ty.rs:4-10 *)
Definition g_valtype : gparser valty := g_enum (fun b =>
  match b with
  | x7f => gret T_I32
  | x7e => gret T_I64
  | x7d => gret T_F32
  | x7c => gret T_F64
  | _ => g_no_variant
  end).
(** ty.rs:12-16 *)
Definition g_blocktype : gparser retval := g_enum (fun b =>
  match b with
  | x40 => gret []
  | _ => t <~ g_forward b g_valtype ;; gret [t]
  end).
(** ty.rs:18-24 *)
Definition g_functype : gparser functy := g_enum (fun b =>
  match b with
  | x60 => ps <~ g_vec g_valtype ;; rs <~ g_vec g_valtype ;; gret (mkFuncTy ps rs)
  | _ => g_no_variant
  end).
(** ty.rs:26-30 *)
Definition g_limits : gparser limits := g_enum (fun b =>
  match b with
  | x00 => n <~ g_u32 ;; gret (mkLimits n None)
  | x01 => n <~ g_u32 ;; m <~ g_u32 ;; gret (mkLimits n (Some m))
  | _ => g_no_variant
  end).
(** ty.rs:32-35 *)
Definition g_memtype : gparser memty := l <~ g_limits ;; gret (mkMemTy l).
(** ty.rs:43-47 *)
Definition g_elemtype : gparser elemty := g_enum (fun b => match b with x70 => gret FuncRef | _ => g_no_variant end).
(** ty.rs:37-41 *)
Definition g_tabletype : gparser tablety := e <~ g_elemtype ;; l <~ g_limits ;; gret (mkTableTy l e).
(** ty.rs:55-59 *)
Definition g_mut : gparser mut := g_enum (fun b => match b with x00 => gret Const | x01 => gret Var | _ => g_no_variant end).
(** ty.rs:49-53 *)
Definition g_globaltype : gparser globalty := t <~ g_valtype ;; m <~ g_mut ;; gret (mkGlobalTy m t).

(** ** grammar/instr.rs *)
(** instr.rs:201-205 *)
Definition g_memarg : gparser (N * N) := align <~ g_u32 ;; offset <~ g_u32 ;; gret (align, offset).
(** instr.rs:244-251, on top of the parser of [InstrList] *)
Definition g_expression_of (list_of : gparser (list instr * instr)) : gparser (list instr) :=
  l <~ list_of ;;
  match l with
  | (instr, I_End) => gret instr
  | _ => gfail G_UnexpectedInstruction
  end.
(** instr.rs:207-211 *)
Definition g_block (list_of : gparser (list instr * instr)) : gparser (retval * list instr) :=
  ty <~ g_blocktype ;; instr <~ g_expression_of list_of ;; gret (ty, instr).
(** instr.rs:220-239 *)
Definition g_if (list_of : gparser (list instr * instr)) : gparser (retval * (list instr * list instr)) :=
  ty <~ g_blocktype ;;
  l <~ list_of ;;
  match l with
  | (then_instr, I_End) => gret (ty, (then_instr, []))
  | (then_instr, I_Else) =>
    l2 <~ list_of ;;
    match l2 with
    | (else_instr, I_End) => gret (ty, (then_instr, else_instr))
    | _ => gfail G_UnexpectedInstruction
    end
  | _ => fun bs => (GPanic, bs)                                            (* unreachable!() *)
  end.
(** instr.rs:4-199, the variant for a discriminant *)
Definition g_variant (list_of : gparser (list instr * instr)) (b : byte) : gparser instr :=
  match b with
  | x00 => gret I_Unreachable
  | x01 => gret I_Nop
  | x02 => v <~ g_block list_of ;; gret (I_Block (fst v) (snd v))
  | x03 => v <~ g_block list_of ;; gret (I_Loop (fst v) (snd v))
  | x04 => v <~ g_if list_of ;; gret (I_If (fst v) (fst (snd v)) (snd (snd v)))
  | x05 => gret I_Else
  | x0b => gret I_End
  | x0c => a <~ g_labelidx ;; gret (I_Br a)
  | x0d => a <~ g_labelidx ;; gret (I_BrIf a)
  | x0e => a <~ g_vec g_labelidx ;; b <~ g_labelidx ;; gret (I_BrTable a b)
  | x0f => gret I_Return
  | x10 => a <~ g_funcidx ;; gret (I_Call a)
  | x11 => a <~ g_funcidx ;; b <~ g_tableidx ;; gret (I_CallIndirect a b)
  | x1a => gret I_Drop
  | x1b => gret I_Select
  | x20 => a <~ g_localidx ;; gret (I_LocalGet a)
  | x21 => a <~ g_localidx ;; gret (I_LocalSet a)
  | x22 => a <~ g_localidx ;; gret (I_LocalTee a)
  | x23 => a <~ g_globalidx ;; gret (I_GlobalGet a)
  | x24 => a <~ g_globalidx ;; gret (I_GlobalSet a)
  | x28 => m <~ g_memarg ;; gret (I_I32Load (fst m) (snd m))
  | x29 => m <~ g_memarg ;; gret (I_I64Load (fst m) (snd m))
  | x2a => m <~ g_memarg ;; gret (I_F32Load (fst m) (snd m))
  | x2b => m <~ g_memarg ;; gret (I_F64Load (fst m) (snd m))
  | x2c => m <~ g_memarg ;; gret (I_I32Load8S (fst m) (snd m))
  | x2d => m <~ g_memarg ;; gret (I_I32Load8U (fst m) (snd m))
  | x2e => m <~ g_memarg ;; gret (I_I32Load16S (fst m) (snd m))
  | x2f => m <~ g_memarg ;; gret (I_I32Load16U (fst m) (snd m))
  | x30 => m <~ g_memarg ;; gret (I_I64Load8S (fst m) (snd m))
  | x31 => m <~ g_memarg ;; gret (I_I64Load8U (fst m) (snd m))
  | x32 => m <~ g_memarg ;; gret (I_I64Load16S (fst m) (snd m))
  | x33 => m <~ g_memarg ;; gret (I_I64Load16U (fst m) (snd m))
  | x34 => m <~ g_memarg ;; gret (I_I64Load32S (fst m) (snd m))
  | x35 => m <~ g_memarg ;; gret (I_I64Load32U (fst m) (snd m))
  | x36 => m <~ g_memarg ;; gret (I_I32Store (fst m) (snd m))
  | x37 => m <~ g_memarg ;; gret (I_I64Store (fst m) (snd m))
  | x38 => m <~ g_memarg ;; gret (I_F32Store (fst m) (snd m))
  | x39 => m <~ g_memarg ;; gret (I_F64Store (fst m) (snd m))
  | x3a => m <~ g_memarg ;; gret (I_I32Store8 (fst m) (snd m))
  | x3b => m <~ g_memarg ;; gret (I_I32Store16 (fst m) (snd m))
  | x3c => m <~ g_memarg ;; gret (I_I64Store8 (fst m) (snd m))
  | x3d => m <~ g_memarg ;; gret (I_I64Store16 (fst m) (snd m))
  | x3e => m <~ g_memarg ;; gret (I_I64Store32 (fst m) (snd m))
  | x3f => a <~ g_memidx ;; gret (I_MemSize a)
  | x40 => a <~ g_memidx ;; gret (I_MemGrow a)
  | x41 => a <~ g_i32 ;; gret (I_ConstI32 a)
  | x42 => a <~ g_i64 ;; gret (I_ConstI64 a)
  | x43 => a <~ g_f32 ;; gret (I_ConstF32 a)
  | x44 => a <~ g_f64 ;; gret (I_ConstF64 a)
  | x45 => gret I_I32Eqz
  | x46 => gret I_I32Eq
  | x47 => gret I_I32Ne
  | x48 => gret I_I32LtS
  | x49 => gret I_I32LtU
  | x4a => gret I_I32GtS
  | x4b => gret I_I32GtU
  | x4c => gret I_I32LeS
  | x4d => gret I_I32LeU
  | x4e => gret I_I32GeS
  | x4f => gret I_I32GeU
  | x50 => gret I_I64Eqz
  | x51 => gret I_I64Eq
  | x52 => gret I_I64Ne
  | x53 => gret I_I64LtS
  | x54 => gret I_I64LtU
  | x55 => gret I_I64GtS
  | x56 => gret I_I64GtU
  | x57 => gret I_I64LeS
  | x58 => gret I_I64LeU
  | x59 => gret I_I64GeS
  | x5a => gret I_I64GeU
  | x5b => gret I_F32Eq
  | x5c => gret I_F32Ne
  | x5d => gret I_F32Lt
  | x5e => gret I_F32Gt
  | x5f => gret I_F32Le
  | x60 => gret I_F32Ge
  | x61 => gret I_F64Eq
  | x62 => gret I_F64Ne
  | x63 => gret I_F64Lt
  | x64 => gret I_F64Gt
  | x65 => gret I_F64Le
  | x66 => gret I_F64Ge
  | x67 => gret I_I32Clz
  | x68 => gret I_I32Ctz
  | x69 => gret I_I32Popcnt
  | x6a => gret I_I32Add
  | x6b => gret I_I32Sub
  | x6c => gret I_I32Mul
  | x6d => gret I_I32DivS
  | x6e => gret I_I32DivU
  | x6f => gret I_I32RemS
  | x70 => gret I_I32RemU
  | x71 => gret I_I32And
  | x72 => gret I_I32Or
  | x73 => gret I_I32Xor
  | x74 => gret I_I32Shl
  | x75 => gret I_I32ShrS
  | x76 => gret I_I32ShrU
  | x77 => gret I_I32Rotl
  | x78 => gret I_I32Rotr
  | x79 => gret I_I64Clz
  | x7a => gret I_I64Ctz
  | x7b => gret I_I64Popcnt
  | x7c => gret I_I64Add
  | x7d => gret I_I64Sub
  | x7e => gret I_I64Mul
  | x7f => gret I_I64DivS
  | x80 => gret I_I64DivU
  | x81 => gret I_I64RemS
  | x82 => gret I_I64RemU
  | x83 => gret I_I64And
  | x84 => gret I_I64Or
  | x85 => gret I_I64Xor
  | x86 => gret I_I64Shl
  | x87 => gret I_I64ShrS
  | x88 => gret I_I64ShrU
  | x89 => gret I_I64Rotl
  | x8a => gret I_I64Rotr
  | x8b => gret I_F32Abs
  | x8c => gret I_F32Neg
  | x8d => gret I_F32Ceil
  | x8e => gret I_F32Floor
  | x8f => gret I_F32Trunc
  | x90 => gret I_F32Nearest
  | x91 => gret I_F32Sqrt
  | x92 => gret I_F32Add
  | x93 => gret I_F32Sub
  | x94 => gret I_F32Mul
  | x95 => gret I_F32Div
  | x96 => gret I_F32Min
  | x97 => gret I_F32Max
  | x98 => gret I_F32Copysign
  | x99 => gret I_F64Abs
  | x9a => gret I_F64Neg
  | x9b => gret I_F64Ceil
  | x9c => gret I_F64Floor
  | x9d => gret I_F64Trunc
  | x9e => gret I_F64Nearest
  | x9f => gret I_F64Sqrt
  | xa0 => gret I_F64Add
  | xa1 => gret I_F64Sub
  | xa2 => gret I_F64Mul
  | xa3 => gret I_F64Div
  | xa4 => gret I_F64Min
  | xa5 => gret I_F64Max
  | xa6 => gret I_F64Copysign
  | xa7 => gret I_I32WrapI64
  | xa8 => gret I_I32TruncF32S
  | xa9 => gret I_I32TruncF32U
  | xaa => gret I_I32TruncF64S
  | xab => gret I_I32TruncF64U
  | xac => gret I_I64ExtendI32S
  | xad => gret I_I64ExtendI32U
  | xae => gret I_I64TruncF32S
  | xaf => gret I_I64TruncF32U
  | xb0 => gret I_I64TruncF64S
  | xb1 => gret I_I64TruncF64U
  | xb2 => gret I_F32ConvertI32S
  | xb3 => gret I_F32ConvertI32U
  | xb4 => gret I_F32ConvertI64S
  | xb5 => gret I_F32ConvertI64U
  | xb6 => gret I_F32DemoteF64
  | xb7 => gret I_F64ConvertI32S
  | xb8 => gret I_F64ConvertI32U
  | xb9 => gret I_F64ConvertI64S
  | xba => gret I_F64ConvertI64U
  | xbb => gret I_F64PromoteF32
  | xbc => gret I_I32ReinterpretF32
  | xbd => gret I_I64ReinterpretF64
  | xbe => gret I_F32ReinterpretI32
  | xbf => gret I_F64ReinterpretI64
  | _ => g_no_variant
  end.
(** instr.rs:4-199 ([Instruction]) and 256-268 ([InstrList]) *)
Fixpoint g_instruction (fuel : nat) : gparser instr :=
  match fuel with
  | O => fun bs => (GOutOfFuel, bs)
  | S f => g_enum (g_variant (g_instrlist f []))
  end
with g_instrlist (fuel : nat) (instrs : list instr) : gparser (list instr * instr) :=
  match fuel with
  | O => fun bs => (GOutOfFuel, bs)
  | S f =>
    ins <~ g_instruction f ;;
    match ins with
    | I_End => gret (instrs, I_End)
    | I_Else => gret (instrs, I_Else)
    | _ => g_instrlist f (instrs ++ [ins])
    end
  end.
(** instr.rs:244-251 *)
Definition g_expression : gparser expr := fun bs => g_expression_of (g_instrlist (2 * List.length bs + 2) []) bs.

(** ** grammar/section.rs *)
(** section.rs:51-57 *)
Definition g_importdesc : gparser importdesc := g_enum (fun b =>
  match b with
  | x00 => t <~ g_typeidx ;; gret (ID_Func t)
  | x01 => t <~ g_tabletype ;; gret (ID_Table t)
  | x02 => t <~ g_memtype ;; gret (ID_Mem t)
  | x03 => t <~ g_globaltype ;; gret (ID_Global t)
  | _ => g_no_variant
  end).
(** section.rs:44-49 *)
Definition g_import : gparser import := m <~ g_string ;; n <~ g_string ;; d <~ g_importdesc ;; gret (mkImport m n d).
(** section.rs:69-72, 79-82 *)
Definition g_table : gparser table := t <~ g_tabletype ;; gret (mkTable t).
Definition g_memory : gparser mem := t <~ g_memtype ;; gret (mkMem t).
(** section.rs:89-93 *)
Definition g_global : gparser global := t <~ g_globaltype ;; e <~ g_expression ;; gret (mkGlobal t e).
(** section.rs:106-112; the index of an exported function is called a [TypeIdx] there *)
Definition g_exportdesc : gparser exportdesc := g_enum (fun b =>
  match b with
  | x00 => i <~ g_typeidx ;; gret (ED_Func i)
  | x01 => i <~ g_tableidx ;; gret (ED_Table i)
  | x02 => i <~ g_memidx ;; gret (ED_Mem i)
  | x03 => i <~ g_globalidx ;; gret (ED_Global i)
  | _ => g_no_variant
  end).
(** section.rs:100-104 *)
Definition g_export : gparser export := n <~ g_string ;; d <~ g_exportdesc ;; gret (mkExport n d).
(** section.rs:114-117 *)
Definition g_start : gparser start := f <~ g_funcidx ;; gret (mkStart f).
(** section.rs:124-129 *)
Definition g_element : gparser elem := t <~ g_tableidx ;; o <~ g_expression ;; i <~ g_vec g_funcidx ;; gret (mkElem t o i).
(** section.rs:136-141, a sized [struct] *)
Definition g_function : gparser (list valty * expr) :=
  g_sized (l <~ g_vecvec g_valtype ;; c <~ g_expression ;; gret (l, c)).
(** section.rs:148-153 *)
Definition g_data : gparser data := m <~ g_memidx ;; o <~ g_expression ;; i <~ g_vec g_byte ;; gret (mkData m o i).
(** section.rs:21-25 *)
Definition g_custom : gparser (name * list byte) := n <~ g_string ;; p <~ g_list g_byte ;; gret (n, p).

(** section.rs:4-19 *)
Inductive gsection :=
| GS_Custom (c : name * list byte)
| GS_Type (v : list functy)
| GS_Import (v : list import)
| GS_Function (v : list typeidx)
| GS_Table (v : list table)
| GS_Memory (v : list mem)
| GS_Global (v : list global)
| GS_Export (v : list export)
| GS_Start (v : start)
| GS_Element (v : list elem)
| GS_Code (v : list (list valty * expr))
| GS_Data (v : list data).
(** section.rs:4-146: a sized [enum]: the size follows the discriminant *)
Definition g_section : gparser gsection := g_enum (fun b =>
  match b with
  | x00 => v <~ g_sized g_custom ;; gret (GS_Custom v)
  | x01 => v <~ g_sized (g_vec g_functype) ;; gret (GS_Type v)
  | x02 => v <~ g_sized (g_vec g_import) ;; gret (GS_Import v)
  | x03 => v <~ g_sized (g_vec g_typeidx) ;; gret (GS_Function v)
  | x04 => v <~ g_sized (g_vec g_table) ;; gret (GS_Table v)
  | x05 => v <~ g_sized (g_vec g_memory) ;; gret (GS_Memory v)
  | x06 => v <~ g_sized (g_vec g_global) ;; gret (GS_Global v)
  | x07 => v <~ g_sized (g_vec g_export) ;; gret (GS_Export v)
  | x08 => v <~ g_sized g_start ;; gret (GS_Start v)
  | x09 => v <~ g_sized (g_vec g_element) ;; gret (GS_Element v)
  | x0a => v <~ g_sized (g_vec g_function) ;; gret (GS_Code v)
  | x0b => v <~ g_sized (g_vec g_data) ;; gret (GS_Data v)
  | _ => g_no_variant
  end).

(** ** grammar/module.rs:4-13; the fields [magic] and [version] have one value each *)
Definition g_module : gparser (list gsection) :=
  _ <~ g_matching (g_times 4 g_byte) (fun m => bytes_are m [0x00; 0x61; 0x73; 0x6D]) ;;
  _ <~ g_matching (g_times 4 g_byte) (fun v => bytes_are v [1; 0; 0; 0]) ;;
  g_list g_section.
