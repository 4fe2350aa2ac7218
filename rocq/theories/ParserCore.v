(** Low level parsers.  Models whasm/src/binary/core/*.rs. *)
From Coq Require Import String.
From Verif Require Export Structure.
Open Scope N_scope.

(** ** Errors and results *)

(** binary/core/error.rs:7-47.  The [&'static str] payloads are Coq strings. *)
Inductive perror :=
| UnexpectedEndOfFile
| InvalidVariantId (id : byte) (ty : string)
| OutOfRangeSignedInteger
| OutOfRangeUnsignedInteger
| InvalidUtf8Encoding
| UnexpectedOpcode (ins : string)
| InvalidPreambleMagic
| InvalidPreambleVersion
| UnexpectedSectionId (id : byte)
| InvalidSectionId (id : byte)
| SectionSizeMissmatch (id : byte)
| FunctionSizeMissmatch
| SizeMissmatch.

(** binary/core/result.rs:5, plus the two outcomes a Rust [Result] does not show:
    a panic, and (an artefact of the model) exhaustion of the recursion fuel. *)
Inductive outcome (A : Type) :=
| Ok (a : A)
| Err (e : perror)
| Panic
| OutOfFuel.
Arguments Ok {A}. Arguments Err {A}. Arguments Panic {A}. Arguments OutOfFuel {A}.

(** binary/core/traits.rs:22-31, 67-69.  A [WasmBinary] is any [Iterator<Item=u8>]: here the finite
    list of bytes it still yields.  [parse(&mut self)] returns the result together
    with the iterator after the call (also after an error). *)
Definition parser (A : Type) := list byte -> outcome A * list byte.

Definition ret {A} (a : A) : parser A := fun bs => (Ok a, bs).
Definition fail {A} (e : perror) : parser A := fun bs => (Err e, bs).
Definition panic {A} : parser A := fun bs => (Panic, bs).
Definition out_of_fuel {A} : parser A := fun bs => (OutOfFuel, bs).
(** The [?] operator between two parsing steps. *)
Definition bind {A B} (p : parser A) (f : A -> parser B) : parser B := fun bs =>
  match p bs with
  | (Ok a, r) => f a r
  | (Err e, r) => (Err e, r)
  | (Panic, r) => (Panic, r)
  | (OutOfFuel, r) => (OutOfFuel, r)
  end.
Notation "x <- p ;; q" := (bind p (fun x => q))
  (at level 61, p at next level, right associativity).

(** ** Bytes: binary/core/byte.rs:47-54 *)
Definition p_byte : parser byte := fun bs =>
  match bs with
  | b :: r => (Ok b, r)
  | [] => (Err UnexpectedEndOfFile, [])
  end.

(** [PartialEq<u8> for Byte], binary/core/byte.rs:72-76; also used for [PartialEq<char>]
    (byte.rs:78-82), [byte as char] being the code point with the same number. *)
Definition byte_is (b : byte) (n : N) : bool := Byte.to_N b =? n.
(** element-wise comparison of arrays [[Byte; N]] with literals *)
Fixpoint bytes_are (bs : list byte) (ns : list N) : bool :=
  match bs, ns with
  | [], [] => true
  | b :: bs', n :: ns' => byte_is b n && bytes_are bs' ns'
  | _, _ => false
  end.

(** ** Unsigned machine integers of [size] bits *)
(** [T::from_u8], num_traits: [None] when not representable. *)
Definition u_from_u8 (size v : N) : option N := if v <? 2 ^ size then Some v else None.
(** [v << s]: panics (debug build) when [s >= size]; high bits are lost. *)
Definition u_shl (size v s : N) : option N :=
  if s <? size then Some (N.shiftl v s mod 2 ^ size) else None.
(** [v >> s] *)
Definition u_shr (size v s : N) : option N :=
  if s <? size then Some (N.shiftr v s) else None.

(** binary/core/unsigned.rs:68-91, the [loop] of [parse_unsigned_leb_128].
    One recursive call per byte read; [None] of a machine operation is a panic. *)
Fixpoint uleb_loop (size mask result shift : N) (bs : list byte) : outcome N * list byte :=
  match bs with
  | [] => (Err UnexpectedEndOfFile, [])                                    (* line 69 *)
  | b :: bs' =>
    let byte := Byte.to_N b in
    match u_from_u8 size (N.land byte 0x7F) with                           (* line 70 *)
    | None => (Panic, bs')
    | Some val =>
      if size <=? shift then                                               (* line 71 *)
        if negb (N.land byte 0x7F =? 0) then (Err OutOfRangeUnsignedInteger, bs')
        else if N.land byte 0x80 =? 0 then (Ok result, bs')                (* line 75 *)
        else uleb_loop size mask result shift bs'
      else
        match u_shl size val shift with
        | None => (Panic, bs')
        | Some shl =>
          match u_shr size shl shift with
          | None => (Panic, bs')
          | Some back =>
            if negb (N.land back mask =? val)                              (* line 81 *)
            then (Err OutOfRangeUnsignedInteger, bs')
            else
              let '(result', shift') :=                                    (* lines 84-87 *)
                if shift <? size then (N.lor result shl, shift + 7) else (result, shift) in
              if N.land byte 0x80 =? 0 then (Ok result', bs')              (* line 88 *)
              else uleb_loop size mask result' shift' bs'
          end
        end
    end
  end.

(** binary/core/unsigned.rs:62-93 *)
Definition p_unsigned (size : N) : parser N := fun bs =>
  match u_from_u8 size 0x7F with                                           (* line 65 *)
  | None => (Panic, bs)
  | Some mask => uleb_loop size mask 0 0 bs
  end.

(** binary/core/unsigned.rs:38-60 *)
Definition p_u8 : parser N := p_unsigned 8.
Definition p_u16 : parser N := p_unsigned 16.
Definition p_u32 : parser u32 := p_unsigned 32.
Definition p_u64 : parser N := p_unsigned 64.

(** ** Signed machine integers of [size] bits, as two's complement values in [Z] *)
Definition s_from_u8 (size : N) (v : N) : option Z :=
  if v <? 2 ^ (size - 1) then Some (Z.of_N v) else None.
Definition s_wrap (size : N) (z : Z) : Z :=
  let m := (z mod 2 ^ Z.of_N size)%Z in
  if (m <? 2 ^ (Z.of_N size - 1))%Z then m else (m - 2 ^ Z.of_N size)%Z.
Definition s_shl (size : N) (v : Z) (s : N) : option Z :=
  if s <? size then Some (s_wrap size (Z.shiftl v (Z.of_N s))) else None.
(** arithmetic shift *)
Definition s_shr (size : N) (v : Z) (s : N) : option Z :=
  if s <? size then Some (Z.shiftr v (Z.of_N s)) else None.

(** binary/core/signed.rs:97-100, after the loop *)
Definition sleb_finish (size : N) (result : Z) (shift : N) (positive : bool) : outcome Z :=
  if (shift <? size) && negb positive then
    match s_shl size (Z.lnot 0) shift with
    | None => Panic
    | Some ones => Ok (Z.lor result ones)
    end
  else Ok result.

(** binary/core/signed.rs:70-96, the [loop] of [parse_signed_leb_128] *)
Fixpoint sleb_loop (size : N) (mask result : Z) (shift : N) (positive : bool)
    (bs : list byte) : outcome Z * list byte :=
  match bs with
  | [] => (Err UnexpectedEndOfFile, [])                                    (* line 71 *)
  | b :: bs' =>
    let byte := Byte.to_N b in
    match s_from_u8 size (N.land byte 0x7F) with                           (* line 72 *)
    | None => (Panic, bs')
    | Some val =>
      if size <=? shift then                                               (* line 73 *)
        if ((N.land byte 0x7F =? 0x00) && positive)                        (* line 75 *)
           || ((N.land byte 0x7F =? 0x7F) && negb positive)                (* line 76 *)
        then
          if N.land byte 0x80 =? 0                                         (* line 79 *)
          then (sleb_finish size result shift positive, bs')
          else sleb_loop size mask result shift positive bs'
        else (Err OutOfRangeSignedInteger, bs')                            (* line 77 *)
      else
        match s_shl size val shift with
        | None => (Panic, bs')
        | Some shl =>
          match s_shr size shl shift with
          | None => (Panic, bs')
          | Some back =>
            if negb (Z.land back mask =? val)%Z                            (* line 85 *)
            then (Err OutOfRangeSignedInteger, bs')
            else
              let '(result', shift') :=                                    (* lines 88-91 *)
                if shift <? size then (Z.lor result shl, shift + 7) else (result, shift) in
              let positive' := N.land byte 0x40 =? 0 in                    (* line 92 *)
              if N.land byte 0x80 =? 0                                     (* line 93 *)
              then (sleb_finish size result' shift' positive', bs')
              else sleb_loop size mask result' shift' positive' bs'
          end
        end
    end
  end.

(** binary/core/signed.rs:63-101 *)
Definition p_signed (size : N) : parser Z := fun bs =>
  match s_from_u8 size 0x7F with                                           (* line 66 *)
  | None => (Panic, bs)
  | Some mask => sleb_loop size mask 0 0 true bs
  end.

(** binary/core/signed.rs:39-61 *)
Definition p_i8 : parser Z := p_signed 8.
Definition p_i16 : parser Z := p_signed 16.
Definition p_i32 : parser i32 := p_signed 32.
Definition p_i64 : parser i64 := p_signed 64.

(** ** Repetition *)

(** [n] consecutive elements.  The explicit array literals of binary/core/array.rs:17-113
    ([[T; 0]] to [[T; 8]]), and the loops [for _ in 0..n { result.push(bin.parse()?) }] of vec.rs:59-61 and 91-93. *)
Fixpoint p_times {A} (n : nat) (p : parser A) : parser (list A) :=
  match n with
  | O => ret []
  | S n' => x <- p ;; xs <- p_times n' p ;; ret (x :: xs)
  end.

(** binary/core/array.rs:17-113 *)
Definition p_array {A} (n : nat) (p : parser A) : parser (list A) := p_times n p.

(** binary/core/vec.rs:55-64.  The reservation of line 58 is modelled by [vec_reservation]. *)
Definition p_vec {A} (p : parser A) : parser (list A) :=
  n <- p_u32 ;; p_times (N.to_nat n) p.

(** binary/core/vec.rs:57-58: the capacity requested from the allocator, in elements, before any
    element is read ([None]: the count itself does not parse). *)
Definition vec_reservation (bs : list byte) : option N :=
  match p_u32 bs with (Ok n, _) => Some n | _ => None end.

(** binary/core/vec.rs:86-96; [unwrap] of the element proxy is the function [u]. *)
Definition p_unwrapping_vec {A B} (p : parser A) (u : A -> B) : parser (list B) :=
  n <- p_u32 ;; p_times (N.to_nat n) (x <- p ;; ret (u x)).

(** binary/core/vec.rs:71-77: [k] runs, appended to [result] *)
Fixpoint p_runs {A} (k : nat) (p : parser A) (result : list A) : parser (list A) :=
  match k with
  | O => ret result
  | S k' =>
    n <- p_u32 ;;
    val <- p ;;
    p_runs k' p (result ++ repeat val (N.to_nat n))
  end.
(** binary/core/vec.rs:66-80 *)
Definition p_compact_vec {A} (p : parser A) : parser (list A) :=
  k <- p_u32 ;; p_runs (N.to_nat k) p [].

(** ** Sized elements: binary/core/sized.rs:46-60.
    [take(size)] gives the inner parser the window of the first [size] bytes;
    [inspect] counts the bytes it pulled out of the window. *)
Definition p_sized {A} (p : parser A) : parser A :=
  size <- p_u32 ;;
  fun bs =>
    let window := firstn (N.to_nat size) bs in
    let after := skipn (N.to_nat size) bs in
    match p window with
    | (Ok result, r) =>
      let count := N.of_nat (List.length window - List.length r) in
      if negb (size =? count) then (Err SizeMissmatch, r ++ after)         (* line 54 *)
      else (Ok result, r ++ after)
    | (o, r) => (o, r ++ after)
    end.

(** binary/core/sized.rs:84-89 *)
Definition p_consume : parser N := fun bs => (Ok (N.of_nat (List.length bs)), []).

(** ** Floats: binary/core/float.rs:43-52.
    The bytes are written in order to the memory of the value; reading it back depends on the
    endianness of the host. *)
Inductive endian := LittleEndian | BigEndian.
Fixpoint le_value (mem : list byte) : N :=
  match mem with
  | [] => 0
  | b :: mem' => Byte.to_N b + 256 * le_value mem'
  end.
Definition float_of_memory (host : endian) (mem : list byte) : N :=
  match host with
  | LittleEndian => le_value mem
  | BigEndian => le_value (rev mem)
  end.
Definition p_float (host : endian) (size : nat) : parser N :=
  mem <- p_times size p_byte ;; ret (float_of_memory host mem).
(** binary/core/float.rs:31-41, on a little-endian host (x86-64, aarch64) *)
Definition p_f32 : parser f32 := p_float LittleEndian 4.
Definition p_f64 : parser f64 := p_float LittleEndian 8.

(** ** Strings *)
(** [String::from_utf8] of the Rust standard library (not in the repository): accepts exactly the
    well-formed byte sequences of Unicode table 3-7. *)
Definition in_range (lo hi : N) (b : byte) : bool := (lo <=? Byte.to_N b) && (Byte.to_N b <=? hi).
Fixpoint utf8_valid (bs : list byte) : bool :=
  match bs with
  | [] => true
  | b0 :: r0 =>
    if in_range 0x00 0x7F b0 then utf8_valid r0
    else if in_range 0xC2 0xDF b0 then
      match r0 with
      | b1 :: r1 => in_range 0x80 0xBF b1 && utf8_valid r1
      | _ => false
      end
    else if in_range 0xE0 0xEF b0 then
      match r0 with
      | b1 :: b2 :: r2 =>
        (if byte_is b0 0xE0 then in_range 0xA0 0xBF b1
         else if byte_is b0 0xED then in_range 0x80 0x9F b1
         else in_range 0x80 0xBF b1)
        && in_range 0x80 0xBF b2 && utf8_valid r2
      | _ => false
      end
    else if in_range 0xF0 0xF4 b0 then
      match r0 with
      | b1 :: b2 :: b3 :: r3 =>
        (if byte_is b0 0xF0 then in_range 0x90 0xBF b1
         else if byte_is b0 0xF4 then in_range 0x80 0x8F b1
         else in_range 0x80 0xBF b1)
        && in_range 0x80 0xBF b2 && in_range 0x80 0xBF b3 && utf8_valid r3
      | _ => false
      end
    else false
  end.
(** binary/core/string.rs:18-23, error.rs:49-53 *)
Definition p_string : parser name :=
  raw <- p_unwrapping_vec p_byte (fun b => b) ;;
  if utf8_valid raw then ret raw else fail InvalidUtf8Encoding.
