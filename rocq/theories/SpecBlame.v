(** Which error a byte string that is not an encoding is answered with, and where.

    Everything is stated from the grammar (SpecFormat.v): an input that is not in the format consists
    of complete elements, followed by the element to blame.  The relation gives the error reported and
    the bytes left unread.  The grammar is the one whasm reads ([whasm_format]). *)
From Coq Require Import String.
From Verif Require Import ParserModule SpecFormat SpecPrompt SpecReserved.
Open Scope N_scope.
Open Scope list_scope.
Local Notation W := whasm_format.

(** [F bs e r]: reading [bs] fails with [e], and [r] is left. *)
Definition failure := list byte -> perror -> list byte -> Prop.

Definition f_never : failure := fun _ _ _ => False.
(** [e], with nothing (more) read *)
Definition f_fail (e : perror) : failure := fun bs e' r => e' = e /\ r = bs.
(** There is nothing to read. *)
Definition f_byte : failure := fun bs e r => bs = [] /\ e = UnexpectedEndOfFile /\ r = [].

(** The first element is complete, and what follows is to blame. *)
Definition f_after {A} (E : format A) (G : A -> failure) : failure := fun bs e r =>
  exists pre a tl, bs = pre ++ tl /\ E pre a /\ G a tl e r.
(** One element, then another *)
Definition f_seq {A} (E : format A) (F G : failure) : failure := fun bs e r =>
  F bs e r \/ f_after E (fun _ => G) bs e r.
(** A byte that decides how to go on *)
Definition f_tag (G : byte -> failure) : failure := fun bs e r =>
  f_byte bs e r \/ exists b tl, bs = b :: tl /\ G b tl e r.

(** Integers.  The end is missing; or a byte is reached with which no integer in range begins. *)
Definition f_num (V : list byte -> Prop) (range : perror) : failure := fun bs e r =>
  (e = UnexpectedEndOfFile /\ r = [] /\ begins V bs /\ ~ V bs) \/ (e = range /\ first_bad V bs r).
Definition f_u (size : N) : failure := f_num (encodes (enc_u W size)) OutOfRangeUnsignedInteger.
Definition f_s (size : N) : failure := f_num (encodes (enc_s W size)) OutOfRangeSignedInteger.
Definition f_u32 : failure := f_u 32.

(** [n] elements: fewer than [n] are complete. *)
Definition f_elems {A} (n : N) (E : format A) (F : failure) : failure := fun bs e r =>
  exists pre xs tl, bs = pre ++ tl /\ enc_list E pre xs /\ N.of_nat (List.length xs) < n /\ F tl e r.
Definition f_bytes (n : N) : failure := f_elems n enc_byte f_byte.
Definition f_vec {A} (E : format A) (F : failure) : failure := fun bs e r =>
  f_u32 bs e r \/ f_after (enc_u32 W) (fun n => f_elems n E F) bs e r.

(** An announced size [n]: [w] are the next [n] bytes, or all there are.  What is read fails inside [w],
    or it is complete but does not take [n] bytes. *)
Definition f_window {A} (E : format A) (F : failure) (n : N) : failure := fun bs e r =>
  exists w tl, bs = w ++ tl /\ N.of_nat (List.length w) <= n /\ (N.of_nat (List.length w) < n -> tl = []) /\
    ((exists rw, F w e rw /\ r = rw ++ tl) \/
     (exists used a rest, w = used ++ rest /\ E used a /\ N.of_nat (List.length used) <> n /\
        e = SizeMissmatch /\ r = rest ++ tl)).
Definition f_sized {A} (E : format A) (F : failure) : failure := fun bs e r =>
  f_u32 bs e r \/ f_after (enc_u32 W) (f_window E F) bs e r.

(** Names: the encoding is only looked at when all the bytes are there. *)
Definition f_name : failure := fun bs e r =>
  f_vec enc_byte f_byte bs e r \/
  exists pre raw, bs = pre ++ r /\ enc_vec W enc_byte pre raw /\ ~ utf8 raw /\ e = InvalidUtf8Encoding.

(** ** Types *)
Definition f_variant (ty : string) (b : byte) : failure := f_fail (InvalidVariantId b ty).
Definition f_limits : failure := f_tag (fun b =>
  match b with
  | x00 => f_u32
  | x01 => f_seq (enc_u32 W) f_u32 f_u32
  | _ => f_variant "ty::Limits" b
  end).
Definition f_valty : failure := f_tag (fun b =>
  match b with x7f | x7e | x7d | x7c => f_never | _ => f_variant "ty::Val" b end).
Definition f_elemty : failure := f_tag (fun b =>
  match b with x70 => f_never | _ => f_variant "ty::Elem" b end).
Definition f_blockty : failure := f_tag (fun b =>
  match b with x40 | x7f | x7e | x7d | x7c => f_never | _ => f_variant "ty::Val" b end).
Definition f_functy : failure := f_tag (fun b =>
  match b with
  | x60 => f_seq (enc_vec W enc_valty) (f_vec enc_valty f_valty) (f_vec enc_valty f_valty)
  | _ => f_variant "ty::Func" b
  end).
Definition enc_elemty : format elemty := fun bs _ => bs = [x70].
Definition f_tablety : failure := f_seq enc_elemty f_elemty f_limits.
Definition f_mut : failure := f_tag (fun b =>
  match b with x00 | x01 => f_never | _ => f_variant "ty::Mut" b end).
Definition f_globalty : failure := f_seq enc_valty f_valty f_mut.

(** ** Instructions *)
Definition opens (op : byte) : Prop := op = x02 \/ op = x03 \/ op = x04.
(** behind an opcode that does not open a block *)
Definition f_imm (op : byte) : failure :=
  match op with
  | x02 | x03 | x04 => f_never
  | x0c | x0d | x10 | x20 | x21 | x22 | x23 | x24 | x3f | x40 => f_u32
  | x0e => f_seq (enc_vec W (enc_u32 W)) (f_vec (enc_u32 W) f_u32) f_u32
  | x11 | x28 | x29 | x2a | x2b | x2c | x2d | x2e | x2f | x30 | x31 | x32 | x33 | x34 | x35
  | x36 | x37 | x38 | x39 | x3a | x3b | x3c | x3d | x3e => f_seq (enc_u32 W) f_u32 f_u32
  | x41 => f_s 32
  | x42 => f_s 64
  | x43 => f_bytes 4
  | x44 => f_bytes 8
  | _ => fun bs e r => reserved_opcode op /\ f_variant "instr::Instr" op bs e r
  end.
Inductive f_instr : failure :=
| fi_end : f_instr [] UnexpectedEndOfFile []
| fi_imm op tl e r : f_imm op tl e r -> f_instr (op :: tl) e r
(** the type of a block *)
| fi_blockty op tl e r : opens op -> f_blockty tl e r -> f_instr (op :: tl) e r
(** an instruction in its body *)
| fi_body op rtb rt isb is tl e r : opens op -> enc_blockty rtb rt -> enc_instrs W isb is ->
    f_instr tl e r -> f_instr (op :: rtb ++ isb ++ tl) e r
(** [else] ends the body of a block or loop *)
| fi_else op rtb rt isb is r : op = x02 \/ op = x03 -> enc_blockty rtb rt -> enc_instrs W isb is ->
    f_instr (op :: rtb ++ isb ++ x05 :: r) (UnexpectedOpcode "Else") r
(** an instruction in the else branch *)
| fi_branch rtb rt b1 is1 b2 is2 tl e r : enc_blockty rtb rt -> enc_instrs W b1 is1 -> enc_instrs W b2 is2 ->
    f_instr tl e r -> f_instr (x04 :: rtb ++ b1 ++ x05 :: b2 ++ tl) e r
(** another [else] ends the else branch *)
| fi_else_else rtb rt b1 is1 b2 is2 r : enc_blockty rtb rt -> enc_instrs W b1 is1 -> enc_instrs W b2 is2 ->
    f_instr (x04 :: rtb ++ b1 ++ x05 :: b2 ++ x05 :: r) (UnexpectedOpcode "Unknown") r.
Definition f_expr : failure := fun bs e r =>
  exists isb is tl, bs = isb ++ tl /\ enc_instrs W isb is /\
    (f_instr tl e r \/ (tl = x05 :: r /\ e = UnexpectedOpcode "Else")).

(** ** Components of modules *)
Definition f_func : failure :=
  f_seq (enc_vec W (enc_run W)) (f_vec (enc_run W) (f_seq (enc_u32 W) f_u32 f_valty)) f_expr.
Definition f_global : failure := f_seq enc_globalty f_globalty f_expr.
Definition f_elem : failure :=
  f_seq (enc_u32 W) f_u32 (f_seq (enc_expr W) f_expr (f_vec (enc_u32 W) f_u32)).
Definition f_data : failure :=
  f_seq (enc_u32 W) f_u32 (f_seq (enc_expr W) f_expr (f_vec enc_byte f_byte)).
Definition f_importdesc : failure := f_tag (fun b =>
  match b with
  | x00 => f_u32
  | x01 => f_tablety
  | x02 => f_limits
  | x03 => f_globalty
  | _ => f_variant "module::desc::Import" b
  end).
Definition f_exportdesc : failure := f_tag (fun b =>
  match b with x00 | x01 | x02 | x03 => f_u32 | _ => f_variant "module::desc::Export" b end).
Definition f_import : failure := f_seq (enc_name W) f_name (f_seq (enc_name W) f_name f_importdesc).
Definition f_export : failure := f_seq (enc_name W) f_name f_exportdesc.
Definition f_code : failure := f_sized (enc_func W) f_func.
(** The bytes behind the name take all of the window. *)
Definition f_custom_window (n : N) : failure := fun bs e r =>
  exists w tl, bs = w ++ tl /\ N.of_nat (List.length w) <= n /\ (N.of_nat (List.length w) < n -> tl = []) /\
    ((exists rw, f_name w e rw /\ r = rw ++ tl) \/
     (encodes (enc_custom W) w /\ N.of_nat (List.length w) <> n /\ e = SizeMissmatch /\ r = [])).

(** ** Modules *)
Definition f_content (id : byte) : failure :=
  match id with
  | x00 => fun bs e r => f_u32 bs e r \/ f_after (enc_u32 W) f_custom_window bs e r
  | x01 => f_sized (enc_vec W (enc_functy W)) (f_vec (enc_functy W) f_functy)
  | x02 => f_sized (enc_vec W (enc_import W)) (f_vec (enc_import W) f_import)
  | x03 => f_sized (enc_vec W (enc_u32 W)) (f_vec (enc_u32 W) f_u32)
  | x04 => f_sized (enc_vec W (enc_table W)) (f_vec (enc_table W) f_tablety)
  | x05 => f_sized (enc_vec W (enc_mem W)) (f_vec (enc_mem W) f_limits)
  | x06 => f_sized (enc_vec W (enc_global W)) (f_vec (enc_global W) f_global)
  | x07 => f_sized (enc_vec W (enc_export W)) (f_vec (enc_export W) f_export)
  | x08 => f_sized (enc_start W) f_u32
  | x09 => f_sized (enc_vec W (enc_elem W)) (f_vec (enc_elem W) f_elem)
  | x0a => f_sized (enc_vec W (enc_code W)) (f_vec (enc_code W) f_code)
  | x0b => f_sized (enc_vec W (enc_data W)) (f_vec (enc_data W) f_data)
  | _ => f_fail (InvalidSectionId id)
  end.
(** A section with this identifier may not follow the sections [secs]. *)
Definition out_of_order (id : byte) (secs : list section) : Prop :=
  id <> x00 /\ exists s, In s secs /\ Byte.to_N id <= section_id s.
(** a section behind the sections [secs] *)
Definition f_section (secs : list section) (id : byte) : failure := fun bs e r =>
  (out_of_order id secs /\ e = UnexpectedSectionId id /\ r = bs) \/
  (~ out_of_order id secs /\ f_content id bs e r) \/
  (~ out_of_order id secs /\ id = x0a /\ e = UnexpectedEndOfFile /\
     exists pre cs, bs = pre ++ r /\ enc_sized W (enc_vec W (enc_code W)) pre cs /\
       List.length cs <> List.length (flat_map sec_typeidxs secs)).
Definition f_sections : failure := fun bs e r =>
  exists b1 secs id tl, bs = b1 ++ id :: tl /\ enc_list (enc_section W) b1 secs /\
    ordered secs /\ counts_match W secs /\ f_section secs id tl e r.
(** the preamble, in two parts of four bytes *)
Definition f_four (l : list byte) (wrong : perror) : failure := fun bs e r =>
  f_bytes 4 bs e r \/
  exists l', List.length l' = 4%nat /\ bs = l' ++ r /\ l' <> l /\ e = wrong.
Definition f_module : failure := fun bs e r =>
  f_four [x00; x61; x73; x6d] InvalidPreambleMagic bs e r \/
  (exists tl, bs = [x00; x61; x73; x6d] ++ tl /\
     f_four [x01; x00; x00; x00] InvalidPreambleVersion tl e r) \/
  (exists tl, bs = preamble ++ tl /\ f_sections tl e r).

(** ** The parsers, with their formats and their failures *)
Definition enc_token : format instr := fun bs i =>
  enc_instr W bs i \/ (bs = [x0b] /\ i = I_End) \/ (bs = [x05] /\ i = I_Else).
(** the index of the type of a function is only known later *)
Definition enc_untyped_func : format func := fun bs f => exists c, enc_func W bs c /\ f = mkFunc 0 (fst c) (snd c).
Inductive reads : forall A, parser A -> format A -> failure -> Prop :=
| rd_byte : reads _ p_byte enc_byte f_byte
| rd_u8 : reads _ p_u8 (enc_u W 8) (f_u 8)
| rd_u16 : reads _ p_u16 (enc_u W 16) (f_u 16)
| rd_u32 : reads _ p_u32 (enc_u W 32) (f_u 32)
| rd_u64 : reads _ p_u64 (enc_u W 64) (f_u 64)
| rd_i8 : reads _ p_i8 (enc_s W 8) (f_s 8)
| rd_i16 : reads _ p_i16 (enc_s W 16) (f_s 16)
| rd_i32 : reads _ p_i32 (enc_s W 32) (f_s 32)
| rd_i64 : reads _ p_i64 (enc_s W 64) (f_s 64)
| rd_f32 : reads _ p_f32 (enc_float 4) (f_bytes 4)
| rd_f64 : reads _ p_f64 (enc_float 8) (f_bytes 8)
| rd_string : reads _ p_string (enc_name W) f_name
| rd_limits : reads _ p_limits (enc_limits W) f_limits
| rd_valty : reads _ p_valty enc_valty f_valty
| rd_elemty : reads _ p_elemty enc_elemty f_elemty
| rd_retval : reads _ p_retval enc_blockty f_blockty
| rd_functy : reads _ p_functy (enc_functy W) f_functy
| rd_tablety : reads _ p_tablety (enc_tablety W) f_tablety
| rd_memty : reads _ p_memty (enc_memty W) f_limits
| rd_globalty : reads _ p_globalty enc_globalty f_globalty
| rd_instr : reads _ p_instr_top enc_token f_instr
| rd_expr : reads _ p_expr (enc_expr W) f_expr
| rd_constexpr : reads _ p_constexpr (enc_expr W) f_expr
| rd_func : reads _ p_func enc_untyped_func f_func
| rd_table : reads _ p_table (enc_table W) f_tablety
| rd_mem : reads _ p_mem (enc_mem W) f_limits
| rd_global : reads _ p_global (enc_global W) f_global
| rd_elem : reads _ p_elem (enc_elem W) f_elem
| rd_data : reads _ p_data (enc_data W) f_data
| rd_start : reads _ p_start (enc_start W) f_u32
| rd_importdesc : reads _ p_importdesc (enc_importdesc W) f_importdesc
| rd_exportdesc : reads _ p_exportdesc (enc_exportdesc W) f_exportdesc
| rd_import : reads _ p_import (enc_import W) f_import
| rd_export : reads _ p_export (enc_export W) f_export
| rd_vec A (p : parser A) E F : reads A p E F -> reads _ (p_vec p) (enc_vec W E) (f_vec E F)
| rd_unwrapping_vec A (p : parser A) E F : reads A p E F ->
    reads _ (p_unwrapping_vec p (fun x => x)) (enc_vec W E) (f_vec E F)
| rd_array A n (p : parser A) E F : reads A p E F ->
    reads _ (p_array n p) (fun bs xs => List.length xs = n /\ enc_list E bs xs) (f_elems (N.of_nat n) E F)
| rd_sized A (p : parser A) E F : reads A p E F -> reads _ (p_sized p) (enc_sized W E) (f_sized E F).
