(** Specification of the WebAssembly 1.0 binary format as relations between byte strings and abstract
    syntax, following chapter 5 of the WebAssembly 1.0 specification.  Independent of the model of
    the parser: nothing here is executable code of whasm.

    The relations are parameterised by a [dialect], which says how permissive the grammar is in the
    four places where whasm deviates from the official format. *)
From Verif Require Export Structure SpecLeb SpecUtf8.
Open Scope N_scope.

(** A format relates byte strings to the values they denote. *)
Definition format (A : Type) := list byte -> A -> Prop.

Record fdialect := mkFdialect {
  (** may an integer of [size] bits be encoded in [len] bytes? *)
  fd_int_len : N -> nat -> Prop;
  (** may the reserved index of call_indirect, memory.size and memory.grow be these bytes? *)
  fd_reserved : list byte -> Prop;
  (** may a function have this many locals? *)
  fd_locals : nat -> Prop;
  (** may the code section be missing although functions are declared? *)
  fd_missing_code : Prop;
}.
(** The official format. *)
Definition wasm10_format : fdialect := {|
  fd_int_len := fun size len => N.of_nat len <= (size + 6) / 7;
  fd_reserved := fun bs => bs = [x00];
  fd_locals := fun n => N.of_nat n < 2 ^ 32;
  fd_missing_code := False |}.
(** What whasm reads. *)
Definition whasm_format : fdialect := {|
  fd_int_len := fun _ _ => True;
  fd_reserved := fun _ => True;
  fd_locals := fun _ => True;
  fd_missing_code := True |}.

Section Format.
Variable fd : fdialect.

(** ** Values (5.2) *)
Definition enc_u (size : N) : format N := fun bs v =>
  enc_unsigned size bs v /\ fd_int_len fd size (length bs).
Definition enc_s (size : N) : format Z := fun bs v =>
  enc_signed size bs v /\ fd_int_len fd size (length bs).
Definition enc_u32 : format u32 := enc_u 32.

(** little endian: byte [i] holds bits [8 i .. 8 i + 7] *)
Definition enc_float (nbytes : nat) : format N := fun bs v =>
  length bs = nbytes /\ v < 256 ^ N.of_nat nbytes /\
  forall i b, nth_error bs i = Some b -> Byte.to_N b = (v / 256 ^ N.of_nat i) mod 256.

(** a sequence of encodings *)
Definition enc_list {A} (E : format A) : format (list A) := fun bs xs =>
  exists chunks, Forall2 E chunks xs /\ bs = concat chunks.
(** 5.1.3: a length, then that many elements *)
Definition enc_vec {A} (E : format A) : format (list A) := fun bs xs =>
  exists n es, bs = n ++ es /\ enc_u32 n (N.of_nat (length xs)) /\ enc_list E es xs.
(** a size in bytes, then a value that takes exactly this size *)
Definition enc_sized {A} (E : format A) : format A := fun bs x =>
  exists n cont, bs = n ++ cont /\ enc_u32 n (N.of_nat (length cont)) /\ E cont x.
Definition enc_byte : format byte := fun bs b => bs = [b].
(** 5.2.4: names, a vector of the bytes of an UTF-8 encoding *)
Definition enc_name : format name := fun bs nm => enc_vec enc_byte bs nm /\ utf8 nm.

(** ** Types (5.3) *)
Definition valty_byte (t : valty) : byte :=
  match t with T_I32 => x7f | T_I64 => x7e | T_F32 => x7d | T_F64 => x7c end.
Definition enc_valty : format valty := fun bs t => bs = [valty_byte t].
Definition enc_blockty : format retval := fun bs rt =>
  (bs = [x40] /\ rt = []) \/ (exists t, bs = [valty_byte t] /\ rt = [t]).
Definition enc_functy : format functy := fun bs ft =>
  exists ps rs, bs = x60 :: ps ++ rs /\
    enc_vec enc_valty ps (ft_params ft) /\ enc_vec enc_valty rs (ft_results ft).
Definition enc_limits : format limits := fun bs l =>
  match lim_max l with
  | None => exists n, bs = x00 :: n /\ enc_u32 n (lim_min l)
  | Some mx => exists n m, bs = x01 :: n ++ m /\ enc_u32 n (lim_min l) /\ enc_u32 m mx
  end.
Definition enc_memty : format memty := fun bs t => enc_limits bs (mt_lim t).
Definition enc_tablety : format tablety := fun bs t =>
  exists l, bs = x70 :: l /\ tt_elem t = FuncRef /\ enc_limits l (tt_lim t).
Definition mut_byte (m : mut) : byte := match m with Const => x00 | Var => x01 end.
Definition enc_globalty : format globalty := fun bs t =>
  bs = [valty_byte (gt_val t); mut_byte (gt_mut t)].

(** ** Instructions (5.4) *)

(** opcodes without immediates *)
Definition plain_opcode (i : instr) : option byte :=
  match i with
  | I_Unreachable => Some x00
  | I_Nop => Some x01
  | I_Return => Some x0f
  | I_Drop => Some x1a
  | I_Select => Some x1b
  | I_I32Eqz => Some x45
  | I_I32Eq => Some x46
  | I_I32Ne => Some x47
  | I_I32LtS => Some x48
  | I_I32LtU => Some x49
  | I_I32GtS => Some x4a
  | I_I32GtU => Some x4b
  | I_I32LeS => Some x4c
  | I_I32LeU => Some x4d
  | I_I32GeS => Some x4e
  | I_I32GeU => Some x4f
  | I_I64Eqz => Some x50
  | I_I64Eq => Some x51
  | I_I64Ne => Some x52
  | I_I64LtS => Some x53
  | I_I64LtU => Some x54
  | I_I64GtS => Some x55
  | I_I64GtU => Some x56
  | I_I64LeS => Some x57
  | I_I64LeU => Some x58
  | I_I64GeS => Some x59
  | I_I64GeU => Some x5a
  | I_F32Eq => Some x5b
  | I_F32Ne => Some x5c
  | I_F32Lt => Some x5d
  | I_F32Gt => Some x5e
  | I_F32Le => Some x5f
  | I_F32Ge => Some x60
  | I_F64Eq => Some x61
  | I_F64Ne => Some x62
  | I_F64Lt => Some x63
  | I_F64Gt => Some x64
  | I_F64Le => Some x65
  | I_F64Ge => Some x66
  | I_I32Clz => Some x67
  | I_I32Ctz => Some x68
  | I_I32Popcnt => Some x69
  | I_I32Add => Some x6a
  | I_I32Sub => Some x6b
  | I_I32Mul => Some x6c
  | I_I32DivS => Some x6d
  | I_I32DivU => Some x6e
  | I_I32RemS => Some x6f
  | I_I32RemU => Some x70
  | I_I32And => Some x71
  | I_I32Or => Some x72
  | I_I32Xor => Some x73
  | I_I32Shl => Some x74
  | I_I32ShrS => Some x75
  | I_I32ShrU => Some x76
  | I_I32Rotl => Some x77
  | I_I32Rotr => Some x78
  | I_I64Clz => Some x79
  | I_I64Ctz => Some x7a
  | I_I64Popcnt => Some x7b
  | I_I64Add => Some x7c
  | I_I64Sub => Some x7d
  | I_I64Mul => Some x7e
  | I_I64DivS => Some x7f
  | I_I64DivU => Some x80
  | I_I64RemS => Some x81
  | I_I64RemU => Some x82
  | I_I64And => Some x83
  | I_I64Or => Some x84
  | I_I64Xor => Some x85
  | I_I64Shl => Some x86
  | I_I64ShrS => Some x87
  | I_I64ShrU => Some x88
  | I_I64Rotl => Some x89
  | I_I64Rotr => Some x8a
  | I_F32Abs => Some x8b
  | I_F32Neg => Some x8c
  | I_F32Ceil => Some x8d
  | I_F32Floor => Some x8e
  | I_F32Trunc => Some x8f
  | I_F32Nearest => Some x90
  | I_F32Sqrt => Some x91
  | I_F32Add => Some x92
  | I_F32Sub => Some x93
  | I_F32Mul => Some x94
  | I_F32Div => Some x95
  | I_F32Min => Some x96
  | I_F32Max => Some x97
  | I_F32Copysign => Some x98
  | I_F64Abs => Some x99
  | I_F64Neg => Some x9a
  | I_F64Ceil => Some x9b
  | I_F64Floor => Some x9c
  | I_F64Trunc => Some x9d
  | I_F64Nearest => Some x9e
  | I_F64Sqrt => Some x9f
  | I_F64Add => Some xa0
  | I_F64Sub => Some xa1
  | I_F64Mul => Some xa2
  | I_F64Div => Some xa3
  | I_F64Min => Some xa4
  | I_F64Max => Some xa5
  | I_F64Copysign => Some xa6
  | I_I32WrapI64 => Some xa7
  | I_I32TruncF32S => Some xa8
  | I_I32TruncF32U => Some xa9
  | I_I32TruncF64S => Some xaa
  | I_I32TruncF64U => Some xab
  | I_I64ExtendI32S => Some xac
  | I_I64ExtendI32U => Some xad
  | I_I64TruncF32S => Some xae
  | I_I64TruncF32U => Some xaf
  | I_I64TruncF64S => Some xb0
  | I_I64TruncF64U => Some xb1
  | I_F32ConvertI32S => Some xb2
  | I_F32ConvertI32U => Some xb3
  | I_F32ConvertI64S => Some xb4
  | I_F32ConvertI64U => Some xb5
  | I_F32DemoteF64 => Some xb6
  | I_F64ConvertI32S => Some xb7
  | I_F64ConvertI32U => Some xb8
  | I_F64ConvertI64S => Some xb9
  | I_F64ConvertI64U => Some xba
  | I_F64PromoteF32 => Some xbb
  | I_I32ReinterpretF32 => Some xbc
  | I_I64ReinterpretF64 => Some xbd
  | I_F32ReinterpretI32 => Some xbe
  | I_F64ReinterpretI64 => Some xbf
  | _ => None
  end.
(** opcodes followed by an index *)
Definition index_opcode (i : instr) : option (byte * u32) :=
  match i with
  | I_Br l => Some (x0c, l)
  | I_BrIf l => Some (x0d, l)
  | I_Call x => Some (x10, x)
  | I_LocalGet x => Some (x20, x)
  | I_LocalSet x => Some (x21, x)
  | I_LocalTee x => Some (x22, x)
  | I_GlobalGet x => Some (x23, x)
  | I_GlobalSet x => Some (x24, x)
  | _ => None
  end.
(** opcodes followed by a memory argument (alignment, then offset) *)
Definition memarg_opcode (i : instr) : option (byte * u32 * u32) :=
  match i with
  | I_I32Load align offset => Some (x28, align, offset)
  | I_I64Load align offset => Some (x29, align, offset)
  | I_F32Load align offset => Some (x2a, align, offset)
  | I_F64Load align offset => Some (x2b, align, offset)
  | I_I32Load8S align offset => Some (x2c, align, offset)
  | I_I32Load8U align offset => Some (x2d, align, offset)
  | I_I32Load16S align offset => Some (x2e, align, offset)
  | I_I32Load16U align offset => Some (x2f, align, offset)
  | I_I64Load8S align offset => Some (x30, align, offset)
  | I_I64Load8U align offset => Some (x31, align, offset)
  | I_I64Load16S align offset => Some (x32, align, offset)
  | I_I64Load16U align offset => Some (x33, align, offset)
  | I_I64Load32S align offset => Some (x34, align, offset)
  | I_I64Load32U align offset => Some (x35, align, offset)
  | I_I32Store align offset => Some (x36, align, offset)
  | I_I64Store align offset => Some (x37, align, offset)
  | I_F32Store align offset => Some (x38, align, offset)
  | I_F64Store align offset => Some (x39, align, offset)
  | I_I32Store8 align offset => Some (x3a, align, offset)
  | I_I32Store16 align offset => Some (x3b, align, offset)
  | I_I64Store8 align offset => Some (x3c, align, offset)
  | I_I64Store16 align offset => Some (x3d, align, offset)
  | I_I64Store32 align offset => Some (x3e, align, offset)
  | _ => None
  end.

Definition enc_reserved : format u32 := fun bs v => enc_u32 bs v /\ fd_reserved fd bs.

Inductive enc_instr : list byte -> instr -> Prop :=
| enc_plain i op : plain_opcode i = Some op -> enc_instr [op] i
| enc_index i op x xb : index_opcode i = Some (op, x) -> enc_u32 xb x -> enc_instr (op :: xb) i
| enc_memarg i op al off ab ob : memarg_opcode i = Some (op, al, off) ->
    enc_u32 ab al -> enc_u32 ob off -> enc_instr (op :: ab ++ ob) i
| enc_br_table ls l lsb lb : enc_vec enc_u32 lsb ls -> enc_u32 lb l ->
    enc_instr (x0e :: lsb ++ lb) (I_BrTable ls l)
| enc_call_indirect ty tab tyb tabb : enc_u32 tyb ty -> enc_reserved tabb tab ->
    enc_instr (x11 :: tyb ++ tabb) (I_CallIndirect ty tab)
| enc_memory_size m mb : enc_reserved mb m -> enc_instr (x3f :: mb) (I_MemSize m)
| enc_memory_grow m mb : enc_reserved mb m -> enc_instr (x40 :: mb) (I_MemGrow m)
| enc_i32_const n nb : enc_s 32 nb n -> enc_instr (x41 :: nb) (I_ConstI32 n)
| enc_i64_const n nb : enc_s 64 nb n -> enc_instr (x42 :: nb) (I_ConstI64 n)
| enc_f32_const z zb : enc_float 4 zb z -> enc_instr (x43 :: zb) (I_ConstF32 z)
| enc_f64_const z zb : enc_float 8 zb z -> enc_instr (x44 :: zb) (I_ConstF64 z)
| enc_block rt is rtb isb : enc_blockty rtb rt -> enc_instrs isb is ->
    enc_instr (x02 :: rtb ++ isb ++ [x0b]) (I_Block rt is)
| enc_loop rt is rtb isb : enc_blockty rtb rt -> enc_instrs isb is ->
    enc_instr (x03 :: rtb ++ isb ++ [x0b]) (I_Loop rt is)
| enc_if rt is rtb isb : enc_blockty rtb rt -> enc_instrs isb is ->
    enc_instr (x04 :: rtb ++ isb ++ [x0b]) (I_If rt is [])
| enc_if_else rt is1 is2 rtb is1b is2b : enc_blockty rtb rt ->
    enc_instrs is1b is1 -> enc_instrs is2b is2 ->
    enc_instr (x04 :: rtb ++ is1b ++ [x05] ++ is2b ++ [x0b]) (I_If rt is1 is2)
with enc_instrs : list byte -> list instr -> Prop :=
| enc_instrs_nil : enc_instrs [] []
| enc_instrs_cons i is ib isb : enc_instr ib i -> enc_instrs isb is ->
    enc_instrs (ib ++ isb) (i :: is).

(** 5.4.6 *)
Definition enc_expr : format expr := fun bs e =>
  exists isb, bs = isb ++ [x0b] /\ enc_instrs isb e.

(** ** Modules (5.5) *)
Definition enc_importdesc : format importdesc := fun bs d =>
  match d with
  | ID_Func x => exists xb, bs = x00 :: xb /\ enc_u32 xb x
  | ID_Table t => exists tb, bs = x01 :: tb /\ enc_tablety tb t
  | ID_Mem t => exists tb, bs = x02 :: tb /\ enc_memty tb t
  | ID_Global t => exists tb, bs = x03 :: tb /\ enc_globalty tb t
  end.
Definition enc_import : format import := fun bs im =>
  exists mb nb db, bs = mb ++ nb ++ db /\
    enc_name mb (im_module im) /\ enc_name nb (im_name im) /\ enc_importdesc db (im_desc im).
Definition enc_table : format table := fun bs t => enc_tablety bs (tab_ty t).
Definition enc_mem : format mem := fun bs t => enc_memty bs (mem_ty t).
Definition enc_global : format global := fun bs g =>
  exists tb eb, bs = tb ++ eb /\ enc_globalty tb (glob_ty g) /\ enc_expr eb (glob_init g).
Definition enc_exportdesc : format exportdesc := fun bs d =>
  match d with
  | ED_Func x => exists xb, bs = x00 :: xb /\ enc_u32 xb x
  | ED_Table x => exists xb, bs = x01 :: xb /\ enc_u32 xb x
  | ED_Mem x => exists xb, bs = x02 :: xb /\ enc_u32 xb x
  | ED_Global x => exists xb, bs = x03 :: xb /\ enc_u32 xb x
  end.
Definition enc_export : format export := fun bs ex =>
  exists nb db, bs = nb ++ db /\ enc_name nb (ex_name ex) /\ enc_exportdesc db (ex_desc ex).
Definition enc_start : format start := fun bs st => enc_u32 bs (st_func st).
Definition enc_elem : format elem := fun bs el =>
  exists xb ob ib, bs = xb ++ ob ++ ib /\
    enc_u32 xb (el_table el) /\ enc_expr ob (el_offset el) /\ enc_vec enc_u32 ib (el_init el).
Definition enc_data : format data := fun bs da =>
  exists xb ob ib, bs = xb ++ ob ++ ib /\
    enc_u32 xb (da_mem da) /\ enc_expr ob (da_offset da) /\ enc_vec enc_byte ib (da_init da).

(** 5.5.13: a body; run-length encoded locals, then an expression *)
Definition code : Type := list valty * expr.
Definition enc_run : format (u32 * valty) := fun bs r =>
  exists nb tb, bs = nb ++ tb /\ enc_u32 nb (fst r) /\ enc_valty tb (snd r).
Definition expand_runs {A} (rs : list (u32 * A)) : list A :=
  flat_map (fun r => repeat (snd r) (N.to_nat (fst r))) rs.
Definition enc_func : format code := fun bs c =>
  exists rb eb runs, bs = rb ++ eb /\ enc_vec enc_run rb runs /\ fst c = expand_runs runs /\
    fd_locals fd (length (fst c)) /\ enc_expr eb (snd c).
Definition enc_code : format code := enc_sized enc_func.

(** The contents of a custom section: a name and any bytes. *)
Definition enc_custom : format (name * list byte) := fun bs c =>
  exists nb, bs = nb ++ snd c /\ enc_name nb (fst c).

Inductive section :=
| S_Custom (c : name * list byte)
| S_Type (v : list functy)
| S_Import (v : list import)
| S_Function (v : list typeidx)
| S_Table (v : list table)
| S_Memory (v : list mem)
| S_Global (v : list global)
| S_Export (v : list export)
| S_Start (v : start)
| S_Element (v : list elem)
| S_Code (v : list code)
| S_Data (v : list data).

(** 5.5.2: an identifier, a size, the contents *)
Definition enc_section : format section := fun bs s =>
  match s with
  | S_Custom c => exists b, bs = x00 :: b /\ enc_sized enc_custom b c
  | S_Type v => exists b, bs = x01 :: b /\ enc_sized (enc_vec enc_functy) b v
  | S_Import v => exists b, bs = x02 :: b /\ enc_sized (enc_vec enc_import) b v
  | S_Function v => exists b, bs = x03 :: b /\ enc_sized (enc_vec enc_u32) b v
  | S_Table v => exists b, bs = x04 :: b /\ enc_sized (enc_vec enc_table) b v
  | S_Memory v => exists b, bs = x05 :: b /\ enc_sized (enc_vec enc_mem) b v
  | S_Global v => exists b, bs = x06 :: b /\ enc_sized (enc_vec enc_global) b v
  | S_Export v => exists b, bs = x07 :: b /\ enc_sized (enc_vec enc_export) b v
  | S_Start v => exists b, bs = x08 :: b /\ enc_sized enc_start b v
  | S_Element v => exists b, bs = x09 :: b /\ enc_sized (enc_vec enc_elem) b v
  | S_Code v => exists b, bs = x0a :: b /\ enc_sized (enc_vec enc_code) b v
  | S_Data v => exists b, bs = x0b :: b /\ enc_sized (enc_vec enc_data) b v
  end.

(** 0 for custom sections *)
Definition section_id (s : section) : N :=
  match s with
  | S_Custom _ => 0 | S_Type _ => 1 | S_Import _ => 2 | S_Function _ => 3 | S_Table _ => 4
  | S_Memory _ => 5 | S_Global _ => 6 | S_Export _ => 7 | S_Start _ => 8 | S_Element _ => 9
  | S_Code _ => 10 | S_Data _ => 11
  end.
Definition is_custom (s : section) : bool := match s with S_Custom _ => true | _ => false end.

(** Non-custom sections appear in increasing order of their identifiers, hence at most once. *)
Fixpoint increasing (lo : N) (ids : list N) : Prop :=
  match ids with
  | [] => True
  | i :: is => lo < i /\ increasing i is
  end.
Definition ordered (secs : list section) : Prop :=
  increasing 0 (map section_id (filter (fun s => negb (is_custom s)) secs)).

(** The components of a module; an absent section is an empty one. *)
Definition sec_types s := match s with S_Type v => v | _ => [] end.
Definition sec_imports s := match s with S_Import v => v | _ => [] end.
Definition sec_typeidxs s := match s with S_Function v => v | _ => [] end.
Definition sec_tables s := match s with S_Table v => v | _ => [] end.
Definition sec_mems s := match s with S_Memory v => v | _ => [] end.
Definition sec_globals s := match s with S_Global v => v | _ => [] end.
Definition sec_exports s := match s with S_Export v => v | _ => [] end.
Definition sec_starts s := match s with S_Start v => [v] | _ => [] end.
Definition sec_elems s := match s with S_Element v => v | _ => [] end.
Definition sec_codes s := match s with S_Code v => v | _ => [] end.
Definition sec_datas s := match s with S_Data v => v | _ => [] end.
Definition has_code (secs : list section) : Prop := exists v, In (S_Code v) secs.

(** Type indices and bodies are paired in order. *)
Definition pair_funcs (ts : list typeidx) (cs : list code) : list func :=
  map (fun tc => mkFunc (fst tc) (fst (snd tc)) (snd (snd tc))) (combine ts cs).

Definition module_of (secs : list section) : module := {|
  m_types := flat_map sec_types secs;
  m_funcs := pair_funcs (flat_map sec_typeidxs secs) (flat_map sec_codes secs);
  m_tables := flat_map sec_tables secs;
  m_mems := flat_map sec_mems secs;
  m_globals := flat_map sec_globals secs;
  m_elem := flat_map sec_elems secs;
  m_data := flat_map sec_datas secs;
  m_start := hd_error (flat_map sec_starts secs);
  m_imports := flat_map sec_imports secs;
  m_exports := flat_map sec_exports secs |}.

Definition counts_match (secs : list section) : Prop :=
  length (flat_map sec_typeidxs secs) = length (flat_map sec_codes secs)
  \/ (fd_missing_code fd /\ ~ has_code secs).

Definition preamble : list byte := [x00; x61; x73; x6d; x01; x00; x00; x00].

(** 5.5.15 *)
Definition enc_module : format module := fun bs m =>
  exists body secs, bs = preamble ++ body /\ enc_list enc_section body secs /\
    ordered secs /\ counts_match secs /\ m = module_of secs.

End Format.
