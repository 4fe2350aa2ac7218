(** The printout of a module.  Models [println!("{:#?}", module)] (parser/src/main.rs:46-48): the [Debug] implementations derived in
    whasm/src/structure/{idx,ty,instr,module}.rs and the pretty form ([{:#?}]) of the standard library's formatting.
    How the library writes floating point numbers, and which characters it takes for unprintable, depend on its version;
    they are parameters. *)
From Coq Require Import String Ascii DecimalString.
From Coq Require DecimalN DecimalZ HexadecimalN HexadecimalString.
From Verif Require Export Display.
Open Scope string_scope.

(** what depends on the standard library *)
Record std_texts := mkStd {
  std_f32 : f32 -> string;            (* [{:#?}] of a [f32], by its bits *)
  std_f64 : f64 -> string;            (* [{:#?}] of a [f64], by its bits *)
  std_unprintable : N -> bool;        (* the code points that a string shows as [\u{..}] *)
  std_single : bool                   (* whether a string shows ['] as [\'] (older versions do) *)
}.

(** What a derived [Debug] hands to the formatter: a word, [f.debug_struct(name)], [f.debug_tuple(name)], [f.debug_list()] *)
Inductive dtree :=
| D_leaf (s : string)
| D_struct (nm : string) (fields : list (string * dtree))
| D_tuple (nm : string) (items : list dtree)
| D_list (items : list dtree).

(** [PadAdapter]: four spaces before the first character of every line; [nl]: at the start of a line *)
Fixpoint pad (nl : bool) (s : string) : string :=
  match s with
  | "" => ""
  | String c s' => (if nl then "    " else "") ++ String c (pad (Ascii.eqb c "010") s')
  end.
(** [DebugStruct], [DebugTuple], [DebugList] with the alternate flag.  Each entry is written to a fresh [PadAdapter]. *)
Fixpoint pretty (t : dtree) : string :=
  match t with
  | D_leaf s => s
  | D_struct nm [] => nm
  | D_struct nm fs =>
    nm ++ " {" ++ newline ++ String.concat "" (map (fun f => pad true (fst f ++ ": " ++ pretty (snd f) ++ "," ++ newline)) fs) ++ "}"
  | D_tuple nm [] => nm
  | D_tuple nm ts => nm ++ "(" ++ newline ++ String.concat "" (map (fun u => pad true (pretty u ++ "," ++ newline)) ts) ++ ")"
  | D_list [] => "[]"
  | D_list ts => "[" ++ newline ++ String.concat "" (map (fun u => pad true (pretty u ++ "," ++ newline)) ts) ++ "]"
  end.

(** numbers *)
Definition d_u32 (n : u32) : dtree := D_leaf (NilZero.string_of_uint (N.to_uint n)).
Definition d_u8 (b : byte) : dtree := D_leaf (show_u8 b).
Definition d_i32 (z : i32) : dtree := D_leaf (NilZero.string_of_int (Z.to_int z)).
Definition d_i64 (z : i64) : dtree := D_leaf (NilZero.string_of_int (Z.to_int z)).

(** [Debug] of [str]: the characters of the string, each as its bytes ... *)
Definition continues (b : byte) : bool := (Byte.to_N b / 64 =? 2)%N.
Fixpoint chars (bs : list byte) : list (list byte) :=
  match bs with
  | [] => []
  | b :: r => match chars r with
              | (c :: g) :: gs => if continues c then (b :: c :: g) :: gs else [b] :: (c :: g) :: gs
              | gs => [b] :: gs
              end
  end.
(** ... the code point of a character ... *)
Definition code_point (g : list byte) : N :=
  (match map Byte.to_N g with
   | [a] => a
   | [a; b] => a mod 32 * 64 + b mod 64
   | [a; b; c] => a mod 16 * 4096 + b mod 64 * 64 + c mod 64
   | [a; b; c; d] => a mod 8 * 262144 + b mod 64 * 4096 + c mod 64 * 64 + d mod 64
   | _ => 0
   end)%N.
(** ... and [char::escape_debug] *)
Definition backslash : ascii := "092".
Definition show_char (std : std_texts) (g : list byte) : string :=
  let c := code_point g in
  (if c =? 0 then String backslash "0"
   else if c =? 9 then String backslash "t"
   else if c =? 10 then String backslash "n"
   else if c =? 13 then String backslash "r"
   else if c =? 34 then String backslash quote
   else if c =? 92 then String backslash (String backslash "")
   else if (c =? 39) && std_single std then String backslash "'"
   else if std_unprintable std c then String backslash ("u{" ++ HexadecimalString.NilZero.string_of_uint (N.to_hex_uint c) ++ "}")
   else string_of_list_byte g)%N.
Definition d_name (std : std_texts) (n : name) : dtree :=
  D_leaf (quote ++ String.concat "" (map (show_char std) (chars n)) ++ quote).

(** [Option], [Vec] *)
Definition d_option {A} (d : A -> dtree) (o : option A) : dtree :=
  match o with None => D_leaf "None" | Some x => D_tuple "Some" [d x] end.
Definition d_vec {A} (d : A -> dtree) (l : list A) : dtree := D_list (map d l).

(** structure/idx.rs: all indices are tuple structs around a [u32] *)
Definition d_idx (nm : string) (n : u32) : dtree := D_tuple nm [d_u32 n].

(** structure/ty.rs *)
Definition d_limits (l : limits) : dtree :=
  D_struct "Limits" [("min", d_u32 (lim_min l)); ("max", d_option d_u32 (lim_max l))].
Definition d_valty (t : valty) : dtree :=
  D_leaf (match t with T_I32 => "I32" | T_I64 => "I64" | T_F32 => "F32" | T_F64 => "F64" end).
Definition d_elemty (t : elemty) : dtree := match t with FuncRef => D_leaf "FuncRef" end.
Definition d_retval (r : retval) : dtree := D_tuple "RetVal" [d_vec d_valty r].
Definition d_functy (t : functy) : dtree :=
  D_struct "Func" [("params", d_vec d_valty (ft_params t)); ("results", d_vec d_valty (ft_results t))].
Definition d_tablety (t : tablety) : dtree := D_struct "Table" [("lim", d_limits (tt_lim t)); ("elem", d_elemty (tt_elem t))].
Definition d_memty (t : memty) : dtree := D_struct "Mem" [("lim", d_limits (mt_lim t))].
Definition d_mut (m : mut) : dtree := D_leaf (match m with Const => "Const" | Var => "Var" end).
Definition d_globalty (t : globalty) : dtree := D_struct "Global" [("mt", d_mut (gt_mut t)); ("val", d_valty (gt_val t))].

(** structure/instr.rs:9-204, one case per variant in the order of the file *)
Fixpoint d_instr (std : std_texts) (i : instr) : dtree :=
  match i with
  | I_Unreachable => D_leaf "Unreachable"
  | I_Nop => D_leaf "Nop"
  | I_Block a b => D_tuple "Block" [d_retval a; D_tuple "Expr" [D_list (map (d_instr std) b)]]
  | I_Loop a b => D_tuple "Loop" [d_retval a; D_tuple "Expr" [D_list (map (d_instr std) b)]]
  | I_If a b c => D_tuple "If" [d_retval a; D_tuple "Expr" [D_list (map (d_instr std) b)]; D_tuple "Expr" [D_list (map (d_instr std) c)]]
  | I_Else => D_leaf "Else"
  | I_End => D_leaf "End"
  | I_Br a => D_tuple "Br" [d_idx "Label" a]
  | I_BrIf a => D_tuple "BrIf" [d_idx "Label" a]
  | I_BrTable a b => D_tuple "BrTable" [D_list (map (d_idx "Label") a); d_idx "Label" b]
  | I_Return => D_leaf "Return"
  | I_Call a => D_tuple "Call" [d_idx "Func" a]
  | I_CallIndirect a b => D_tuple "CallIndirect" [d_idx "Type" a; d_idx "Table" b]
  | I_Drop => D_leaf "Drop"
  | I_Select => D_leaf "Select"
  | I_LocalGet a => D_tuple "LocalGet" [d_idx "Local" a]
  | I_LocalSet a => D_tuple "LocalSet" [d_idx "Local" a]
  | I_LocalTee a => D_tuple "LocalTee" [d_idx "Local" a]
  | I_GlobalGet a => D_tuple "GlobalGet" [d_idx "Global" a]
  | I_GlobalSet a => D_tuple "GlobalSet" [d_idx "Global" a]
  | I_I32Load a b => D_tuple "I32Load" [d_u32 a; d_u32 b]
  | I_I64Load a b => D_tuple "I64Load" [d_u32 a; d_u32 b]
  | I_F32Load a b => D_tuple "F32Load" [d_u32 a; d_u32 b]
  | I_F64Load a b => D_tuple "F64Load" [d_u32 a; d_u32 b]
  | I_I32Load8S a b => D_tuple "I32Load8S" [d_u32 a; d_u32 b]
  | I_I32Load8U a b => D_tuple "I32Load8U" [d_u32 a; d_u32 b]
  | I_I32Load16S a b => D_tuple "I32Load16S" [d_u32 a; d_u32 b]
  | I_I32Load16U a b => D_tuple "I32Load16U" [d_u32 a; d_u32 b]
  | I_I64Load8S a b => D_tuple "I64Load8S" [d_u32 a; d_u32 b]
  | I_I64Load8U a b => D_tuple "I64Load8U" [d_u32 a; d_u32 b]
  | I_I64Load16S a b => D_tuple "I64Load16S" [d_u32 a; d_u32 b]
  | I_I64Load16U a b => D_tuple "I64Load16U" [d_u32 a; d_u32 b]
  | I_I64Load32S a b => D_tuple "I64Load32S" [d_u32 a; d_u32 b]
  | I_I64Load32U a b => D_tuple "I64Load32U" [d_u32 a; d_u32 b]
  | I_I32Store a b => D_tuple "I32Store" [d_u32 a; d_u32 b]
  | I_I64Store a b => D_tuple "I64Store" [d_u32 a; d_u32 b]
  | I_F32Store a b => D_tuple "F32Store" [d_u32 a; d_u32 b]
  | I_F64Store a b => D_tuple "F64Store" [d_u32 a; d_u32 b]
  | I_I32Store8 a b => D_tuple "I32Store8" [d_u32 a; d_u32 b]
  | I_I32Store16 a b => D_tuple "I32Store16" [d_u32 a; d_u32 b]
  | I_I64Store8 a b => D_tuple "I64Store8" [d_u32 a; d_u32 b]
  | I_I64Store16 a b => D_tuple "I64Store16" [d_u32 a; d_u32 b]
  | I_I64Store32 a b => D_tuple "I64Store32" [d_u32 a; d_u32 b]
  | I_MemSize a => D_tuple "MemSize" [d_idx "Mem" a]
  | I_MemGrow a => D_tuple "MemGrow" [d_idx "Mem" a]
  | I_ConstI32 a => D_tuple "ConstI32" [d_i32 a]
  | I_ConstI64 a => D_tuple "ConstI64" [d_i64 a]
  | I_ConstF32 a => D_tuple "ConstF32" [D_leaf (std_f32 std a)]
  | I_ConstF64 a => D_tuple "ConstF64" [D_leaf (std_f64 std a)]
  | I_I32Eqz => D_leaf "I32Eqz"
  | I_I32Eq => D_leaf "I32Eq"
  | I_I32Ne => D_leaf "I32Ne"
  | I_I32LtS => D_leaf "I32LtS"
  | I_I32LtU => D_leaf "I32LtU"
  | I_I32GtS => D_leaf "I32GtS"
  | I_I32GtU => D_leaf "I32GtU"
  | I_I32LeS => D_leaf "I32LeS"
  | I_I32LeU => D_leaf "I32LeU"
  | I_I32GeS => D_leaf "I32GeS"
  | I_I32GeU => D_leaf "I32GeU"
  | I_I64Eqz => D_leaf "I64Eqz"
  | I_I64Eq => D_leaf "I64Eq"
  | I_I64Ne => D_leaf "I64Ne"
  | I_I64LtS => D_leaf "I64LtS"
  | I_I64LtU => D_leaf "I64LtU"
  | I_I64GtS => D_leaf "I64GtS"
  | I_I64GtU => D_leaf "I64GtU"
  | I_I64LeS => D_leaf "I64LeS"
  | I_I64LeU => D_leaf "I64LeU"
  | I_I64GeS => D_leaf "I64GeS"
  | I_I64GeU => D_leaf "I64GeU"
  | I_F32Eq => D_leaf "F32Eq"
  | I_F32Ne => D_leaf "F32Ne"
  | I_F32Lt => D_leaf "F32Lt"
  | I_F32Gt => D_leaf "F32Gt"
  | I_F32Le => D_leaf "F32Le"
  | I_F32Ge => D_leaf "F32Ge"
  | I_F64Eq => D_leaf "F64Eq"
  | I_F64Ne => D_leaf "F64Ne"
  | I_F64Lt => D_leaf "F64Lt"
  | I_F64Gt => D_leaf "F64Gt"
  | I_F64Le => D_leaf "F64Le"
  | I_F64Ge => D_leaf "F64Ge"
  | I_I32Clz => D_leaf "I32Clz"
  | I_I32Ctz => D_leaf "I32Ctz"
  | I_I32Popcnt => D_leaf "I32Popcnt"
  | I_I32Add => D_leaf "I32Add"
  | I_I32Sub => D_leaf "I32Sub"
  | I_I32Mul => D_leaf "I32Mul"
  | I_I32DivS => D_leaf "I32DivS"
  | I_I32DivU => D_leaf "I32DivU"
  | I_I32RemS => D_leaf "I32RemS"
  | I_I32RemU => D_leaf "I32RemU"
  | I_I32And => D_leaf "I32And"
  | I_I32Or => D_leaf "I32Or"
  | I_I32Xor => D_leaf "I32Xor"
  | I_I32Shl => D_leaf "I32Shl"
  | I_I32ShrS => D_leaf "I32ShrS"
  | I_I32ShrU => D_leaf "I32ShrU"
  | I_I32Rotl => D_leaf "I32Rotl"
  | I_I32Rotr => D_leaf "I32Rotr"
  | I_I64Clz => D_leaf "I64Clz"
  | I_I64Ctz => D_leaf "I64Ctz"
  | I_I64Popcnt => D_leaf "I64Popcnt"
  | I_I64Add => D_leaf "I64Add"
  | I_I64Sub => D_leaf "I64Sub"
  | I_I64Mul => D_leaf "I64Mul"
  | I_I64DivS => D_leaf "I64DivS"
  | I_I64DivU => D_leaf "I64DivU"
  | I_I64RemS => D_leaf "I64RemS"
  | I_I64RemU => D_leaf "I64RemU"
  | I_I64And => D_leaf "I64And"
  | I_I64Or => D_leaf "I64Or"
  | I_I64Xor => D_leaf "I64Xor"
  | I_I64Shl => D_leaf "I64Shl"
  | I_I64ShrS => D_leaf "I64ShrS"
  | I_I64ShrU => D_leaf "I64ShrU"
  | I_I64Rotl => D_leaf "I64Rotl"
  | I_I64Rotr => D_leaf "I64Rotr"
  | I_F32Abs => D_leaf "F32Abs"
  | I_F32Neg => D_leaf "F32Neg"
  | I_F32Ceil => D_leaf "F32Ceil"
  | I_F32Floor => D_leaf "F32Floor"
  | I_F32Trunc => D_leaf "F32Trunc"
  | I_F32Nearest => D_leaf "F32Nearest"
  | I_F32Sqrt => D_leaf "F32Sqrt"
  | I_F32Add => D_leaf "F32Add"
  | I_F32Sub => D_leaf "F32Sub"
  | I_F32Mul => D_leaf "F32Mul"
  | I_F32Div => D_leaf "F32Div"
  | I_F32Min => D_leaf "F32Min"
  | I_F32Max => D_leaf "F32Max"
  | I_F32Copysign => D_leaf "F32Copysign"
  | I_F64Abs => D_leaf "F64Abs"
  | I_F64Neg => D_leaf "F64Neg"
  | I_F64Ceil => D_leaf "F64Ceil"
  | I_F64Floor => D_leaf "F64Floor"
  | I_F64Trunc => D_leaf "F64Trunc"
  | I_F64Nearest => D_leaf "F64Nearest"
  | I_F64Sqrt => D_leaf "F64Sqrt"
  | I_F64Add => D_leaf "F64Add"
  | I_F64Sub => D_leaf "F64Sub"
  | I_F64Mul => D_leaf "F64Mul"
  | I_F64Div => D_leaf "F64Div"
  | I_F64Min => D_leaf "F64Min"
  | I_F64Max => D_leaf "F64Max"
  | I_F64Copysign => D_leaf "F64Copysign"
  | I_I32WrapI64 => D_leaf "I32WrapI64"
  | I_I32TruncF32S => D_leaf "I32TruncF32S"
  | I_I32TruncF32U => D_leaf "I32TruncF32U"
  | I_I32TruncF64S => D_leaf "I32TruncF64S"
  | I_I32TruncF64U => D_leaf "I32TruncF64U"
  | I_I64ExtendI32S => D_leaf "I64ExtendI32S"
  | I_I64ExtendI32U => D_leaf "I64ExtendI32U"
  | I_I64TruncF32S => D_leaf "I64TruncF32S"
  | I_I64TruncF32U => D_leaf "I64TruncF32U"
  | I_I64TruncF64S => D_leaf "I64TruncF64S"
  | I_I64TruncF64U => D_leaf "I64TruncF64U"
  | I_F32ConvertI32S => D_leaf "F32ConvertI32S"
  | I_F32ConvertI32U => D_leaf "F32ConvertI32U"
  | I_F32ConvertI64S => D_leaf "F32ConvertI64S"
  | I_F32ConvertI64U => D_leaf "F32ConvertI64U"
  | I_F32DemoteF64 => D_leaf "F32DemoteF64"
  | I_F64ConvertI32S => D_leaf "F64ConvertI32S"
  | I_F64ConvertI32U => D_leaf "F64ConvertI32U"
  | I_F64ConvertI64S => D_leaf "F64ConvertI64S"
  | I_F64ConvertI64U => D_leaf "F64ConvertI64U"
  | I_F64PromoteF32 => D_leaf "F64PromoteF32"
  | I_I32ReinterpretF32 => D_leaf "I32ReinterpretF32"
  | I_I64ReinterpretF64 => D_leaf "I64ReinterpretF64"
  | I_F32ReinterpretI32 => D_leaf "F32ReinterpretI32"
  | I_F64ReinterpretI64 => D_leaf "F64ReinterpretI64"
  end.
(** instr.rs:3-4 and 6-7 *)
Definition d_expr (std : std_texts) (e : expr) : dtree := D_tuple "Expr" [d_vec (d_instr std) e].
Definition d_constexpr (std : std_texts) (e : constexpr) : dtree := D_tuple "ConstExpr" [d_vec (d_instr std) e].

(** structure/module.rs *)
Definition d_func (std : std_texts) (f : func) : dtree :=
  D_struct "Func" [("ty", d_idx "Type" (fn_ty f)); ("locals", d_vec d_valty (fn_locals f)); ("body", d_expr std (fn_body f))].
Definition d_table (t : table) : dtree := D_struct "Table" [("ty", d_tablety (tab_ty t))].
Definition d_mem (t : mem) : dtree := D_struct "Mem" [("ty", d_memty (mem_ty t))].
Definition d_global (std : std_texts) (g : global) : dtree :=
  D_struct "Global" [("ty", d_globalty (glob_ty g)); ("init", d_constexpr std (glob_init g))].
Definition d_elem (std : std_texts) (e : elem) : dtree :=
  D_struct "Elem" [("table", d_idx "Table" (el_table e)); ("offset", d_constexpr std (el_offset e));
                   ("init", d_vec (d_idx "Func") (el_init e))].
Definition d_data (std : std_texts) (d : data) : dtree :=
  D_struct "Data" [("mem", d_idx "Mem" (da_mem d)); ("offset", d_constexpr std (da_offset d)); ("init", d_vec d_u8 (da_init d))].
Definition d_start (s : start) : dtree := D_struct "Start" [("func", d_idx "Func" (st_func s))].
Definition d_importdesc (d : importdesc) : dtree :=
  match d with
  | ID_Func t => D_tuple "Func" [d_idx "Type" t]
  | ID_Table t => D_tuple "Table" [d_tablety t]
  | ID_Mem t => D_tuple "Mem" [d_memty t]
  | ID_Global t => D_tuple "Global" [d_globalty t]
  end.
Definition d_exportdesc (d : exportdesc) : dtree :=
  match d with
  | ED_Func i => D_tuple "Func" [d_idx "Func" i]
  | ED_Table i => D_tuple "Table" [d_idx "Table" i]
  | ED_Mem i => D_tuple "Mem" [d_idx "Mem" i]
  | ED_Global i => D_tuple "Global" [d_idx "Global" i]
  end.
Definition d_import (std : std_texts) (i : import) : dtree :=
  D_struct "Import" [("module", d_name std (im_module i)); ("name", d_name std (im_name i)); ("desc", d_importdesc (im_desc i))].
Definition d_export (std : std_texts) (e : export) : dtree :=
  D_struct "Export" [("name", d_name std (ex_name e)); ("desc", d_exportdesc (ex_desc e))].
Definition d_module (std : std_texts) (m : module) : dtree :=
  D_struct "Module"
    [("types", d_vec d_functy (m_types m)); ("funcs", d_vec (d_func std) (m_funcs m)); ("tables", d_vec d_table (m_tables m));
     ("mems", d_vec d_mem (m_mems m)); ("globals", d_vec (d_global std) (m_globals m)); ("elem", d_vec (d_elem std) (m_elem m));
     ("data", d_vec (d_data std) (m_data m)); ("start", d_option d_start (m_start m));
     ("imports", d_vec (d_import std) (m_imports m)); ("exports", d_vec (d_export std) (m_exports m))].

(** main.rs:46-48 *)
Definition show_module (std : std_texts) (m : module) : string := println (pretty (d_module std m)).
(** Everything the program writes to standard output before it exits; [None]: it dies by a panic *)
Definition output (std : std_texts) (args : list string) (fs : string -> file) (os : string) : option string :=
  match cli args fs with
  | Exit _ [MsgModule m] => Some (show_module std m)
  | Exit _ [] => Some ""
  | Exit _ _ => stdout args fs os
  | Crash => None
  end.
