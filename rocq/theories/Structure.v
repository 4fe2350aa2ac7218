(** Abstract syntax of WebAssembly modules.  Models whasm/src/structure/*.rs. *)
From Coq Require Export List NArith ZArith Bool.
From Coq.Init Require Export Byte.
From Coq Require Strings.Byte.
Export ListNotations.

(** Primitive Rust number types.  The model uses unbounded numbers; that every
    parsed value is in the range of its Rust type is a theorem (property C24). *)
Definition u32 := N.
Definition i32 := Z.
Definition i64 := Z.
(** f32/f64 are represented by their IEEE-754 bit patterns. *)
Definition f32 := N.
Definition f64 := N.

(** Rust [String]: its UTF-8 bytes. *)
Definition name := list byte.

(** structure/idx.rs:1-21.  The newtypes around u32 are collapsed to u32. *)
Definition typeidx := u32.     (* idx.rs:3 *)
Definition funcidx := u32.     (* idx.rs:6 *)
Definition tableidx := u32.    (* idx.rs:9 *)
Definition memidx := u32.      (* idx.rs:12 *)
Definition globalidx := u32.   (* idx.rs:15 *)
Definition localidx := u32.    (* idx.rs:18 *)
Definition labelidx := u32.    (* idx.rs:21 *)

(** structure/ty.rs:1-5 *)
Record limits := mkLimits { lim_min : u32; lim_max : option u32 }.

(** structure/ty.rs:7-14 *)
Inductive valty := T_I32 | T_I64 | T_F32 | T_F64.

(** structure/ty.rs:16-19 *)
Inductive elemty := FuncRef.

(** structure/ty.rs:21-22 (newtype collapsed) *)
Definition retval := list valty.

(** structure/ty.rs:24-28 *)
Record functy := mkFuncTy { ft_params : list valty; ft_results : list valty }.

(** structure/ty.rs:30-34 *)
Record tablety := mkTableTy { tt_lim : limits; tt_elem : elemty }.

(** structure/ty.rs:36-39 *)
Record memty := mkMemTy { mt_lim : limits }.

(** structure/ty.rs:41-42 *)
Inductive mut := Const | Var.

(** structure/ty.rs:44-48 *)
Record globalty := mkGlobalTy { gt_mut : mut; gt_val : valty }.

(** structure/instr.rs:9-204.  [Expr(Vec<Instr>)] (instr.rs:3-4) and
    [ConstExpr(Vec<Instr>)] (instr.rs:6-7) are collapsed to [list instr].
    Generated mechanically from the Rust enum; the comment gives opcode and line. *)
Inductive instr :=
  (* Control flow *)
  | I_Unreachable                                    (* 0x00, line 12 *)
  | I_Nop                                            (* 0x01, line 13 *)
  | I_Block (a : retval) (b : list instr)            (* 0x02, line 14 *)
  | I_Loop (a : retval) (b : list instr)             (* 0x03, line 15 *)
  | I_If (a : retval) (b : list instr) (c : list instr) (* 0x04, line 16 *)
  | I_Else                                           (* 0x05, line 17 *)
  | I_End                                            (* 0x0B, line 19 *)
  | I_Br (a : labelidx)                              (* 0x0C, line 20 *)
  | I_BrIf (a : labelidx)                            (* 0x0D, line 21 *)
  | I_BrTable (a : list labelidx) (b : labelidx)     (* 0x0E, line 22 *)
  | I_Return                                         (* 0x0F, line 23 *)
  | I_Call (a : funcidx)                             (* 0x10, line 24 *)
  | I_CallIndirect (a : typeidx) (b : tableidx)      (* 0x11, line 25 *)
  (* Parametric *)
  | I_Drop                                           (* 0x1A, line 28 *)
  | I_Select                                         (* 0x1B, line 29 *)
  (* Variable *)
  | I_LocalGet (a : localidx)                        (* 0x20, line 32 *)
  | I_LocalSet (a : localidx)                        (* 0x21, line 33 *)
  | I_LocalTee (a : localidx)                        (* 0x22, line 34 *)
  | I_GlobalGet (a : globalidx)                      (* 0x23, line 35 *)
  | I_GlobalSet (a : globalidx)                      (* 0x24, line 36 *)
  (* Memory load *)
  | I_I32Load (a : u32) (b : u32)                    (* 0x28, line 39 *)
  | I_I64Load (a : u32) (b : u32)                    (* 0x29, line 40 *)
  | I_F32Load (a : u32) (b : u32)                    (* 0x2A, line 41 *)
  | I_F64Load (a : u32) (b : u32)                    (* 0x2B, line 42 *)
  | I_I32Load8S (a : u32) (b : u32)                  (* 0x2C, line 43 *)
  | I_I32Load8U (a : u32) (b : u32)                  (* 0x2D, line 44 *)
  | I_I32Load16S (a : u32) (b : u32)                 (* 0x2E, line 45 *)
  | I_I32Load16U (a : u32) (b : u32)                 (* 0x2F, line 46 *)
  | I_I64Load8S (a : u32) (b : u32)                  (* 0x30, line 47 *)
  | I_I64Load8U (a : u32) (b : u32)                  (* 0x31, line 48 *)
  | I_I64Load16S (a : u32) (b : u32)                 (* 0x32, line 49 *)
  | I_I64Load16U (a : u32) (b : u32)                 (* 0x33, line 50 *)
  | I_I64Load32S (a : u32) (b : u32)                 (* 0x34, line 51 *)
  | I_I64Load32U (a : u32) (b : u32)                 (* 0x35, line 52 *)
  (* Memory store *)
  | I_I32Store (a : u32) (b : u32)                   (* 0x36, line 54 *)
  | I_I64Store (a : u32) (b : u32)                   (* 0x37, line 55 *)
  | I_F32Store (a : u32) (b : u32)                   (* 0x38, line 56 *)
  | I_F64Store (a : u32) (b : u32)                   (* 0x39, line 57 *)
  | I_I32Store8 (a : u32) (b : u32)                  (* 0x3A, line 58 *)
  | I_I32Store16 (a : u32) (b : u32)                 (* 0x3B, line 59 *)
  | I_I64Store8 (a : u32) (b : u32)                  (* 0x3C, line 60 *)
  | I_I64Store16 (a : u32) (b : u32)                 (* 0x3D, line 61 *)
  | I_I64Store32 (a : u32) (b : u32)                 (* 0x3E, line 62 *)
  (* Memory management *)
  | I_MemSize (a : memidx)                           (* 0x3F, line 64 *)
  | I_MemGrow (a : memidx)                           (* 0x40, line 65 *)
  (* Numeric *)
  | I_ConstI32 (a : i32)                             (* 0x41, line 67 *)
  | I_ConstI64 (a : i64)                             (* 0x42, line 68 *)
  | I_ConstF32 (a : f32)                             (* 0x43, line 69 *)
  | I_ConstF64 (a : f64)                             (* 0x44, line 70 *)
  (* Numeric without immediate -- i32 *)
  | I_I32Eqz                                         (* 0x45, line 72 *)
  | I_I32Eq                                          (* 0x46, line 73 *)
  | I_I32Ne                                          (* 0x47, line 74 *)
  | I_I32LtS                                         (* 0x48, line 75 *)
  | I_I32LtU                                         (* 0x49, line 76 *)
  | I_I32GtS                                         (* 0x4A, line 77 *)
  | I_I32GtU                                         (* 0x4B, line 78 *)
  | I_I32LeS                                         (* 0x4C, line 79 *)
  | I_I32LeU                                         (* 0x4D, line 80 *)
  | I_I32GeS                                         (* 0x4E, line 81 *)
  | I_I32GeU                                         (* 0x4F, line 82 *)
  (* Numeric without immediate -- i64 *)
  | I_I64Eqz                                         (* 0x50, line 84 *)
  | I_I64Eq                                          (* 0x51, line 85 *)
  | I_I64Ne                                          (* 0x52, line 86 *)
  | I_I64LtS                                         (* 0x53, line 87 *)
  | I_I64LtU                                         (* 0x54, line 88 *)
  | I_I64GtS                                         (* 0x55, line 89 *)
  | I_I64GtU                                         (* 0x56, line 90 *)
  | I_I64LeS                                         (* 0x57, line 91 *)
  | I_I64LeU                                         (* 0x58, line 92 *)
  | I_I64GeS                                         (* 0x59, line 93 *)
  | I_I64GeU                                         (* 0x5A, line 94 *)
  (* Numeric without immediate -- f32 *)
  | I_F32Eq                                          (* 0x5B, line 96 *)
  | I_F32Ne                                          (* 0x5C, line 97 *)
  | I_F32Lt                                          (* 0x5D, line 98 *)
  | I_F32Gt                                          (* 0x5E, line 99 *)
  | I_F32Le                                          (* 0x5F, line 100 *)
  | I_F32Ge                                          (* 0x60, line 101 *)
  (* Numeric without immediate -- f64 *)
  | I_F64Eq                                          (* 0x61, line 103 *)
  | I_F64Ne                                          (* 0x62, line 104 *)
  | I_F64Lt                                          (* 0x63, line 105 *)
  | I_F64Gt                                          (* 0x64, line 106 *)
  | I_F64Le                                          (* 0x65, line 107 *)
  | I_F64Ge                                          (* 0x66, line 108 *)
  (* Numeric without immediate -- i32 cont. *)
  | I_I32Clz                                         (* 0x67, line 110 *)
  | I_I32Ctz                                         (* 0x68, line 111 *)
  | I_I32Popcnt                                      (* 0x69, line 112 *)
  | I_I32Add                                         (* 0x6A, line 113 *)
  | I_I32Sub                                         (* 0x6B, line 114 *)
  | I_I32Mul                                         (* 0x6C, line 115 *)
  | I_I32DivS                                        (* 0x6D, line 116 *)
  | I_I32DivU                                        (* 0x6E, line 117 *)
  | I_I32RemS                                        (* 0x6F, line 118 *)
  | I_I32RemU                                        (* 0x70, line 119 *)
  | I_I32And                                         (* 0x71, line 120 *)
  | I_I32Or                                          (* 0x72, line 121 *)
  | I_I32Xor                                         (* 0x73, line 122 *)
  | I_I32Shl                                         (* 0x74, line 123 *)
  | I_I32ShrS                                        (* 0x75, line 124 *)
  | I_I32ShrU                                        (* 0x76, line 125 *)
  | I_I32Rotl                                        (* 0x77, line 126 *)
  | I_I32Rotr                                        (* 0x78, line 127 *)
  (* Numeric without immediate -- i64 cont. *)
  | I_I64Clz                                         (* 0x79, line 129 *)
  | I_I64Ctz                                         (* 0x7A, line 130 *)
  | I_I64Popcnt                                      (* 0x7B, line 131 *)
  | I_I64Add                                         (* 0x7C, line 132 *)
  | I_I64Sub                                         (* 0x7D, line 133 *)
  | I_I64Mul                                         (* 0x7E, line 134 *)
  | I_I64DivS                                        (* 0x7F, line 135 *)
  | I_I64DivU                                        (* 0x80, line 136 *)
  | I_I64RemS                                        (* 0x81, line 137 *)
  | I_I64RemU                                        (* 0x82, line 138 *)
  | I_I64And                                         (* 0x83, line 139 *)
  | I_I64Or                                          (* 0x84, line 140 *)
  | I_I64Xor                                         (* 0x85, line 141 *)
  | I_I64Shl                                         (* 0x86, line 142 *)
  | I_I64ShrS                                        (* 0x87, line 143 *)
  | I_I64ShrU                                        (* 0x88, line 144 *)
  | I_I64Rotl                                        (* 0x89, line 145 *)
  | I_I64Rotr                                        (* 0x8A, line 146 *)
  (* Numeric without immediate -- f32 cont. *)
  | I_F32Abs                                         (* 0x8B, line 148 *)
  | I_F32Neg                                         (* 0x8C, line 149 *)
  | I_F32Ceil                                        (* 0x8D, line 150 *)
  | I_F32Floor                                       (* 0x8E, line 151 *)
  | I_F32Trunc                                       (* 0x8F, line 152 *)
  | I_F32Nearest                                     (* 0x90, line 153 *)
  | I_F32Sqrt                                        (* 0x91, line 154 *)
  | I_F32Add                                         (* 0x92, line 155 *)
  | I_F32Sub                                         (* 0x93, line 156 *)
  | I_F32Mul                                         (* 0x94, line 157 *)
  | I_F32Div                                         (* 0x95, line 158 *)
  | I_F32Min                                         (* 0x96, line 159 *)
  | I_F32Max                                         (* 0x97, line 160 *)
  | I_F32Copysign                                    (* 0x98, line 161 *)
  (* Numeric without immediate -- f64 cont. *)
  | I_F64Abs                                         (* 0x99, line 163 *)
  | I_F64Neg                                         (* 0x9A, line 164 *)
  | I_F64Ceil                                        (* 0x9B, line 165 *)
  | I_F64Floor                                       (* 0x9C, line 166 *)
  | I_F64Trunc                                       (* 0x9D, line 167 *)
  | I_F64Nearest                                     (* 0x9E, line 168 *)
  | I_F64Sqrt                                        (* 0x9F, line 169 *)
  | I_F64Add                                         (* 0xA0, line 170 *)
  | I_F64Sub                                         (* 0xA1, line 171 *)
  | I_F64Mul                                         (* 0xA2, line 172 *)
  | I_F64Div                                         (* 0xA3, line 173 *)
  | I_F64Min                                         (* 0xA4, line 174 *)
  | I_F64Max                                         (* 0xA5, line 175 *)
  | I_F64Copysign                                    (* 0xA6, line 176 *)
  (* Numeric without immediate -- conversion *)
  | I_I32WrapI64                                     (* 0xA7, line 178 *)
  | I_I32TruncF32S                                   (* 0xA8, line 179 *)
  | I_I32TruncF32U                                   (* 0xA9, line 180 *)
  | I_I32TruncF64S                                   (* 0xAA, line 181 *)
  | I_I32TruncF64U                                   (* 0xAB, line 182 *)
  | I_I64ExtendI32S                                  (* 0xAC, line 183 *)
  | I_I64ExtendI32U                                  (* 0xAD, line 184 *)
  | I_I64TruncF32S                                   (* 0xAE, line 185 *)
  | I_I64TruncF32U                                   (* 0xAF, line 186 *)
  | I_I64TruncF64S                                   (* 0xB0, line 187 *)
  | I_I64TruncF64U                                   (* 0xB1, line 188 *)
  | I_F32ConvertI32S                                 (* 0xB2, line 189 *)
  | I_F32ConvertI32U                                 (* 0xB3, line 190 *)
  | I_F32ConvertI64S                                 (* 0xB4, line 191 *)
  | I_F32ConvertI64U                                 (* 0xB5, line 192 *)
  | I_F32DemoteF64                                   (* 0xB6, line 193 *)
  | I_F64ConvertI32S                                 (* 0xB7, line 194 *)
  | I_F64ConvertI32U                                 (* 0xB8, line 195 *)
  | I_F64ConvertI64S                                 (* 0xB9, line 196 *)
  | I_F64ConvertI64U                                 (* 0xBA, line 197 *)
  | I_F64PromoteF32                                  (* 0xBB, line 198 *)
  | I_I32ReinterpretF32                              (* 0xBC, line 199 *)
  | I_I64ReinterpretF64                              (* 0xBD, line 200 *)
  | I_F32ReinterpretI32                              (* 0xBE, line 201 *)
  | I_F64ReinterpretI64                              (* 0xBF, line 202 *).

(** structure/instr.rs:3-4 and 6-7 *)
Definition expr := list instr.
Definition constexpr := list instr.

(** structure/module.rs:18-23 *)
Record func := mkFunc { fn_ty : typeidx; fn_locals : list valty; fn_body : expr }.
(** structure/module.rs:25-28 *)
Record table := mkTable { tab_ty : tablety }.
(** structure/module.rs:30-33 *)
Record mem := mkMem { mem_ty : memty }.
(** structure/module.rs:35-39 *)
Record global := mkGlobal { glob_ty : globalty; glob_init : constexpr }.
(** structure/module.rs:41-46 *)
Record elem := mkElem { el_table : tableidx; el_offset : constexpr; el_init : list funcidx }.
(** structure/module.rs:48-53 *)
Record data := mkData { da_mem : memidx; da_offset : constexpr; da_init : list byte }.
(** structure/module.rs:55-58 *)
Record start := mkStart { st_func : funcidx }.
(** structure/module.rs:63-69 *)
Inductive importdesc :=
| ID_Func (t : typeidx) | ID_Table (t : tablety) | ID_Mem (t : memty) | ID_Global (t : globalty).
(** structure/module.rs:71-77 *)
Inductive exportdesc :=
| ED_Func (i : funcidx) | ED_Table (i : tableidx) | ED_Mem (i : memidx) | ED_Global (i : globalidx).
(** structure/module.rs:80-85 *)
Record import := mkImport { im_module : name; im_name : name; im_desc : importdesc }.
(** structure/module.rs:87-91 *)
Record export := mkExport { ex_name : name; ex_desc : exportdesc }.
(** structure/module.rs:3-16 *)
Record module := mkModule {
  m_types : list functy;
  m_funcs : list func;
  m_tables : list table;
  m_mems : list mem;
  m_globals : list global;
  m_elem : list elem;
  m_data : list data;
  m_start : option start;
  m_imports : list import;
  m_exports : list export
}.
(** [#[derive(Default)]], structure/module.rs:4 *)
Definition default_module : module := mkModule [] [] [] [] [] [] [] None [] [].

(** derived [PartialEq] on ty::Val, structure/ty.rs:8 *)
Definition valty_eqb (a b : valty) : bool :=
  match a, b with
  | T_I32, T_I32 | T_I64, T_I64 | T_F32, T_F32 | T_F64, T_F64 => true
  | _, _ => false
  end.
(** derived [PartialEq] on slices of ty::Val *)
Fixpoint valtys_eqb (a b : list valty) : bool :=
  match a, b with
  | [], [] => true
  | x :: a', y :: b' => valty_eqb x y && valtys_eqb a' b'
  | _, _ => false
  end.
