(** Equality of modules.  Models the [PartialEq] implementations derived in whasm/src/structure/{idx,ty,instr,module}.rs
    (used by the tests, by users of the library, and on instructions by binary/instr.rs:256,264).  Floating point numbers are compared as IEEE 754 demands. *)
From Verif Require Export Structure.
Open Scope N_scope.
Open Scope bool_scope.

(** [==] of [f32] and [f64], by their bits: false on NaNs, true on the two zeros *)
Definition is_nan32 (x : f32) : bool := 0x7F800000 <? x mod 0x80000000.
Definition is_nan64 (x : f64) : bool := 0x7FF0000000000000 <? x mod 0x8000000000000000.
Definition eq_f32 (x y : f32) : bool :=
  if is_nan32 x || is_nan32 y then false else (x =? y) || ((x mod 0x80000000 =? 0) && (y mod 0x80000000 =? 0)).
Definition eq_f64 (x y : f64) : bool :=
  if is_nan64 x || is_nan64 y then false else (x =? y) || ((x mod 0x8000000000000000 =? 0) && (y mod 0x8000000000000000 =? 0)).

(** [==] of [Vec] and [Option] *)
Definition eq_vec {A} (eq : A -> A -> bool) : list A -> list A -> bool :=
  fix go l l' := match l, l' with [], [] => true | x :: r, x' :: r' => eq x x' && go r r' | _, _ => false end.
Definition eq_option {A} (eq : A -> A -> bool) (o o' : option A) : bool :=
  match o, o' with None, None => true | Some x, Some x' => eq x x' | _, _ => false end.
Definition eq_bytes : list byte -> list byte -> bool := eq_vec Byte.eqb.

(** structure/ty.rs; the derived code compares the fields in order *)
Definition eq_limits (l l' : limits) : bool := (lim_min l =? lim_min l') && eq_option N.eqb (lim_max l) (lim_max l').
Definition eq_valty (t t' : valty) : bool :=
  match t, t' with T_I32, T_I32 | T_I64, T_I64 | T_F32, T_F32 | T_F64, T_F64 => true | _, _ => false end.
Definition eq_elemty (t t' : elemty) : bool := match t, t' with FuncRef, FuncRef => true end.
Definition eq_functy (t t' : functy) : bool :=
  eq_vec eq_valty (ft_params t) (ft_params t') && eq_vec eq_valty (ft_results t) (ft_results t').
Definition eq_tablety (t t' : tablety) : bool := eq_limits (tt_lim t) (tt_lim t') && eq_elemty (tt_elem t) (tt_elem t').
Definition eq_memty (t t' : memty) : bool := eq_limits (mt_lim t) (mt_lim t').
Definition eq_mut (m m' : mut) : bool := match m, m' with Const, Const | Var, Var => true | _, _ => false end.
Definition eq_globalty (t t' : globalty) : bool := eq_mut (gt_mut t) (gt_mut t') && eq_valty (gt_val t) (gt_val t').

(** structure/instr.rs:9-204: the derived code compares the discriminants (positions in the enum) first, then the fields *)
Definition discriminant (i : instr) : N :=
  match i with
  | I_Unreachable => 0
  | I_Nop => 1
  | I_Block _ _ => 2
  | I_Loop _ _ => 3
  | I_If _ _ _ => 4
  | I_Else => 5
  | I_End => 6
  | I_Br _ => 7
  | I_BrIf _ => 8
  | I_BrTable _ _ => 9
  | I_Return => 10
  | I_Call _ => 11
  | I_CallIndirect _ _ => 12
  | I_Drop => 13
  | I_Select => 14
  | I_LocalGet _ => 15
  | I_LocalSet _ => 16
  | I_LocalTee _ => 17
  | I_GlobalGet _ => 18
  | I_GlobalSet _ => 19
  | I_I32Load _ _ => 20
  | I_I64Load _ _ => 21
  | I_F32Load _ _ => 22
  | I_F64Load _ _ => 23
  | I_I32Load8S _ _ => 24
  | I_I32Load8U _ _ => 25
  | I_I32Load16S _ _ => 26
  | I_I32Load16U _ _ => 27
  | I_I64Load8S _ _ => 28
  | I_I64Load8U _ _ => 29
  | I_I64Load16S _ _ => 30
  | I_I64Load16U _ _ => 31
  | I_I64Load32S _ _ => 32
  | I_I64Load32U _ _ => 33
  | I_I32Store _ _ => 34
  | I_I64Store _ _ => 35
  | I_F32Store _ _ => 36
  | I_F64Store _ _ => 37
  | I_I32Store8 _ _ => 38
  | I_I32Store16 _ _ => 39
  | I_I64Store8 _ _ => 40
  | I_I64Store16 _ _ => 41
  | I_I64Store32 _ _ => 42
  | I_MemSize _ => 43
  | I_MemGrow _ => 44
  | I_ConstI32 _ => 45
  | I_ConstI64 _ => 46
  | I_ConstF32 _ => 47
  | I_ConstF64 _ => 48
  | I_I32Eqz => 49
  | I_I32Eq => 50
  | I_I32Ne => 51
  | I_I32LtS => 52
  | I_I32LtU => 53
  | I_I32GtS => 54
  | I_I32GtU => 55
  | I_I32LeS => 56
  | I_I32LeU => 57
  | I_I32GeS => 58
  | I_I32GeU => 59
  | I_I64Eqz => 60
  | I_I64Eq => 61
  | I_I64Ne => 62
  | I_I64LtS => 63
  | I_I64LtU => 64
  | I_I64GtS => 65
  | I_I64GtU => 66
  | I_I64LeS => 67
  | I_I64LeU => 68
  | I_I64GeS => 69
  | I_I64GeU => 70
  | I_F32Eq => 71
  | I_F32Ne => 72
  | I_F32Lt => 73
  | I_F32Gt => 74
  | I_F32Le => 75
  | I_F32Ge => 76
  | I_F64Eq => 77
  | I_F64Ne => 78
  | I_F64Lt => 79
  | I_F64Gt => 80
  | I_F64Le => 81
  | I_F64Ge => 82
  | I_I32Clz => 83
  | I_I32Ctz => 84
  | I_I32Popcnt => 85
  | I_I32Add => 86
  | I_I32Sub => 87
  | I_I32Mul => 88
  | I_I32DivS => 89
  | I_I32DivU => 90
  | I_I32RemS => 91
  | I_I32RemU => 92
  | I_I32And => 93
  | I_I32Or => 94
  | I_I32Xor => 95
  | I_I32Shl => 96
  | I_I32ShrS => 97
  | I_I32ShrU => 98
  | I_I32Rotl => 99
  | I_I32Rotr => 100
  | I_I64Clz => 101
  | I_I64Ctz => 102
  | I_I64Popcnt => 103
  | I_I64Add => 104
  | I_I64Sub => 105
  | I_I64Mul => 106
  | I_I64DivS => 107
  | I_I64DivU => 108
  | I_I64RemS => 109
  | I_I64RemU => 110
  | I_I64And => 111
  | I_I64Or => 112
  | I_I64Xor => 113
  | I_I64Shl => 114
  | I_I64ShrS => 115
  | I_I64ShrU => 116
  | I_I64Rotl => 117
  | I_I64Rotr => 118
  | I_F32Abs => 119
  | I_F32Neg => 120
  | I_F32Ceil => 121
  | I_F32Floor => 122
  | I_F32Trunc => 123
  | I_F32Nearest => 124
  | I_F32Sqrt => 125
  | I_F32Add => 126
  | I_F32Sub => 127
  | I_F32Mul => 128
  | I_F32Div => 129
  | I_F32Min => 130
  | I_F32Max => 131
  | I_F32Copysign => 132
  | I_F64Abs => 133
  | I_F64Neg => 134
  | I_F64Ceil => 135
  | I_F64Floor => 136
  | I_F64Trunc => 137
  | I_F64Nearest => 138
  | I_F64Sqrt => 139
  | I_F64Add => 140
  | I_F64Sub => 141
  | I_F64Mul => 142
  | I_F64Div => 143
  | I_F64Min => 144
  | I_F64Max => 145
  | I_F64Copysign => 146
  | I_I32WrapI64 => 147
  | I_I32TruncF32S => 148
  | I_I32TruncF32U => 149
  | I_I32TruncF64S => 150
  | I_I32TruncF64U => 151
  | I_I64ExtendI32S => 152
  | I_I64ExtendI32U => 153
  | I_I64TruncF32S => 154
  | I_I64TruncF32U => 155
  | I_I64TruncF64S => 156
  | I_I64TruncF64U => 157
  | I_F32ConvertI32S => 158
  | I_F32ConvertI32U => 159
  | I_F32ConvertI64S => 160
  | I_F32ConvertI64U => 161
  | I_F32DemoteF64 => 162
  | I_F64ConvertI32S => 163
  | I_F64ConvertI32U => 164
  | I_F64ConvertI64S => 165
  | I_F64ConvertI64U => 166
  | I_F64PromoteF32 => 167
  | I_I32ReinterpretF32 => 168
  | I_I64ReinterpretF64 => 169
  | I_F32ReinterpretI32 => 170
  | I_F64ReinterpretI64 => 171
  end.
Fixpoint eq_instr (i i' : instr) {struct i} : bool :=
  (discriminant i =? discriminant i') &&
    (match i, i' with
     | I_Block a b, I_Block a' b' => eq_vec eq_valty a a' && eq_vec eq_instr b b'
     | I_Loop a b, I_Loop a' b' => eq_vec eq_valty a a' && eq_vec eq_instr b b'
     | I_If a b c, I_If a' b' c' => eq_vec eq_valty a a' && eq_vec eq_instr b b' && eq_vec eq_instr c c'
     | I_Br a, I_Br a' => N.eqb a a'
     | I_BrIf a, I_BrIf a' => N.eqb a a'
     | I_BrTable a b, I_BrTable a' b' => eq_vec N.eqb a a' && N.eqb b b'
     | I_Call a, I_Call a' => N.eqb a a'
     | I_CallIndirect a b, I_CallIndirect a' b' => N.eqb a a' && N.eqb b b'
     | I_LocalGet a, I_LocalGet a' => N.eqb a a'
     | I_LocalSet a, I_LocalSet a' => N.eqb a a'
     | I_LocalTee a, I_LocalTee a' => N.eqb a a'
     | I_GlobalGet a, I_GlobalGet a' => N.eqb a a'
     | I_GlobalSet a, I_GlobalSet a' => N.eqb a a'
     | I_I32Load a b, I_I32Load a' b' => N.eqb a a' && N.eqb b b'
     | I_I64Load a b, I_I64Load a' b' => N.eqb a a' && N.eqb b b'
     | I_F32Load a b, I_F32Load a' b' => N.eqb a a' && N.eqb b b'
     | I_F64Load a b, I_F64Load a' b' => N.eqb a a' && N.eqb b b'
     | I_I32Load8S a b, I_I32Load8S a' b' => N.eqb a a' && N.eqb b b'
     | I_I32Load8U a b, I_I32Load8U a' b' => N.eqb a a' && N.eqb b b'
     | I_I32Load16S a b, I_I32Load16S a' b' => N.eqb a a' && N.eqb b b'
     | I_I32Load16U a b, I_I32Load16U a' b' => N.eqb a a' && N.eqb b b'
     | I_I64Load8S a b, I_I64Load8S a' b' => N.eqb a a' && N.eqb b b'
     | I_I64Load8U a b, I_I64Load8U a' b' => N.eqb a a' && N.eqb b b'
     | I_I64Load16S a b, I_I64Load16S a' b' => N.eqb a a' && N.eqb b b'
     | I_I64Load16U a b, I_I64Load16U a' b' => N.eqb a a' && N.eqb b b'
     | I_I64Load32S a b, I_I64Load32S a' b' => N.eqb a a' && N.eqb b b'
     | I_I64Load32U a b, I_I64Load32U a' b' => N.eqb a a' && N.eqb b b'
     | I_I32Store a b, I_I32Store a' b' => N.eqb a a' && N.eqb b b'
     | I_I64Store a b, I_I64Store a' b' => N.eqb a a' && N.eqb b b'
     | I_F32Store a b, I_F32Store a' b' => N.eqb a a' && N.eqb b b'
     | I_F64Store a b, I_F64Store a' b' => N.eqb a a' && N.eqb b b'
     | I_I32Store8 a b, I_I32Store8 a' b' => N.eqb a a' && N.eqb b b'
     | I_I32Store16 a b, I_I32Store16 a' b' => N.eqb a a' && N.eqb b b'
     | I_I64Store8 a b, I_I64Store8 a' b' => N.eqb a a' && N.eqb b b'
     | I_I64Store16 a b, I_I64Store16 a' b' => N.eqb a a' && N.eqb b b'
     | I_I64Store32 a b, I_I64Store32 a' b' => N.eqb a a' && N.eqb b b'
     | I_MemSize a, I_MemSize a' => N.eqb a a'
     | I_MemGrow a, I_MemGrow a' => N.eqb a a'
     | I_ConstI32 a, I_ConstI32 a' => Z.eqb a a'
     | I_ConstI64 a, I_ConstI64 a' => Z.eqb a a'
     | I_ConstF32 a, I_ConstF32 a' => eq_f32 a a'
     | I_ConstF64 a, I_ConstF64 a' => eq_f64 a a'
     | _, _ => true
     end).
Definition eq_expr : expr -> expr -> bool := eq_vec eq_instr.

(** structure/module.rs *)
Definition eq_func (f f' : func) : bool :=
  (fn_ty f =? fn_ty f') && eq_vec eq_valty (fn_locals f) (fn_locals f') && eq_expr (fn_body f) (fn_body f').
Definition eq_table (t t' : table) : bool := eq_tablety (tab_ty t) (tab_ty t').
Definition eq_mem (t t' : mem) : bool := eq_memty (mem_ty t) (mem_ty t').
Definition eq_global (g g' : global) : bool := eq_globalty (glob_ty g) (glob_ty g') && eq_expr (glob_init g) (glob_init g').
Definition eq_elem (e e' : elem) : bool :=
  (el_table e =? el_table e') && eq_expr (el_offset e) (el_offset e') && eq_vec N.eqb (el_init e) (el_init e').
Definition eq_data (d d' : data) : bool :=
  (da_mem d =? da_mem d') && eq_expr (da_offset d) (da_offset d') && eq_bytes (da_init d) (da_init d').
Definition eq_start (s s' : start) : bool := st_func s =? st_func s'.
Definition eq_importdesc (d d' : importdesc) : bool :=
  match d, d' with
  | ID_Func t, ID_Func t' => t =? t'
  | ID_Table t, ID_Table t' => eq_tablety t t'
  | ID_Mem t, ID_Mem t' => eq_memty t t'
  | ID_Global t, ID_Global t' => eq_globalty t t'
  | _, _ => false
  end.
Definition eq_exportdesc (d d' : exportdesc) : bool :=
  match d, d' with
  | ED_Func i, ED_Func i' | ED_Table i, ED_Table i' | ED_Mem i, ED_Mem i' | ED_Global i, ED_Global i' => i =? i'
  | _, _ => false
  end.
Definition eq_import (i i' : import) : bool :=
  eq_bytes (im_module i) (im_module i') && eq_bytes (im_name i) (im_name i') && eq_importdesc (im_desc i) (im_desc i').
Definition eq_export (x x' : export) : bool := eq_bytes (ex_name x) (ex_name x') && eq_exportdesc (ex_desc x) (ex_desc x').
Definition eq_module (m m' : module) : bool :=
  eq_vec eq_functy (m_types m) (m_types m') && eq_vec eq_func (m_funcs m) (m_funcs m') && eq_vec eq_table (m_tables m) (m_tables m')
  && eq_vec eq_mem (m_mems m) (m_mems m') && eq_vec eq_global (m_globals m) (m_globals m') && eq_vec eq_elem (m_elem m) (m_elem m')
  && eq_vec eq_data (m_data m) (m_data m') && eq_option eq_start (m_start m) (m_start m')
  && eq_vec eq_import (m_imports m) (m_imports m') && eq_vec eq_export (m_exports m) (m_exports m').
