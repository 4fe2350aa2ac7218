(** The binary format of WebAssembly 2.0 (chapter 5 of its specification), which has the same magic number and version as
    that of 1.0 and extends it.  Where marked "liberal", the relation holds for more than the specification says. *)
From Verif Require Export SpecFormat.
Open Scope N_scope.

(** ** Abstract syntax *)
Inductive refty2 := R_func | R_extern.
Inductive valty2 := W_num (t : valty) | W_v128 | W_ref (t : refty2).
Record functy2 := mkFuncTy2 { ft2_params : list valty2; ft2_results : list valty2 }.
Record tablety2 := mkTableTy2 { tt2_lim : limits; tt2_elem : refty2 }.
Record globalty2 := mkGlobalTy2 { gt2_mut : mut; gt2_val : valty2 }.
(** a block has no result, one result, or the type of an index *)
Inductive blockty2 := B_none | B_val (t : valty2) | B_type (x : u32).
Inductive instr2 :=
| J_old (i : instr)                                 (* instructions of 1.0 without instructions inside *)
| J_block (bt : blockty2) (is : list instr2)
| J_loop (bt : blockty2) (is : list instr2)
| J_if (bt : blockty2) (is1 is2 : list instr2)
| J_select (ts : list valty2)
| J_table_get (x : u32)
| J_table_set (x : u32)
| J_extend (op : byte)                              (* sign extension *)
| J_ref_null (t : refty2)
| J_ref_is_null
| J_ref_func (x : u32)
| J_prefixed (op : byte) (imm : list byte).         (* bulk memory and tables, saturating truncation, vectors *)
Definition expr2 : Type := list instr2.
Inductive mode2 := M_passive | M_active (x : u32) (offset : expr2) | M_declarative.
Record elem2 := mkElem2 { el2_ty : refty2; el2_init : list expr2; el2_mode : mode2 }.
Record data2 := mkData2 { da2_init : list byte; da2_mode : mode2 }.
Record global2 := mkGlobal2 { gl2_ty : globalty2; gl2_init : expr2 }.
Inductive importdesc2 := ID2_func (x : typeidx) | ID2_table (t : tablety2) | ID2_mem (t : memty) | ID2_global (t : globalty2).
Record import2 := mkImport2 { im2_module : name; im2_name : name; im2_desc : importdesc2 }.
Record func2 := mkFunc2 { fn2_ty : typeidx; fn2_locals : list valty2; fn2_body : expr2 }.
Record module2 := mkModule2 {
  m2_types : list functy2;
  m2_funcs : list func2;
  m2_tables : list tablety2;
  m2_mems : list memty;
  m2_globals : list global2;
  m2_elem : list elem2;
  m2_data : list data2;
  m2_start : option funcidx;
  m2_imports : list import2;
  m2_exports : list export;
  m2_datacount : option u32 }.

Section Format2.
Variable fd : fdialect.

(** ** Types *)
Definition refty2_byte (t : refty2) : byte := match t with R_func => x70 | R_extern => x6f end.
Definition valty2_byte (t : valty2) : byte :=
  match t with W_num t => valty_byte t | W_v128 => x7b | W_ref t => refty2_byte t end.
Definition enc2_valty : format valty2 := fun bs t => bs = [valty2_byte t].
Definition enc2_refty : format refty2 := fun bs t => bs = [refty2_byte t].
Definition enc2_functy : format functy2 := fun bs ft =>
  exists ps rs, bs = x60 :: ps ++ rs /\ enc_vec fd enc2_valty ps (ft2_params ft) /\ enc_vec fd enc2_valty rs (ft2_results ft).
Definition enc2_tablety : format tablety2 := fun bs t =>
  exists rb lb, bs = rb ++ lb /\ enc2_refty rb (tt2_elem t) /\ enc_limits fd lb (tt2_lim t).
Definition enc2_globalty : format globalty2 := fun bs t => bs = [valty2_byte (gt2_val t); mut_byte (gt2_mut t)].
(** a type index is a non-negative integer of 33 bits, signed *)
Definition enc2_blockty : format blockty2 := fun bs bt =>
  match bt with
  | B_none => bs = [x40]
  | B_val t => enc2_valty bs t
  | B_type x => enc_s fd 33 bs (Z.of_N x)
  end.

(** ** Instructions *)
Definition structured (i : instr) : bool := match i with I_Block _ _ | I_Loop _ _ | I_If _ _ _ => true | _ => false end.
Definition extend_opcode (op : byte) : Prop := op = xc0 \/ op = xc1 \/ op = xc2 \/ op = xc3 \/ op = xc4.
Inductive enc2_instr : list byte -> instr2 -> Prop :=
| enc2_old i bs : structured i = false -> enc_instr fd bs i -> enc2_instr bs (J_old i)
| enc2_block bt is tb isb : enc2_blockty tb bt -> enc2_instrs isb is ->
    enc2_instr (x02 :: tb ++ isb ++ [x0b]) (J_block bt is)
| enc2_loop bt is tb isb : enc2_blockty tb bt -> enc2_instrs isb is ->
    enc2_instr (x03 :: tb ++ isb ++ [x0b]) (J_loop bt is)
| enc2_if bt is tb isb : enc2_blockty tb bt -> enc2_instrs isb is ->
    enc2_instr (x04 :: tb ++ isb ++ [x0b]) (J_if bt is [])
| enc2_if_else bt is1 is2 tb is1b is2b : enc2_blockty tb bt -> enc2_instrs is1b is1 -> enc2_instrs is2b is2 ->
    enc2_instr (x04 :: tb ++ is1b ++ [x05] ++ is2b ++ [x0b]) (J_if bt is1 is2)
| enc2_select ts b : enc_vec fd enc2_valty b ts -> enc2_instr (x1c :: b) (J_select ts)
| enc2_table_get x b : enc_u32 fd b x -> enc2_instr (x25 :: b) (J_table_get x)
| enc2_table_set x b : enc_u32 fd b x -> enc2_instr (x26 :: b) (J_table_set x)
| enc2_extend op : extend_opcode op -> enc2_instr [op] (J_extend op)
| enc2_ref_null t b : enc2_refty b t -> enc2_instr (xd0 :: b) (J_ref_null t)
| enc2_ref_is_null : enc2_instr [xd1] J_ref_is_null
| enc2_ref_func x b : enc_u32 fd b x -> enc2_instr (xd2 :: b) (J_ref_func x)
(** liberal: any bytes behind the prefix *)
| enc2_prefixed op imm : op = xfc \/ op = xfd -> enc2_instr (op :: imm) (J_prefixed op imm)
with enc2_instrs : list byte -> list instr2 -> Prop :=
| enc2_instrs_nil : enc2_instrs [] []
| enc2_instrs_cons i is ib isb : enc2_instr ib i -> enc2_instrs isb is -> enc2_instrs (ib ++ isb) (i :: is).
Definition enc2_expr : format expr2 := fun bs e => exists isb, bs = isb ++ [x0b] /\ enc2_instrs isb e.

(** ** Modules *)
Definition enc2_importdesc : format importdesc2 := fun bs d =>
  match d with
  | ID2_func x => exists xb, bs = x00 :: xb /\ enc_u32 fd xb x
  | ID2_table t => exists tb, bs = x01 :: tb /\ enc2_tablety tb t
  | ID2_mem t => exists tb, bs = x02 :: tb /\ enc_memty fd tb t
  | ID2_global t => exists tb, bs = x03 :: tb /\ enc2_globalty tb t
  end.
Definition enc2_import : format import2 := fun bs im =>
  exists mb nb db, bs = mb ++ nb ++ db /\
    enc_name fd mb (im2_module im) /\ enc_name fd nb (im2_name im) /\ enc2_importdesc db (im2_desc im).
Definition enc2_global : format global2 := fun bs g =>
  exists tb eb, bs = tb ++ eb /\ enc2_globalty tb (gl2_ty g) /\ enc2_expr eb (gl2_init g).

(** 5.5.12: the first number says which of eight forms follows *)
Definition ref_funcs (ys : list u32) : list expr2 := map (fun y => [J_ref_func y]) ys.
Definition enc_elemkind : format refty2 := fun bs t => bs = [x00] /\ t = R_func.
Inductive enc2_elem : list byte -> elem2 -> Prop :=
| el2_0 fb ob ib o ys : enc_u32 fd fb 0 -> enc2_expr ob o -> enc_vec fd (enc_u32 fd) ib ys ->
    enc2_elem (fb ++ ob ++ ib) (mkElem2 R_func (ref_funcs ys) (M_active 0 o))
| el2_1 fb kb ib k ys : enc_u32 fd fb 1 -> enc_elemkind kb k -> enc_vec fd (enc_u32 fd) ib ys ->
    enc2_elem (fb ++ kb ++ ib) (mkElem2 k (ref_funcs ys) M_passive)
| el2_2 fb xb ob kb ib x o k ys : enc_u32 fd fb 2 -> enc_u32 fd xb x -> enc2_expr ob o -> enc_elemkind kb k ->
    enc_vec fd (enc_u32 fd) ib ys ->
    enc2_elem (fb ++ xb ++ ob ++ kb ++ ib) (mkElem2 k (ref_funcs ys) (M_active x o))
| el2_3 fb kb ib k ys : enc_u32 fd fb 3 -> enc_elemkind kb k -> enc_vec fd (enc_u32 fd) ib ys ->
    enc2_elem (fb ++ kb ++ ib) (mkElem2 k (ref_funcs ys) M_declarative)
| el2_4 fb ob ib o es : enc_u32 fd fb 4 -> enc2_expr ob o -> enc_vec fd enc2_expr ib es ->
    enc2_elem (fb ++ ob ++ ib) (mkElem2 R_func es (M_active 0 o))
| el2_5 fb rb ib t es : enc_u32 fd fb 5 -> enc2_refty rb t -> enc_vec fd enc2_expr ib es ->
    enc2_elem (fb ++ rb ++ ib) (mkElem2 t es M_passive)
| el2_6 fb xb ob rb ib x o t es : enc_u32 fd fb 6 -> enc_u32 fd xb x -> enc2_expr ob o -> enc2_refty rb t ->
    enc_vec fd enc2_expr ib es ->
    enc2_elem (fb ++ xb ++ ob ++ rb ++ ib) (mkElem2 t es (M_active x o))
| el2_7 fb rb ib t es : enc_u32 fd fb 7 -> enc2_refty rb t -> enc_vec fd enc2_expr ib es ->
    enc2_elem (fb ++ rb ++ ib) (mkElem2 t es M_declarative).
(** 5.5.14 *)
Inductive enc2_data : list byte -> data2 -> Prop :=
| da2_0 fb ob ib o bs : enc_u32 fd fb 0 -> enc2_expr ob o -> enc_vec fd enc_byte ib bs ->
    enc2_data (fb ++ ob ++ ib) (mkData2 bs (M_active 0 o))
| da2_1 fb ib bs : enc_u32 fd fb 1 -> enc_vec fd enc_byte ib bs -> enc2_data (fb ++ ib) (mkData2 bs M_passive)
| da2_2 fb xb ob ib x o bs : enc_u32 fd fb 2 -> enc_u32 fd xb x -> enc2_expr ob o -> enc_vec fd enc_byte ib bs ->
    enc2_data (fb ++ xb ++ ob ++ ib) (mkData2 bs (M_active x o)).

Definition code2 : Type := list valty2 * expr2.
Definition enc2_run : format (u32 * valty2) := fun bs r =>
  exists nb tb, bs = nb ++ tb /\ enc_u32 fd nb (fst r) /\ enc2_valty tb (snd r).
Definition enc2_func : format code2 := fun bs c =>
  exists rb eb runs, bs = rb ++ eb /\ enc_vec fd enc2_run rb runs /\ fst c = expand_runs runs /\
    fd_locals fd (length (fst c)) /\ enc2_expr eb (snd c).

Inductive section2 :=
| S2_custom (c : name * list byte)
| S2_type (v : list functy2)
| S2_import (v : list import2)
| S2_function (v : list typeidx)
| S2_table (v : list tablety2)
| S2_memory (v : list memty)
| S2_global (v : list global2)
| S2_export (v : list export)
| S2_start (v : funcidx)
| S2_element (v : list elem2)
| S2_datacount (v : u32)
| S2_code (v : list code2)
| S2_data (v : list data2).
Definition enc2_section : format section2 := fun bs s =>
  match s with
  | S2_custom c => exists b, bs = x00 :: b /\ enc_sized fd (enc_custom fd) b c
  | S2_type v => exists b, bs = x01 :: b /\ enc_sized fd (enc_vec fd enc2_functy) b v
  | S2_import v => exists b, bs = x02 :: b /\ enc_sized fd (enc_vec fd enc2_import) b v
  | S2_function v => exists b, bs = x03 :: b /\ enc_sized fd (enc_vec fd (enc_u32 fd)) b v
  | S2_table v => exists b, bs = x04 :: b /\ enc_sized fd (enc_vec fd enc2_tablety) b v
  | S2_memory v => exists b, bs = x05 :: b /\ enc_sized fd (enc_vec fd (enc_memty fd)) b v
  | S2_global v => exists b, bs = x06 :: b /\ enc_sized fd (enc_vec fd enc2_global) b v
  | S2_export v => exists b, bs = x07 :: b /\ enc_sized fd (enc_vec fd (enc_export fd)) b v
  | S2_start v => exists b, bs = x08 :: b /\ enc_sized fd (enc_u32 fd) b v
  | S2_element v => exists b, bs = x09 :: b /\ enc_sized fd (enc_vec fd enc2_elem) b v
  | S2_code v => exists b, bs = x0a :: b /\ enc_sized fd (enc_vec fd (enc_sized fd enc2_func)) b v
  | S2_data v => exists b, bs = x0b :: b /\ enc_sized fd (enc_vec fd enc2_data) b v
  | S2_datacount v => exists b, bs = x0c :: b /\ enc_sized fd (enc_u32 fd) b v
  end.
(** the position of a section in a file, 0 for custom sections: the data count comes before the code *)
Definition section2_pos (s : section2) : N :=
  match s with
  | S2_custom _ => 0 | S2_type _ => 1 | S2_import _ => 2 | S2_function _ => 3 | S2_table _ => 4 | S2_memory _ => 5
  | S2_global _ => 6 | S2_export _ => 7 | S2_start _ => 8 | S2_element _ => 9 | S2_datacount _ => 10 | S2_code _ => 11
  | S2_data _ => 12
  end.
Definition ordered2 (secs : list section2) : Prop :=
  increasing 0 (filter (fun n => negb (n =? 0)) (map section2_pos secs)).

Definition sec2_types s := match s with S2_type v => v | _ => [] end.
Definition sec2_imports s := match s with S2_import v => v | _ => [] end.
Definition sec2_typeidxs s := match s with S2_function v => v | _ => [] end.
Definition sec2_tables s := match s with S2_table v => v | _ => [] end.
Definition sec2_mems s := match s with S2_memory v => v | _ => [] end.
Definition sec2_globals s := match s with S2_global v => v | _ => [] end.
Definition sec2_exports s := match s with S2_export v => v | _ => [] end.
Definition sec2_starts s := match s with S2_start v => [v] | _ => [] end.
Definition sec2_elems s := match s with S2_element v => v | _ => [] end.
Definition sec2_datacounts s := match s with S2_datacount v => [v] | _ => [] end.
Definition sec2_codes s := match s with S2_code v => v | _ => [] end.
Definition sec2_datas s := match s with S2_data v => v | _ => [] end.
Definition pair_funcs2 (ts : list typeidx) (cs : list code2) : list func2 :=
  map (fun tc => mkFunc2 (fst tc) (fst (snd tc)) (snd (snd tc))) (combine ts cs).
Definition module2_of (secs : list section2) : module2 := {|
  m2_types := flat_map sec2_types secs;
  m2_funcs := pair_funcs2 (flat_map sec2_typeidxs secs) (flat_map sec2_codes secs);
  m2_tables := flat_map sec2_tables secs;
  m2_mems := flat_map sec2_mems secs;
  m2_globals := flat_map sec2_globals secs;
  m2_elem := flat_map sec2_elems secs;
  m2_data := flat_map sec2_datas secs;
  m2_start := hd_error (flat_map sec2_starts secs);
  m2_imports := flat_map sec2_imports secs;
  m2_exports := flat_map sec2_exports secs;
  m2_datacount := hd_error (flat_map sec2_datacounts secs) |}.
(** 5.5.16 *)
Definition enc2_module : format module2 := fun bs m =>
  exists body secs, bs = preamble ++ body /\ enc_list enc2_section body secs /\ ordered2 secs /\
    length (flat_map sec2_typeidxs secs) = length (flat_map sec2_codes secs) /\
    (forall n, In (S2_datacount n) secs -> n = N.of_nat (length (flat_map sec2_datas secs))) /\
    m = module2_of secs.
End Format2.

(** Integers and locals as in 1.0; liberal: any index for memory.size and memory.grow *)
Definition wasm20_format : fdialect := {|
  fd_int_len := fd_int_len wasm10_format;
  fd_reserved := fun _ => True;
  fd_locals := fd_locals wasm10_format;
  fd_missing_code := False |}.

(** ** Modules of 1.0 as modules of 2.0 *)
Definition later_blockty (r : retval) : blockty2 := match r with [] => B_none | t :: _ => B_val (W_num t) end.
Fixpoint later_instr (i : instr) : instr2 :=
  match i with
  | I_Block a b => J_block (later_blockty a) (map later_instr b)
  | I_Loop a b => J_loop (later_blockty a) (map later_instr b)
  | I_If a b c => J_if (later_blockty a) (map later_instr b) (map later_instr c)
  | _ => J_old i
  end.
Definition later_expr (e : expr) : expr2 := map later_instr e.
Definition later_functy (t : functy) : functy2 := mkFuncTy2 (map W_num (ft_params t)) (map W_num (ft_results t)).
Definition later_tablety (t : tablety) : tablety2 := mkTableTy2 (tt_lim t) R_func.
Definition later_globalty (t : globalty) : globalty2 := mkGlobalTy2 (gt_mut t) (W_num (gt_val t)).
Definition later_importdesc (d : importdesc) : importdesc2 :=
  match d with
  | ID_Func x => ID2_func x
  | ID_Table t => ID2_table (later_tablety t)
  | ID_Mem t => ID2_mem t
  | ID_Global t => ID2_global (later_globalty t)
  end.
Definition later_import (i : import) : import2 := mkImport2 (im_module i) (im_name i) (later_importdesc (im_desc i)).
Definition later_global (g : global) : global2 := mkGlobal2 (later_globalty (glob_ty g)) (later_expr (glob_init g)).
Definition later_elem (e : elem) : elem2 :=
  mkElem2 R_func (ref_funcs (el_init e)) (M_active (el_table e) (later_expr (el_offset e))).
Definition later_data (d : data) : data2 := mkData2 (da_init d) (M_active (da_mem d) (later_expr (da_offset d))).
Definition later_func (f : func) : func2 := mkFunc2 (fn_ty f) (map W_num (fn_locals f)) (later_expr (fn_body f)).
Definition later_module (m : module) : module2 := {|
  m2_types := map later_functy (m_types m);
  m2_funcs := map later_func (m_funcs m);
  m2_tables := map (fun t => later_tablety (tab_ty t)) (m_tables m);
  m2_mems := map mem_ty (m_mems m);
  m2_globals := map later_global (m_globals m);
  m2_elem := map later_elem (m_elem m);
  m2_data := map later_data (m_data m);
  m2_start := option_map st_func (m_start m);
  m2_imports := map later_import (m_imports m);
  m2_exports := m_exports m;
  m2_datacount := None |}.

(** how many tables and memories there are, with the imported ones *)
Definition count {A} (f : A -> bool) (l : list A) : nat := length (filter f l).
Definition tables2 (m : module2) : nat :=
  (count (fun i => match im2_desc i with ID2_table _ => true | _ => false end) (m2_imports m) + length (m2_tables m))%nat.
Definition mems2 (m : module2) : nat :=
  (count (fun i => match im2_desc i with ID2_mem _ => true | _ => false end) (m2_imports m) + length (m2_mems m))%nat.

(** a module without its segments *)
Definition except_segments (m : module2) : module2 :=
  mkModule2 (m2_types m) (m2_funcs m) (m2_tables m) (m2_mems m) (m2_globals m) [] [] (m2_start m) (m2_imports m) (m2_exports m)
    (m2_datacount m).
