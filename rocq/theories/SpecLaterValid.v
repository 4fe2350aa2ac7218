(** Validity of modules of WebAssembly 2.0 (chapter 3 of its specification), for the abstract syntax of [SpecLater]. *)
From Verif Require Export SpecDeviations SpecLater.
Open Scope N_scope.

(** 3.1, 3.3.1: types of operands; [Bot] stands for any type *)
Inductive opd := Bot | Opd (t : valty2).
Definition opds (ts : list valty2) : list opd := map Opd ts.
Definition nums (ts : list valty) : list opd := map (fun t => Opd (W_num t)) ts.
(** matching: [Bot] matches every type, a type itself *)
Definition opd_le (s t : opd) : Prop := s = Bot \/ s = t.
Definition opds_le : list opd -> list opd -> Prop := Forall2 opd_le.
Definition reference (t : valty2) : Prop := exists r, t = W_ref r.

Record env2 := mkEnv2 {
  e2_types : list functy2;
  e2_funcs : list functy2;
  e2_tables : list tablety2;
  e2_mems : list memty;
  e2_globals : list globalty2;
  e2_locals : list valty2;
  e2_labels : list (list valty2);      (* innermost first *)
  e2_return : option (list valty2);
  e2_refs : u32 -> Prop;               (* functions that code may take references of *)
}.
Definition add_label2 (ts : list valty2) (C : env2) : env2 :=
  mkEnv2 (e2_types C) (e2_funcs C) (e2_tables C) (e2_mems C) (e2_globals C) (e2_locals C) (ts :: e2_labels C) (e2_return C) (e2_refs C).

(** 3.2.2 *)
Definition blockty2_type (C : env2) (bt : blockty2) (ts1 ts2 : list valty2) : Prop :=
  match bt with
  | B_none => ts1 = [] /\ ts2 = []
  | B_val t => ts1 = [] /\ ts2 = [t]
  | B_type x => at_index (e2_types C) x (mkFuncTy2 ts1 ts2)
  end.
(** sign extension: two instructions for [i32], three for [i64] *)
Definition extend_type (op : byte) : valty := if (Byte.to_N op <? 0xc2) then T_I32 else T_I64.

Section Typing2.
(** the types of the instructions with a prefix byte, which whasm does not read *)
Variable prefixed_type : env2 -> byte -> list byte -> list opd -> list opd -> Prop.

(** 3.3 *)
Inductive instr2_type : env2 -> instr2 -> list opd -> list opd -> Prop :=
| T2_plain C i ts1 ts2 : plain_type i = Some (ts1, ts2) -> instr2_type C (J_old i) (nums ts1) (nums ts2)
| T2_extend C op : extend_opcode op -> instr2_type C (J_extend op) (nums [extend_type op]) (nums [extend_type op])
| T2_prefixed C op imm ts1 ts2 : prefixed_type C op imm ts1 ts2 -> instr2_type C (J_prefixed op imm) ts1 ts2
(* references *)
| T2_ref_null C t : instr2_type C (J_ref_null t) [] [Opd (W_ref t)]
| T2_ref_is_null C t : reference t -> instr2_type C J_ref_is_null [Opd t] (nums [T_I32])
| T2_ref_func C x ft : at_index (e2_funcs C) x ft -> e2_refs C x -> instr2_type C (J_ref_func x) [] [Opd (W_ref R_func)]
(* parametric: without a type, [select] is for numbers and vectors *)
| T2_drop C t : instr2_type C (J_old I_Drop) [t] []
| T2_select C t : (forall u, t = Opd u -> ~ reference u) -> instr2_type C (J_old I_Select) [t; t; Opd (W_num T_I32)] [t]
| T2_select_typed C t : instr2_type C (J_select [t]) [Opd t; Opd t; Opd (W_num T_I32)] [Opd t]
(* variables *)
| T2_local_get C x t : at_index (e2_locals C) x t -> instr2_type C (J_old (I_LocalGet x)) [] [Opd t]
| T2_local_set C x t : at_index (e2_locals C) x t -> instr2_type C (J_old (I_LocalSet x)) [Opd t] []
| T2_local_tee C x t : at_index (e2_locals C) x t -> instr2_type C (J_old (I_LocalTee x)) [Opd t] [Opd t]
| T2_global_get C x g : at_index (e2_globals C) x g -> instr2_type C (J_old (I_GlobalGet x)) [] [Opd (gt2_val g)]
| T2_global_set C x g : at_index (e2_globals C) x g -> gt2_mut g = Var -> instr2_type C (J_old (I_GlobalSet x)) [Opd (gt2_val g)] []
(* tables *)
| T2_table_get C x t : at_index (e2_tables C) x t -> instr2_type C (J_table_get x) (nums [T_I32]) [Opd (W_ref (tt2_elem t))]
| T2_table_set C x t : at_index (e2_tables C) x t -> instr2_type C (J_table_set x) (nums [T_I32] ++ [Opd (W_ref (tt2_elem t))]) []
(* memory *)
| T2_load C i a bytes t m : load_type i = Some (a, bytes, t) -> at_index (e2_mems C) 0 m -> alignment_ok a bytes ->
    instr2_type C (J_old i) (nums [T_I32]) (nums [t])
| T2_store C i a bytes t m : store_type i = Some (a, bytes, t) -> at_index (e2_mems C) 0 m -> alignment_ok a bytes ->
    instr2_type C (J_old i) (nums [T_I32; t]) []
| T2_mem_size C x m : at_index (e2_mems C) x m -> instr2_type C (J_old (I_MemSize x)) [] (nums [T_I32])
| T2_mem_grow C x m : at_index (e2_mems C) x m -> instr2_type C (J_old (I_MemGrow x)) (nums [T_I32]) (nums [T_I32])
(* control *)
| T2_nop C : instr2_type C (J_old I_Nop) [] []
| T2_unreachable C ts1 ts2 : instr2_type C (J_old I_Unreachable) ts1 ts2
| T2_block C bt b ts1 ts2 : blockty2_type C bt ts1 ts2 -> seq2_type (add_label2 ts2 C) b (opds ts1) (opds ts2) ->
    instr2_type C (J_block bt b) (opds ts1) (opds ts2)
| T2_loop C bt b ts1 ts2 : blockty2_type C bt ts1 ts2 -> seq2_type (add_label2 ts1 C) b (opds ts1) (opds ts2) ->
    instr2_type C (J_loop bt b) (opds ts1) (opds ts2)
| T2_if C bt b1 b2 ts1 ts2 : blockty2_type C bt ts1 ts2 -> seq2_type (add_label2 ts2 C) b1 (opds ts1) (opds ts2) ->
    seq2_type (add_label2 ts2 C) b2 (opds ts1) (opds ts2) -> instr2_type C (J_if bt b1 b2) (opds ts1 ++ nums [T_I32]) (opds ts2)
| T2_br C l ts ts1 ts2 : at_index (e2_labels C) l ts -> instr2_type C (J_old (I_Br l)) (ts1 ++ opds ts) ts2
| T2_br_if C l ts : at_index (e2_labels C) l ts -> instr2_type C (J_old (I_BrIf l)) (opds ts ++ nums [T_I32]) (opds ts)
(* the operands match every label; labels may differ where the operands are [Bot] *)
| T2_br_table C ls ld ts ts1 ts2 :
    Forall (fun l => exists us, at_index (e2_labels C) l us /\ opds_le ts (opds us)) (ls ++ [ld]) ->
    instr2_type C (J_old (I_BrTable ls ld)) (ts1 ++ ts ++ nums [T_I32]) ts2
| T2_return C ts ts1 ts2 : e2_return C = Some ts -> instr2_type C (J_old I_Return) (ts1 ++ opds ts) ts2
| T2_call C x ft : at_index (e2_funcs C) x ft -> instr2_type C (J_old (I_Call x)) (opds (ft2_params ft)) (opds (ft2_results ft))
| T2_call_indirect C x y tb ft : at_index (e2_tables C) y tb -> tt2_elem tb = R_func -> at_index (e2_types C) x ft ->
    instr2_type C (J_old (I_CallIndirect x y)) (opds (ft2_params ft) ++ nums [T_I32]) (opds (ft2_results ft))
with seq2_type : env2 -> list instr2 -> list opd -> list opd -> Prop :=
| S2_nil C ts : seq2_type C [] ts ts
| S2_snoc C is i ts1 ts0 ts' ts ts3 : seq2_type C is ts1 (ts0 ++ ts') -> opds_le ts' ts -> instr2_type C i ts ts3 ->
    seq2_type C (is ++ [i]) ts1 (ts0 ++ ts3).
(** an expression leaves operands that match its result *)
Definition expr2_type (C : env2) (e : expr2) (ts : list valty2) : Prop := exists us, seq2_type C e [] us /\ opds_le us (opds ts).
Definition const_instr2 (C : env2) (i : instr2) : Prop :=
  match i with
  | J_old (I_ConstI32 _) | J_old (I_ConstI64 _) | J_old (I_ConstF32 _) | J_old (I_ConstF64 _) => True
  | J_ref_null _ | J_ref_func _ => True
  | J_old (I_GlobalGet x) => exists g, at_index (e2_globals C) x g /\ gt2_mut g = Const
  | _ => False
  end.
Definition init2_ok (C : env2) (e : expr2) (t : valty2) : Prop := Forall (const_instr2 C) e /\ expr2_type C e [t].

(** ** 3.4 Modules *)
Definition imported_funcs2 (ims : list import2) : list typeidx :=
  flat_map (fun i => match im2_desc i with ID2_func x => [x] | _ => [] end) ims.
Definition imported_tables2 (ims : list import2) : list tablety2 :=
  flat_map (fun i => match im2_desc i with ID2_table t => [t] | _ => [] end) ims.
Definition imported_mems2 (ims : list import2) : list memty :=
  flat_map (fun i => match im2_desc i with ID2_mem t => [t] | _ => [] end) ims.
Definition imported_globals2 (ims : list import2) : list globalty2 :=
  flat_map (fun i => match im2_desc i with ID2_global t => [t] | _ => [] end) ims.
(** the functions that an initialiser, an element segment or an export names *)
Definition names_func (e : expr2) (x : u32) : Prop := In (J_ref_func x) e.
Definition refs2 (m : module2) (x : u32) : Prop :=
  (exists g, In g (m2_globals m) /\ names_func (gl2_init g) x) \/
  (exists s e, In s (m2_elem m) /\ In e (el2_init s) /\ names_func e x) \/
  (exists e, In e (m2_exports m) /\ ex_desc e = ED_Func x).
Definition module_env2 (m : module2) (fts : list functy2) : env2 :=
  mkEnv2 (m2_types m) fts (imported_tables2 (m2_imports m) ++ m2_tables m) (imported_mems2 (m2_imports m) ++ m2_mems m)
    (imported_globals2 (m2_imports m) ++ map gl2_ty (m2_globals m)) [] [] None (refs2 m).
(** initialisers of globals see only imported globals *)
Definition init_env2 (own : bool) (m : module2) (fts : list functy2) : env2 :=
  mkEnv2 [] fts (imported_tables2 (m2_imports m) ++ m2_tables m) (imported_mems2 (m2_imports m) ++ m2_mems m)
    (imported_globals2 (m2_imports m) ++ if own then map gl2_ty (m2_globals m) else []) [] [] None (refs2 m).
Definition func_env2 (C : env2) (ft : functy2) (locals : list valty2) : env2 :=
  mkEnv2 (e2_types C) (e2_funcs C) (e2_tables C) (e2_mems C) (e2_globals C) (ft2_params ft ++ locals) [ft2_results ft] (Some (ft2_results ft)) (e2_refs C).
Definition func2_ok (C : env2) (f : func2) : Prop := exists ft, at_index (e2_types C) (fn2_ty f) ft /\
  expr2_type (func_env2 C ft (fn2_locals f)) (fn2_body f) (ft2_results ft).
Definition elem2_ok (C : env2) (e : elem2) : Prop :=
  Forall (fun i => init2_ok C i (W_ref (el2_ty e))) (el2_init e) /\
  forall x o, el2_mode e = M_active x o -> (exists t, at_index (e2_tables C) x t /\ tt2_elem t = el2_ty e) /\ init2_ok C o (W_num T_I32).
Definition data2_ok (C : env2) (d : data2) : Prop :=
  forall x o, da2_mode d = M_active x o -> (exists t, at_index (e2_mems C) x t) /\ init2_ok C o (W_num T_I32).
Definition import2_ok (C : env2) (i : import2) : Prop :=
  match im2_desc i with
  | ID2_func x => exists ft, at_index (e2_types C) x ft
  | ID2_table t => limits_ok (2 ^ 32 - 1) (tt2_lim t)
  | ID2_mem t => limits_ok (2 ^ 16) (mt_lim t)
  | ID2_global _ => True
  end.
Definition export2_ok (C : env2) (e : export) : Prop :=
  match ex_desc e with
  | ED_Func x => exists t, at_index (e2_funcs C) x t
  | ED_Table x => exists t, at_index (e2_tables C) x t
  | ED_Mem x => exists t, at_index (e2_mems C) x t
  | ED_Global x => exists t, at_index (e2_globals C) x t
  end.
(** [own]: whether offsets see the module's own globals too, as in 1.0; in 2.0 they do not *)
Record module2_type (own : bool) (m : module2) (fts : list functy2) : Prop := {
  m2_funcs_typed : Forall2 (at_index (m2_types m)) (imported_funcs2 (m2_imports m) ++ map fn2_ty (m2_funcs m)) fts;
  m2_funcs_ok : Forall (func2_ok (module_env2 m fts)) (m2_funcs m);
  m2_tables_ok : Forall (fun t => limits_ok (2 ^ 32 - 1) (tt2_lim t)) (m2_tables m);
  m2_mems_ok : Forall (fun t => limits_ok (2 ^ 16) (mt_lim t)) (m2_mems m);
  m2_globals_ok : Forall (fun g => init2_ok (init_env2 false m fts) (gl2_init g) (gt2_val (gl2_ty g))) (m2_globals m);
  m2_elem_ok : Forall (elem2_ok (init_env2 own m fts)) (m2_elem m);
  m2_data_ok : Forall (data2_ok (init_env2 own m fts)) (m2_data m);
  m2_start_ok : forall x, m2_start m = Some x -> at_index fts x (mkFuncTy2 [] []);
  m2_imports_ok : Forall (import2_ok (module_env2 m fts)) (m2_imports m);
  m2_exports_ok : Forall (export2_ok (module_env2 m fts)) (m2_exports m);
  m2_one_mem : (mems2 m <= 1)%nat;
  m2_export_names : NoDup (map ex_name (m2_exports m));
}.
Definition valid2 (own : bool) (m : module2) : Prop := exists fts, module2_type own m fts.
End Typing2.

(** ** Where the verdict on a module of 1.0 differs *)
(** all labels of a [br_table] have one type; [labels] are those around the code *)
Fixpoint tables_agree (labels : list (list valty)) (i : instr) : Prop :=
  let all labels := fix all (is : list instr) := match is with [] => True | i :: is => tables_agree labels i /\ all is end in
  match i with
  | I_Block rt b => all (rt :: labels) b
  | I_Loop rt b => all ([] :: labels) b
  | I_If rt b c => all (rt :: labels) b /\ all (rt :: labels) c
  | I_BrTable ls l => forall l' t t', In l' ls -> at_index labels l t -> at_index labels l' t' -> t = t'
  | _ => True
  end.
Definition func_tables_agree (m : module) (f : func) : Prop :=
  forall ft, at_index (m_types m) (fn_ty f) ft -> Forall (tables_agree [ft_results ft]) (fn_body f).
(** Every offset that reads a global reads a constant among [gs]. *)
Definition offsets_read (gs : list globalty) (m : module) : Prop :=
  forall e x, In e (map el_offset (m_elem m) ++ map da_offset (m_data m)) -> e = [I_GlobalGet x] -> reads gs x T_I32.

(** What the rules of 2.0 demand and the code does not check. *)
Definition unchecked2 (own : bool) (m : module) : Prop :=
  (forall f, In f (m_funcs m) -> natural_alignment (fn_body f)) /\
  inits_read (imported_globals (m_imports m)) m /\
  (own = false -> offsets_read (imported_globals (m_imports m)) m) /\
  (length (mem_space m) <= 1)%nat.
(** What the code demands and the rules of 2.0 do not. *)
Definition overchecked2 (m : module) : Prop :=
  Forall functype_ok (m_types m) /\
  (forall f, In f (m_funcs m) -> no_own_jump (fn_body f) /\ func_tables_agree m f) /\
  inits_read (map glob_ty (m_globals m)) m /\
  (length (m_tables m) <= 1)%nat /\
  small_memories m.
