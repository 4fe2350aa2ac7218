(** Validity of modules, transcribed from section 3.4 (and 3.2) of the WebAssembly 1.0 specification.  The
    judgement is parameterised by a dialect whose fields are the places where whasm deviates. *)
From Verif Require Export SpecTyping.
Open Scope N_scope.

Definition imported_funcs (ims : list import) : list typeidx :=
  flat_map (fun i => match im_desc i with ID_Func x => [x] | _ => [] end) ims.
Definition imported_tables (ims : list import) : list tablety :=
  flat_map (fun i => match im_desc i with ID_Table t => [t] | _ => [] end) ims.
Definition imported_mems (ims : list import) : list memty :=
  flat_map (fun i => match im_desc i with ID_Mem t => [t] | _ => [] end) ims.
Definition imported_globals (ims : list import) : list globalty :=
  flat_map (fun i => match im_desc i with ID_Global t => [t] | _ => [] end) ims.

Record vdialect := mkVdialect {
  vd_align : bool;                 (* loads and stores must not be over-aligned *)
  vd_own_label : bool;             (* a function body is a branch target *)
  vd_table_bound : N;              (* largest table size *)
  vd_mem_bound : N;                (* largest memory size, in pages *)
  vd_count_imports : bool;         (* imports count for "at most one table / memory" *)
  vd_init_globals : module -> list globalty;   (* the globals that global initialisers may mention *)
}.
Definition wasm10_validity : vdialect :=
  mkVdialect true true (2 ^ 32) (2 ^ 16) true (fun m => imported_globals (m_imports m)).
Definition whasm_validity : vdialect :=
  mkVdialect false false (2 ^ 32 - 1) (2 ^ 16 - 1) false (fun m => map glob_ty (m_globals m)).

(** 3.2 Types *)
Definition limits_ok (bound : N) (l : limits) : Prop :=
  lim_min l <= bound /\ forall x, lim_max l = Some x -> x <= bound /\ lim_min l <= x.
Definition functype_ok (t : functy) : Prop := (length (ft_results t) <= 1)%nat.

(** 3.4.10 The context of a module: imports come first in each index space *)
Definition func_index (m : module) : list typeidx := imported_funcs (m_imports m) ++ map fn_ty (m_funcs m).
Definition func_space (m : module) (fts : list functy) : Prop :=
  Forall2 (fun x ft => at_index (m_types m) x ft) (func_index m) fts.
Definition table_space (m : module) : list tablety := imported_tables (m_imports m) ++ map tab_ty (m_tables m).
Definition mem_space (m : module) : list memty := imported_mems (m_imports m) ++ map mem_ty (m_mems m).
Definition global_space (m : module) : list globalty := imported_globals (m_imports m) ++ map glob_ty (m_globals m).
Definition module_env (m : module) (fts : list functy) : tenv :=
  mkTenv (m_types m) fts (table_space m) (mem_space m) (global_space m) [] [] None.
Definition globals_env (gs : list globalty) : tenv := mkTenv [] [] [] [] gs [] [] None.

(** Initialisers and offsets: constant expressions of one type *)
Definition init_ok (C : tenv) (e : constexpr) (t : valty) : Prop := const_expr C e /\ expr_type true C e [t].

(** 3.4.2-3.4.9 *)
Definition global_ok (C : tenv) (g : global) : Prop := init_ok C (glob_init g) (gt_val (glob_ty g)).
Definition elem_ok (C : tenv) (e : elem) : Prop :=
  (exists t, at_index (te_tables C) (el_table e) t /\ tt_elem t = FuncRef) /\
  init_ok C (el_offset e) T_I32 /\
  Forall (fun x => exists ft, at_index (te_funcs C) x ft) (el_init e).
Definition data_ok (C : tenv) (d : data) : Prop :=
  (exists t, at_index (te_mems C) (da_mem d) t) /\ init_ok C (da_offset d) T_I32.
Definition start_ok (C : tenv) (s : start) : Prop := at_index (te_funcs C) (st_func s) (mkFuncTy [] []).

Inductive ext := Ext_Func (t : functy) | Ext_Table (t : tablety) | Ext_Mem (t : memty) | Ext_Global (t : globalty).
(** the external type of an import or an export *)
Definition import_type (C : tenv) (im : import) (x : ext) : Prop :=
  match im_desc im, x with
  | ID_Func i, Ext_Func t => at_index (te_types C) i t
  | ID_Table t, Ext_Table t' => t = t'
  | ID_Mem t, Ext_Mem t' => t = t'
  | ID_Global t, Ext_Global t' => t = t'
  | _, _ => False
  end.
Definition export_type (C : tenv) (e : export) (x : ext) : Prop :=
  match ex_desc e, x with
  | ED_Func i, Ext_Func t => at_index (te_funcs C) i t
  | ED_Table i, Ext_Table t => at_index (te_tables C) i t
  | ED_Mem i, Ext_Mem t => at_index (te_mems C) i t
  | ED_Global i, Ext_Global t => at_index (te_globals C) i t
  | _, _ => False
  end.
Definition ext_ok (d : vdialect) (x : ext) : Prop :=
  match x with
  | Ext_Table t => limits_ok (vd_table_bound d) (tt_lim t)
  | Ext_Mem t => limits_ok (vd_mem_bound d) (mt_lim t)
  | _ => True
  end.

(** 3.4.10: the module is valid with these external types *)
Record module_type (d : vdialect) (m : module) (fts : list functy) (ims exs : list ext) : Prop := {
  mt_funcs_typed : func_space m fts;
  mt_types_ok : Forall functype_ok (m_types m);
  mt_funcs_ok : Forall (fun f => exists ft, func_type (vd_align d) (vd_own_label d) (module_env m fts) f ft) (m_funcs m);
  mt_tables_ok : Forall (fun t => limits_ok (vd_table_bound d) (tt_lim (tab_ty t))) (m_tables m);
  mt_mems_ok : Forall (fun t => limits_ok (vd_mem_bound d) (mt_lim (mem_ty t))) (m_mems m);
  mt_globals_ok : Forall (global_ok (globals_env (vd_init_globals d m))) (m_globals m);
  mt_elem_ok : Forall (elem_ok (module_env m fts)) (m_elem m);
  mt_data_ok : Forall (data_ok (module_env m fts)) (m_data m);
  mt_start_ok : forall s, m_start m = Some s -> start_ok (module_env m fts) s;
  mt_imports_ok : Forall2 (fun im x => import_type (module_env m fts) im x /\ ext_ok d x) (m_imports m) ims;
  mt_exports_ok : Forall2 (export_type (module_env m fts)) (m_exports m) exs;
  mt_one_table : (length (if vd_count_imports d then table_space m else map tab_ty (m_tables m)) <= 1)%nat;
  mt_one_mem : (length (if vd_count_imports d then mem_space m else map mem_ty (m_mems m)) <= 1)%nat;
  mt_export_names : NoDup (map ex_name (m_exports m));
}.
Definition valid_module (d : vdialect) (m : module) : Prop := exists fts ims exs, module_type d m fts ims exs.
