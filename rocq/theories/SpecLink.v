(** Renumbering the index spaces of a module, and assembling a module from parts of others. *)
From Coq Require Export Permutation.
From Verif Require Export SpecEdit.
Open Scope N_scope.

(** new indices for old ones.  The initialisers of globals have a numbering of their own, because the code looks their indices up
    among the globals that the module defines and not among all (see C36). *)
Record renumbering := mkRenumbering {
  rn_type : N -> N; rn_func : N -> N; rn_table : N -> N; rn_mem : N -> N; rn_global : N -> N; rn_init : N -> N;
}.
Fixpoint renumber (r : renumbering) (i : instr) : instr :=
  match i with
  | I_Block t b => I_Block t (map (renumber r) b)
  | I_Loop t b => I_Loop t (map (renumber r) b)
  | I_If t b c => I_If t (map (renumber r) b) (map (renumber r) c)
  | I_Call x => I_Call (rn_func r x)
  | I_CallIndirect x y => I_CallIndirect (rn_type r x) (rn_table r y)
  | I_GlobalGet x => I_GlobalGet (rn_global r x)
  | I_GlobalSet x => I_GlobalSet (rn_global r x)
  | I_MemSize x => I_MemSize (rn_mem r x)
  | I_MemGrow x => I_MemGrow (rn_mem r x)
  | i => i
  end.
Definition renumber_init (r : renumbering) (i : instr) : instr :=
  match i with I_GlobalGet x => I_GlobalGet (rn_init r x) | i => i end.
Definition renumber_func (r : renumbering) (f : func) : func :=
  mkFunc (rn_type r (fn_ty f)) (fn_locals f) (map (renumber r) (fn_body f)).
Definition renumber_global (r : renumbering) (g : global) : global := mkGlobal (glob_ty g) (map (renumber_init r) (glob_init g)).
Definition renumber_elem (r : renumbering) (e : elem) : elem :=
  mkElem (rn_table r (el_table e)) (map (renumber r) (el_offset e)) (map (rn_func r) (el_init e)).
Definition renumber_data (r : renumbering) (d : data) : data :=
  mkData (rn_mem r (da_mem d)) (map (renumber r) (da_offset d)) (da_init d).
Definition renumber_start (r : renumbering) (s : start) : start := mkStart (rn_func r (st_func s)).
Definition renumber_importdesc (r : renumbering) (d : importdesc) : importdesc :=
  match d with ID_Func x => ID_Func (rn_type r x) | d => d end.
Definition renumber_exportdesc (r : renumbering) (d : exportdesc) : exportdesc :=
  match d with
  | ED_Func x => ED_Func (rn_func r x)
  | ED_Table x => ED_Table (rn_table r x)
  | ED_Mem x => ED_Mem (rn_mem r x)
  | ED_Global x => ED_Global (rn_global r x)
  end.

(** [fits r m m']: what has index [x] in [m] has its new index in [m']. *)
Record fits (r : renumbering) (m m' : module) : Prop := {
  fits_types : forall x t, at_index (m_types m) x t -> at_index (m_types m') (rn_type r x) t;
  fits_funcs : forall x t, at_index (func_index m) x t -> at_index (func_index m') (rn_func r x) (rn_type r t);
  fits_tables : forall x t, at_index (table_space m) x t -> at_index (table_space m') (rn_table r x) t;
  fits_mems : forall x t, at_index (mem_space m) x t -> at_index (mem_space m') (rn_mem r x) t;
  fits_globals : forall x t, at_index (global_space m) x t -> at_index (global_space m') (rn_global r x) t;
  fits_inits : forall x t, at_index (map glob_ty (m_globals m)) x t -> at_index (map glob_ty (m_globals m')) (rn_init r x) t;
}.

(** The same, but a function need only have the same type: its type may have another index than the new one. *)
Record resolves (r : renumbering) (m m' : module) : Prop := {
  rs_types : forall x t, at_index (m_types m) x t -> at_index (m_types m') (rn_type r x) t;
  rs_funcs : forall x t ft, at_index (func_index m) x t -> at_index (m_types m) t ft ->
    exists t', at_index (func_index m') (rn_func r x) t' /\ at_index (m_types m') t' ft;
  rs_tables : forall x t, at_index (table_space m) x t -> at_index (table_space m') (rn_table r x) t;
  rs_mems : forall x t, at_index (mem_space m) x t -> at_index (mem_space m') (rn_mem r x) t;
  rs_globals : forall x t, at_index (global_space m) x t -> at_index (global_space m') (rn_global r x) t;
  rs_inits : forall x t, at_index (map glob_ty (m_globals m)) x t -> at_index (map glob_ty (m_globals m')) (rn_init r x) t;
}.

(** Every component of [m'] is one of a module among [parts], renumbered.  Names are free. *)
Record assembled (parts : list (module * renumbering)) (m' : module) : Prop := {
  asm_types : forall t, In t (m_types m') -> exists m r, In (m, r) parts /\ In t (m_types m);
  asm_funcs : forall f', In f' (m_funcs m') -> exists m r f, In (m, r) parts /\ In f (m_funcs m) /\ f' = renumber_func r f;
  asm_tables : forall t, In t (m_tables m') -> exists m r, In (m, r) parts /\ In t (m_tables m);
  asm_mems : forall t, In t (m_mems m') -> exists m r, In (m, r) parts /\ In t (m_mems m);
  asm_globals : forall g', In g' (m_globals m') -> exists m r g, In (m, r) parts /\ In g (m_globals m) /\ g' = renumber_global r g;
  asm_elem : forall e', In e' (m_elem m') -> exists m r e, In (m, r) parts /\ In e (m_elem m) /\ e' = renumber_elem r e;
  asm_data : forall d', In d' (m_data m') -> exists m r d, In (m, r) parts /\ In d (m_data m) /\ d' = renumber_data r d;
  asm_start : forall s', m_start m' = Some s' -> exists m r s, In (m, r) parts /\ m_start m = Some s /\ s' = renumber_start r s;
  asm_imports : forall i', In i' (m_imports m') -> exists m r i, In (m, r) parts /\ In i (m_imports m) /\
    im_desc i' = renumber_importdesc r (im_desc i);
  asm_exports : forall e', In e' (m_exports m') -> exists m r e, In (m, r) parts /\ In e (m_exports m) /\
    ex_desc e' = renumber_exportdesc r (ex_desc e);
}.

(** Two modules without imports put together, the second one behind the first. *)
Definition keep : renumbering := mkRenumbering (fun x => x) (fun x => x) (fun x => x) (fun x => x) (fun x => x) (fun x => x).
Definition behind (m : module) : renumbering :=
  mkRenumbering (fun x => x + N.of_nat (length (m_types m))) (fun x => x + N.of_nat (length (m_funcs m)))
    (fun x => x + N.of_nat (length (m_tables m))) (fun x => x + N.of_nat (length (m_mems m)))
    (fun x => x + N.of_nat (length (m_globals m))) (fun x => x + N.of_nat (length (m_globals m))).
Definition renumber_export (r : renumbering) (e : export) : export := mkExport (ex_name e) (renumber_exportdesc r (ex_desc e)).
Definition put_together (m1 m2 : module) : module :=
  let r := behind m1 in
  mkModule (m_types m1 ++ m_types m2) (m_funcs m1 ++ map (renumber_func r) (m_funcs m2)) (m_tables m1 ++ m_tables m2)
    (m_mems m1 ++ m_mems m2) (m_globals m1 ++ map (renumber_global r) (m_globals m2))
    (m_elem m1 ++ map (renumber_elem r) (m_elem m2)) (m_data m1 ++ map (renumber_data r) (m_data m2))
    (match m_start m1 with Some s => Some s | None => option_map (renumber_start r) (m_start m2) end)
    [] (m_exports m1 ++ map (renumber_export r) (m_exports m2)).

(** The definitions, segments, imports and exports of [m] in another order, with new indices for what has moved.  Different things
    have different new indices: [r'] takes them back. *)
Record undoes (r' r : renumbering) : Prop := {
  un_type : forall x, rn_type r' (rn_type r x) = x; un_func : forall x, rn_func r' (rn_func r x) = x;
  un_table : forall x, rn_table r' (rn_table r x) = x; un_mem : forall x, rn_mem r' (rn_mem r x) = x;
  un_global : forall x, rn_global r' (rn_global r x) = x; un_init : forall x, rn_init r' (rn_init r x) = x;
}.
Definition renumber_import (r : renumbering) (i : import) : import := mkImport (im_module i) (im_name i) (renumber_importdesc r (im_desc i)).
Record reordered (r : renumbering) (m m' : module) : Prop := {
  ro_types : Permutation (m_types m) (m_types m');
  ro_funcs : Permutation (map (renumber_func r) (m_funcs m)) (m_funcs m');
  ro_tables : Permutation (m_tables m) (m_tables m');
  ro_mems : Permutation (m_mems m) (m_mems m');
  ro_globals : Permutation (map (renumber_global r) (m_globals m)) (m_globals m');
  ro_elem : Permutation (map (renumber_elem r) (m_elem m)) (m_elem m');
  ro_data : Permutation (map (renumber_data r) (m_data m)) (m_data m');
  ro_start : option_map (renumber_start r) (m_start m) = m_start m';
  ro_imports : Permutation (map (renumber_import r) (m_imports m)) (m_imports m');
  ro_exports : Permutation (map (renumber_export r) (m_exports m)) (m_exports m');
  ro_fits : fits r m m';
}.
