(** What is left of a module when everything is removed that should not matter for its verdict: the values of constants, the immediates
    of loads and stores, the bytes of data segments, and the names of imports and exports. *)
From Verif Require Export SpecEdit.
Open Scope N_scope.

Fixpoint bare (i : instr) : instr :=
  match i with
  | I_Block t b => I_Block t (map bare b)
  | I_Loop t b => I_Loop t (map bare b)
  | I_If t b c => I_If t (map bare b) (map bare c)
  | I_ConstI32 _ => I_ConstI32 0%Z
  | I_ConstI64 _ => I_ConstI64 0%Z
  | I_ConstF32 _ => I_ConstF32 0
  | I_ConstF64 _ => I_ConstF64 0
  | I_I32Load _ _ => I_I32Load 0 0
  | I_I64Load _ _ => I_I64Load 0 0
  | I_F32Load _ _ => I_F32Load 0 0
  | I_F64Load _ _ => I_F64Load 0 0
  | I_I32Load8S _ _ => I_I32Load8S 0 0
  | I_I32Load8U _ _ => I_I32Load8U 0 0
  | I_I32Load16S _ _ => I_I32Load16S 0 0
  | I_I32Load16U _ _ => I_I32Load16U 0 0
  | I_I64Load8S _ _ => I_I64Load8S 0 0
  | I_I64Load8U _ _ => I_I64Load8U 0 0
  | I_I64Load16S _ _ => I_I64Load16S 0 0
  | I_I64Load16U _ _ => I_I64Load16U 0 0
  | I_I64Load32S _ _ => I_I64Load32S 0 0
  | I_I64Load32U _ _ => I_I64Load32U 0 0
  | I_I32Store _ _ => I_I32Store 0 0
  | I_I64Store _ _ => I_I64Store 0 0
  | I_F32Store _ _ => I_F32Store 0 0
  | I_F64Store _ _ => I_F64Store 0 0
  | I_I32Store8 _ _ => I_I32Store8 0 0
  | I_I32Store16 _ _ => I_I32Store16 0 0
  | I_I64Store8 _ _ => I_I64Store8 0 0
  | I_I64Store16 _ _ => I_I64Store16 0 0
  | I_I64Store32 _ _ => I_I64Store32 0 0
  | i => i
  end.
Definition bare_func (f : func) : func := mkFunc (fn_ty f) (fn_locals f) (map bare (fn_body f)).
Definition bare_global (g : global) : global := mkGlobal (glob_ty g) (map bare (glob_init g)).
Definition bare_elem (e : elem) : elem := mkElem (el_table e) (map bare (el_offset e)) (el_init e).
Definition bare_data (d : data) : data := mkData (da_mem d) (map bare (da_offset d)) [].
Definition bare_import (i : import) : import := mkImport [] [] (im_desc i).
Definition bare_export (e : export) : export := mkExport [] (ex_desc e).
Definition skeleton (m : module) : module :=
  mkModule (m_types m) (map bare_func (m_funcs m)) (m_tables m) (m_mems m) (map bare_global (m_globals m))
    (map bare_elem (m_elem m)) (map bare_data (m_data m)) (m_start m) (map bare_import (m_imports m)) (map bare_export (m_exports m)).
