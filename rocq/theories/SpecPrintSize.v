(** Specification vocabulary for the size of the printout: how many lines are written for each component of a module. *)
From Coq Require Import String Ascii.
From Verif Require Export SpecCost.
Open Scope list_scope.
Open Scope nat_scope.

(** The lines of a text that ends with the end of a line *)
Fixpoint lines_in (s : string) : nat :=
  match s with
  | EmptyString => 0
  | String c r => (if Ascii.eqb c "010" then 1 else 0) + lines_in r
  end.

(** A list has a line for each bracket; an empty one is written on a single line *)
Definition list_lines {A} (f : A -> nat) (l : list A) : nat := match l with [] => 1 | _ => 2 + total f l end.
(** A number in a wrapper, such as [Label(0)] *)
Definition idx_lines : nat := 3.
Definition result_lines (r : retval) : nat := 2 + list_lines (fun _ => 1) r.
Fixpoint instr_lines (i : instr) : nat :=
  let code := fun b => 2 + list_lines instr_lines b in
  match i with
  | I_Block r b | I_Loop r b => 2 + result_lines r + code b
  | I_If r b c => 2 + result_lines r + code b + code c
  | I_Br _ | I_BrIf _ | I_Call _ | I_LocalGet _ | I_LocalSet _ | I_LocalTee _ | I_GlobalGet _ | I_GlobalSet _
  | I_MemSize _ | I_MemGrow _ => 2 + idx_lines
  | I_BrTable ls _ => 2 + list_lines (fun _ => idx_lines) ls + idx_lines
  | I_CallIndirect _ _ => 2 + idx_lines + idx_lines
  | I_I32Load _ _ | I_I64Load _ _ | I_F32Load _ _ | I_F64Load _ _ | I_I32Load8S _ _ | I_I32Load8U _ _
  | I_I32Load16S _ _ | I_I32Load16U _ _ | I_I64Load8S _ _ | I_I64Load8U _ _ | I_I64Load16S _ _ | I_I64Load16U _ _
  | I_I64Load32S _ _ | I_I64Load32U _ _ | I_I32Store _ _ | I_I64Store _ _ | I_F32Store _ _ | I_F64Store _ _
  | I_I32Store8 _ _ | I_I32Store16 _ _ | I_I64Store8 _ _ | I_I64Store16 _ _ | I_I64Store32 _ _ => 2 + 2
  | I_ConstI32 _ | I_ConstI64 _ | I_ConstF32 _ | I_ConstF64 _ => 2 + 1
  | _ => 1
  end.
Definition code_lines (e : list instr) : nat := 2 + list_lines instr_lines e.

Definition limits_lines (l : limits) : nat := 2 + 1 + match lim_max l with Some _ => 3 | None => 1 end.
Definition functy_lines (t : functy) : nat := 2 + list_lines (fun _ => 1) (ft_params t) + list_lines (fun _ => 1) (ft_results t).
Definition tablety_lines (t : tablety) : nat := 2 + limits_lines (tt_lim t) + 1.
Definition memty_lines (t : memty) : nat := 2 + limits_lines (mt_lim t).
Definition globalty_lines : nat := 2 + 1 + 1.
Definition func_lines (f : func) : nat := 2 + idx_lines + list_lines (fun _ => 1) (fn_locals f) + code_lines (fn_body f).
Definition global_lines (g : global) : nat := 2 + globalty_lines + code_lines (glob_init g).
Definition elem_lines (e : elem) : nat := 2 + idx_lines + code_lines (el_offset e) + list_lines (fun _ => idx_lines) (el_init e).
Definition data_lines (d : data) : nat := 2 + idx_lines + code_lines (da_offset d) + list_lines (fun _ => 1) (da_init d).
Definition importdesc_lines (d : importdesc) : nat :=
  2 + match d with
      | ID_Func _ => idx_lines
      | ID_Table t => tablety_lines t
      | ID_Mem t => memty_lines t
      | ID_Global _ => globalty_lines
      end.
Definition module_lines (m : module) : nat :=
  2 + list_lines functy_lines (m_types m) + list_lines func_lines (m_funcs m)
  + list_lines (fun t => 2 + tablety_lines (tab_ty t)) (m_tables m) + list_lines (fun t => 2 + memty_lines (mem_ty t)) (m_mems m)
  + list_lines global_lines (m_globals m) + list_lines elem_lines (m_elem m) + list_lines data_lines (m_data m)
  + match m_start m with Some _ => 2 + (2 + idx_lines) | None => 1 end
  + list_lines (fun i => 2 + 1 + 1 + importdesc_lines (im_desc i)) (m_imports m)
  + list_lines (fun e => 2 + 1 + (2 + idx_lines)) (m_exports m).

(** A module of one function *)
Definition solo (ls : list valty) (e : expr) : module :=
  {| m_types := [mkFuncTy [] []]; m_funcs := [{| fn_ty := 0%N; fn_locals := ls; fn_body := e |}];
     m_tables := []; m_mems := []; m_globals := []; m_elem := []; m_data := []; m_start := None; m_imports := []; m_exports := [] |}.
(** with [n] local variables *)
Definition roomy (n : nat) : module := solo (repeat T_I32 n) [].
(** with [k] nested [if]s that have a result and no [else] *)
Fixpoint ifs (k : nat) : expr := match k with O => [] | S k' => [I_If [T_I32] (ifs k') []] end.
Definition bushy (k : nat) : module := solo [] (ifs k).
