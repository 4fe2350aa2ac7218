(** Specification vocabulary for instruction trees and whole modules: nested occurrences, nesting depth,
    the numbers, names and expressions a module contains. *)
From Verif Require Export Structure.
Open Scope N_scope.

(** The instruction sequences directly inside an instruction *)
Definition children (i : instr) : list (list instr) :=
  match i with
  | I_Block _ b | I_Loop _ b => [b]
  | I_If _ b c => [b; c]
  | _ => []
  end.

(** [occurs j e]: instruction [j] is somewhere, at any depth, in the sequence [e] *)
Inductive occurs (j : instr) : list instr -> Prop :=
| occurs_here e : In j e -> occurs j e
| occurs_inside i sub e : In i e -> In sub (children i) -> occurs j sub -> occurs j e.

(** How deeply blocks are nested *)
Fixpoint depth (i : instr) : nat :=
  match i with
  | I_Block _ b | I_Loop _ b => S (list_max (map depth b))
  | I_If _ b c => S (Nat.max (list_max (map depth b)) (list_max (map depth c)))
  | _ => O
  end.
Definition depth_expr (e : expr) : nat := list_max (map depth e).

(** [d] nested empty blocks *)
Fixpoint nested_blocks (d : nat) : expr :=
  match d with O => [] | S d' => [I_Block [] (nested_blocks d')] end.

Definition block_type (i : instr) : option retval :=
  match i with I_Block rt _ | I_Loop rt _ | I_If rt _ _ => Some rt | _ => None end.

(** No pseudo instruction, and at most one result for each block *)
Definition well_nested (e : expr) : Prop :=
  ~ occurs I_End e /\ ~ occurs I_Else e /\
  forall j rt, occurs j e -> block_type j = Some rt -> (length rt <= 1)%nat.

(** The immediates of an instruction that have type u32 *)
Definition u32_immediates (i : instr) : list u32 :=
  match i with
  | I_Br a | I_BrIf a | I_Call a | I_LocalGet a | I_LocalSet a
  | I_LocalTee a | I_GlobalGet a | I_GlobalSet a | I_MemSize a | I_MemGrow a => [a]
  | I_BrTable a b => a ++ [b]
  | I_CallIndirect a b
  | I_I32Load a b | I_I64Load a b | I_F32Load a b | I_F64Load a b | I_I32Load8S a b
  | I_I32Load8U a b | I_I32Load16S a b | I_I32Load16U a b | I_I64Load8S a b | I_I64Load8U a b
  | I_I64Load16S a b | I_I64Load16U a b | I_I64Load32S a b | I_I64Load32U a b | I_I32Store a b
  | I_I64Store a b | I_F32Store a b | I_F64Store a b | I_I32Store8 a b | I_I32Store16 a b
  | I_I64Store8 a b | I_I64Store16 a b | I_I64Store32 a b => [a; b]
  | _ => []
  end.
Definition constant_in_range (i : instr) : Prop :=
  match i with
  | I_ConstI32 n => (- 2 ^ 31 <= n < 2 ^ 31)%Z
  | I_ConstI64 n => (- 2 ^ 63 <= n < 2 ^ 63)%Z
  | I_ConstF32 z => z < 2 ^ 32
  | I_ConstF64 z => z < 2 ^ 64
  | _ => True
  end.
Definition code_in_range (e : expr) : Prop :=
  forall j, occurs j e -> Forall (fun n => n < 2 ^ 32) (u32_immediates j) /\ constant_in_range j.

(** ** Modules *)
(** All expressions of a module *)
Definition module_exprs (m : module) : list expr :=
  map fn_body (m_funcs m) ++ map glob_init (m_globals m) ++ map el_offset (m_elem m) ++ map da_offset (m_data m).

Definition limits_u32s (l : limits) : list u32 :=
  lim_min l :: match lim_max l with Some x => [x] | None => [] end.
Definition importdesc_u32s (d : importdesc) : list u32 :=
  match d with
  | ID_Func x => [x]
  | ID_Table t => limits_u32s (tt_lim t)
  | ID_Mem t => limits_u32s (mt_lim t)
  | ID_Global _ => []
  end.
Definition exportdesc_u32s (d : exportdesc) : list u32 :=
  match d with ED_Func x | ED_Table x | ED_Mem x | ED_Global x => [x] end.
(** All indices and limits outside of expressions *)
Definition module_u32s (m : module) : list u32 :=
  map fn_ty (m_funcs m)
  ++ flat_map (fun t => limits_u32s (tt_lim (tab_ty t))) (m_tables m)
  ++ flat_map (fun t => limits_u32s (mt_lim (mem_ty t))) (m_mems m)
  ++ flat_map (fun e => el_table e :: el_init e) (m_elem m)
  ++ map da_mem (m_data m)
  ++ match m_start m with Some s => [st_func s] | None => [] end
  ++ flat_map (fun i => importdesc_u32s (im_desc i)) (m_imports m)
  ++ flat_map (fun e => exportdesc_u32s (ex_desc e)) (m_exports m).
Definition module_names (m : module) : list name :=
  flat_map (fun i => [im_module i; im_name i]) (m_imports m) ++ map ex_name (m_exports m).
