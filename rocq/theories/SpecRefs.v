(** Specification vocabulary for what code and modules refer to: branch targets, entries of index spaces,
    alignments. *)
From Verif Require Export SpecModule.
Open Scope N_scope.

(** The labels an instruction may jump to *)
Definition branch_targets (i : instr) : list labelidx :=
  match i with
  | I_Br l | I_BrIf l => [l]
  | I_BrTable ls l => ls ++ [l]
  | _ => []
  end.
(** [jump d l e]: somewhere in [e], inside [d] enclosing blocks (of [e]), there is a branch to label [l] *)
Inductive jump : nat -> labelidx -> list instr -> Prop :=
| jump_here i l e : In i e -> In l (branch_targets i) -> jump 0 l e
| jump_inside d i sub l e : In i e -> In sub (children i) -> jump d l sub -> jump (S d) l e.
(** no branch leaves [e] through its own end *)
Definition no_own_jump (e : expr) : Prop := forall d, ~ jump d (N.of_nat d) e.
(** every branch targets a block inside of [e] *)
Definition jumps_inside (e : expr) : Prop := forall d l, jump d l e -> l < N.of_nat d.

(** Alignments of all loads and stores, at any depth, are at most natural *)
Definition natural_alignment (e : expr) : Prop :=
  forall j a n t, occurs j e -> (load_type j = Some (a, n, t) \/ store_type j = Some (a, n, t)) -> alignment_ok a n.

(** ** References into index spaces *)
Inductive space := S_Type | S_Func | S_Table | S_Mem | S_Global | S_Local.
Definition refs (i : instr) : list (space * N) :=
  match i with
  | I_Call x => [(S_Func, x)]
  | I_CallIndirect x y => [(S_Type, x); (S_Table, y)]
  | I_LocalGet x | I_LocalSet x | I_LocalTee x => [(S_Local, x)]
  | I_GlobalGet x | I_GlobalSet x => [(S_Global, x)]
  | I_MemSize x | I_MemGrow x => [(S_Mem, x)]
  | _ => match load_type i, store_type i with None, None => [] | _, _ => [(S_Mem, 0)] end
  end.
Definition size (m : module) (n_locals : nat) (s : space) : N :=
  N.of_nat match s with
           | S_Type => length (m_types m)
           | S_Func => length (func_index m)
           | S_Table => length (table_space m)
           | S_Mem => length (mem_space m)
           | S_Global => length (global_space m)
           | S_Local => n_locals
           end.
(** references outside of code *)
Definition module_refs (m : module) : list (space * N) :=
  map (fun f => (S_Type, fn_ty f)) (m_funcs m)
  ++ flat_map (fun e => (S_Table, el_table e) :: map (fun x => (S_Func, x)) (el_init e)) (m_elem m)
  ++ map (fun d => (S_Mem, da_mem d)) (m_data m)
  ++ match m_start m with Some s => [(S_Func, st_func s)] | None => [] end
  ++ flat_map (fun i => match im_desc i with ID_Func x => [(S_Type, x)] | _ => [] end) (m_imports m)
  ++ map (fun e => match ex_desc e with
                   | ED_Func x => (S_Func, x)
                   | ED_Table x => (S_Table, x)
                   | ED_Mem x => (S_Mem, x)
                   | ED_Global x => (S_Global, x)
                   end) (m_exports m).
(** the constant expressions of a module *)
Definition init_exprs (m : module) : list expr :=
  map glob_init (m_globals m) ++ map el_offset (m_elem m) ++ map da_offset (m_data m).

(** Nothing in the module dangles *)
Definition no_dangling (m : module) : Prop :=
  (forall s x, In (s, x) (module_refs m) -> x < size m 0 s) /\
  (forall e j s x, In e (init_exprs m) -> occurs j e -> In (s, x) (refs j) -> x < size m 0 s) /\
  (forall f ft j s x, In f (m_funcs m) -> at_index (m_types m) (fn_ty f) ft ->
     occurs j (fn_body f) -> In (s, x) (refs j) -> x < size m (length (ft_params ft ++ fn_locals f)) s) /\
  (forall f, In f (m_funcs m) -> jumps_inside (fn_body f)).
