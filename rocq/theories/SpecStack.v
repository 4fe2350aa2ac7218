(** The call stack: what a host can be relied on for, and modules with deeply nested code. *)
From Verif Require Export ProgramHost SpecAlloc SpecCode SpecEncoder.
Open Scope N_scope.

(** No code is nested deeper than [n] *)
Definition nested_within (n : N) (m : module) : Prop :=
  forall e, In e (module_exprs m) -> N.of_nat (depth_expr e) <= n.
(** Room for what the host always has room for: the call stack also suffices for validating, printing and dropping it *)
Definition copes (h : host) (overflows : phase -> module -> bool) : Prop :=
  forall p m, nested_within (h_safe h) m -> overflows p m = false.

(** One function, of [d] nested empty blocks *)
Definition tower (d : nat) : module :=
  {| m_types := [mkFuncTy [] []]; m_funcs := [{| fn_ty := 0; fn_locals := []; fn_body := nested_blocks d |}];
     m_tables := []; m_mems := []; m_globals := []; m_elem := []; m_data := []; m_start := None; m_imports := []; m_exports := [] |}.
