(** Memory used by validation: how large the vectors get. *)
From Verif Require Export ValidatorAlloc SpecAlloc SpecCode.
From Verif Require Import SpecTyping.
Open Scope N_scope.

(** The number of instructions, nested ones included *)
Fixpoint size (i : instr) : nat :=
  match i with
  | I_Block _ b | I_Loop _ b => S (list_sum (map size b))
  | I_If _ b c => S (list_sum (map size b) + list_sum (map size c))
  | _ => 1%nat
  end.
Definition size_expr (e : expr) : nat := list_sum (map size e).
(** The number of components *)
Definition items (m : module) : N :=
  count (m_types m) + count (m_imports m) + count (m_funcs m) + count (m_tables m) + count (m_mems m) + count (m_globals m).

(** What a request can be while [m] is validated: the operand stack is no higher than there are instructions in one
    expression, the control stack no higher than they are nested, the context has no more entries than there are components *)
Definition storage_ok (m : module) (e : event) : Prop :=
  match e with
  | Hold V_Operand n => exists x, In x (module_exprs m) /\ n <= N.of_nat (size_expr x)
  | Hold V_Frame n => exists x, In x (module_exprs m) /\ n <= N.of_nat (depth_expr x) + 1
  | Hold V_Ref n => n <= items m
  | Reserve V_Ref n => n = count (m_exports m) \/
      exists f t, In f (m_funcs m) /\ at_index (m_types m) (fn_ty f) t /\ n = count (ft_params t) + count (fn_locals f)
  | Reserve V_External n => n = count (m_imports m) \/ n = count (m_exports m)
  | _ => False
  end.
(** What is the same however the operands go: reservations, and the height of the control stack *)
Definition notable (e : event) : Prop := match e with Reserve _ _ => True | Hold V_Frame n => 1 <= n | _ => False end.
(** for a file of [len] bytes *)
Definition file_storage_ok (len : N) (m : module) (e : event) : Prop :=
  match e with
  | Hold _ n => n <= len
  | Reserve V_Ref n => n <= len \/ exists f, In f (m_funcs m) /\ n <= len + count (fn_locals f)
  | Reserve _ n => n <= len
  | Nest _ => False
  end.

(** One function that piles up [n] operands: [n] constants, then [unreachable] *)
Definition pile (n : nat) : module :=
  {| m_types := [mkFuncTy [] []]; m_funcs := [{| fn_ty := 0; fn_locals := []; fn_body := repeat (I_ConstI32 0%Z) n ++ [I_Unreachable] |}];
     m_tables := []; m_mems := []; m_globals := []; m_elem := []; m_data := []; m_start := None; m_imports := []; m_exports := [] |}.
