(** Specification: the operand types that a state of the validator's stacks stands for. *)
From Verif Require Import SpecTyping Validator.

(** The operands above the height of the top frame, top first *)
Definition open_operands (s : stacks) : list operand :=
  match frames s with fr :: _ => firstn (length (operands s) - f_height fr) (operands s) | [] => [] end.
(** After a jump any operands may be below *)
Definition polymorphic (s : stacks) : bool := match frames s with fr :: _ => f_unreachable fr | [] => false end.
Definition stands_for (v : operand) (t : valty) : Prop := v = Unknown \/ v = Val t.
(** The types, bottom first *)
Definition describes (s : stacks) (ts : list valty) : Prop :=
  exists below above, ts = below ++ above /\ Forall2 stands_for (open_operands s) (rev above) /\ (below = [] \/ polymorphic s = true).
(** What code sees: the labels of all frames but the last, which is the function's own *)
Definition tenv_at (c : context) (s : stacks) : tenv :=
  mkTenv (c_types c) (c_funcs c) (c_tables c) (c_mems c) (c_globals c) (c_locals c) (removelast (map f_label (frames s))) (c_ret c).
