(** Specification: a place in code, and code put there. *)
From Verif Require Import SpecTyping SpecModule SpecEdit ValidatorModule.

(** Between two instructions of a sequence, or inside a block, a loop or a branch of an [if] in it *)
Inductive place :=
| P_at (before after : list instr)
| P_block (before : list instr) (rt : retval) (p : place) (after : list instr)
| P_loop (before : list instr) (rt : retval) (p : place) (after : list instr)
| P_then (before : list instr) (rt : retval) (p : place) (other after : list instr)
| P_else (before : list instr) (rt : retval) (other : list instr) (p : place) (after : list instr).
Fixpoint put (p : place) (e : list instr) : list instr :=
  match p with
  | P_at a b => a ++ e ++ b
  | P_block a rt p b => a ++ I_Block rt (put p e) :: b
  | P_loop a rt p b => a ++ I_Loop rt (put p e) :: b
  | P_then a rt p o b => a ++ I_If rt (put p e) o :: b
  | P_else a rt o p b => a ++ I_If rt o (put p e) :: b
  end.
(** The types of the labels around the place, innermost first, in front of those outside *)
Fixpoint labels_at (p : place) (outside : list (list valty)) : list (list valty) :=
  match p with
  | P_at _ _ => outside
  | P_loop _ _ p _ => labels_at p ([] :: outside)
  | P_block _ rt p _ | P_then _ rt p _ _ | P_else _ rt _ p _ => labels_at p (rt :: outside)
  end.
(** What code of a function sees with these labels around it *)
Definition inside (c : context) (ft : functy) (locals : list valty) (labels : list (list valty)) : tenv :=
  mkTenv (c_types c) (c_funcs c) (c_tables c) (c_mems c) (c_globals c) (ft_params ft ++ locals) labels (Some (ft_results ft)).
(** The function with this body is accepted *)
Definition body_accepted (c : context) (ty : N) (locals : list valty) (body : expr) : Prop :=
  exists r, v_func (mkFunc ty locals body) (c, empty_stacks) = VOk r.
(** A module with this function after the functions [fs] and before the functions [gs] *)
Definition with_body (m : module) (fs : list func) (ty : N) (locals : list valty) (body : expr) (gs : list func) : module :=
  with_funcs m (fs ++ mkFunc ty locals body :: gs).
(** What code in that function sees; [fts] are the types of the functions of the module *)
Definition inside_module (m : module) (fts : list functy) (ft : functy) (locals : list valty) (labels : list (list valty)) : tenv :=
  mkTenv (m_types m) fts (table_space m) (mem_space m) (global_space m) (ft_params ft ++ locals) labels (Some (ft_results ft)).
(** Instructions after which code is unreachable *)
Definition diverts (i : instr) : Prop :=
  match i with I_Unreachable | I_Br _ | I_BrTable _ _ | I_Return => True | _ => False end.
