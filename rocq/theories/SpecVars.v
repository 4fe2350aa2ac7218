(** Specification: other numbers for the variables of a function. *)
From Verif Require Export SpecReplace SpecModule SpecExec.
Open Scope N_scope.

(** Code in which variable [x] is called [r x] *)
Fixpoint renamed (r : N -> N) (i : instr) : instr :=
  match i with
  | I_Block t b => I_Block t (map (renamed r) b)
  | I_Loop t b => I_Loop t (map (renamed r) b)
  | I_If t b c => I_If t (map (renamed r) b) (map (renamed r) c)
  | I_LocalGet x => I_LocalGet (r x)
  | I_LocalSet x => I_LocalSet (r x)
  | I_LocalTee x => I_LocalTee (r x)
  | i => i
  end.
(** The variables that an instruction names *)
Fixpoint vars_of (i : instr) : list N :=
  match i with
  | I_Block _ b | I_Loop _ b => flat_map vars_of b
  | I_If _ b c => flat_map vars_of b ++ flat_map vars_of c
  | I_LocalGet x | I_LocalSet x | I_LocalTee x => [x]
  | _ => []
  end.
(** What is named has the same type afterwards; [vars], [vars']: the types of the variables before and after *)
Definition same_typed (r : N -> N) (vars vars' : list valty) (e : list instr) : Prop :=
  forall x, In x (flat_map vars_of e) -> nth_error vars' (N.to_nat (r x)) = nth_error vars (N.to_nat x).
(** Different variables stay different; the [n] parameters stay where they are, and no other variable becomes one *)
Record kept_apart (r : N -> N) (n : N) (e : list instr) : Prop := {
  ka_differ : forall x y, In x (flat_map vars_of e) -> In y (flat_map vars_of e) -> r x = r y -> x = y;
  ka_params : forall x, In x (flat_map vars_of e) -> x < n -> r x = x;
  ka_others : forall x, In x (flat_map vars_of e) -> n <= x -> n <= r x;
}.
(** Without the [k] variables from [n] on *)
Definition closed_up (n k x : N) : N := if x <? n then x else x - k.
