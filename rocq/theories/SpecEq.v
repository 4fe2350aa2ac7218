(** Specification vocabulary for [==] on modules: the sign of zeros forgotten, and no NaN anywhere. *)
From Verif Require Export SpecFloat SpecCode.
Open Scope N_scope.

(** every zero replaced by the positive one *)
Fixpoint one_zero (i : instr) : instr :=
  match i with
  | I_Block rt b => I_Block rt (map one_zero b)
  | I_Loop rt b => I_Loop rt (map one_zero b)
  | I_If rt b c => I_If rt (map one_zero b) (map one_zero c)
  | I_ConstF32 x => I_ConstF32 (if zero32 x then 0 else x)
  | I_ConstF64 x => I_ConstF64 (if zero64 x then 0 else x)
  | _ => i
  end.
(** no NaN constant at any depth *)
Definition no_nan (m : module) : Prop :=
  forall e x, In e (module_exprs m) -> (occurs (I_ConstF32 x) e -> nan32 x = false) /\ (occurs (I_ConstF64 x) e -> nan64 x = false).
(** the difference that [==] does not see *)
Definition same_but_zeros (m m' : module) : Prop := map_code one_zero m = map_code one_zero m'.
