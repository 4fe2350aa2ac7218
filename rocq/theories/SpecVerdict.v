(** How verdicts of the validator are stated. *)
From Verif Require Export ValidatorModule SpecEdit.

(** [Module::validate()] returns Ok *)
Definition accepted (m : module) : Prop := exists mt, validate m = VOk mt.
(** the validator's context read as a typing environment; there are no labels and no return type yet *)
Definition tenv_of (c : context) : tenv :=
  mkTenv (c_types c) (c_funcs c) (c_tables c) (c_mems c) (c_globals c) (c_locals c) [] (c_ret c).
(** the validator's external types *)
Definition ext_of (x : external) : ext :=
  match x with X_Func t => Ext_Func t | X_Table t => Ext_Table t | X_Mem t => Ext_Mem t | X_Global t => Ext_Global t end.
