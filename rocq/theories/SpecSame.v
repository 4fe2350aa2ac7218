(** Code that does the same, given enough fuel. *)
From Verif Require Export SpecReplace SpecModule SpecExec.
Open Scope N_scope.

(** With enough fuel the result is [r], which is not that the run gets stuck *)
Definition gives {M} (run : nat -> result M) (r : result M) : Prop :=
  r <> R_Fuel /\ r <> R_Stuck /\ exists least, forall fuel, (least <= fuel)%nat -> run fuel = r.
(** Whatever [e1] does, [e2] does too: among all functions, inside of all labels, from all configurations *)
Definition does_as (M : machine) (types : list functy) (e1 e2 : list instr) : Prop :=
  forall fs labels ret c r,
    gives (fun fuel => run_seq M (exec M types fs fuel labels ret) e1 c) r -> gives (fun fuel => run_seq M (exec M types fs fuel labels ret) e2 c) r.
Definition does_same (M : machine) (types : list functy) (e1 e2 : list instr) : Prop := does_as M types e1 e2 /\ does_as M types e2 e1.
(** A machine that knows what is not zero *)
Definition eqz_right (M : machine) : Prop :=
  forall v, type_of v = T_I32 -> exists w, mach_num M I_I32Eqz [v] = Some [w] /\ type_of w = T_I32 /\ is_zero w = negb (is_zero v).
