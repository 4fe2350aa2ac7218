(** Specification: a block to which no branch goes, and its code without the block. *)
From Verif Require Export SpecReplace SpecModule SpecExec.
Open Scope N_scope.

(** The number of a label when the label [k] is taken away *)
Definition closer (k l : N) : N := if l <? k then l else l - 1.
(** An instruction inside the label [k] when that label is taken away: what is farther out is one closer *)
Fixpoint freed (k : N) (i : instr) : instr :=
  match i with
  | I_Block t b => I_Block t (map (freed (k + 1)) b)
  | I_Loop t b => I_Loop t (map (freed (k + 1)) b)
  | I_If t b c => I_If t (map (freed (k + 1)) b) (map (freed (k + 1)) c)
  | I_Br l => I_Br (closer k l)
  | I_BrIf l => I_BrIf (closer k l)
  | I_BrTable ls l => I_BrTable (map (closer k) ls) (closer k l)
  | i => i
  end.
(** An instruction with a branch to the label [k] *)
Fixpoint goes_to (k : N) (i : instr) : bool :=
  match i with
  | I_Block _ b | I_Loop _ b => existsb (goes_to (k + 1)) b
  | I_If _ b c => existsb (goes_to (k + 1)) b || existsb (goes_to (k + 1)) c
  | I_Br l | I_BrIf l => l =? k
  | I_BrTable ls l => existsb (fun x => x =? k) ls || (l =? k)
  | _ => false
  end.
(** No branch goes to the end of a block with the code [b] *)
Definition never_left (b : list instr) : Prop := existsb (goes_to 0) b = false.
