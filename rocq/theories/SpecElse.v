(** What code with the pseudo instruction [Else] at arbitrary places means to the validator: it separates alternatives
    of the enclosing block (or function), each of which must produce the results of the block by itself. *)
From Verif Require Export SpecTyping.

(** the alternatives of a sequence, each instruction being replaced by a sequence *)
Definition alternatives (f : instr -> list instr) : list instr -> list (list instr) :=
  fix go (is : list instr) : list (list instr) :=
    match is with
    | [] => [[]]
    | I_Else :: is' => [] :: go is'
    | i :: is' => match go is' with p :: ps => (f i ++ p) :: ps | [] => [f i] end
    end.
(** further alternatives of a block with results [rt]: the results of the previous one are dropped *)
Definition again (rt : list valty) (ps : list (list instr)) : list instr :=
  flat_map (fun p => repeat I_Drop (length rt) ++ [I_Block rt p]) ps.
(** An equivalent of [i] without [Else].  A branch to a loop from a later alternative leaves it. *)
Fixpoint unelse (i : instr) : list instr :=
  match i with
  | I_Block rt b => I_Block rt (hd [] (alternatives unelse b)) :: again rt (tl (alternatives unelse b))
  | I_Loop rt b => I_Loop rt (hd [] (alternatives unelse b)) :: again rt (tl (alternatives unelse b))
  | I_If rt b1 b2 =>
    I_If rt (hd [] (alternatives unelse b1)) (hd [] (alternatives unelse b2))
    :: again rt (tl (alternatives unelse b1) ++ tl (alternatives unelse b2))
  | i => [i]
  end.
(** the alternatives of a function *)
Definition func_alternatives (f : func) : list func :=
  map (fun b => mkFunc (fn_ty f) (fn_locals f) b) (alternatives unelse (fn_body f)).
