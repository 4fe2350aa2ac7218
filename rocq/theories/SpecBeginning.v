(** Specification: beginnings of function bodies, that may end inside nested blocks. *)
From Verif Require Import Structure.

(** Whole instructions, and possibly an entered block, loop, or branch of an [if], with a beginning of what is in there *)
Inductive beginning :=
| B_here (is : list instr)
| B_block (is : list instr) (rt : retval) (p : beginning)
| B_loop (is : list instr) (rt : retval) (p : beginning)
| B_then (is : list instr) (rt : retval) (p : beginning)
| B_else (is : list instr) (rt : retval) (b : list instr) (p : beginning).

(** The bodies that begin so *)
Inductive begins : beginning -> list instr -> Prop :=
| begins_here is rest : begins (B_here is) (is ++ rest)
| begins_block is rt p b rest : begins p b -> begins (B_block is rt p) (is ++ I_Block rt b :: rest)
| begins_loop is rt p b rest : begins p b -> begins (B_loop is rt p) (is ++ I_Loop rt b :: rest)
| begins_then is rt p b c rest : begins p b -> begins (B_then is rt p) (is ++ I_If rt b c :: rest)
| begins_else is rt b p c rest : begins p c -> begins (B_else is rt b p) (is ++ I_If rt b c :: rest).
