(** Specification: simpler code for some short pieces of code. *)
From Verif Require Export SpecReplace SpecModule SpecExec.
Open Scope N_scope.

(** [simpler e1 e2]: [e2] may be written for [e1] *)
Inductive simpler : list instr -> list instr -> Prop :=
(** what is read and dropped need not be read *)
| simp_get_drop x : simpler [I_LocalGet x; I_Drop] []
| simp_global_drop x : simpler [I_GlobalGet x; I_Drop] []
| simp_tee_drop x : simpler [I_LocalTee x; I_Drop] [I_LocalSet x]
(** a variable that is set twice to one value *)
| simp_tee_set x : simpler [I_LocalTee x; I_LocalSet x] [I_LocalSet x]
| simp_tee_tee x : simpler [I_LocalTee x; I_LocalTee x] [I_LocalTee x]
(** a condition that decides nothing *)
| simp_if rt b : simpler [I_If rt b b] [I_Drop; I_Block rt b]
| simp_if_empty : simpler [I_If [] [] []] [I_Drop]
(** the last entry of a table of branches that is the default, and a table of nothing but the default *)
| simp_table ls l : simpler [I_BrTable (ls ++ [l]) l] [I_BrTable ls l]
| simp_table_empty l : simpler [I_BrTable [] l] [I_Drop; I_Br l]
(** blocks of nothing *)
| simp_block : simpler [I_Block [] []] []
| simp_loop : simpler [I_Loop [] []] [].
