(** Property theorems C42 and C43: the command line program, from bytes to exit status. *)
From Coq Require Import String.
From Verif Require Import SpecCli SpecVerdict SpecFormat SpecCode CliProof.
Open Scope N_scope.

(** C42.  The full statement is the first theorem, and that otherwise the exit status is 1. *)
Theorem C42_exit_zero : forall args fs msgs, cli args fs = Exit 0 msgs <->
  exists name bytes m, names_file args name /\ fs name = Contents bytes /\ p_module bytes = (Ok m, []) /\ accepted m /\
    (asks_print args /\ msgs = [MsgModule m] \/ ~ asks_print args /\ msgs = []).
Proof. exact cli_zero. Qed.
Print Assumptions C42_exit_zero.
Theorem C42_exit_one_refuted : exists args fs, (forall msgs, cli args fs <> Exit 0 msgs) /\ cli args fs = Crash.
Proof. exact no_arguments_refutes. Qed.
Print Assumptions C42_exit_one_refuted.
(** the program crashes only without any argument, not even a program name *)
Theorem C42_exit_one_partial : forall args fs, args <> [] -> (forall msgs, cli args fs <> Exit 0 msgs) ->
  exists msg, cli args fs = Exit 1 [msg] /\ forall m, msg <> MsgModule m.
Proof. exact cli_otherwise. Qed.
Print Assumptions C42_exit_one_partial.
Theorem C42_crash : forall args fs, cli args fs = Crash <-> args = [].
Proof. exact cli_crash. Qed.
Print Assumptions C42_crash.
(** the message tells which step failed *)
Theorem C42_messages : forall args fs msg, cli args fs = Exit 1 [msg] -> (forall m, msg <> MsgModule m) ->
  match msg with
  | MsgUsage => forall name, ~ names_file args name
  | MsgOpen => exists name, names_file args name /\ fs name = CannotOpen
  | MsgRead => exists name, names_file args name /\ fs name = CannotRead
  | MsgParse e => exists name bytes, names_file args name /\ fs name = Contents bytes /\ fst (p_module bytes) = Err e
  | MsgValidate => exists name bytes m, names_file args name /\ fs name = Contents bytes /\ p_module bytes = (Ok m, []) /\ ~ accepted m
  | MsgModule _ => False
  end.
Proof. exact cli_messages. Qed.
Print Assumptions C42_messages.
Definition sample_fs (name : string) : file :=
  if String.eqb name "a" then Contents (preamble ++ [x05; x03; x01; x00; x01])
  else if String.eqb name "b" then Contents (preamble ++ [x05; x05; x01; x00; xff; xff; x07])
  else if String.eqb name "c" then Contents (preamble ++ [x0c])
  else CannotOpen.
Example C42_example :
  cli ["x"; "-p"; "b"; "a"]%string sample_fs = Exit 0 [MsgModule (mkModule [] [] [] [mkMem (mkMemTy (mkLimits 1 None))] [] [] [] None [] [])]
  /\ cli ["-p"; "a"]%string sample_fs = Exit 0 []
  /\ cli ["x"; "a"; "--print"; "b"]%string sample_fs = Exit 1 [MsgValidate]
  /\ cli ["x"; "c"]%string sample_fs = Exit 1 [MsgParse (InvalidSectionId x0c)]
  /\ cli ["x"; "a"; ""]%string sample_fs = Exit 1 [MsgUsage]
  /\ cli ["x"; "d"]%string sample_fs = Exit 1 [MsgOpen].
Proof. repeat split; vm_compute; reflexivity. Qed.

(** C43 *)
Theorem C43_pipeline : forall args fs, (exists msgs, cli args fs = Exit 0 msgs) <->
  exists name bytes m, names_file args name /\ fs name = Contents bytes /\
    enc_module whasm_format bytes m /\ valid_module whasm_validity m.
Proof. exact pipeline. Qed.
Print Assumptions C43_pipeline.
Theorem C43_official_files : forall args fs name bytes m,
  names_file args name -> fs name = Contents bytes ->
  enc_module wasm10_format bytes m -> valid_module wasm10_validity m ->
  (forall f, In f (m_funcs m) -> no_own_jump (fn_body f)) ->
  (forall g, In g (m_globals m) -> no_global_get (glob_init g)) ->
  small_memories m ->
  exists msgs, cli args fs = Exit 0 msgs.
Proof. exact pipeline_complete. Qed.
Print Assumptions C43_official_files.
Theorem C43_accepted_files : forall args fs msgs name bytes,
  cli args fs = Exit 0 msgs -> names_file args name -> fs name = Contents bytes ->
  exists m, enc_module whasm_format bytes m /\
    ((forall f, In f (m_funcs m) -> natural_alignment (fn_body f)) ->
     (forall g, In g (m_globals m) -> no_global_get (glob_init g)) ->
     (length (table_space m) <= 1)%nat -> (length (mem_space m) <= 1)%nat ->
     valid_module wasm10_validity m).
Proof. exact pipeline_sound. Qed.
Print Assumptions C43_accepted_files.
Example C43_example : names_file ["x"; "q"; "-p"; "a"; "--print"]%string "a"
  /\ cli ["x"; "q"; "-p"; "a"; "--print"]%string (fun n => if String.eqb n "a" then Contents preamble else CannotRead)
     = Exit 0 [MsgModule (mkModule [] [] [] [] [] [] [] None [] [])].
Proof.
  split; [|vm_compute; reflexivity]. exists "x"%string, ["q"; "-p"]%string, ["--print"]%string.
  split; [reflexivity|]. split; [intros [H|H]; discriminate H|]. split; [|discriminate]. constructor; [right; reflexivity|constructor].
Qed.
