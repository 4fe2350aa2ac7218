(** The command line program.  Models parser/src/main.rs.
    The file system is a function from names to contents; text written to standard output is
    abstracted to which of the messages is printed; the module itself stands for its
    printout; the texts are in Display.v and DebugText.v. *)
From Coq Require Import String.
From Verif Require Export ParserModule ValidatorModule.

(** main.rs:51-54 *)
Record config := mkConfig { cfg_filename : string; cfg_print : bool }.

(** main.rs:63-72, the loop over the arguments after the program name *)
Fixpoint config_loop (args : list string) (filename : string) (print : bool) : string * bool :=
  match args with
  | [] => (filename, print)
  | arg :: args' =>
    if (String.eqb arg "-p" || String.eqb arg "--print")%bool
    then config_loop args' filename true
    else config_loop args' arg print
  end.

(** main.rs:56-80; [args] includes the program name *)
Definition config_new (args : list string) : option config :=
  match args with
  | [] => None
  | _ :: args' =>
    let '(filename, print) := config_loop args' "" false in
    if String.eqb filename "" then None else Some (mkConfig filename print)
  end.

(** What [File::open] and [read_to_end] give for a name *)
Inductive file := CannotOpen | CannotRead | Contents (bytes : list byte).

Inductive message :=
| MsgUsage | MsgOpen | MsgRead | MsgParse (e : perror) | MsgValidate | MsgModule (m : module).

(** exit status and messages; [Crash]: the process dies by a panic *)
Inductive cli_result := Exit (code : nat) (msgs : list message) | Crash.

(** main.rs:6-49.  [args[0]] in the usage message panics when there are no arguments at all. *)
Definition cli (args : list string) (fs : string -> file) : cli_result :=
  match config_new args with
  | None => match args with [] => Crash | _ => Exit 1 [MsgUsage] end
  | Some cfg =>
    match fs (cfg_filename cfg) with
    | CannotOpen => Exit 1 [MsgOpen]
    | CannotRead => Exit 1 [MsgRead]
    | Contents buffer =>
      match fst (p_module buffer) with
      | Err e => Exit 1 [MsgParse e]
      | Panic => Crash
      | OutOfFuel => Crash
      | Ok m =>
        match validate m with
        | VErr => Exit 1 [MsgValidate]
        | VPanic => Crash
        | VOk _ => Exit 0 (if cfg_print cfg then [MsgModule m] else [])
        end
      end
    end
  end.
