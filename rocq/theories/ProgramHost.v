(** The program of parser/src/main.rs on a given host: what the allocator and the call stack allow (ParserAlloc.v, ValidatorAlloc.v), the
    width of [usize] and the overflow checks (ValidatorHost.v).  The buffer that holds the file is already there when
    parsing starts. *)
From Coq Require Import String.
From Verif Require Export ValidatorAlloc.
Open Scope N_scope.

(** What is done to a module after it has been read recurs over nested code: validation (validation/instr.rs:51-71),
    printing (the derived [Debug] of structure/instr.rs:3-10), and dropping the module where [main] ends. *)
Inductive phase := Validating | Printing | Dropping.

(** parser/src/main.rs:6-49.  [overflows p m]: the call stack overflows.  [exit] (lines 36 and 43) drops nothing. *)
Definition program_on (allows : event -> bool) (overflows : phase -> module -> bool) (checks : bool) (bits : N) (args : list string) (fs : string -> file)
    : cli_result :=
  match config_new args with
  | None => match args with [] => Crash | _ => Exit 1 [MsgUsage] end
  | Some cfg =>
    match fs (cfg_filename cfg) with
    | CannotOpen => Exit 1 [MsgOpen]
    | CannotRead => Exit 1 [MsgRead]
    | Contents buffer =>
      match parse_within allows buffer with
      | Err e => Exit 1 [MsgParse e]
      | Panic => Crash
      | OutOfFuel => Crash
      | Ok m =>
        if overflows Validating m then Crash
        else
          match validate_within allows checks bits m with
          | VErr => Exit 1 [MsgValidate]
          | VPanic => Crash
          | VOk _ =>
            if (cfg_print cfg && overflows Printing m) || overflows Dropping m then Crash
            else Exit 0 (if cfg_print cfg then [MsgModule m] else [])
          end
      end
    end
  end.
