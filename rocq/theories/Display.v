(** The text of errors and of the messages of the program.  Models the [display] attributes of whasm/src/binary/core/error.rs
    and whasm/src/validation/error.rs, [Display] of [Byte] (binary/core/byte.rs:60-64) and the [println!] calls of
    parser/src/main.rs.  The [{:#?}] print of a module is in DebugText.v; texts of the operating system are parameters. *)
From Coq Require Import String Ascii DecimalString.
From Coq Require DecimalN.
From Verif Require Export Cli.
Open Scope string_scope.

(** [{}] of a [u8] *)
Definition show_u8 (b : byte) : string := NilZero.string_of_uint (N.to_uint (Byte.to_N b)).
(** [{:02X}] *)
Definition hex_digit (n : N) : ascii := ascii_of_N (if (n <? 10)%N then n + 48 else n + 55)%N.
(** byte.rs:60-64 *)
Definition show_byte (b : byte) : string :=
  "0x" ++ String (hex_digit (Byte.to_N b / 16)) (String (hex_digit (Byte.to_N b mod 16)) "").

(** error.rs:7-47 *)
Definition show_perror (e : perror) : string :=
  match e with
  | UnexpectedEndOfFile => "Unexpected end of file."
  | InvalidVariantId id ty => "Unexpected variant id `" ++ show_u8 id ++ "` for type `" ++ ty ++ "`."
  | OutOfRangeSignedInteger => "Reading out of range signed integer."
  | OutOfRangeUnsignedInteger => "Reading out of range signed integer."
  | InvalidUtf8Encoding => "Byte sequence is not a valid utf-8 encoding."
  | UnexpectedOpcode i => "Unexpected `" ++ i ++ "` opcode."
  | InvalidPreambleMagic => "Invalid magic number in preamble."
  | InvalidPreambleVersion => "Invalid version number in preamble."
  | UnexpectedSectionId id => "Unexpected section id `" ++ show_byte id ++ "`."
  | InvalidSectionId id => "Invalid section id `" ++ show_byte id ++ "`."
  | SectionSizeMissmatch id => "The size of section with id `" ++ show_byte id ++ "` does not match its content."
  | FunctionSizeMissmatch => "The size of the function does not match its content."
  | SizeMissmatch => "The size of the element does not match its content."
  end.
(** validation/error.rs:5-9, the only error of the validator *)
Definition show_verror : string := "Unexpected end of file.".

(** [println!] *)
Definition newline : string := String "010" "".
Definition println (s : string) : string := s ++ newline.
Definition quote : string := String "034" "".

(** main.rs:8-46: what is written to standard output with a message, for the program name [prog] (args[0]), the file name
    and the text [os] of the operating system's error *)
Definition show_message (prog filename os : string) (m : message) : option string :=
  match m with
  | MsgUsage => Some (println ("Problem pargin input arguments: " ++ "Not enough arguments.") ++
                      println ("Usage: " ++ prog ++ " [-p|--print] file.wasm"))
  | MsgOpen => Some (println ("Could not open file " ++ quote ++ filename ++ quote) ++ println os)
  | MsgRead => Some (println ("Could not read file " ++ quote ++ filename ++ quote) ++ println os)
  | MsgParse e => Some (println ("Error parsing file " ++ quote ++ filename ++ quote ++ ".") ++ println (show_perror e))
  | MsgValidate => Some (println ("Error validating file " ++ quote ++ filename ++ quote ++ ".") ++ println show_verror)
  | MsgModule _ => None
  end.
(** the standard output of the program; [None]: nothing is printed, or a module *)
Definition stdout (args : list string) (fs : string -> file) (os : string) : option string :=
  match cli args fs with
  | Exit _ [m] => show_message (hd "" args) (fst (config_loop (tl args) "" false)) os m
  | _ => None
  end.
