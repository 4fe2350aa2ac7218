(** Property theorems C75: errors and modules as values, and their one-line texts. *)
From Coq Require Import String Ascii.
From Verif Require Import DebugLine SpecLine SpecDebug SpecUtf8 SpecFormat SpecCode DebugClaims DebugLineProof.
Open Scope string_scope.

(** two errors are equal for [==] when they are the same *)
Theorem C75_equality : forall e1 e2, perror_eq e1 e2 = true <-> e1 = e2.
Proof. exact perror_eq_iff. Qed.
Print Assumptions C75_equality.
(** the debug texts of errors, in one line or in several, tell them apart *)
Theorem C75_error_texts : forall std e1 e2, Forall utf8 (error_strings e1) -> Forall utf8 (error_strings e2) ->
  (line (d_perror std e1) = line (d_perror std e2) <-> e1 = e2) /\ (pretty (d_perror std e1) = pretty (d_perror std e2) <-> e1 = e2).
Proof. exact perror_texts. Qed.
Print Assumptions C75_error_texts.
Theorem C75_file_errors : forall std bs1 bs2 e1 e2 r1 r2, p_module bs1 = (Err e1, r1) -> p_module bs2 = (Err e2, r2) ->
  (line (d_perror std e1) = line (d_perror std e2) <-> e1 = e2) /\ (pretty (d_perror std e1) = pretty (d_perror std e2) <-> e1 = e2).
Proof. exact file_error_texts. Qed.
Print Assumptions C75_file_errors.
(** the one-line text of a module is one line, and determines the module up to NaNs *)
Theorem C75_module_text : forall std, honest std -> forall m1 m2, Forall utf8 (module_names m1) -> Forall utf8 (module_names m2) ->
  line (d_module std m1) = line (d_module std m2) <-> module_one_nan m1 = module_one_nan m2.
Proof. exact line_module_exact. Qed.
Print Assumptions C75_module_text.
Theorem C75_module_line : forall std m, honest std -> Forall utf8 (module_names m) ->
  ~ In "010"%char (list_ascii_of_string (line (d_module std m))).
Proof. exact module_line. Qed.
Print Assumptions C75_module_line.
(** comparisons and conversions of bytes *)
Theorem C75_bytes : forall b, (forall n, byte_eq_u8 b n = true <-> n = u8_from_byte b) /\ (forall c, byte_eq_char b c = true <-> c = char_from_byte b) /\
  (forall b', byte_eq b b' = true <-> b' = b) /\ Byte.of_N (u8_from_byte b) = Some b /\ char_from_byte b = u8_from_byte b.
Proof. exact byte_comparisons. Qed.
Print Assumptions C75_bytes.
(** of elements with their size *)
Theorem C75_sized : forall A (eq : A -> A -> bool), (forall x y, eq x y = true <-> x = y) ->
  forall x y, (sized_eq eq x y = true <-> x = y) /\ (sized_eq_inner eq x y = true <-> x = y).
Proof. exact @sized_comparisons. Qed.
Print Assumptions C75_sized.
Theorem C75_sized_text : forall A (d : A -> dtree) x, line (d_sized d x) = "Sized(" ++ line (d x) ++ ")".
Proof. exact @sized_text. Qed.
Print Assumptions C75_sized_text.
(** the only error of validation has the text of one error of parsing *)
Theorem C75_validation_error : forall std, line d_verror = line (d_perror std UnexpectedEndOfFile) /\
  forall e, line d_verror = line (d_perror std e) -> e = UnexpectedEndOfFile.
Proof. exact validation_error_text. Qed.
Print Assumptions C75_validation_error.

(** a string that needs escapes; a number in decimal and one in hexadecimal digits; the texts that [Display] confuses *)
Example C75_example_errors :
  line (d_perror toy (InvalidVariantId x0a "ty::Val")) = "InvalidVariantId { id: 10, ty: " ++ quote ++ "ty::Val" ++ quote ++ " }"
  /\ line (d_perror toy (UnexpectedOpcode ("a" ++ quote ++ "\"))) = "UnexpectedOpcode { instr: " ++ quote ++ "a\" ++ quote ++ "\\" ++ quote ++ " }"
  /\ line (d_perror toy (InvalidSectionId x0c)) = "InvalidSectionId { id: 0x0C }"
  /\ line (d_perror toy (UnexpectedSectionId x0a)) = "UnexpectedSectionId { id: 0x0A }"
  /\ line (d_perror toy (SectionSizeMissmatch xff)) = "SectionSizeMissmatch { id: 0xFF }"
  /\ pretty (d_perror toy (InvalidSectionId x0c)) = "InvalidSectionId {" ++ newline ++ "    id: 0x0C," ++ newline ++ "}"
  /\ map (fun e => line (d_perror toy e)) [UnexpectedEndOfFile; OutOfRangeSignedInteger; OutOfRangeUnsignedInteger; InvalidUtf8Encoding;
                                           InvalidPreambleMagic; InvalidPreambleVersion; FunctionSizeMissmatch; SizeMissmatch]
     = ["UnexpectedEndOfFile"; "OutOfRangeSignedInteger"; "OutOfRangeUnsignedInteger"; "InvalidUtf8Encoding";
        "InvalidPreambleMagic"; "InvalidPreambleVersion"; "FunctionSizeMissmatch"; "SizeMissmatch"]
  /\ line d_verror = "UnexpectedEndOfFile" /\ line (D_struct "Empty" []) = "Empty" /\ line (D_tuple "Empty" []) = "Empty" /\ line (D_list []) = "[]"
  /\ perror_eq OutOfRangeSignedInteger OutOfRangeUnsignedInteger = false
  /\ perror_eq (InvalidSectionId x0c) (UnexpectedSectionId x0c) = false
  /\ perror_eq (InvalidVariantId x0c "ty::Val") (InvalidVariantId x0c "ty::Func") = false.
Proof. repeat split; vm_compute; reflexivity. Qed.
(** structures, tuples and lists, empty and not, and a name that looks like the text around it *)
Example C75_example_module :
  line (d_module toy (mkModule [mkFuncTy [T_I32; T_F64] []] [mkFunc 0 [] [I_ConstI32 (-5)%Z; I_Drop]]%N [] [mkMem (mkMemTy (mkLimits 1 (Some 2)))]%N
                        [] [] [mkData 0 [I_Nop] [x00; xff]]%N None [] [mkExport [x22; x20; x7d] (ED_Func 0)]%N))
  = "Module { types: [Func { params: [I32, F64], results: [] }], funcs: [Func { ty: Type(0), locals: [], body: Expr([ConstI32(-5), Drop]) }], tables: [], "
    ++ "mems: [Mem { ty: Mem { lim: Limits { min: 1, max: Some(2) } } }], globals: [], elem: [], data: [Data { mem: Mem(0), offset: ConstExpr([Nop]), init: [0, 255] }], "
    ++ "start: None, imports: [], exports: [Export { name: " ++ quote ++ "\" ++ quote ++ " }" ++ quote ++ ", desc: Func(Func(0)) }] }".
Proof. vm_compute. reflexivity. Qed.
Example C75_example_bytes :
  byte_eq_u8 x41 65 = true /\ byte_eq_char x41 65 = true /\ byte_eq_char xe9 233 = true /\ byte_eq_u8 x41 321 = false /\ byte_eq x41 x61 = false
  /\ line (d_byte xe9) = "0xE9" /\ line (d_sized d_byte xe9) = "Sized(0xE9)"
  /\ sized_eq byte_eq x41 x41 = true /\ sized_eq byte_eq x41 x61 = false /\ sized_eq_inner byte_eq x41 x41 = true /\ sized_eq_inner byte_eq x41 x61 = false.
Proof. repeat split; vm_compute; reflexivity. Qed.
