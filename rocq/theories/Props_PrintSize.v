(** Property theorems C83: how long the printout of a module is. *)
From Coq Require Import String Ascii.
From Verif Require Import SpecFormat SpecParser SpecEncoder SpecUtf8 SpecCode SpecStack Validator DebugText SpecDebug DebugClaims SpecPrintSize PrintSizeProof PrintLengthProof.
Open Scope list_scope.
Open Scope nat_scope.

(** The number of lines follows from the text of the module. *)
Theorem C83_exact : forall std m, honest std -> Forall utf8 (module_names m) -> lines_in (show_module std m) = module_lines m.
Proof. exact lines_exact. Qed.
Print Assumptions C83_exact.
Theorem C83_printed : forall std args fs os c m, honest std -> cli args fs = Exit c [MsgModule m] ->
  exists t, output std args fs os = Some t /\ lines_in t = module_lines m.
Proof. exact lines_printed. Qed.
Print Assumptions C83_printed.
(** Fourteen lines for every three bytes of the file, and one for every local variable; neither number can be lowered. *)
Theorem C83_file : forall bs m, p_module bs = (Ok m, []) -> 3 * module_lines m + 76 <= 14 * length bs + 3 * declared m.
Proof. exact lines_file. Qed.
Print Assumptions C83_file.
Theorem C83_ifs : forall k, (N.of_nat k < 2 ^ 29)%N ->
  p_module (encode (bushy k)) = (Ok (bushy k), []) /\ declared (bushy k) = 0 /\ length (encode (bushy k)) <= 3 * k + 32 /\ 14 * k < module_lines (bushy k).
Proof. exact bushy_file. Qed.
Print Assumptions C83_ifs.
Theorem C83_locals : forall n, (N.of_nat n < 2 ^ 32)%N ->
  p_module (encode (roomy n)) = (Ok (roomy n), []) /\ validate (roomy n) = VOk (mkModuleTypes [] []) /\ length (encode (roomy n)) <= 38 /\ n < module_lines (roomy n).
Proof. exact roomy_file. Qed.
Print Assumptions C83_locals.
(** The number of characters, if no floating point number takes more than [k]; it can grow with the square of the length of the file. *)
Theorem C83_length : forall std k bs m, honest std -> (forall x, String.length (std_f32 std x) <= k) -> (forall x, String.length (std_f64 std x) <= k) ->
  p_module bs = (Ok m, []) -> String.length (show_module std m) <= module_lines m * (6 * length bs + 46 + k).
Proof. exact length_file. Qed.
Print Assumptions C83_length.
Theorem C83_square : forall std k, honest std -> (N.of_nat k < 2 ^ 29)%N ->
  p_module (encode (tower k)) = (Ok (tower k), []) /\ validate (tower k) = VOk (mkModuleTypes [] []) /\ declared (tower k) = 0 /\
  length (encode (tower k)) <= 3 * k + 32 /\ 54 * k * k <= String.length (show_module std (tower k)).
Proof. exact length_square. Qed.
Print Assumptions C83_square.

(** every component of a module; code with all kinds of immediates *)
Definition sized_up : module :=
  mkModule [mkFuncTy [T_I32; T_F64] []]
    [mkFunc 0 [T_I64] [I_Block [T_F32] [I_ConstF32 1]; I_If [] [I_BrTable [0; 1] 2] []; I_I64Load8U 0 8; I_ConstI32 (-5)%Z; I_CallIndirect 0 0]]%N
    [mkTable (mkTableTy (mkLimits 1 (Some 2)) FuncRef)]%N [mkMem (mkMemTy (mkLimits 3 None))]%N
    [mkGlobal (mkGlobalTy Var T_F64) [I_ConstF64 0x7FF0000000000001]]%N [mkElem 0 [I_GlobalGet 7] [4; 5]]%N [mkData 0%N [] [x00; xff]]
    (Some (mkStart 9%N)) [mkImport [x61] [] (ID_Mem (mkMemTy (mkLimits 0 None)))]%N
    [mkExport [x22; x5c; x0a; xc3; xa9; xe2; x80; x8b; x27] (ED_Global 1)]%N.
Example C83_example : lines_in (show_module toy sized_up) = 186 /\ module_lines sized_up = 186.
Proof. split; vm_compute; reflexivity. Qed.
(** the empty module: twelve lines for eight bytes *)
Definition nothing : module := mkModule [] [] [] [] [] [] [] None [] [].
Example C83_example_empty : show_module toy nothing = String.concat "" (map println
  ["Module {"; "    types: [],"; "    funcs: [],"; "    tables: [],"; "    mems: [],"; "    globals: [],"; "    elem: [],"; "    data: [],";
   "    start: None,"; "    imports: [],"; "    exports: [],"; "}"]%string) /\ module_lines nothing = 12 /\ 3 * module_lines nothing + 76 = 14 * length (encode nothing).
Proof. repeat split; vm_compute; reflexivity. Qed.
(** a file of 27 bytes, and more than 1000 lines *)
Example C83_example_locals : length (encode (roomy 1000)) = 27 /\ lines_in (show_module toy (roomy 1000)) = 1028 /\ module_lines (roomy 1000) = 1028.
Proof. repeat split; vm_compute; reflexivity. Qed.
(** nested blocks: twice as many, almost four times the text *)
Example C83_example_square : map (fun k => (length (encode (tower k)), N.of_nat (String.length (show_module toy (tower k))))) [0; 20; 40] =
  [(24, 417%N); (84, 25877%N); (144, 94537%N)].
Proof. vm_compute. reflexivity. Qed.
