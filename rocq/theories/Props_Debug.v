(** Property theorems C60 and C61: the printout of a module, and what standard output tells. *)
From Coq Require Import String Ascii.
From Verif Require Import DebugText SpecDebug SpecFormat DebugClaims.
Open Scope string_scope.

(** C60.  The full statement: equal printouts come from equal modules,
      [output std args1 fs1 os1 = output std args2 fs2 os2 <-> m1 = m2]. *)
Theorem C60_printout_partial : forall std args1 args2 fs1 fs2 os1 os2 m1 m2, honest std ->
  cli args1 fs1 = Exit 0 [MsgModule m1] -> cli args2 fs2 = Exit 0 [MsgModule m2] ->
  output std args1 fs1 os1 = output std args2 fs2 os2 <-> module_one_nan m1 = module_one_nan m2.
Proof. exact print_exact. Qed.
Print Assumptions C60_printout_partial.
Theorem C60_printout_refuted : exists args fs1 fs2 m1 m2,
  cli args fs1 = Exit 0 [MsgModule m1] /\ cli args fs2 = Exit 0 [MsgModule m2] /\ m1 <> m2 /\
  forall std os, honest std -> output std args fs1 os = output std args fs2 os.
Proof. exact print_refuted. Qed.
Print Assumptions C60_printout_refuted.

(** the assumptions about the library can be met *)
Example C60_assumptions : honest toy.
Proof. exact toy_honest. Qed.
Definition lines (l : list string) : string := String.concat "" (map println l).
(** every component of a module, nested code, all kinds of immediates, and a name that needs every kind of escape *)
Definition shown : module :=
  mkModule [mkFuncTy [T_I32; T_F64] []]
    [mkFunc 0 [T_I64] [I_Block [T_F32] [I_ConstF32 1]; I_If [] [I_BrTable [0; 1] 2] []; I_I64Load8U 0 8; I_ConstI32 (-5)%Z; I_CallIndirect 0 0]]%N
    [mkTable (mkTableTy (mkLimits 1 (Some 2)) FuncRef)]%N [mkMem (mkMemTy (mkLimits 3 None))]%N
    [mkGlobal (mkGlobalTy Var T_F64) [I_ConstF64 0x7FF0000000000001]]%N [mkElem 0 [I_GlobalGet 7] [4; 5]]%N [mkData 0 [] [x00; xff]]
    (Some (mkStart 9%N)) [mkImport [x61] [] (ID_Mem (mkMemTy (mkLimits 0 None)))]%N
    [mkExport [x22; x5c; x0a; xc3; xa9; xe2; x80; x8b; x27] (ED_Global 1)]%N.
Definition shown_name : string := quote ++ "\" ++ quote ++ "\\\né\u{200b}'" ++ quote.
Example C60_example : show_module toy shown = lines
  ["Module {"; "    types: ["; "        Func {"; "            params: ["; "                I32,"; "                F64,"; "            ],";
   "            results: [],"; "        },"; "    ],";
   "    funcs: ["; "        Func {"; "            ty: Type("; "                0,"; "            ),";
   "            locals: ["; "                I64,"; "            ],"; "            body: Expr("; "                [";
   "                    Block("; "                        RetVal("; "                            ["; "                                F32,";
   "                            ],"; "                        ),"; "                        Expr("; "                            [";
   "                                ConstF32("; "                                    1,"; "                                ),";
   "                            ],"; "                        ),"; "                    ),";
   "                    If("; "                        RetVal("; "                            [],"; "                        ),";
   "                        Expr("; "                            ["; "                                BrTable(";
   "                                    ["; "                                        Label("; "                                            0,";
   "                                        ),"; "                                        Label("; "                                            1,";
   "                                        ),"; "                                    ],"; "                                    Label(";
   "                                        2,"; "                                    ),"; "                                ),";
   "                            ],"; "                        ),"; "                        Expr("; "                            [],";
   "                        ),"; "                    ),";
   "                    I64Load8U("; "                        0,"; "                        8,"; "                    ),";
   "                    ConstI32("; "                        -5,"; "                    ),";
   "                    CallIndirect("; "                        Type("; "                            0,"; "                        ),";
   "                        Table("; "                            0,"; "                        ),"; "                    ),";
   "                ],"; "            ),"; "        },"; "    ],";
   "    tables: ["; "        Table {"; "            ty: Table {"; "                lim: Limits {"; "                    min: 1,";
   "                    max: Some("; "                        2,"; "                    ),"; "                },";
   "                elem: FuncRef,"; "            },"; "        },"; "    ],";
   "    mems: ["; "        Mem {"; "            ty: Mem {"; "                lim: Limits {"; "                    min: 3,";
   "                    max: None,"; "                },"; "            },"; "        },"; "    ],";
   "    globals: ["; "        Global {"; "            ty: Global {"; "                mt: Var,"; "                val: F64,"; "            },";
   "            init: ConstExpr("; "                ["; "                    ConstF64("; "                        NaN,"; "                    ),";
   "                ],"; "            ),"; "        },"; "    ],";
   "    elem: ["; "        Elem {"; "            table: Table("; "                0,"; "            ),"; "            offset: ConstExpr(";
   "                ["; "                    GlobalGet("; "                        Global("; "                            7,";
   "                        ),"; "                    ),"; "                ],"; "            ),"; "            init: [";
   "                Func("; "                    4,"; "                ),"; "                Func("; "                    5,"; "                ),";
   "            ],"; "        },"; "    ],";
   "    data: ["; "        Data {"; "            mem: Mem("; "                0,"; "            ),"; "            offset: ConstExpr(";
   "                [],"; "            ),"; "            init: ["; "                0,"; "                255,"; "            ],"; "        },"; "    ],";
   "    start: Some("; "        Start {"; "            func: Func("; "                9,"; "            ),"; "        },"; "    ),";
   "    imports: ["; "        Import {"; "            module: " ++ quote ++ "a" ++ quote ++ ","; "            name: " ++ quote ++ quote ++ ",";
   "            desc: Mem("; "                Mem {"; "                    lim: Limits {"; "                        min: 0,";
   "                        max: None,"; "                    },"; "                },"; "            ),"; "        },"; "    ],";
   "    exports: ["; "        Export {"; "            name: " ++ shown_name ++ ","; "            desc: Global(";
   "                Global("; "                    1,"; "                ),"; "            ),"; "        },"; "    ],"; "}"].
Proof. vm_compute. reflexivity. Qed.
(** two files that differ in a name only, or in the sign of a zero, have different printouts *)
Example C60_example_2 :
  show_module toy (mkModule [] [] [] [] [] [] [] None [] [mkExport [x5c; x22] (ED_Func 0)]%N)
    <> show_module toy (mkModule [] [] [] [] [] [] [] None [] [mkExport [x22] (ED_Func 0)]%N)
  /\ module_one_nan (mkModule [] [] [] [] [mkGlobal (mkGlobalTy Var T_F32) [I_ConstF32 0x80000000]] [] [] None [] [])%N
    <> module_one_nan (mkModule [] [] [] [] [mkGlobal (mkGlobalTy Var T_F32) [I_ConstF32 0]] [] [] None [] [])%N
  /\ module_one_nan (mkModule [] [] [] [] [mkGlobal (mkGlobalTy Var T_F32) [I_ConstF32 0xFFC00000]] [] [] None [] [])%N
    = module_one_nan (mkModule [] [] [] [] [mkGlobal (mkGlobalTy Var T_F32) [I_ConstF32 0x7F800001]] [] [] None [] [])%N.
Proof. repeat split; vm_compute; congruence. Qed.

(** C61 *)
Theorem C61_silent : forall std args fs os, output std args fs os = Some "" <-> cli args fs = Exit 0 [].
Proof. exact output_silent. Qed.
Print Assumptions C61_silent.
Theorem C61_status : forall std args1 args2 fs1 fs2 os1 os2 c1 c2 l1 l2,
  cli args1 fs1 = Exit c1 l1 -> cli args2 fs2 = Exit c2 l2 -> output std args1 fs1 os1 = output std args2 fs2 os2 ->
  c1 = c2 /\ (l1 = [] <-> l2 = []).
Proof. exact output_status. Qed.
Print Assumptions C61_status.
Theorem C61_crash : forall std args fs os, output std args fs os = None <-> cli args fs = Crash.
Proof. exact output_crash. Qed.
Print Assumptions C61_crash.
Definition any_file (bs : list byte) (name : string) : file := Contents bs.
Example C61_example :
  output toy ["x"; "f"] (any_file preamble) "" = Some ""
  /\ output toy ["x"; "f"; "-p"] (any_file preamble) "" = Some (lines ("Module {" :: map (fun k => ("    " ++ k ++ ": [],")%string)
       ["types"; "funcs"; "tables"; "mems"; "globals"; "elem"; "data"] ++ ["    start: None,"; "    imports: [],"; "    exports: [],"; "}"])%list)
  /\ output toy ["x"; "f"; "-p"] (any_file []) "" = Some (lines ["Error parsing file ""f""."; "Unexpected end of file."])
  /\ output toy [] (any_file []) "" = None.
Proof. repeat split; vm_compute; reflexivity. Qed.
