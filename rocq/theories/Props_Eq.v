(** Property theorem C62: [==] on modules. *)
From Verif Require Import Equality SpecEq ParserModule EqualityProof.
Open Scope N_scope.

(** C62.  The full statement: [==] is equality, [eq_module m1 m2 = true <-> m1 = m2], and so reflexive. *)
Theorem C62_equal_partial : forall m1 m2, eq_module m1 m2 = true <-> same_but_zeros m1 m2 /\ no_nan m1.
Proof. exact eq_module_iff. Qed.
Print Assumptions C62_equal_partial.
Theorem C62_reflexive_partial : forall m, eq_module m m = true <-> no_nan m.
Proof. exact eq_reflexive. Qed.
Print Assumptions C62_reflexive_partial.
Theorem C62_symmetric : forall m1 m2, eq_module m1 m2 = eq_module m2 m1.
Proof. exact eq_symmetric. Qed.
Print Assumptions C62_symmetric.
Theorem C62_transitive : forall m1 m2 m3, eq_module m1 m2 = true -> eq_module m2 m3 = true -> eq_module m1 m3 = true.
Proof. exact eq_transitive. Qed.
Print Assumptions C62_transitive.
Theorem C62_reflexive_refuted : exists bytes m, p_module bytes = (Ok m, []) /\ eq_module m m = false.
Proof. exact eq_reflexive_refuted. Qed.
Print Assumptions C62_reflexive_refuted.
Theorem C62_zeros_refuted : exists bytes1 bytes2 m1 m2,
  p_module bytes1 = (Ok m1, []) /\ p_module bytes2 = (Ok m2, []) /\ m1 <> m2 /\ eq_module m1 m2 = true.
Proof. exact eq_zeros_refuted. Qed.
Print Assumptions C62_zeros_refuted.
(** the comparisons [next == Instr::Else] and [next == Instr::End] of the parser *)
Theorem C62_markers : forall i, eq_instr i I_Else = is_else i /\ eq_instr i I_End = is_end i.
Proof. exact eq_markers. Qed.
Print Assumptions C62_markers.

(** every component of a module; [x] is a constant two blocks deep, [n] a byte of a name *)
Definition compared (x : N) (n : byte) : module :=
  mkModule [mkFuncTy [T_I32; T_F64] []]
    [mkFunc 0 [T_I64] [I_Block [T_F32] [I_If [] [I_BrTable [0; 1] 2] [I_ConstF32 x]]; I_I64Load8U 0 8; I_ConstI32 (-5)%Z]]
    [mkTable (mkTableTy (mkLimits 1 (Some 2)) FuncRef)] [mkMem (mkMemTy (mkLimits 3 None))]
    [mkGlobal (mkGlobalTy Var T_F64) [I_ConstF64 0x3FF0000000000000]] [mkElem 0 [I_GlobalGet 7] [4; 5]] [mkData 0 [] [x00; xff]]
    (Some (mkStart 9)) [mkImport [x61] [] (ID_Mem (mkMemTy (mkLimits 0 None)))] [mkExport [x22; n] (ED_Global 1)].
Example C62_example :
  eq_module (compared 1 x5c) (compared 1 x5c) = true
  /\ eq_module (compared 1 x5c) (compared 1 x5d) = false
  /\ eq_module (compared 1 x5c) (compared 2 x5c) = false
  /\ eq_module (compared 0x80000000 x5c) (compared 0 x5c) = true
  /\ eq_module (compared 0x7F800001 x5c) (compared 0x7F800001 x5c) = false
  /\ eq_module (compared 0x7F800000 x5c) (compared 0x7F800000 x5c) = true
  /\ eq_module (compared 0x7F800000 x5c) (compared 0xFF800000 x5c) = false.
Proof. repeat split; vm_compute; reflexivity. Qed.
