(** C65: which error is reported for an input that is not a module, and where. *)
From Coq Require Import String.
From Verif Require Import ParserModule SpecFormat SpecBlame BlameProof.
Open Scope N_scope.
Open Scope list_scope.

(** [p_module] fails with [e] leaving [r] exactly when the grammar blames the input so. *)
Theorem C65_module : forall bs e r, p_module bs = (Err e, r) <-> f_module bs e r.
Proof. exact blames_module. Qed.
Print Assumptions C65_module.

(** The same for every element: what is read and what is reported are both determined. *)
Theorem C65_elements : forall A (p : parser A) (E : format A) (F : failure), reads A p E F -> forall bs,
  (forall a rest, p bs = (Ok a, rest) <-> exists pre, bs = pre ++ rest /\ E pre a) /\
  (forall e rest, p bs = (Err e, rest) <-> F bs e rest).
Proof. exact elements_described. Qed.
Print Assumptions C65_elements.

(** Every input is either a module or blamed, and blamed in one way only. *)
Theorem C65_either : forall bs,
  ((exists m, enc_module whasm_format bs m) \/ (exists e r, f_module bs e r)) /\
  ~ ((exists m, enc_module whasm_format bs m) /\ (exists e r, f_module bs e r)) /\
  (forall e r e' r', f_module bs e r -> f_module bs e' r' -> e = e' /\ r = r').
Proof. exact module_either. Qed.
Print Assumptions C65_either.

(** A module with a type section, a custom section and a function section of the wrong size; what is
    left is the end of the function section and all behind it. *)
Example C65_example_size : f_module
  (preamble ++ [x01; x04; x01; x60; x00; x00] ++ [x00; x02; x01; x61] ++ [x03; x03; x01; x00; x00] ++ [x0a; x01; x00])
  SizeMissmatch [x00; x0a; x01; x00].
Proof. apply C65_module. vm_compute. reflexivity. Qed.
(** An [else] in a block in an else branch *)
Example C65_example_else : f_expr [x04; x40; x05; x01; x02; x40; x41; x05; x05; x0b; x0b] (UnexpectedOpcode "Else") [x0b; x0b].
Proof.
  exists [], [], [x04; x40; x05; x01; x02; x40; x41; x05; x05; x0b; x0b].
  split; [reflexivity|]. split; [constructor|]. left.
  refine (fi_branch [x40] [] [] [] [x01] [I_Nop] [x02; x40; x41; x05; x05; x0b; x0b] _ _ _ _ _ _).
  - left. auto.
  - constructor.
  - apply (enc_instrs_cons _ I_Nop [] [x01] []); [apply enc_plain; reflexivity|constructor].
  - refine (fi_else x02 [x40] [] [x41; x05] [I_ConstI32 5%Z] [x0b; x0b] _ _ _).
    + auto.
    + left. auto.
    + apply (enc_instrs_cons _ (I_ConstI32 5%Z) [] [x41; x05] []); [|constructor].
      apply (enc_i32_const _ 5%Z [x05]). repeat split; try constructor; reflexivity || discriminate || auto.
Qed.
