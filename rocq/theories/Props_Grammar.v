(** Property theorems C51 and C52: the older, declarative parser whasm/src/grammar. *)
From Verif Require Import ParserModule SpecFormat SpecGrammar GrammarProof.
Open Scope N_scope.

(** C51: it reads exactly a preamble and sections of the format, in any order and number, up to the end of the input *)
Theorem C51_module_exact : forall bs secs rest, g_module bs = (GOk secs, rest) <->
  rest = [] /\ exists body, bs = preamble ++ body /\ enc_list (enc_section whasm_format) body (map section_of secs).
Proof. exact gmodule_exact. Qed.
Print Assumptions C51_module_exact.
(** C51: the current parser accepts what the older one reads as a module with ordered sections and matching counts of functions,
    and its result is the module of these sections *)
Theorem C51_module_agree : forall bs m, (exists rest, p_module bs = (Ok m, rest)) <->
  exists secs rest, g_module bs = (GOk secs, rest) /\ ordered (map section_of secs) /\
    counts_match whasm_format (map section_of secs) /\ m = module_of (map section_of secs).
Proof. exact gmodule_agree. Qed.
Print Assumptions C51_module_agree.
(** C51: it terminates without a panic on every input *)
Theorem C51_total : gtotal g_module.
Proof. exact gtotal_module. Qed.
Print Assumptions C51_total.

(** the module of the documentation, grammar/mod.rs:19-52 *)
Definition documented : list byte :=
  [x00; x61; x73; x6d; x01; x00; x00; x00; x01; x05; x01; x60; x00; x01; x7f; x03; x02; x01; x00; x07; x08; x01;
   x04; x6d; x61; x69; x6e; x00; x00; x0a; x0a; x01; x84; x80; x80; x80; x00; x00; x41; x2a; x0b].
(** the module of the test, grammar/mod.rs:71-77 *)
Definition tested : list byte :=
  [x00; x61; x73; x6d; x01; x00; x00; x00; x01; x85; x80; x80; x80; x00; x01; x60;
   x00; x01; x7f; x03; x82; x80; x80; x80; x00; x01; x00; x04; x84; x80; x80; x80;
   x00; x01; x70; x00; x00; x06; x81; x80; x80; x80; x00; x00; x07; x88; x80; x80;
   x80; x00; x01; x04; x74; x65; x73; x74; x00; x00; x0a; x8a; x80; x80; x80; x00;
   x01; x84; x80; x80; x80; x00; x00; x41; x2a; x0b].
Example C51_example :
  g_module preamble = (GOk [], [])
  /\ g_module documented = (GOk [GS_Type [mkFuncTy [] [T_I32]]; GS_Function [0];
       GS_Export [mkExport [x6d; x61; x69; x6e] (ED_Func 0)]; GS_Code [([], [I_ConstI32 42%Z])]], [])
  /\ g_module tested = (GOk [GS_Type [mkFuncTy [] [T_I32]]; GS_Function [0]; GS_Table [mkTable (mkTableTy (mkLimits 0 None) FuncRef)];
       GS_Global []; GS_Export [mkExport [x74; x65; x73; x74] (ED_Func 0)]; GS_Code [([], [I_ConstI32 42%Z])]], [])
  /\ (* sections out of order, and one that occurs twice *)
     g_module (preamble ++ [x03; x02; x01; x00; x01; x01; x00; x01; x01; x00])
     = (GOk [GS_Function [0]; GS_Type []; GS_Type []], [])
  /\ (exists e r, p_module (preamble ++ [x03; x02; x01; x00; x01; x01; x00; x01; x01; x00]) = (Err e, r))
  /\ (* a wrong version, an unknown section and a section with bytes left *)
     g_module [x00; x61; x73; x6d; x02; x00; x00; x00] = (GErr G_UnsatisfiedMatch, [])
  /\ g_module (preamble ++ [x0c; x00]) = (GErr G_InvalidEnumDiscriminant, [x00])
  /\ g_module (preamble ++ [x01; x02; x00; x00]) = (GErr G_RemainingBytesInStream, [x00]).
Proof.
  split; [vm_compute; reflexivity|]. split; [vm_compute; reflexivity|]. split; [vm_compute; reflexivity|]. split; [vm_compute; reflexivity|].
  split; [eexists _, _; vm_compute; reflexivity|]. repeat split; vm_compute; reflexivity.
Qed.

(** C52: every element is read exactly in its format *)
Theorem C52_elements_exact :
  gexact g_u32 (enc_u32 whasm_format) /\ gexact g_i32 (enc_s whasm_format 32) /\ gexact g_i64 (enc_s whasm_format 64) /\
  gexact g_f32 (enc_float 4) /\ gexact g_f64 (enc_float 8) /\ gexact g_string (enc_name whasm_format) /\
  gexact g_valtype enc_valty /\ gexact g_blocktype enc_blockty /\ gexact g_functype (enc_functy whasm_format) /\
  gexact g_limits (enc_limits whasm_format) /\ gexact g_memtype (enc_memty whasm_format) /\ gexact g_tabletype (enc_tablety whasm_format) /\
  gexact g_globaltype enc_globalty /\ gexact g_expression (enc_expr whasm_format) /\
  gexact g_import (enc_import whasm_format) /\ gexact g_export (enc_export whasm_format) /\ gexact g_table (enc_table whasm_format) /\
  gexact g_memory (enc_mem whasm_format) /\ gexact g_global (enc_global whasm_format) /\ gexact g_start (enc_start whasm_format) /\
  gexact g_element (enc_elem whasm_format) /\ gexact g_data (enc_data whasm_format) /\
  gexact g_section (fun bs s => enc_section whasm_format bs (section_of s)).
Proof. exact elements_exact. Qed.
Print Assumptions C52_elements_exact.
(** C52: and ends with a value or an error *)
Theorem C52_elements_total :
  gtotal g_u32 /\ gtotal g_i32 /\ gtotal g_i64 /\ gtotal g_f32 /\ gtotal g_f64 /\ gtotal g_string /\ gtotal g_functype /\
  gtotal g_globaltype /\ gtotal g_tabletype /\ gtotal g_memtype /\ gtotal g_expression /\ gtotal g_import /\ gtotal g_export /\
  gtotal g_global /\ gtotal g_element /\ gtotal g_data /\ gtotal g_section.
Proof. exact elements_total. Qed.
Print Assumptions C52_elements_total.
(** C52: and the integers of the widths that no element uses *)
Theorem C52_widths_exact :
  gexact g_u8 (enc_u whasm_format 8) /\ gexact g_u16 (enc_u whasm_format 16) /\ gexact g_u64 (enc_u whasm_format 64) /\
  gexact g_i8 (enc_s whasm_format 8) /\ gexact g_i16 (enc_s whasm_format 16).
Proof. exact widths_exact. Qed.
Print Assumptions C52_widths_exact.
Theorem C52_widths_total : gtotal g_u8 /\ gtotal g_u16 /\ gtotal g_u64 /\ gtotal g_i8 /\ gtotal g_i16.
Proof. exact widths_total. Qed.
Print Assumptions C52_widths_total.
(** C52: the shared elements behave as in the current parser, on every input and at every width *)
Theorem C52_core_agree :
  (forall size, agree (p_unsigned size) (g_unsigned size)) /\ (forall size, agree (p_signed size) (g_signed size)) /\
  agree p_string g_string /\ agree p_valty g_valtype /\ agree p_retval g_blocktype /\ agree p_functy g_functype /\ agree p_limits g_limits /\
  agree p_expr g_expression /\ (forall A (p : parser A) g, agree p g -> agree (p_vec p) (g_vec g) /\ agree (p_compact_vec p) (g_vecvec g) /\ agree (p_sized p) (g_sized g)).
Proof. exact core_agree. Qed.
Print Assumptions C52_core_agree.
Example C52_example :
  (* the tests of grammar/instr.rs:278-312 and the documentation of signed.rs and unsigned.rs *)
  g_expression [x01; x01; x01; x0b] = (GOk [I_Nop; I_Nop; I_Nop], [])
  /\ g_expression [x01; x01; x01; x05; x01; x01; x0b] = (GErr G_UnexpectedInstruction, [x01; x01; x0b])
  /\ g_expression [x04; x40; x01; x01; x05; x01; x0b; x0b] = (GOk [I_If [] [I_Nop; I_Nop] [I_Nop]], [])
  /\ g_expression [x04; x40; x01; x01; x01; x0b; x0b; x7f] = (GOk [I_If [] [I_Nop; I_Nop; I_Nop] []], [x7f])
  /\ g_expression [x04; x40; x01; x01; x05; x01; x05] = (GErr G_UnexpectedInstruction, [])
  /\ g_u8 [x83; x00] = (GOk 3, []) /\ g_u8 [x83; x10] = (GErr G_OutOfRangeUnsignedInteger, [])
  /\ g_i8 [xfe; xff; x7f] = (GOk (-2)%Z, []) /\ g_i8 [x83; x3e] = (GErr G_OutOfRangeSignedInteger, [])
  /\ g_vecvec g_u8 [x02; x03; x01; x02; x05] = (GOk [1; 1; 1; 5; 5], []).
Proof. repeat split; vm_compute; reflexivity. Qed.
