(** Property theorems C87: every request for memory of reading a file follows from what the file says. *)
From Verif Require Import ProgramHost SpecFormat SpecReading SpecEncoder ReadingProof LeanProof.
Open Scope N_scope.

(** C87: the requests of an accepted file are those of its sections, in order *)
Theorem C87_requests : forall body secs m r, enc_list (enc_section whasm_format) body secs -> p_module (preamble ++ body) = (Ok m, r) ->
  sections_need secs (requests (preamble ++ body)).
Proof. exact reading_needs. Qed.
Print Assumptions C87_requests.
(** C87: without custom sections, and with a body for every function, the vectors that are asked for and are not empty, other than for
    local variables, are those of the module, whatever the file looks like *)
Theorem C87_module : forall body secs m r, enc_list (enc_section whasm_format) body secs -> p_module (preamble ++ body) = (Ok m, r) ->
  (forall c, ~ In (S_Custom c) secs) -> length (flat_map sec_typeidxs secs) = length (flat_map sec_codes secs) ->
  filter settled_by_module (requests (preamble ++ body)) = module_room m.
Proof. exact reading_settled. Qed.
Print Assumptions C87_module.
(** C87: the shortest file of a module asks for nothing that another file of it does not ask for (a function must have fewer than 2^32
    local variables, or there is no shortest file of this form) ... *)
Theorem C87_shortest : forall bs m, p_module bs = (Ok m, []) -> few_locals m -> incl (requests (encode m)) (requests bs).
Proof. exact lean. Qed.
Print Assumptions C87_shortest.
(** ... so that whatever the allocator and the stack of a host allow, the shortest file can be read if any file of the module can *)
Theorem C87_shortest_host : forall allows bs m, few_locals m -> parse_within allows bs = Ok m -> parse_within allows (encode m) = Ok m.
Proof. exact lean_within. Qed.
Print Assumptions C87_shortest_host.
(** ... and the whole program treats it as it treats that file, if that does not crash *)
Theorem C87_shortest_program : forall allows overflows checks bits args fs fs' cfg bs m, few_locals m -> config_new args = Some cfg ->
  fs (cfg_filename cfg) = Contents bs -> fs' (cfg_filename cfg) = Contents (encode m) -> p_module bs = (Ok m, []) ->
  program_on allows overflows checks bits args fs <> Crash -> program_on allows overflows checks bits args fs' = program_on allows overflows checks bits args fs.
Proof. exact lean_program. Qed.
Print Assumptions C87_shortest_program.
(** Two files of one module: the second has an empty section, its local variables in three groups and an empty branch *)
Definition terse : list byte := preamble ++ [x01; x04; x01; x60; x00; x00; x03; x02; x01; x00] ++
  [x0a; x0f; x01; x0d; x01; x03; x7f; x41; x00; x04; x40; x0e; x01; x00; x00; x0b; x0b].
Definition wordy : list byte := preamble ++ [x01; x04; x01; x60; x00; x00; x02; x01; x00; x03; x02; x01; x00] ++
  [x0a; x14; x01; x12; x03; x01; x7f; x00; x7e; x02; x7f; x41; x00; x04; x40; x0e; x01; x00; x00; x05; x0b; x0b].
Example C87_example :
  let m := mkModule [mkFuncTy [] []] [mkFunc 0 [T_I32; T_I32; T_I32] [I_ConstI32 0%Z; I_If [] [I_BrTable [0] 0] []]] [] [] [] [] [] None [] [] in
  encode m = terse /\ p_module terse = (Ok m, []) /\ p_module wordy = (Ok m, []) /\
  requests terse = [Reserve V_Func_ty 1; Reserve V_Val 0; Reserve V_Val 0; Reserve V_Type 1; Reserve V_Func 1; Hold V_Val 3;
    Hold V_Instr 1; Nest 1; Reserve V_Label 1; Hold V_Instr 1; Hold V_Instr 2] /\
  requests wordy = [Reserve V_Func_ty 1; Reserve V_Val 0; Reserve V_Val 0; Reserve V_Import 0; Reserve V_Type 1; Reserve V_Func 1;
    Hold V_Val 1; Hold V_Val 1; Hold V_Val 3; Hold V_Instr 1; Nest 1; Reserve V_Label 1; Hold V_Instr 1; Nest 1; Hold V_Instr 2] /\
  module_room m = [Reserve V_Func_ty 1; Reserve V_Type 1; Reserve V_Func 1; Hold V_Instr 1; Reserve V_Label 1; Hold V_Instr 1; Hold V_Instr 2].
Proof. repeat split; vm_compute; reflexivity. Qed.
(** A host that refuses a vector of no imports reads only the first; one that refuses a vector of three value types, neither *)
Example C87_example_host :
  let no_imports e := match e with Reserve V_Import 0 => false | _ => true end in
  let no_three e := match e with Hold V_Val 3 => false | _ => true end in
  fst (p_module wordy) = parse_within (fun _ => true) wordy /\ parse_within no_imports wordy = Panic /\ parse_within no_imports terse = fst (p_module terse) /\
  parse_within no_three wordy = Panic /\ parse_within no_three terse = Panic.
Proof. repeat split; vm_compute; reflexivity. Qed.
