(** C88: how long reading a file takes, to the step. *)
From Verif Require Import SpecEncoder SpecFormat ParserModule ParserCost EncodeProof StepsProof SpecSteps.
Open Scope N_scope.

(** C88: reading an accepted file takes just the steps that follow from what the file says *)
Theorem C88_exact : forall bs secs total m rest, file_takes bs secs total -> p_module bs = (Ok m, rest) -> steps_taken (parsing_cost bs) = total.
Proof. exact file_time. Qed.
Print Assumptions C88_exact.
(** C88: there is such a number for every file that can be cut into sections *)
Theorem C88_every : forall body secs, enc_list (enc_section whasm_format) body secs -> exists total, file_takes (preamble ++ body) secs total.
Proof. exact file_has. Qed.
Print Assumptions C88_every.
(** C88: so that every accepted file has it, with sections that say what was read *)
Theorem C88_accepted : forall bs m rest, p_module bs = (Ok m, rest) ->
  exists secs, file_takes bs secs (steps_taken (parsing_cost bs)) /\ m = module_of secs.
Proof. exact accepted_time. Qed.
Print Assumptions C88_accepted.
(** C88: eight steps for each byte, the bound of C74, are taken by files of any length up to 2 GiB *)
Theorem C88_eight : forall k, N.of_nat k < 2 ^ 31 ->
  p_module (busy k) = (Ok (mkModule [mkFuncTy [] []] [mkFunc 0 [] (repeat I_Nop k)] [] [] [] [] [] None [] []), []) /\ (k <= length (busy k))%nat /\
  8 * N.of_nat (length (busy k)) <= steps_taken (parsing_cost (busy k)) + 160.
Proof. exact eight_steps. Qed.
Print Assumptions C88_eight.

(** A custom section of the name "a" and one byte more: 13 bytes, 5 of them through the adapter that looks ahead, 3 through two more; 3 steps
    for the name, 3 for noticing the end of the section, a round for the section and 3 steps at the end *)
Definition custom_file : list byte := preamble ++ [x00; x03; x01; x61; x05].
Example C88_example_custom : file_takes custom_file [S_Custom ([x61], [x05])] 34 /\ steps_taken (parsing_cost custom_file) = 34.
Proof.
  split; [|vm_compute; reflexivity]. exists [x00; x03; x01; x61; x05], 21. split; [reflexivity|]. split; [|reflexivity].
  apply (T_section x00 [x03; x01; x61; x05] (S_Custom ([x61], [x05])) 12 [] [] 3); [reflexivity| |constructor].
  exists [x03], [x01; x61; x05], 6. split; [reflexivity|]. split; [apply (e_u32_ok whasm_format (fun _ _ _ => I) 3); reflexivity|]. split; [|reflexivity].
  split; [|reflexivity]. exists [x01; x61]. split; [reflexivity|]. split.
  - exists [x01], [x61]. split; [reflexivity|]. split; [apply (e_u32_ok whasm_format (fun _ _ _ => I) 1); reflexivity|]. exists [[x61]]. repeat constructor.
  - exists [97]. split; [|reflexivity]. repeat constructor; left; reflexivity.
Qed.
Example C88_example_busy : map (fun k => steps_taken (parsing_cost (busy k))) [0%nat; 1%nat; 2%nat; 10%nat; 100%nat] = [78; 86; 94; 158; 878].
Proof. vm_compute. reflexivity. Qed.
(** A function with two groups of local variables, a block with an [if] that has both branches, and a [br_table] of two labels: 47 bytes,
    17 steps for the types, 11 for the functions, 163 for the code (24 for the instructions, 2 for the groups, the rest for adapters and rounds),
    3 at the end *)
Definition branching_file : list byte :=
  preamble ++ [x01; x04; x01; x60; x00; x00] ++ [x03; x02; x01; x00] ++
  [x0a; x1b; x01; x19; x02; x02; x7f; x01; x7e; x02; x40; x41; x00; x04; x40; x01; x05; x01; x01; x0b; x20; x00; x0e; x02; x00; x00; x00; x0b; x0b].
Example C88_example_branching : (exists m, p_module branching_file = (Ok m, [])) /\ steps_taken (parsing_cost branching_file) = 241.
Proof. split; [eexists|]; vm_compute; reflexivity. Qed.
