(** Property theorems C80: the four places where the format that whasm reads is wider than the official one. *)
From Verif Require Import ParserModule SpecParser SpecFormatList SpecEncoder SpecDeviations SpecVerdict FormatListProof FormatListClaims.
Open Scope N_scope.

(** C80: two dialects give one file the same meaning, and a file of both is a file of what both allow *)
Theorem C80_one_meaning : forall d d' bs m m', enc_module d bs m -> enc_module d' bs m' -> m = m' /\ enc_module (meet d d') bs m.
Proof. exact meets_module. Qed.
Print Assumptions C80_one_meaning.
(** C80: the official format is the conjunction of the four restrictions *)
Theorem C80_four : forall bs m, enc_module wasm10_format bs m <->
  enc_module short_integers bs m /\ enc_module zero_reserved bs m /\ enc_module bounded_locals bs m /\ enc_module present_code bs m.
Proof. exact official_four. Qed.
Print Assumptions C80_four.
(** C80: a file that whasm reads is an official one exactly when its integers are short, its reserved indices are zero
    bytes, its functions have fewer than 2^32 locals and every declared function has a body *)
Theorem C80_exact : forall bs m, p_module bs = (Ok m, []) ->
  (enc_module wasm10_format bs m <->
   enc_module short_integers bs m /\ enc_module zero_reserved bs m /\ few_locals m /\ all_bodies bs).
Proof. exact format_exact. Qed.
Print Assumptions C80_exact.
(** C80: none of the four follows from the others *)
Theorem C80_independent :
  (exists bs m, enc_module any_integers bs m /\ ~ enc_module wasm10_format bs m) /\
  (exists bs m, enc_module any_reserved bs m /\ ~ enc_module wasm10_format bs m) /\
  (exists bs m, enc_module any_locals bs m /\ ~ enc_module wasm10_format bs m) /\
  (exists bs m, enc_module any_code bs m /\ ~ enc_module wasm10_format bs m).
Proof. exact independent. Qed.
Print Assumptions C80_independent.
Theorem C80_relaxed : forall bs m,
  (enc_module any_integers bs m <-> enc_module zero_reserved bs m /\ enc_module bounded_locals bs m /\ enc_module present_code bs m) /\
  (enc_module any_reserved bs m <-> enc_module short_integers bs m /\ enc_module bounded_locals bs m /\ enc_module present_code bs m) /\
  (enc_module any_locals bs m <-> enc_module short_integers bs m /\ enc_module zero_reserved bs m /\ enc_module present_code bs m) /\
  (enc_module any_code bs m <-> enc_module short_integers bs m /\ enc_module zero_reserved bs m /\ enc_module bounded_locals bs m).
Proof. exact relaxed. Qed.
Print Assumptions C80_relaxed.
(** C80: together with the list of C53, reading and validating a file compared with the official rules *)
Theorem C80_accepted_files : forall bs m, p_module bs = (Ok m, []) -> accepted m ->
  (enc_module wasm10_format bs m /\ valid_module wasm10_validity m <->
   (enc_module short_integers bs m /\ enc_module zero_reserved bs m /\ few_locals m /\ all_bodies bs) /\ unchecked m).
Proof. exact files_both. Qed.
Print Assumptions C80_accepted_files.
Theorem C80_official_files : forall bs m, enc_module wasm10_format bs m -> valid_module wasm10_validity m ->
  (p_module bs = (Ok m, []) /\ accepted m <-> overchecked m).
Proof. exact official_files. Qed.
Print Assumptions C80_official_files.

(** a section whose size is written in six bytes: read and accepted, and the only complaint is the length of an integer *)
Example C80_example_integers : p_module long_size = (Ok default_module, []) /\ accepted default_module /\
  ~ enc_module short_integers long_size default_module /\ enc_module zero_reserved long_size default_module /\
  few_locals default_module /\ all_bodies long_size.
Proof.
  pose proof ints_file as F. assert (P : p_module long_size = (Ok default_module, [])) by (vm_compute; reflexivity).
  apply (proj1 (relaxed _ _)) in F as (Z & B & C). apply bounded_exact in B as B'. apply present_exact in C as C'.
  split; [exact P|]. split; [eexists; vm_compute; reflexivity|]. split; [|split; [exact Z|split; [apply B'|apply C']]].
  intros S. apply (ints_not default_module). apply official_four. auto.
Qed.
(** a declared function without a body: read as a module without functions, and accepted *)
Example C80_example_bodies : p_module no_bodies = (Ok (mkModule [mkFuncTy [] []] [] [] [] [] [] [] None [] []), []) /\
  accepted (mkModule [mkFuncTy [] []] [] [] [] [] [] [] None [] []) /\ ~ all_bodies no_bodies.
Proof.
  split; [vm_compute; reflexivity|]. split; [eexists; vm_compute; reflexivity|]. intros B. apply code_not.
  pose proof code_file as F. apply (proj2 (proj2 (proj2 (relaxed _ _)))) in F as (S & Z & L). apply official_four.
  split; [exact S|]. split; [exact Z|]. split; [exact L|]. apply present_exact. split; [|exact B]. apply bounded_exact in L. apply L.
Qed.
(** memory.size with reserved byte 1: read, and rejected by the validator *)
Example C80_example_reserved : p_module other_memory = (Ok (module_of other_memory_secs), []) /\
  ~ accepted (module_of other_memory_secs) /\ ~ enc_module zero_reserved other_memory (module_of other_memory_secs).
Proof.
  split; [vm_compute; reflexivity|]. split; [intros [mt H]; vm_compute in H; discriminate H|]. intros Z. apply reserved_not.
  pose proof reserved_file as F. apply (proj1 (proj2 (relaxed _ _))) in F as (S & L & C). apply official_four. auto.
Qed.
