(** Property theorem C49: canonical files. *)
From Verif Require Import ParserModule SpecFormat SpecCode SpecEncoder CanonProof UniqueProof LengthsProof.
Open Scope N_scope.

(** C49: the canonical encoding of what a file denotes is a file that denotes the same, and none is shorter *)
Theorem C49_canonical : forall bs m, p_module bs = (Ok m, []) -> few_locals m ->
  (length (encode m) <= length bs)%nat /\ p_module (encode m) = (Ok m, []).
Proof. exact parsed_canonical. Qed.
Print Assumptions C49_canonical.
(** it is the only one of its length: every other file of the module is longer *)
Theorem C49_unique : forall bs m, p_module bs = (Ok m, []) -> bs = encode m \/ (length (encode m) < length bs)%nat.
Proof. exact parsed_shortest. Qed.
Print Assumptions C49_unique.
Theorem C49_shortest : forall m bs, few_locals m -> p_module bs = (Ok m, []) ->
  ((forall bs', p_module bs' = (Ok m, []) -> (length bs <= length bs')%nat) <-> bs = encode m).
Proof. exact one_shortest. Qed.
Print Assumptions C49_shortest.
(** exactly the representable modules are denoted by files *)
Theorem C49_image : forall m, representable m <-> few_locals m /\ exists bs, p_module bs = (Ok m, []).
Proof. exact image_of_parser. Qed.
Print Assumptions C49_image.
(** what official files denote, and which parsed files have an official counterpart *)
Theorem C49_official_image : forall m, (exists bs, enc_module wasm10_format bs m) <->
  representable m /\ (forall e, In e (module_exprs m) -> reserved_zero e).
Proof. exact official_image. Qed.
Print Assumptions C49_official_image.
Theorem C49_official_counterpart : forall bs m, p_module bs = (Ok m, []) ->
  ((exists bs', enc_module wasm10_format bs' m) <-> few_locals m /\ forall e, In e (module_exprs m) -> reserved_zero e).
Proof. exact parsed_official. Qed.
Print Assumptions C49_official_counterpart.
(** how long the files of a module are: as long as the canonical one or longer by any number of bytes, but that those of the
    empty module are not longer by one byte or two *)
Theorem C49_lengths : forall m n, representable m ->
  ((exists bs, length bs = n /\ p_module bs = (Ok m, [])) <->
   (length (encode m) <= n)%nat /\ (m = default_module -> n = 8%nat \/ (11 <= n)%nat)).
Proof. exact file_lengths. Qed.
Print Assumptions C49_lengths.
(** a file with padded integers, a custom section, an empty section, locals in three runs and an empty else branch *)
Definition wasteful : list byte := preamble
  ++ [x00; x02; x01; x61] ++ [x01; x84; x80; x00; x01; x60; x00; x00] ++ [x02; x01; x00] ++ [x03; x02; x01; x00]
  ++ [x0a; x15; x01; x13; x03; x01; x7f; x82; x00; x7f; x00; x7d; x41; xff; xff; xff; x7f; x04; x40; x01; x05; x0b; x0b].
Example C49_example :
  let m := mkModule [mkFuncTy [] []] [mkFunc 0 [T_I32; T_I32; T_I32] [I_ConstI32 (-1)%Z; I_If [] [I_Nop] []]] [] [] [] [] [] None [] [] in
  p_module wasteful = (Ok m, []) /\
  encode m = preamble ++ [x01; x04; x01; x60; x00; x00] ++ [x03; x02; x01; x00]
    ++ [x0a; x0c; x01; x0a; x01; x03; x7f; x41; x7f; x04; x40; x01; x0b; x0b] /\
  p_module (encode m) = (Ok m, []).
Proof. repeat split; vm_compute; reflexivity. Qed.
(** each freedom of the format costs at least a byte: an empty section, a custom section, a padded integer,
    a split run of locals, an empty run, an empty else branch, functions without code *)
Example C49_example_freedoms :
  let file secs := preamble ++ [x01; x04; x01; x60; x00; x00] ++ secs in
  let code body := [x03; x02; x01; x00; x0a] ++ body in
  let m := mkModule [mkFuncTy [] []] [mkFunc 0 [T_I32; T_I32] [I_Unreachable; I_If [] [] []]] [] [] [] [] [] None [] [] in
  let e := file (code [x0a; x01; x08; x01; x02; x7f; x00; x04; x40; x0b; x0b]) in
  encode m = e /\
  Forall (fun bs => p_module bs = (Ok m, []) /\ (length e < length bs)%nat)
    [file ([x02; x01; x00] ++ code [x0a; x01; x08; x01; x02; x7f; x00; x04; x40; x0b; x0b]);
     file ([x00; x01; x00] ++ code [x0a; x01; x08; x01; x02; x7f; x00; x04; x40; x0b; x0b]);
     file (code [x8a; x00; x01; x08; x01; x02; x7f; x00; x04; x40; x0b; x0b]);
     file (code [x0c; x01; x0a; x02; x01; x7f; x01; x7f; x00; x04; x40; x0b; x0b]);
     file (code [x0c; x01; x0a; x02; x02; x7f; x00; x7e; x00; x04; x40; x0b; x0b]);
     file (code [x0b; x01; x09; x01; x02; x7f; x00; x04; x40; x05; x0b; x0b])] /\
  let m0 := mkModule [mkFuncTy [] []] [] [] [] [] [] [] None [] [] in
  p_module (file [x03; x02; x01; x00]) = (Ok m0, []) /\ encode m0 = file [].
Proof.
  split; [vm_compute; reflexivity|]. split; [|split; vm_compute; reflexivity].
  repeat apply Forall_cons; try apply Forall_nil; (split; [vm_compute; reflexivity|apply Nat.ltb_lt; vm_compute; reflexivity]).
Qed.
(** files of 8, 11 and 12 bytes for the empty module; of 11, 12 and 13 bytes for one with a start function *)
Example C49_example_lengths :
  let m := mkModule [] [] [] [] [] [] [] (Some (mkStart 0)) [] [] in
  encode default_module = preamble /\ encode m = preamble ++ [x08; x01; x00] /\
  Forall (fun bs => p_module bs = (Ok default_module, [])) [preamble; preamble ++ [x00; x01; x00]; preamble ++ [x00; x02; x00; x00]] /\
  Forall (fun bs => p_module bs = (Ok m, [])) [preamble ++ [x08; x01; x00]; preamble ++ [x08; x81; x00; x00]; preamble ++ [x08; x81; x80; x00; x00]].
Proof. repeat split; repeat constructor; vm_compute; reflexivity. Qed.
