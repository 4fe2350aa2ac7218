(** Property theorems C81: sections can be exchanged between files. *)
From Verif Require Import ParserModule SpecPieces PiecesProof.
Open Scope N_scope.

(** C81: an accepted file is cut into sections in one way; no file is cut in two *)
Theorem C81_cut : forall bs m, p_module bs = (Ok m, []) -> exists! ps, Forall well_sized ps /\ bs = file ps.
Proof. exact accepted_cut. Qed.
Print Assumptions C81_cut.
Theorem C81_cut_unique : forall ps ps', Forall well_sized ps -> Forall well_sized ps' -> file ps = file ps' -> ps = ps'.
Proof. exact file_unique. Qed.
Print Assumptions C81_cut_unique.
(** C81: sections picked from two accepted files make an accepted file, of the module with these components *)
Theorem C81_mix : forall pick ps ps' m m', Forall well_sized ps -> Forall well_sized ps' ->
  p_module (file ps) = (Ok m, []) -> p_module (file ps') = (Ok m', []) -> compatible pick m m' ->
  p_module (file (mix_pieces pick ps ps')) = (Ok (mix_modules pick m m'), []).
Proof. exact mix_parses. Qed.
Print Assumptions C81_mix.
(** C81: a section replaced, where it stands, by one of another file *)
Theorem C81_replace : forall a p b a' p' b' m m', Forall well_sized (a ++ p :: b) -> Forall well_sized (a' ++ p' :: b') ->
  p_module (file (a ++ p :: b)) = (Ok m, []) -> p_module (file (a' ++ p' :: b')) = (Ok m', []) ->
  pc_id p = pc_id p' -> compatible (Byte.eqb (pc_id p)) m m' ->
  p_module (file (a ++ p' :: b)) = (Ok (mix_modules (Byte.eqb (pc_id p)) m m'), []).
Proof. exact replace_parses. Qed.
Print Assumptions C81_replace.
(** C81: sections of a kind left out (without the function section the code section would stand alone) *)
Theorem C81_drop : forall ps m id, Forall well_sized ps -> p_module (file ps) = (Ok m, []) -> id <> x03 ->
  p_module (file (filter (fun p => negb (Byte.eqb (pc_id p) id)) ps)) = (Ok (mix_modules (Byte.eqb id) m default_module), []).
Proof. exact drop_parses. Qed.
Print Assumptions C81_drop.
(** C81: whether a file is accepted is decided section by section, function and code section together *)
Theorem C81_separate : forall ps, Forall well_sized ps ->
  ((exists m, p_module (file ps) = (Ok m, [])) <->
   in_order ps /\ (forall p, In p ps -> about_functions p = false -> exists m, p_module (file [p]) = (Ok m, [])) /\
   exists m, p_module (file (filter about_functions ps)) = (Ok m, [])).
Proof. exact parsed_separately. Qed.
Print Assumptions C81_separate.

Definition types1 : piece := mkPiece x01 [x04] [x01; x60; x00; x00].
Definition funcs1 : piece := mkPiece x03 [x02] [x01; x00].
Definition memory (n : byte) : piece := mkPiece x05 [x03] [x01; x00; n].
Definition code1 (i : byte) : piece := mkPiece x0a [x05] [x01; x03; x00; i; x0b].
Definition note (b : byte) : piece := mkPiece x00 [x82; x00] [x00; b].
(** the memory of one file, the code of the other; functions with bodies of another file *)
Example C81_example :
  let a := [note x01; types1; funcs1; memory x01; code1 x00] in
  let b := [types1; funcs1; memory x02; note x02; code1 x01] in
  let m n i := mkModule [mkFuncTy [] []] [mkFunc 0 [] [i]] [] [mkMem (mkMemTy (mkLimits n None))] [] [] [] None [] [] in
  let pick id := Byte.eqb id x05 || Byte.eqb id x0a in
  p_module (file a) = (Ok (m 1 I_Unreachable), []) /\ p_module (file b) = (Ok (m 2 I_Nop), []) /\
  compatible pick (m 1 I_Unreachable) (m 2 I_Nop) /\
  mix_pieces pick a b = [note x01; types1; funcs1; memory x02; code1 x01] /\
  p_module (file (mix_pieces pick a b)) = (Ok (m 2 I_Nop), []) /\
  mix_modules (Byte.eqb x05) (m 1 I_Unreachable) (m 2 I_Nop) = m 2 I_Unreachable /\
  mix_modules (Byte.eqb x0a) (m 1 I_Unreachable) (m 2 I_Nop) = m 1 I_Nop.
Proof. repeat first [split | right; split; [reflexivity|discriminate]]; vm_compute; reflexivity. Qed.
(** function and code section of files with different numbers of functions do not fit; neither does code alone *)
Example C81_example_incompatible :
  let a := [types1; funcs1; code1 x00] in
  let b := [types1; mkPiece x03 [x03] [x02; x00; x00]; mkPiece x0a [x07] [x02; x02; x00; x0b; x02; x00; x0b]] in
  let c := [types1; mkPiece x03 [x01] [x00]] in
  (exists m, p_module (file a) = (Ok m, [])) /\ (exists m, p_module (file b) = (Ok m, [])) /\ (exists m, p_module (file c) = (Ok m, [])) /\
  fst (p_module (file (mix_pieces (Byte.eqb x03) a b))) = Err UnexpectedEndOfFile /\
  fst (p_module (file (mix_pieces (Byte.eqb x0a) a b))) = Err UnexpectedEndOfFile /\
  fst (p_module (file (mix_pieces (Byte.eqb x03) a c))) = Err UnexpectedEndOfFile /\
  fst (p_module (file [code1 x00])) = Err UnexpectedEndOfFile.
Proof. repeat first [split | eexists]; vm_compute; reflexivity. Qed.
