(** Property theorems C85: what can be appended to a file. *)
From Verif Require Import ParserModule SpecAppend AppendProof.
Open Scope N_scope.

(** C85: bytes can follow a file if and only if they are sections, of later kinds or custom, each of which could stand alone
    or, of functions and code, fits what is there *)
Theorem C85_iff : forall qs ext, Forall well_sized qs ->
  ((exists m, p_module (file qs ++ ext) = (Ok m, [])) <->
   exists ps, Forall well_sized ps /\ ext = flat_map piece_bytes ps /\ in_order (qs ++ ps) /\
     (forall p, In p (qs ++ ps) -> about_functions p = false -> exists m, p_module (file [p]) = (Ok m, [])) /\
     exists m, p_module (file (filter about_functions (qs ++ ps))) = (Ok m, [])).
Proof. exact append_separately. Qed.
Print Assumptions C85_iff.
(** C85: what is in the module already is not changed by sections appended *)
Theorem C85_grows : forall bs ext m m', p_module bs = (Ok m, []) -> p_module (bs ++ ext) = (Ok m', []) -> grows m m'.
Proof. exact appended_grows. Qed.
Print Assumptions C85_grows.
(** C85: one byte or two after a file are an error, and this one *)
Theorem C85_short : forall qs m b t, Forall well_sized qs -> p_module (file qs) = (Ok m, []) -> (length t <= 1)%nat ->
  fst (p_module (file qs ++ b :: t)) = Err (refusal qs b).
Proof. exact short_refused. Qed.
Print Assumptions C85_short.
(** C85: an identifier that cannot follow is an error at once, whatever comes after *)
Theorem C85_refused : forall qs m b t, Forall well_sized qs -> p_module (file qs) = (Ok m, []) -> refusal qs b <> UnexpectedEndOfFile ->
  p_module (file qs ++ b :: t) = (Err (refusal qs b), t).
Proof. exact refused. Qed.
Print Assumptions C85_refused.
(** C85: a file can be padded with 0 bytes, or 3, or any number above, without any change to the module;
    one byte or two are never accepted *)
Theorem C85_pad : forall bs m n, p_module bs = (Ok m, []) ->
  ((exists ext, length ext = n /\ p_module (bs ++ ext) = (Ok m, [])) <-> n = 0%nat \/ (3 <= n)%nat).
Proof. exact padding. Qed.
Print Assumptions C85_pad.
Theorem C85_never : forall bs m ext m' rest, p_module bs = (Ok m, []) -> p_module (bs ++ ext) = (Ok m', rest) -> ext = [] \/ (3 <= length ext)%nat.
Proof. exact short_never. Qed.
Print Assumptions C85_never.
(** C85: zeros are no padding *)
Theorem C85_zeros : forall bs m n, p_module bs = (Ok m, []) -> (0 < n)%nat -> p_module (bs ++ repeat x00 n) = (Err UnexpectedEndOfFile, repeat x00 (n - 2)).
Proof. exact zeros_refused. Qed.
Print Assumptions C85_zeros.
(** C85: two files one after the other are no file; the error does not say so *)
Theorem C85_second : forall bs m t, p_module bs = (Ok m, []) -> p_module (bs ++ preamble ++ t) = (Err UnexpectedEndOfFile, skipn 91 t).
Proof. exact twice_refused. Qed.
Print Assumptions C85_second.

Definition types1 : piece := mkPiece x01 [x04] [x01; x60; x00; x00].
Definition memory1 : piece := mkPiece x05 [x03] [x01; x00; x01].
Definition data0 : piece := mkPiece x0b [x01] [x00].
(** A newline is taken for the beginning of a code section: an unexpected end, after a module with data an unexpected section. *)
Example C85_example :
  let f := [types1; memory1] in
  let g := [types1; memory1; data0] in
  let m := mkModule [mkFuncTy [] []] [] [] [mkMem (mkMemTy (mkLimits 1 None))] [] [] [] None [] [] in
  p_module (file f) = (Ok m, []) /\ p_module (file g) = (Ok m, []) /\
  p_module (file f ++ [x0a]) = (Err UnexpectedEndOfFile, []) /\ refusal f x0a = UnexpectedEndOfFile /\
  p_module (file g ++ [x0a]) = (Err (UnexpectedSectionId x0a), []) /\ refusal g x0a = UnexpectedSectionId x0a /\
  p_module (file f ++ [x20; x20; x20]) = (Err (InvalidSectionId x20), [x20; x20]) /\ refusal f x20 = InvalidSectionId x20 /\
  p_module (file f ++ [x05; x03]) = (Err (UnexpectedSectionId x05), [x03]) /\ refusal f x00 = UnexpectedEndOfFile /\
  p_module (file f ++ [x00; x01; x00]) = (Ok m, []) /\
  p_module (file f ++ [x0a; x01; x00]) = (Ok m, []) /\
  p_module (file f ++ [x00; x00; x00; x00]) = (Err UnexpectedEndOfFile, [x00; x00]) /\
  p_module (file f ++ file g) = (Err UnexpectedEndOfFile, []).
Proof. repeat split; vm_compute; reflexivity. Qed.
(** Sections appended add to the module. *)
Example C85_example_grows :
  let m := mkModule [mkFuncTy [] []] [] [] [] [] [] [] None [] [] in
  let m' := mkModule [mkFuncTy [] []] [] [] [mkMem (mkMemTy (mkLimits 1 None))] [] [] [] None [] [] in
  p_module (file [types1]) = (Ok m, []) /\ p_module (file [types1] ++ piece_bytes memory1) = (Ok m', []) /\ grows m m' /\ ~ grows m' m.
Proof.
  split; [vm_compute; reflexivity|]. split; [vm_compute; reflexivity|]. unfold grows, kept. cbn. split; [intuition congruence|].
  intros (_ & _ & _ & _ & [H|H] & _); discriminate H.
Qed.
