(** C58, C59: parsing from an arbitrary iterator. *)
From Coq Require Import String.
From Verif Require Import ParserIter IterElements SpecIter IterProof IterClaims.
Open Scope N_scope.

(** ** C58: every iterator is parsed like the list of the bytes it yields *)

(** The outcome is settled by the bytes [l] that were pulled, whatever would have followed; or the
    iterator ended after [l], the outcome is that of a file of these bytes, and nothing was asked of
    the iterator after that first [None]. *)
Theorem C58_module : forall fuel S (next : iterator S) s o s', i_module fuel S next s = (o, s') -> o <> OutOfFuel ->
  (exists l, yields next s l s' /\ forall rest, p_module (l ++ rest) = (o, rest)) \/
  (exists l, yields_then_ends next s l s' /\ p_module l = (o, [])).
Proof. exact module_iter. Qed.
Theorem C58_module_ok : forall fuel S (next : iterator S) s m s', i_module fuel S next s = (Ok m, s') ->
  exists l, yields_then_ends next s l s' /\ p_module l = (Ok m, []).
Proof. exact module_iter_ok. Qed.
Theorem C58_elements : forall A i p, models A i p -> forall fuel S (next : iterator S) s o s', i fuel S next s = (o, s') -> o <> OutOfFuel ->
  (exists l, yields next s l s' /\ forall rest, p (l ++ rest) = (o, rest)) \/
  (exists l e, yields_then_ends next s l s' /\ p l = (o, []) /\ o = Err e).
Proof. exact elements_iter. Qed.
(** An iterator that ends is always parsed to the end of the work: with enough fuel, never [OutOfFuel]. *)
Theorem C58_ending : forall fuel S (next : iterator S) s l s1, yields_then_ends next s l s1 ->
  (2 * List.length l + 2 < fuel)%nat -> fst (i_module fuel S next s) = fst (p_module l).
Proof. exact ending_module. Qed.
Theorem C58_ending_elements : forall A i p, models A i p -> forall fuel S (next : iterator S) s l s1, yields_then_ends next s l s1 ->
  (2 * List.length l + 2 < fuel)%nat -> fst (i fuel S next s) = fst (p l).
Proof. exact ending_elements. Qed.
(** The fuel is an artefact: an answer found with some fuel is the answer with any more. *)
Theorem C58_fuel : forall f f' S (next : iterator S) s, (f <= f')%nat -> fst (i_module f S next s) <> OutOfFuel ->
  i_module f' S next s = i_module f S next s.
Proof. exact mono_module. Qed.
Theorem C58_fuel_elements : forall A i p, models A i p -> forall f f' S (next : iterator S) s, (f <= f')%nat -> fst (i f S next s) <> OutOfFuel ->
  i f' S next s = i f S next s.
Proof. exact mono_models. Qed.
Print Assumptions C58_module.
Print Assumptions C58_module_ok.
Print Assumptions C58_elements.
Print Assumptions C58_ending.
Print Assumptions C58_ending_elements.
Print Assumptions C58_fuel.
Print Assumptions C58_fuel_elements.

(** An iterator that is not fused: it plays a script in which [None] may stand anywhere. *)
Definition script_next : iterator (list (option byte)) := fun l =>
  match l with
  | v :: l' => (v, l')
  | [] => (None, [])
  end.
Definition preamble_script : list (option byte) :=
  [Some x00; Some x61; Some x73; Some x6d; Some x01; Some x00; Some x00; Some x00].
(** The module ends at the first [None]; what the iterator would yield later is left alone. *)
Example C58_first_none : i_module 30%nat _ script_next (preamble_script ++ [None; Some x01; None])%list = (Ok default_module, [Some x01; None]).
Proof. vm_compute. reflexivity. Qed.
(** A start section of size 2, cut after its first byte: an error, and again nothing more is asked. *)
Example C58_cut_section :
  i_module 30%nat _ script_next (preamble_script ++ [Some x08; Some x02; Some x80; None; Some x00; None])%list =
  (Err UnexpectedEndOfFile, [Some x00; None]).
Proof. vm_compute. reflexivity. Qed.
(** A custom section whose content ([count]) meets the end of the iterator before the end of the section. *)
Example C58_cut_custom :
  i_module 30%nat _ script_next (preamble_script ++ [Some x00; Some x05; Some x01; Some x61; Some x62; None; Some x62; Some x62])%list =
  (Err SizeMissmatch, [Some x62; Some x62]).
Proof. vm_compute. reflexivity. Qed.
(** The same section complete: [count] stops at the end of the window without asking the iterator. *)
Example C58_custom :
  i_module 30%nat _ script_next (preamble_script ++ [Some x00; Some x03; Some x01; Some x61; Some x62; None; Some x62])%list =
  (Ok default_module, [Some x62]).
Proof. vm_compute. reflexivity. Qed.
Example C58_script_yields : yields script_next [Some x01; Some x02; None; Some x03] [x01; x02] [None; Some x03] /\
  yields_then_ends script_next [Some x01; Some x02; None; Some x03] [x01; x02] [Some x03].
Proof. split; [|exists [None; Some x03]; split; [|reflexivity]]; exists [Some x02; None; Some x03]; (split; [reflexivity|]);
  exists [None; Some x03]; split; reflexivity. Qed.

(** ** C59: on an endless iterator parsing stops exactly when some prefix settles an error *)
Theorem C59_endless_rejects : forall S (next : iterator S) s fuel m, endless next s -> fst (i_module fuel S next s) <> Ok m.
Proof. exact endless_rejects. Qed.
Theorem C59_stops_iff : forall S (next : iterator S) s e, endless next s ->
  (exists fuel, fst (i_module fuel S next s) = Err e) <->
  (exists l s1, yields next s l s1 /\ forall rest, p_module (l ++ rest) = (Err e, rest)).
Proof. exact stops_iff. Qed.
(** A number need not stop: padding bytes are read for as long as they come. *)
Theorem C59_endless_number : exists S (next : iterator S) s, endless next s /\ forall fuel, fst (i_u32 fuel S next s) = OutOfFuel.
Proof. exact number_endless. Qed.
Theorem C59_endless_module : exists S (next : iterator S) s, endless next s /\ forall fuel, fst (i_module fuel S next s) = OutOfFuel.
Proof. exact module_endless. Qed.
(** Parsing never stops on an endless iterator whose every beginning can be completed to an accepted
    file, and there is one (custom sections forever). *)
Theorem C59_endless_viable : forall S (next : iterator S) s, endless next s ->
  (forall l s1, yields next s l s1 -> exists rest m, fst (p_module (l ++ rest)) = Ok m) ->
  forall fuel, fst (i_module fuel S next s) = OutOfFuel.
Proof. exact viable_endless. Qed.
Theorem C59_endless_sections : exists S (next : iterator S) s, endless next s /\
  (forall l s1, yields next s l s1 -> exists rest m, fst (p_module (l ++ rest)) = Ok m) /\
  forall fuel, fst (i_module fuel S next s) = OutOfFuel.
Proof. exact customs_endless. Qed.
Print Assumptions C59_endless_viable.
Print Assumptions C59_endless_sections.
Print Assumptions C59_endless_rejects.
Print Assumptions C59_stops_iff.
Print Assumptions C59_endless_number.
Print Assumptions C59_endless_module.

(** An endless run of zero bytes is refused after four of them; an endless run of ones after the
    preamble in the first section (its only byte is a count, no function type is left to read). *)
Example C59_zeros : i_module 30%nat _ (fun n => (Some x00, S n)) O = (Err InvalidPreambleMagic, 4%nat).
Proof. vm_compute. reflexivity. Qed.
Definition then_ones : iterator (list byte) := fun bs => match bs with b :: r => (Some b, r) | [] => (Some x01, []) end.
Example C59_ones : fst (i_module 30%nat _ then_ones [x00; x61; x73; x6d; x01; x00; x00; x00]) = Err UnexpectedEndOfFile.
Proof. vm_compute. reflexivity. Qed.
