(** Property theorems C84: parsing from an iterator that panics. *)
From Coq Require Import String.
From Verif Require Import ParserFaulty FaultyElements IterElements ParserCost SpecFaulty FaultyClaims FaultyFuel.
Open Scope N_scope.

(** The outcome is settled by the bytes that were pulled, or it is that of a file of these bytes, after which the iterator ended, or
    the iterator panicked at the last call that it got, and no beginning of what it had yielded settles anything. *)
Theorem C84_first : forall fuel S (next : faulty S) s o s', j_module fuel S next s = (o, s') -> o <> OutOfFuel ->
  (exists l, gives next s l s' /\ settles p_module l o) \/
  (exists l, gives_then_ends next s l s' /\ p_module l = (o, [])) \/
  (o = Panic /\ exists l, gives_then_panics next s l s' /\ forall l1 l2 o', l = l1 ++ l2 -> ~ settles p_module l1 o').
Proof. exact module_faulty. Qed.
Print Assumptions C84_first.
(** If the iterator panics after the bytes [l], parsing panics exactly if no beginning of [l] settles an error, and else reports that error. *)
Theorem C84_after : forall fuel S (next : faulty S) s l s1, gives_then_panics next s l s1 -> (2 * List.length l + 2 < fuel)%nat ->
  (forall e, fst (j_module fuel S next s) = Err e <-> exists l1 l2, l = l1 ++ l2 /\ settles p_module l1 (Err e)) /\
  (j_module fuel S next s = (Panic, s1) <-> forall l1 l2 e, l = l1 ++ l2 -> ~ settles p_module l1 (Err e)).
Proof. exact module_after. Qed.
Print Assumptions C84_after.
(** So a file that cannot be read to its end is never taken for a module, and the error reported, if any, is that of the whole file, *)
Theorem C84_file : forall fuel S (next : faulty S) s l1 s1, gives_then_panics next s l1 s1 -> (2 * List.length l1 + 2 < fuel)%nat -> forall l2,
  j_module fuel S next s = (Panic, s1) \/ (exists e, fst (j_module fuel S next s) = Err e /\ fst (p_module (l1 ++ l2)) = Err e).
Proof. exact module_file. Qed.
Print Assumptions C84_file.
(** and of a file that is parsed to a module, even the end must be seen. *)
Theorem C84_whole : forall fuel S (next : faulty S) s l1 s1 l2 m, gives_then_panics next s l1 s1 -> (2 * List.length l1 + 2 < fuel)%nat ->
  fst (p_module (l1 ++ l2)) = Ok m -> j_module fuel S next s = (Panic, s1).
Proof. exact module_accepted. Qed.
Print Assumptions C84_whole.
(** In terms of the number of calls that the file takes (C74): *)
Theorem C84_calls : forall fuel S (next : faulty S) s l1 s1 l2, gives_then_panics next s l1 s1 -> (2 * List.length l1 + 2 < fuel)%nat ->
  (fst (j_module fuel S next s) = Panic <-> N.of_nat (List.length l1) < calls (snd (l_module (l1 ++ l2)))).
Proof. exact module_calls. Qed.
Print Assumptions C84_calls.
(** An iterator that never panics is parsed as in C58. *)
Theorem C84_never : forall fuel S (next : iterator S) (pn : faulty S) s, (forall s, pn s = Some (next s)) ->
  j_module fuel S pn s = i_module fuel S next s.
Proof. exact module_never. Qed.
Print Assumptions C84_never.
(** The same for each element. *)
Theorem C84_elements : forall A j p, faulty_models A j p -> forall fuel S (next : faulty S) s o s', j fuel S next s = (o, s') -> o <> OutOfFuel ->
  (exists l, gives next s l s' /\ settles p l o) \/
  (exists l e, gives_then_ends next s l s' /\ p l = (o, []) /\ o = Err e) \/
  (o = Panic /\ exists l, gives_then_panics next s l s' /\ forall l1 l2 o', l = l1 ++ l2 -> ~ settles p l1 o').
Proof. exact elements_faulty. Qed.
Print Assumptions C84_elements.
Theorem C84_elements_after : forall A j p, faulty_models A j p -> forall fuel S (next : faulty S) s l s1,
  gives_then_panics next s l s1 -> (2 * List.length l + 2 < fuel)%nat ->
  (forall o, o <> Panic -> (fst (j fuel S next s) = o <-> exists l1 l2, l = l1 ++ l2 /\ settles p l1 o)) /\
  (j fuel S next s = (Panic, s1) <-> forall l1 l2 o, l = l1 ++ l2 -> ~ settles p l1 o).
Proof. exact elements_after. Qed.
Print Assumptions C84_elements_after.
Theorem C84_elements_never : forall A j p, faulty_models A j p -> exists i, models A i p /\
  forall fuel S (next : iterator S) (pn : faulty S) s, (forall s, pn s = Some (next s)) -> j fuel S pn s = i fuel S next s.
Proof. exact elements_never. Qed.
Print Assumptions C84_elements_never.
(** The fuel is an artefact: an answer found with some fuel is the answer with any more. *)
Theorem C84_fuel : forall f f' S (next : faulty S) s, (f <= f')%nat -> fst (j_module f S next s) <> OutOfFuel ->
  j_module f' S next s = j_module f S next s.
Proof. exact jmono_module. Qed.
Print Assumptions C84_fuel.
Theorem C84_fuel_elements : forall A j p, faulty_models A j p -> forall f f' S (next : faulty S) s, (f <= f')%nat -> fst (j f S next s) <> OutOfFuel ->
  j f' S next s = j f S next s.
Proof. exact jmono_models. Qed.
Print Assumptions C84_fuel_elements.

(** The bytes of a file that cannot be read further, each unwrapped; the state is what is left. *)
Definition unreadable : faulty (list byte) := fun l => match l with b :: r => Some (Some b, r) | [] => None end.
Definition start_of_file : list byte := [x00; x61; x73; x6d; x01; x00; x00; x00].
Example C84_example :
  gives_then_panics unreadable start_of_file start_of_file [] /\ fst (p_module start_of_file) = Ok default_module /\
  (* in the preamble, after it, in a number, in a custom section: a panic *)
  j_module 40%nat _ unreadable [x00; x61] = (Panic, []) /\ j_module 40%nat _ unreadable start_of_file = (Panic, []) /\
  j_module 40%nat _ unreadable (start_of_file ++ [x01; x84]) = (Panic, []) /\
  j_module 40%nat _ unreadable (start_of_file ++ [x00; x03; x01; x61]) = (Panic, []) /\
  (* errors before the panic is met: the fourth byte; an unknown section; a type behind the end of its section *)
  j_module 40%nat _ unreadable [x00; x61; x73; x6e] = (Err InvalidPreambleMagic, []) /\
  j_module 40%nat _ unreadable (start_of_file ++ [x0c; x01]) = (Err (InvalidSectionId x0c), [x01]) /\
  j_module 40%nat _ unreadable (start_of_file ++ [x01; x01; x01]) = (Err UnexpectedEndOfFile, []) /\
  calls (snd (l_module (start_of_file ++ [x01; x01; x01]))) = 11 /\ calls (snd (l_module start_of_file)) = 9.
Proof. split; [split; [repeat (eexists; split; [reflexivity|]); reflexivity|reflexivity]|]. repeat split; vm_compute; reflexivity. Qed.
(** An iterator with an end in the middle and a panic after it: the panic is not met. *)
Definition recorded : faulty (list (option byte)) := fun l => match l with v :: r => Some (v, r) | [] => None end.
Example C84_example_end : j_module 40%nat _ recorded (map Some start_of_file ++ [None])%list = (Ok default_module, []) /\
  j_module 40%nat _ recorded (map Some (start_of_file ++ [x08; x02; x80]) ++ [None])%list = (Err UnexpectedEndOfFile, []) /\
  gives_then_ends recorded (map Some start_of_file ++ [None])%list start_of_file [].
Proof. split; [vm_compute; reflexivity|]. split; [vm_compute; reflexivity|]. eexists. split; [repeat (eexists; split; [reflexivity|]); reflexivity|reflexivity]. Qed.
Example C84_example_elements : j_u32 40%nat _ unreadable [xe5; x8e] = (Panic, []) /\ j_u32 40%nat _ unreadable [xe5; x8e; x26] = (Ok 624485, []) /\
  j_sized j_u32 40%nat _ unreadable [x02; xe5; x8e] = (Err UnexpectedEndOfFile, []) /\ j_sized j_u32 40%nat _ unreadable [x03; xe5; x8e] = (Panic, []) /\
  faulty_models _ (j_sized j_u32) (p_sized p_u32).
Proof. repeat split; try (vm_compute; reflexivity). repeat constructor. Qed.
