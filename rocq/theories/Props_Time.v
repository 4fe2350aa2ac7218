(** C74: the time that parsing takes. *)
From Verif Require Import SpecEncoder SpecCost SpecIter ParserModule ParserIter ParserCost ValidatorCost TimeProof TimeIterProof TimeLeastProof.
Open Scope N_scope.

(** Counting does not change what is modelled elsewhere *)
Theorem C74_same : forall bs, fst (l_module bs) = p_module bs.
Proof. exact free_module. Qed.
Print Assumptions C74_same.
(** Each byte is asked for at most once, and at most one call more; eight steps for each byte; the copies of local variables apart. *)
Theorem C74_linear : forall bs, let consumed := N.of_nat (length bs - length (snd (p_module bs))) in
  calls (parsing_cost bs) <= consumed + 1 /\ steps_taken (parsing_cost bs) <= 8 * consumed + 1 /\
  6 * copies (parsing_cost bs) <= (2 ^ 32 - 1) * consumed.
Proof. exact time_bounds. Qed.
Print Assumptions C74_linear.
(** On the other hand every call is a step, and behind the preamble it comes with one on the adapter that looks ahead. *)
Theorem C74_least : forall bs, 2 * calls (parsing_cost bs) <= steps_taken (parsing_cost bs) + 8.
Proof. exact least_steps. Qed.
Print Assumptions C74_least.
(** The calls are not a guess: an iterator that counts them gets as many, *)
Theorem C74_calls : forall fuel S (next : iterator S) s l s1, yields_then_ends next s l s1 -> (2 * length l + 2 < fuel)%nat ->
  fst (i_module fuel (S * N)%type (counting next) (s, 0)) = fst (p_module l) /\
  snd (snd (i_module fuel (S * N)%type (counting next) (s, 0))) = calls (parsing_cost l).
Proof. exact calls_ending. Qed.
Print Assumptions C74_calls.
(** whether it ends or not, and it is called once for each byte that it gives and never after it has ended. *)
Theorem C74_calls_any : forall fuel S (next : iterator S) s o s' n, i_module fuel (S * N)%type (counting next) (s, 0) = (o, (s', n)) -> o <> OutOfFuel ->
  (exists l, yields next s l s' /\ n = N.of_nat (length l) /\ forall rest, calls (parsing_cost (l ++ rest)) = n) \/
  (exists l, yields_then_ends next s l s' /\ n = N.of_nat (length l) + 1 /\ calls (parsing_cost l) = n).
Proof. exact calls_iterator. Qed.
Print Assumptions C74_calls_any.
(** The number: the bytes consumed, and one more only if there are none left; always one more if the file is accepted. *)
Theorem C74_calls_exact : forall bs, let consumed := N.of_nat (length bs - length (snd (p_module bs))) in
  calls (parsing_cost bs) = consumed \/ calls (parsing_cost bs) = consumed + 1 /\ snd (p_module bs) = [].
Proof. exact calls_exact. Qed.
Print Assumptions C74_calls_exact.
Theorem C74_calls_accepted : forall bs m r, p_module bs = (Ok m, r) -> calls (parsing_cost bs) = N.of_nat (length bs) + 1.
Proof. exact calls_accepted. Qed.
Print Assumptions C74_calls_accepted.
(** There are as many of these as the file declares, *)
Theorem C74_copies : forall bs m r, p_module bs = (Ok m, r) -> copies (parsing_cost bs) = N.of_nat (declared m).
Proof. exact time_copies. Qed.
Print Assumptions C74_copies.
(** so that a file of 30 bytes can take a long time. *)
Theorem C74_copies_many : exists bs m, length bs = 30%nat /\ p_module bs = (Ok m, []) /\ copies (parsing_cost bs) = 2 ^ 32 - 1.
Proof. exact (ex_intro _ _ time_refuted). Qed.
Print Assumptions C74_copies_many.
(** Parsing and validation together *)
Theorem C74_total : forall bs m r, p_module bs = (Ok m, r) ->
  steps_taken (parsing_cost bs) + copies (parsing_cost bs) + N.of_nat (validation_steps m) <=
  N.of_nat (length bs * length bs) + 8 * N.of_nat (length bs) + 1 + 2 * N.of_nat (declared m).
Proof. exact time_total. Qed.
Print Assumptions C74_total.

Definition idling (k : nat) : module :=
  mkModule [mkFuncTy [] []] [mkFunc 0 (List.repeat T_I64 7) (List.repeat I_Nop k)] [] [] [] [] [] None [] [].
(** Nearly eight steps for each byte *)
Example C74_example_body : let bs := encode (idling 1000) in
  p_module bs = (Ok (idling 1000), []) /\ length bs = 1028%nat /\ parsing_cost bs = mkCost 1029 8097 7.
Proof. vm_compute. repeat split; reflexivity. Qed.
Example C74_example_cut : let bs := firstn 1000 (encode (idling 1000)) in
  p_module bs = (Err UnexpectedEndOfFile, []) /\ parsing_cost bs = mkCost 1001 7876 7.
Proof. vm_compute. repeat split; reflexivity. Qed.
(** The counts of short inputs, one reason to stop after another *)
Definition after_preamble (bs : list byte) : list byte := [x00; x61; x73; x6d; x01; x00; x00; x00] ++ bs.
Example C74_example_short :
  parsing_cost [] = mkCost 1 1 0 /\ parsing_cost [x00; x61] = mkCost 3 3 0 /\
  parsing_cost [x00; x61; x73; x6e; x01] = mkCost 4 4 0 /\
  parsing_cost [x00; x61; x73; x6d; x02; x00; x00; x00; x00] = mkCost 8 8 0 /\
  parsing_cost (after_preamble []) = mkCost 9 11 0.
Proof. vm_compute. repeat split; reflexivity. Qed.
(** A custom section that fits, one that is cut, one whose name is not a text *)
Example C74_example_custom :
  parsing_cost (after_preamble [x00; x05; x02; x61; x62; xff; xff]) = mkCost 16 45 0 /\
  parsing_cost (after_preamble [x00; x05; x02; x61; x62; xff]) = mkCost 15 39 0 /\
  parsing_cost (after_preamble [x00; x05; x02; x61; xff; xff; x00]) = mkCost 13 31 0.
Proof. vm_compute. repeat split; reflexivity. Qed.
(** A section of data, a section out of order, a function that is missing, bytes behind a section of no entries *)
Example C74_example_sections :
  parsing_cost (after_preamble [x0b; x0a; x01; x00; x41; x00; x0b; x04; x01; x02; x03; x04]) = mkCost 21 69 0 /\
  parsing_cost (after_preamble [x05; x03; x01; x00; x01; x03]) = mkCost 14 30 0 /\
  parsing_cost (after_preamble [x0a; x01; x01]) = mkCost 11 21 0 /\
  parsing_cost (after_preamble [x03; x01; x00; x02; x01; x00]) = mkCost 12 20 0 /\
  parsing_cost (after_preamble [x08; x02; x00; x00]) = mkCost 11 17 0.
Proof. vm_compute. repeat split; reflexivity. Qed.
(** An iterator that has more to give than the module takes *)
Definition dispensing : iterator (list byte) := fun bs => match bs with b :: r => (Some b, r) | [] => (None, []) end.
Example C74_example_calls :
  i_module 50%nat _ (counting dispensing) (after_preamble [x08; x02; x00; x00], 0) = (Err SizeMissmatch, ([x00], 11)) /\
  i_module 50%nat _ (counting dispensing) (after_preamble [x0a; x01; x01], 0) = (Err UnexpectedEndOfFile, ([], 11)) /\
  i_module 50%nat _ (counting dispensing) (after_preamble [], 0) = (Ok default_module, ([], 9)).
Proof. vm_compute. repeat split; reflexivity. Qed.
