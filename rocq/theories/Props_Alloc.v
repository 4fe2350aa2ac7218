(** C64: the memory that the parser asks for. *)
From Verif Require Import ParserAlloc SpecAlloc SpecFormat AllocProof.
Open Scope N_scope.

(** The parser that records its requests is the parser *)
Theorem C64_same : forall bs, fst (a_module bs) = p_module bs.
Proof. exact erases_module. Qed.
Print Assumptions C64_same.

(** A host can only turn the outcome into a crash *)
Theorem C64_outcome : forall allows bs, parse_within allows bs = Panic \/ parse_within allows bs = fst (p_module bs).
Proof. exact within_either. Qed.
Print Assumptions C64_outcome.

(** At most two announced vectors are not filled; none, when the file is accepted *)
Theorem C64_reserved : forall bs,
  reserved (requests bs) <= 2 * (2 ^ 32 - 1) + N.of_nat (length bs) /\
  (forall m r, p_module bs = (Ok m, r) -> reserved (requests bs) <= N.of_nat (length bs)).
Proof. exact reserved_bounds. Qed.
Print Assumptions C64_reserved.

(** and two there can be: 21 bytes ask for room for 2^33 - 2 elements *)
Theorem C64_reserved_sharp : exists bs, length bs = 21%nat /\ fst (p_module bs) = Err UnexpectedEndOfFile /\
  reserved (requests bs) = 2 * (2 ^ 32 - 1).
Proof. exact (ex_intro _ announcing_twice sharp). Qed.
Print Assumptions C64_reserved_sharp.

Theorem C64_each : forall bs e, In e (requests bs) -> request_ok (N.of_nat (length bs)) e.
Proof. exact requests_ok. Qed.
Print Assumptions C64_each.

(** Vectors of value types that grow are the local variables (or hold one result type) *)
Theorem C64_locals : forall bs m r, p_module bs = (Ok m, r) ->
  (forall n, In (Hold V_Val n) (requests bs) ->
     n <= 1 \/ exists f, In f (m_funcs m) /\ n <= N.of_nat (length (fn_locals f))) /\
  (forall f, In f (m_funcs m) -> fn_locals f = [] \/ In (Hold V_Val (N.of_nat (length (fn_locals f)))) (requests bs)).
Proof. exact accepted_locals. Qed.
Print Assumptions C64_locals.

(** The claim that no file makes the parser panic on any host holds for 64 bits, when the call stack suffices ... *)
Theorem C64_hosts_partial : forall h allows bs, host64 h -> answers h allows -> N.of_nat (length bs) < 2 ^ 31 ->
  shallow h bs -> parse_within allows bs = fst (p_module bs).
Proof. exact host64_same. Qed.
Print Assumptions C64_hosts_partial.

(** ... and fails for 32: on a file that is rejected elsewhere, *)
Theorem C64_hosts_refuted : exists bs, length bs = 15%nat /\ fst (p_module bs) = Err UnexpectedEndOfFile /\
  forall h allows, host32 h -> answers h allows -> parse_within allows bs = Panic.
Proof. exact (ex_intro _ announcing host32_refutes). Qed.
Print Assumptions C64_hosts_refuted.

(** and on one that is accepted elsewhere *)
Theorem C64_accepted_refuted : exists bs m, length bs = 30%nat /\ p_module bs = (Ok m, []) /\
  forall h allows, host32 h -> answers h allows -> parse_within allows bs = Panic.
Proof. exact host32_accepted_refutes. Qed.
Print Assumptions C64_accepted_refuted.

(** Which accepted files any host reads *)
Theorem C64_accepted_partial : forall h allows bs m r, p_module bs = (Ok m, r) -> answers h allows ->
  (forall k, (2 * N.of_nat (length bs) + 8) * h_size h k <= h_limit h) ->
  (forall f, In f (m_funcs m) -> (2 * N.of_nat (length (fn_locals f)) + 8) * h_size h V_Val <= h_limit h) ->
  shallow h bs -> parse_within allows bs = Ok m.
Proof. exact accepted_within. Qed.
Print Assumptions C64_accepted_partial.

Theorem C64_needs : forall h allows bs m, answers h allows -> parse_within allows bs = Ok m ->
  forall f, In f (m_funcs m) -> N.of_nat (length (fn_locals f)) * h_size h V_Val <= h_limit h.
Proof. exact within_needs. Qed.
Print Assumptions C64_needs.

(** A module with a type [i32 i32 -> i32], an imported function and a function with 5 locals, and a body
    of two instructions: the requests in order. *)
Definition small_module : list byte := preamble ++
  [x01; x07; x01; x60; x02; x7f; x7f; x01; x7f;
   x02; x07; x01; x01; x61; x01; x62; x00; x00;
   x03; x02; x01; x00;
   x0a; x0b; x01; x09; x02; x02; x7f; x03; x7e; x41; x00; x1a; x0b].
Example requests_example : requests small_module =
  [Reserve V_Func_ty 1; Reserve V_Val 2; Reserve V_Val 1;
   Reserve V_Import 1; Reserve V_U8 1; Reserve V_U8 1; Reserve V_Type 1;
   Reserve V_Func 1; Hold V_Val 2; Hold V_Val 5; Hold V_Instr 1; Hold V_Instr 2] /\
  reserved (requests small_module) = 9 /\ length small_module = 43%nat.
Proof. vm_compute. auto. Qed.

(** 32-bit and 64-bit hosts with the element sizes of a typical compiler *)
Definition sizes (k : vkind) : N :=
  match k with V_U8 => 1 | V_Val => 1 | V_Instr => 40 | V_Type | V_Funcidx | V_Label => 4 | _ => 48 end.
Definition sizes_on (word : N) (k : vkind) : N := match k with V_Ref => word | _ => sizes k end.
Definition fits_b (h : host) (e : event) : bool :=
  match e with Reserve k n | Hold k n => n * h_size h k <=? h_limit h | Nest n => n <=? h_levels h end.
Example hosts_example :
  host32 (mkHost (2 ^ 31 - 1) (sizes_on 4) 1000 1000) /\ host64 (mkHost (2 ^ 63 - 1) (sizes_on 8) 1000 1000) /\
  parse_within (fits_b (mkHost (2 ^ 31 - 1) (sizes_on 4) 1000 1000)) small_module = fst (p_module small_module) /\
  (exists m, fst (p_module small_module) = Ok m /\ map (fun f => length (fn_locals f)) (m_funcs m) = [5%nat]).
Proof.
  split; [repeat split; intros []; vm_compute; discriminate|].
  split; [repeat split; intros []; vm_compute; discriminate|].
  split; [vm_compute; reflexivity|]. vm_compute. eexists. split; reflexivity.
Qed.
(** A vector that grows doubles: a host may refuse a vector of half the memory *)
Definition doubling (h : host) (e : event) : bool :=
  match e with
  | Reserve k n => n * h_size h k <=? h_limit h
  | Hold k n => (2 * n + 8) * h_size h k <=? h_limit h
  | Nest n => n <=? h_safe h
  end.
Example doubling_example : forall h, h_safe h <= h_levels h -> answers h (doubling h).
Proof.
  intros h L. split; intros [k n|k n|n]; cbn; intros H.
  - apply N.leb_gt. exact H.
  - apply N.leb_gt. eapply N.lt_le_trans; [exact H|]. apply N.mul_le_mono_r. rewrite <- (N.mul_1_l n) at 1. eapply N.le_trans; [apply N.mul_le_mono_r; exact (N.le_succ_diag_r 1)|apply N.le_add_r].
  - apply N.leb_gt. eapply N.le_lt_trans; [exact L|exact H].
  - apply N.leb_le. exact H.
  - apply N.leb_le. exact H.
  - apply N.leb_le. exact H.
Qed.
