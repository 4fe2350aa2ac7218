(** C66: the program on the machine it runs on. *)
From Coq Require Import String.
From Verif Require Import ProgramHost SpecAlloc SpecStack ProgramProof.
Open Scope N_scope.

(** Whatever the machine answers to requests for memory, wherever its call stack overflows, with or without overflow
    checks: the program crashes or does what it does on an unlimited machine *)
Theorem C66_any : forall allows overflows checks bits args fs, bits = 64 \/ bits = 32 ->
  (forall f bs, fs f = Contents bs -> N.of_nat (List.length bs) < 2 ^ 32) ->
  program_on allows overflows checks bits args fs = Crash \/ program_on allows overflows checks bits args fs = cli args fs.
Proof. exact program_any. Qed.
Print Assumptions C66_any.

(** The claim that it does not crash, given an argument: with 64 bits, memory for what fits into the address space, and
    code that is not nested too deeply for the call stack, *)
Theorem C66_no_crash_partial : forall h allows overflows checks args fs, host64 h -> answers h allows -> copes h overflows ->
  (forall f bs, fs f = Contents bs -> N.of_nat (List.length bs) < 2 ^ 29 /\ shallow h bs) ->
  program_on allows overflows checks 64 args fs = cli args fs.
Proof. exact program_64. Qed.
Print Assumptions C66_no_crash_partial.

(** and with 32 bits for files that are accepted and whose code and local variables fit; *)
Theorem C66_accepted_partial : forall h allows overflows checks args fs cfg bs msgs, answers h allows -> copes h overflows ->
  (forall f bs, fs f = Contents bs -> N.of_nat (List.length bs) < 2 ^ 32) ->
  config_new args = Some cfg -> fs (cfg_filename cfg) = Contents bs ->
  (forall k, (2 * N.of_nat (List.length bs) + 8) * h_size h k <= h_limit h) ->
  (forall m f, fst (p_module bs) = Ok m -> In f (m_funcs m) ->
    (2 * N.of_nat (List.length (fn_locals f)) + 8) * h_size h V_Val <= h_limit h /\
    (N.of_nat (List.length bs) + N.of_nat (List.length (fn_locals f))) * h_size h V_Ref <= h_limit h) ->
  (forall m, fst (p_module bs) = Ok m -> nested_within (h_safe h) m) ->
  cli args fs = Exit 0 msgs -> program_on allows overflows checks 32 args fs = Exit 0 msgs.
Proof. exact program_32. Qed.
Print Assumptions C66_accepted_partial.

(** but not with 32 bits in general: a file that cannot be parsed, *)
Theorem C66_no_crash_refuted : exists name bs, List.length bs = 15%nat /\
  let fs := fun f => if String.eqb f name then Contents bs else CannotOpen in
  cli ["parser"; name]%string fs = Exit 1 [MsgParse UnexpectedEndOfFile] /\
  forall h allows overflows checks bits, host32 h -> answers h allows -> program_on allows overflows checks bits ["parser"; name]%string fs = Crash.
Proof. exact program_32_crash. Qed.
Print Assumptions C66_no_crash_refuted.

(** a file that is valid, *)
Theorem C66_accepted_refuted : exists name bs, List.length bs = 30%nat /\
  let fs := fun f => if String.eqb f name then Contents bs else CannotOpen in
  cli ["parser"; name]%string fs = Exit 0 [] /\
  forall h allows overflows checks bits, host32 h -> answers h allows -> program_on allows overflows checks bits ["parser"; name]%string fs = Crash.
Proof. exact program_32_accepted. Qed.
Print Assumptions C66_accepted_refuted.

(** and a valid file that is read, but cannot be checked *)
Theorem C66_checking_refuted : exists name bs, List.length bs = 30%nat /\
  let fs := fun f => if String.eqb f name then Contents bs else CannotOpen in
  cli ["parser"; name]%string fs = Exit 0 [] /\
  forall h allows overflows checks bits, host32 h -> (forall k, h_size h k <= 2 ^ 24) -> answers h allows ->
    (exists m, parse_within allows bs = Ok m) /\ program_on allows overflows checks bits ["parser"; name]%string fs = Crash.
Proof. exact program_32_checking. Qed.
Print Assumptions C66_checking_refuted.

(** a machine that gives at most 8 elements at a time *)
Definition stingy (e : event) : bool := match e with Reserve _ n | Hold _ n => n <=? 8 | Nest _ => true end.
Example C66_example :
  let fs := fun f =>
    if String.eqb f "ok.wasm" then Contents [x00; x61; x73; x6d; x01; x00; x00; x00; x01; x04; x01; x60; x00; x00]
    else if String.eqb f "cut.wasm" then Contents [x00; x61; x73; x6d; x01; x00; x00; x00; x01; x02; x08; x60]
    else if String.eqb f "big.wasm" then Contents [x00; x61; x73; x6d; x01; x00; x00; x00; x01; x02; x09; x60]
    else CannotOpen in
  program_on stingy (fun _ _ => false) true 32 ["parser"; "ok.wasm"]%string fs = Exit 0 [] /\
  program_on stingy (fun _ _ => false) true 32 ["parser"; "cut.wasm"]%string fs = Exit 1 [MsgParse UnexpectedEndOfFile] /\
  program_on stingy (fun _ _ => false) true 32 ["parser"; "big.wasm"]%string fs = Crash /\
  cli ["parser"; "big.wasm"]%string fs = Exit 1 [MsgParse UnexpectedEndOfFile].
Proof. vm_compute. auto. Qed.
