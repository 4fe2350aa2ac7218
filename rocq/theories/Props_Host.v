(** Property theorems C46: hosts with 32 and 64 bits. *)
From Coq Require Import String.
From Verif Require Import ValidatorHost SpecRefs SpecVerdict HostProof.
Open Scope N_scope.

(** C46 *)
Theorem C46_same_64 : forall checks args fs, h_cli checks 64 args fs = cli args fs.
Proof. exact host_cli_64. Qed.
Print Assumptions C46_same_64.
(** in the library: whatever the width, label arithmetic matters only for labels near the width of [usize] *)
Theorem C46_same_labels : forall checks bits m,
  (forall f d l, In f (m_funcs m) -> jump d l (fn_body f) -> l + 1 < 2 ^ bits) ->
  h_validate checks bits m = validate m.
Proof. exact host_same. Qed.
Print Assumptions C46_same_labels.
(** full statement: [h_validate checks 32 m = validate m] for every parsed file; false *)
Theorem C46_same_32_refuted : exists bs m, p_module bs = (Ok m, []) /\ validate m = VErr /\
  forall checks, h_validate checks 64 m = VErr /\ h_validate checks 32 m = VPanic.
Proof. exact host_32_panics. Qed.
Print Assumptions C46_same_32_refuted.
(** what is accepted is the same; what differs is a crash instead of an error *)
Theorem C46_same_32_partial : forall checks args fs,
  (forall f bs, fs f = Contents bs -> N.of_nat (List.length bs) < 2 ^ 32) ->
  (forall msgs, h_cli checks 32 args fs = Exit 0 msgs <-> cli args fs = Exit 0 msgs) /\
  (h_cli checks 32 args fs = cli args fs \/ h_cli checks 32 args fs = Crash).
Proof. exact host_cli_32. Qed.
Print Assumptions C46_same_32_partial.
(** and the crash needs a branch to label 4294967295 *)
Theorem C46_cause_32 : forall checks m, (forall e, In e (module_exprs m) -> code_in_range e) ->
  (forall f d, In f (m_funcs m) -> ~ jump d (2 ^ 32 - 1) (fn_body f)) -> h_validate checks 32 m = validate m.
Proof. exact host_32. Qed.
Print Assumptions C46_cause_32.
Example C46_example :
  let fs := fun f => if String.eqb f "far.wasm" then Contents far_branch_file else CannotOpen in
  cli ["parser"; "far.wasm"]%string fs = Exit 1 [MsgValidate] /\
  h_cli true 64 ["parser"; "far.wasm"]%string fs = Exit 1 [MsgValidate] /\
  h_cli false 32 ["parser"; "far.wasm"]%string fs = Crash /\
  h_cli false 32 ["parser"; "near.wasm"]%string fs = Exit 1 [MsgOpen].
Proof. repeat split; vm_compute; reflexivity. Qed.
(** labels of a nest of blocks, on a host with 32 bits *)
Example C46_example_labels : h_validate true 32
  (mkModule [mkFuncTy [] []] [mkFunc 0 [] [I_Block [] [I_Loop [] [I_ConstI32 5%Z; I_BrTable [0; 1] 1]]]] [] [] [] [] [] None [] [])
  = VOk (mkModuleTypes [] []).
Proof. vm_compute. reflexivity. Qed.
