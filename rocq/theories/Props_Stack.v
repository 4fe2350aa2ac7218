(** C68: the call stack. *)
From Coq Require Import String Lia.
From Verif Require Import SpecStack SpecVerdict AllocProof NestProof StackProof DeepProof ProgramProof.
Open Scope N_scope.

(** Calls of the parser nest at most half as deeply as the file is long, *)
Theorem C68_bound : forall bs n, In (Nest n) (requests bs) -> 2 * n <= N.of_nat (List.length bs).
Proof. exact nest_bound. Qed.
Print Assumptions C68_bound.

(** and below [2^31] whatever the file, since sections announce their sizes with 32 bits; *)
Theorem C68_limit : forall bs n, In (Nest n) (requests bs) -> 2 * n < 2 ^ 32.
Proof. exact nest_capped. Qed.
Print Assumptions C68_limit.
(** valid code is nested as deeply as leaves it, with three bytes for each level, shorter than a section can be, and no deeper *)
Theorem C68_deepest : forall d, (exists bs m e, p_module bs = (Ok m, []) /\ accepted m /\ In e (module_exprs m) /\ depth_expr e = d) <->
  3 * N.of_nat d + 8 < 2 ^ 32.
Proof. exact deepest_valid. Qed.
Print Assumptions C68_deepest.

(** and, when the file is accepted, exactly as deeply as its code *)
Theorem C68_exact : forall bs m r, p_module bs = (Ok m, r) -> forall n,
  In (Nest n) (requests bs) <-> 1 <= n /\ exists e, In e (module_exprs m) /\ n <= N.of_nat (depth_expr e).
Proof. exact nest_exact. Qed.
Print Assumptions C68_exact.
Theorem C68_shallow : forall h bs m r, p_module bs = (Ok m, r) -> (shallow h bs <-> nested_within (h_safe h) m).
Proof. exact shallow_within. Qed.
Print Assumptions C68_shallow.

(** What is read has fitted *)
Theorem C68_needs : forall h allows bs m, answers h allows -> parse_within allows bs = Ok m -> nested_within (h_levels h) m.
Proof. exact within_depth. Qed.
Print Assumptions C68_needs.

(** The claim that the program never crashes for want of stack: for files that are short, compared to the stack *)
Theorem C68_no_crash_partial : forall h allows overflows checks args fs, host64 h -> answers h allows -> copes h overflows ->
  (forall f bs, fs f = Contents bs -> N.of_nat (List.length bs) < 2 ^ 29 /\ N.of_nat (List.length bs) <= 2 * h_safe h + 1) ->
  program_on allows overflows checks 64 args fs = cli args fs.
Proof. exact program_short. Qed.
Print Assumptions C68_no_crash_partial.

(** but every host whose stack could overflow at all on valid code (see [C68_deepest]) has a valid file, three bytes for each level of its stack, on which it crashes, whatever its memory *)
Theorem C68_no_crash_refuted : forall h, 3 * h_levels h + 11 < 2 ^ 32 -> exists name bs,
  N.of_nat (List.length bs) <= 3 * h_levels h + 35 /\
  let fs := fun f => if String.eqb f name then Contents bs else CannotOpen in
  cli ["parser"; name]%string fs = Exit 0 [] /\
  forall allows overflows checks bits, answers h allows -> program_on allows overflows checks bits ["parser"; name]%string fs = Crash.
Proof. exact program_tower. Qed.
Print Assumptions C68_no_crash_refuted.

(** [block (if (loop) else (nop)) end; block end]: levels are asked for as they are entered, twice for the second branch *)
Definition nesting : list byte := preamble ++
  [x01; x04; x01; x60; x00; x00; x03; x02; x01; x00;
   x0a; x17; x01; x15; x00; x02; x40; x41; x00; x04; x40; x03; x40; x0b; x05; x01; x0b; x0b; x02; x40; x0b; x41; x00; x1a; x0b].
Definition levels_of (l : list event) : list N := flat_map (fun e => match e with Nest n => [n] | _ => [] end) l.
Definition deep_host (n : N) (e : event) : bool := match e with Nest k => k <=? n | _ => true end.
Example C68_example :
  levels_of (requests nesting) = [1; 2; 3; 2; 1] /\
  (exists m, p_module nesting = (Ok m, []) /\ map depth_expr (module_exprs m) = [3%nat] /\
     parse_within (deep_host 3) nesting = Ok m /\ parse_within (deep_host 2) nesting = Panic) /\
  levels_of (requests (firstn 30 nesting)) = [1; 2] /\ List.length (encode (tower 300)) = 926%nat.
Proof.
  split; [vm_compute; reflexivity|]. split; [|split; vm_compute; reflexivity].
  eexists. split; [vm_compute; reflexivity|]. split; [reflexivity|]. split; vm_compute; reflexivity.
Qed.
(** a host whose stack overflows when code is nested deeper than three levels: it copes, and a host with a larger promise does not *)
Definition overflows_at (n : nat) (p : phase) (m : module) : bool := List.existsb (fun e => Nat.ltb n (depth_expr e)) (module_exprs m).
Definition small_host (n : N) : host := mkHost (2 ^ 63 - 1) (fun _ => 1) n 100.
Example C68_example_copes : copes (small_host 3) (overflows_at 3) /\ ~ copes (small_host 4) (overflows_at 3) /\
  nested_within 4 (tower 4) /\ ~ nested_within 3 (tower 4).
Proof.
  assert (N4 : nested_within 4 (tower 4)) by (intros e I; cbn in I; destruct I as [<-|[]]; vm_compute; discriminate).
  split; [|split; [|split; [exact N4|]]].
  - intros p m W. unfold overflows_at. apply Bool.not_true_iff_false. intros E. apply List.existsb_exists in E as (e & I & L).
    apply PeanoNat.Nat.ltb_lt in L. specialize (W e I). cbn in W. lia.
  - intros C. specialize (C Validating (tower 4) N4). vm_compute in C. discriminate.
  - intros W. specialize (W _ (or_introl eq_refl)). vm_compute in W. apply W. reflexivity.
Qed.
(** Three nested blocks, and the greatest depth *)
Example C68_example_deepest : List.length (encode (tower 3)) = 33%nat /\ module_exprs (tower 3) = [nested_blocks 3] /\ depth_expr (nested_blocks 3) = 3%nat /\
  p_module (encode (tower 3)) = (Ok (tower 3), []) /\ 3 * 1431655762 + 8 = 2 ^ 32 - 2 /\ ~ 3 * 1431655763 + 8 < 2 ^ 32.
Proof. repeat split; try (vm_compute; reflexivity). intros H. vm_compute in H. discriminate H. Qed.
