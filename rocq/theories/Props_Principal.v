(** Property theorems C77: the stacks after code describe exactly the types that the code can leave. *)
From Verif Require Import SpecPrincipal SpecSession SpecTyping Validator PrincipalProof.

Theorem C77_principal : forall c e s, settled s -> frames s <> [] -> no_pseudo e ->
  (forall s', v_expr c e s = VOk s' -> forall ts', describes s' ts' <-> exists ts, describes s ts /\ seq_type false (tenv_at c s) e ts ts') /\
  (v_expr c e s = VErr <-> forall ts ts', describes s ts -> ~ seq_type false (tenv_at c s) e ts ts').
Proof. exact principal. Qed.
Print Assumptions C77_principal.
(** and everything else on the stacks is left alone *)
Theorem C77_frame : forall c e s s', settled s -> no_pseudo e -> v_expr c e s = VOk s' -> frames s <> [] ->
  exists fr frs u, frames s = fr :: frs /\ frames s' = mkFrame (f_label fr) (f_out fr) (f_height fr) u :: frs /\
  (f_height fr <= length (operands s'))%nat /\
  skipn (length (operands s') - f_height fr) (operands s') = skipn (length (operands s) - f_height fr) (operands s).
Proof. exact principal_frame. Qed.
Print Assumptions C77_frame.

Open Scope N_scope.
(** after [unreachable; i32.const; select] there is an [i32] on top of anything; from a frame with an operand below it *)
Example C77_example :
  let s := mkStacks [Val T_F64] [mkFrame [] [T_I32] 1 false; mkFrame [] [] 0 false] in
  let s' := mkStacks [Unknown; Val T_F64] [mkFrame [] [T_I32] 1 true; mkFrame [] [] 0 false] in
  v_expr default_context [I_Unreachable; I_ConstI32 0%Z; I_Select] s = VOk s' /\
  describes s' [T_F32] /\ describes s' [T_I64; T_I32] /\ ~ describes s' [] /\ describes s [] /\ ~ describes s [T_F64] /\
  v_expr default_context [I_ConstI32 0%Z; I_Drop; I_Drop] s = VErr.
Proof.
  repeat split.
  - exists [], [T_F32]. repeat split; [repeat constructor|left; reflexivity].
  - exists [T_I64], [T_I32]. repeat split; [repeat constructor|right; reflexivity].
  - intros (b & a & E & F & _). destruct b, a; try discriminate E. inversion F.
  - exists [], []. repeat split; [constructor|left; reflexivity].
  - intros (b & a & E & F & [->|D]); [|discriminate D]. cbn in E. subst a. inversion F.
Qed.
