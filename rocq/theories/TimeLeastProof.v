(** Every call of [next] is a step, and behind the preamble two. *)
From Coq Require Import Lia.
From Verif Require Import ParserCost.
Open Scope N_scope.

Definition covers {A} (p : lp A) : Prop := forall bs, calls (snd (p bs)) <= steps_taken (snd (p bs)).
Lemma covers_run {A} (p : parser A) : covers (l_run p).
Proof. intros bs. cbn. lia. Qed.
Lemma covers_ret {A} (a : A) : covers (l_ret a).
Proof. intros bs. cbn. lia. Qed.
Lemma covers_fail {A} e : covers (@l_fail A e).
Proof. intros bs. cbn. lia. Qed.
Lemma covers_panic {A} : covers (@l_panic A).
Proof. intros bs. cbn. lia. Qed.
Lemma covers_fuel {A} : covers (@l_out_of_fuel A).
Proof. intros bs. cbn. lia. Qed.
Lemma covers_steps n : covers (l_steps n).
Proof. intros bs. cbn. lia. Qed.
Lemma covers_copies n : covers (l_copies n).
Proof. intros bs. cbn. lia. Qed.
Lemma covers_bind {A B} (p : lp A) (q : A -> lp B) : covers p -> (forall a, covers (q a)) -> covers (l_bind p q).
Proof.
  intros P Q bs. specialize (P bs). unfold l_bind. destruct (p bs) as [[[a|e| |] r] k]; cbn [snd fst] in *; try exact P.
  specialize (Q a r). destruct (q a r) as [x k']. cbn [snd] in *. unfold cost_add. cbn [calls steps_taken]. lia.
Qed.
Lemma covers_times {A} n (p : lp A) : covers p -> covers (l_times n p).
Proof.
  intros P. induction n as [|n IH]; cbn [l_times]; [apply covers_ret|]. apply covers_bind; [apply covers_steps|]. intros _. apply covers_bind; [exact P|].
  intros x. apply covers_bind; [apply covers_steps|]. intros _. apply covers_bind; [exact IH|]. intros xs. apply covers_ret.
Qed.
Lemma covers_vec {A} (p : lp A) : covers p -> covers (l_vec p).
Proof. intros P. apply covers_bind; [apply covers_run|]. intros n. apply covers_times, P. Qed.
Lemma covers_unwrapping_vec {A B} (p : lp A) (u : A -> B) : covers p -> covers (l_unwrapping_vec p u).
Proof. intros P. apply covers_bind; [apply covers_run|]. intros n. apply covers_times, covers_bind; [exact P|]. intros x. apply covers_ret. Qed.
Lemma covers_runs {A} (p : lp A) : covers p -> forall j acc, covers (l_runs j p acc).
Proof.
  intros P j. induction j as [|j IH]; intros acc; cbn [l_runs]; [apply covers_ret|]. apply covers_bind; [apply covers_steps|]. intros _.
  apply covers_bind; [apply covers_run|]. intros n. apply covers_bind; [exact P|]. intros v. apply covers_bind; [apply covers_copies|]. intros _. apply IH.
Qed.
Lemma covers_compact_vec {A} (p : lp A) : covers p -> covers (l_compact_vec p).
Proof. intros P. apply covers_bind; [apply covers_run|]. intros n. apply covers_runs, P. Qed.
Lemma covers_sized {A} (p : lp A) : covers p -> covers (l_sized p).
Proof.
  intros P. apply covers_bind; [apply covers_run|]. intros size bs. unfold u32 in size. cbv beta zeta. specialize (P (firstn (N.to_nat size) bs)).
  destruct (p (firstn (N.to_nat size) bs)) as [[[a|e| |] r] k]; cbn [fst snd] in *; try (match goal with |- context [if ?b then _ else _] => destruct b end); cbn [snd calls steps_taken]; lia.
Qed.
Lemma covers_consume : covers l_consume.
Proof. intros bs. cbn [l_consume snd calls steps_taken]. lia. Qed.
Ltac covering := repeat first
  [ assumption | apply covers_run | apply covers_ret | apply covers_fail | apply covers_panic | apply covers_fuel | apply covers_steps | apply covers_copies
  | apply covers_consume | apply covers_vec | apply covers_unwrapping_vec | apply covers_compact_vec | apply covers_sized
  | apply covers_bind; [|intro] ].
Lemma covers_string : covers l_string.
Proof. unfold l_string. covering. destruct (utf8_valid _); covering. Qed.
Lemma covers_retval : covers l_retval.
Proof. unfold l_retval. covering. Qed.
Lemma covers_functy : covers l_functy.
Proof. unfold l_functy. covering. match goal with |- covers (match ?b with _ => _ end) => destruct b end; covering. Qed.
Lemma covers_expr_of sub : covers sub -> covers (l_expr_of sub).
Proof. intros S. unfold l_expr_of. covering. match goal with |- covers (let '(_, _) := ?x in _) => destruct x as [e i] end. destruct i; covering. Qed.
Lemma covers_opcode sub b : covers sub -> covers (l_opcode sub b).
Proof.
  intros S. pose proof covers_retval as R. pose proof (covers_expr_of sub S) as E. destruct b; try apply covers_run; cbn [l_opcode]; try (covering; fail).
  unfold l_if_of. covering. match goal with |- covers (let '(_, _) := ?x in _) => destruct x as [e i] end. covering; [destruct (is_else i); covering|].
  match goal with |- covers (let '(_, _) := ?x in _) => destruct x as [e' i'] end. destruct (is_end i'); covering.
Qed.
Lemma covers_code fuel : covers (l_instr fuel) /\ forall acc, covers (l_subexpr fuel acc).
Proof.
  induction fuel as [|f [I S]]; cbn [l_instr l_subexpr]; [split; [|intros acc]; apply covers_fuel|]. split.
  - covering. apply covers_opcode, S.
  - intros acc. covering. match goal with |- covers (match ?i with _ => _ end) => destruct i end; covering; apply S.
Qed.
Lemma covers_expr : covers l_expr.
Proof. intros bs. exact (covers_expr_of (l_subexpr (fuel_for (List.length bs)) []) (proj2 (covers_code _) []) bs). Qed.
Lemma covers_section id s : covers (l_section id s).
Proof.
  pose proof covers_string as ST. pose proof covers_expr as E. pose proof covers_functy as F.
  destruct id; cbn [l_section]; try apply covers_fail; unfold l_custom, l_import, l_global, l_export, l_elem, l_func, l_data; covering.
  destruct (negb _); covering. destruct (assign_types _ _ _); covering.
Qed.
Lemma covers_sections fuel : forall s, covers (l_sections fuel s).
Proof.
  induction fuel as [|f IH]; intros s bs; cbn [l_sections]; [cbn; lia|]. destruct bs as [|b bs]; [cbn; lia|].
  match goal with |- calls (snd (?p (b :: bs))) <= _ => assert (C : covers p); [|apply (C (b :: bs))] end.
  covering. destruct (_ && _)%bool; covering; [apply covers_section|apply IH].
Qed.
Definition doubles {A} (d : N) (p : lp A) : Prop := forall bs, 2 * calls (snd (p bs)) <= steps_taken (snd (p bs)) + d.
Lemma doubles_bind d1 d2 {A B} (p : lp A) (q : A -> lp B) : doubles d1 p -> (forall a, doubles d2 (q a)) -> doubles (d1 + d2) (l_bind p q).
Proof.
  intros P Q bs. specialize (P bs). unfold l_bind. destruct (p bs) as [[[a|e| |] r] k]; cbn [snd fst] in *; try lia.
  specialize (Q a r). destruct (q a r) as [x k']. cbn [snd] in *. unfold cost_add. cbn [calls steps_taken]. lia.
Qed.
Lemma doubles_four : doubles 4 (l_run (p_array 4 p_byte)).
Proof. intros bs. destruct bs as [|a [|b [|c [|d bs]]]]; cbn - [N.mul N.add N.of_nat Nat.sub]; unfold pulls; cbn - [N.mul N.add N.of_nat Nat.sub]; lia. Qed.
Lemma doubles_peekable {A} (p : lp A) : covers p -> doubles 0 (l_peekable p).
Proof. intros P bs. specialize (P bs). unfold l_peekable. cbn [snd]. unfold cost_add. cbn [calls steps_taken]. lia. Qed.
Lemma least_steps bs : 2 * calls (parsing_cost bs) <= steps_taken (parsing_cost bs) + 8.
Proof.
  unfold parsing_cost. assert (D : doubles (4 + (4 + 0)) l_module); [|apply D].
  unfold l_module. apply doubles_bind; [apply doubles_four|]. intros magic. destruct (negb (bytes_are magic _)); [intros r; cbn; lia|].
  apply doubles_bind; [apply doubles_four|]. intros version. destruct (negb (bytes_are version _)); [intros r; cbn; lia|].
  intros r. assert (E : doubles (0 + 0) (s <=. l_peekable (l_sections (S (List.length r)) (mkPstate default_module [] 0)) ;; l_ret (ps_result s))); [|apply E].
  apply doubles_bind; [apply doubles_peekable, covers_sections|]. intros s r'. cbn. lia.
Qed.
