(** Claims about everything the program writes. *)
From Coq Require Import String Ascii.
From Coq Require DecimalString DecimalN.
From Verif Require Import DebugText SpecDebug SpecUtf8 SpecCode SpecFormat CodeProof SectionsProof CliProof DebugLayout DebugProof.
Open Scope string_scope.

Lemma printed_parsed args fs c m : cli args fs = Exit c [MsgModule m] -> exists bytes, p_module bytes = (Ok m, []).
Proof.
  unfold cli. intros H. repeat match type of H with (match ?x with _ => _ end) = _ => destruct x eqn:?; try discriminate H end.
  injection H as _ H. destruct (cfg_print c0); [|discriminate H]. injection H as <-. eexists. apply p_module_fst. eassumption.
Qed.
Lemma printed_names args fs c m : cli args fs = Exit c [MsgModule m] -> Forall utf8 (module_names m).
Proof.
  intros H. destruct (printed_parsed _ _ _ _ H) as [bytes P].
  exact (proj1 (proj2 (module_range _ _ _ (proj2 (proj1 (module_exact bytes m []) P))))).
Qed.
Lemma output_module std args fs os c m : cli args fs = Exit c [MsgModule m] -> output std args fs os = Some (show_module std m).
Proof. unfold output. intros ->. reflexivity. Qed.
Lemma print_exact std args1 args2 fs1 fs2 os1 os2 m1 m2 : honest std ->
  cli args1 fs1 = Exit 0 [MsgModule m1] -> cli args2 fs2 = Exit 0 [MsgModule m2] ->
  output std args1 fs1 os1 = output std args2 fs2 os2 <-> module_one_nan m1 = module_one_nan m2.
Proof.
  intros Hon H1 H2. rewrite (output_module _ _ _ _ _ _ H1), (output_module _ _ _ _ _ _ H2).
  rewrite <- (show_module_exact std Hon) by (eapply printed_names; eassumption). split; congruence.
Qed.

Definition nan_file (b : byte) : list byte := (preamble ++ [x06; x09; x01; x7d; x00; x43; b; x00; xc0; x7f; x0b])%list.
Lemma print_refuted : exists args fs1 fs2 m1 m2,
  cli args fs1 = Exit 0 [MsgModule m1] /\ cli args fs2 = Exit 0 [MsgModule m2] /\ m1 <> m2 /\
  forall std os, honest std -> output std args fs1 os = output std args fs2 os.
Proof.
  exists ["x"; "-p"; "f"], (fun _ => Contents (nan_file x00)), (fun _ => Contents (nan_file x01)).
  set (c1 := cli ["x"; "-p"; "f"] (fun _ => Contents (nan_file x00))). set (c2 := cli ["x"; "-p"; "f"] (fun _ => Contents (nan_file x01))).
  eexists. eexists. split; [subst c1; vm_compute; reflexivity|]. split; [subst c2; vm_compute; reflexivity|]. split; [discriminate|].
  intros std os Hon. eapply print_exact; [exact Hon|vm_compute; reflexivity|vm_compute; reflexivity|reflexivity].
Qed.

(** verdicts *)
Definition first_is (c : ascii) (s : string) : Prop := exists r, s = String c r.
Lemma module_first std m : first_is "M" (show_module std m).
Proof. unfold show_module, d_module, println. cbn [pretty append]. eexists. reflexivity. Qed.
Lemma failure_first prog f os m t : show_message prog f os m = Some t -> first_is "P" t \/ first_is "C" t \/ first_is "E" t.
Proof.
  destruct m; cbn [show_message]; intros H; try discriminate H; injection H as <-; unfold println; cbn [append]; unfold first_is; eauto.
Qed.
Inductive verdict_of (std : std_texts) : cli_result -> option string -> Prop :=
| v_crash : verdict_of std Crash None
| v_silent : verdict_of std (Exit 0 []) (Some "")
| v_print m t : first_is "M" t -> verdict_of std (Exit 0 [MsgModule m]) (Some t)
| v_fail m t : first_is "P" t \/ first_is "C" t \/ first_is "E" t -> verdict_of std (Exit 1 [m]) (Some t).
Lemma verdict std args fs os : verdict_of std (cli args fs) (output std args fs os).
Proof.
  destruct (cli args fs) as [c msgs|] eqn:H.
  - pose proof H as C. apply cli_codes in C. destruct C as [->|[-> (m & -> & N)]].
    + pose proof H as Z. apply cli_zero in Z. unfold output. rewrite H. clear Z.
      assert (S : msgs = [] \/ exists m, msgs = [MsgModule m]).
      { unfold cli in H. repeat match type of H with (match ?x with _ => _ end) = _ => destruct x; try discriminate H end.
        injection H as <-. destruct (cfg_print c); eauto. }
      destruct S as [->|[m ->]]; constructor. apply module_first.
    + unfold output, stdout. rewrite H. destruct m as [| | |e| |m0]; [..|destruct (N m0 eq_refl)];
        (match goal with |- verdict_of _ _ ?o => destruct o eqn:O end; [|discriminate O]);
        constructor; exact (failure_first _ _ _ _ _ O).
  - unfold output. rewrite H. constructor.
Qed.
Ltac firsts := unfold first_is in *;
  repeat match goal with F : _ \/ _ |- _ => destruct F end;
  repeat match goal with F : exists _, _ |- _ => destruct F end; subst.
Lemma verdict_inj std r1 r2 o : verdict_of std r1 o -> verdict_of std r2 o ->
  match r1, r2 with
  | Exit c1 l1, Exit c2 l2 => c1 = c2 /\ (l1 = [] <-> l2 = [])
  | Crash, Crash => True
  | _, _ => False
  end.
Proof.
  intros V1 V2. destruct V1; inversion V2; subst; try exact I; try (split; [reflexivity|split; congruence]);
    try (firsts; discriminate); firsts; congruence.
Qed.
Lemma output_status std args1 args2 fs1 fs2 os1 os2 c1 c2 l1 l2 : cli args1 fs1 = Exit c1 l1 -> cli args2 fs2 = Exit c2 l2 ->
  output std args1 fs1 os1 = output std args2 fs2 os2 -> c1 = c2 /\ (l1 = [] <-> l2 = []).
Proof.
  intros H1 H2 E. pose proof (verdict std args1 fs1 os1) as V1. pose proof (verdict std args2 fs2 os2) as V2.
  rewrite <- E in V2. rewrite H1 in V1. rewrite H2 in V2. exact (verdict_inj std _ _ _ V1 V2).
Qed.
Lemma output_silent std args fs os : output std args fs os = Some "" <-> cli args fs = Exit 0 [].
Proof.
  split; [|intros H; unfold output; rewrite H; reflexivity]. intros H. pose proof (verdict std args fs os) as V. rewrite H in V.
  inversion V; subst; [congruence| |]; firsts; congruence.
Qed.
Lemma output_crash std args fs os : output std args fs os = None <-> cli args fs = Crash.
Proof.
  split; [|intros H; unfold output; rewrite H; reflexivity]. intros H. pose proof (verdict std args fs os) as V. rewrite H in V.
  inversion V. reflexivity.
Qed.

(** A library that writes the bits of floating point numbers in decimal, and NaN for a NaN, meets the assumptions. *)
Definition toy_text (nan : bool) (x : N) : string := if nan then "NaN" else DecimalString.NilZero.string_of_uint (N.to_uint x).
Definition toy : std_texts :=
  mkStd (fun x => toy_text (nan32 x) x) (fun x => toy_text (nan64 x) x) (fun c => (c =? 0x200B)%N) false.
Lemma toy_exact (nan : N -> bool) x y : toy_text (nan x) x = toy_text (nan y) y <-> x = y \/ (nan x = true /\ nan y = true).
Proof.
  unfold toy_text. split.
  - destruct (nan x), (nan y); intros H; auto; left; apply (f_equal DecimalString.NilZero.uint_of_string) in H;
      rewrite ?DecimalString.NilZero.usu in H by apply uint_nonnil; try discriminate H.
    injection H as H. apply DecimalN.Unsigned.to_uint_inj, H.
  - intros [->|[-> ->]]; reflexivity.
Qed.
Lemma toy_chars nan x : float_text (toy_text nan x).
Proof.
  unfold toy_text. destruct nan; [split; [discriminate|repeat constructor]|]. split; [apply plain_nonempty, uint_plain, uint_nonnil|].
  assert (H : forall d, Forall (fun c => float_char c = true) (list_ascii_of_string (DecimalString.NilEmpty.string_of_uint d)))
    by (induction d; cbn; constructor; auto).
  unfold DecimalString.NilZero.string_of_uint. destruct (N.to_uint x); try apply H. repeat constructor.
Qed.
Lemma toy_honest : honest toy.
Proof. split; cbn; intros; (apply (toy_exact nan32) || apply (toy_exact nan64) || apply toy_chars). Qed.
