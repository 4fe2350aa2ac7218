(** Initialisers and offsets are single instructions. *)
From Coq Require Import Lia.
From Verif Require Import SpecModule TypingProof.

Lemma const_produces C i t1 t2 : const_instr C i -> instr_type true C i t1 t2 -> t1 = [] /\ exists t, t2 = [t].
Proof.
  intros CI T. destruct i; try contradiction CI; inversion T; subst; try discriminate;
  try match goal with H : plain_type _ = Some _ |- _ => cbn in H; injection H as <- <- end; eauto.
Qed.
Lemma const_length e : forall C t1 t2, seq_type true C e t1 t2 -> const_expr C e -> length t2 = (length t1 + length e)%nat.
Proof.
  intros C t1 t2 T. induction T as [|C is i t1 t0 t t3 T IH I]; intros CE; [cbn; lia|]. apply Forall_app in CE as [CE1 CE2].
  specialize (IH CE1). inversion CE2 as [|? ? CI _]; subst. apply const_produces in I as (-> & u & ->); [|assumption].
  rewrite !app_length in *. cbn in *. lia.
Qed.
Lemma init_one C e t : init_ok C e t <-> exists i, e = [i] /\ const_instr C i /\ instr_type true C i [] [t].
Proof.
  split.
  - intros [CE T]. pose proof (const_length _ _ _ _ T CE) as L. destruct e as [|i [|? ?]]; try discriminate L. exists i. split; [reflexivity|].
    inversion CE as [|? ? CI _]; subst. split; [assumption|]. apply seq_cons_inv in T as (t0 & t1 & t2 & E & T & S). apply seq_nil_inv in S as S'.
    symmetry in E. apply app_eq_nil in E as [-> ->]. cbn in S'. subst. exact T.
  - intros (i & -> & CI & T). split; [constructor; [assumption|constructor]|]. apply (seq_one true C i [] [] [t] T).
Qed.
Lemma init_get C x t : init_ok C [I_GlobalGet x] t <-> exists g, at_index (te_globals C) x g /\ gt_mut g = Const /\ gt_val g = t.
Proof.
  rewrite init_one. split.
  - intros (i & [= <-] & (g & A & M) & T). exists g. split; [exact A|]. split; [exact M|].
    inversion T as [? ? ? ? P| | | | | |? ? g' A'| | | | | | | | | | | | | | | |]; subst; [discriminate P|]. unfold at_index in *. congruence.
  - intros (g & A & M & <-). exists (I_GlobalGet x). split; [reflexivity|]. split; [exists g; auto|]. apply T_global_get. exact A.
Qed.
