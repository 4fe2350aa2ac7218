(** Nothing but the listed deviations separates the verdict of the code from the official one. *)
From Coq Require Import Lia.
From Verif Require Import ParserModule SpecDeviations SpecVerdict ModuleClaims CodeProof EncodeProof TypingProof DialectValidProof ValidityClaims InitProof CliProof.
Open Scope N_scope.

(** ** Initialisers over other globals *)
Lemma init_change C gs e t : init_ok C e t -> (init_ok (globals_env gs) e t <-> forall x, e = [I_GlobalGet x] -> reads gs x t).
Proof.
  intros H. apply init_one in H as (i & -> & CI & T). rewrite init_one. split.
  - intros (j & [= <-] & CJ & TJ) x [= ->]. destruct CJ as (g & A & M). exists g. split; [exact A|]. split; [exact M|].
    inversion TJ as [? ? ? ? P| | | | | |? ? g' A'| | | | | | | | | | | | | | | |]; subst; [discriminate P|]. unfold at_index in *. cbn in *. congruence.
  - intros H. exists i. split; [reflexivity|]. destruct i; try contradiction CI.
    + edestruct H as (g & A & M & <-); [reflexivity|]. split; [exists g; auto|]. apply T_global_get. exact A.
    + split; [exact I|]. inversion T; subst; try discriminate. apply T_plain. assumption.
    + split; [exact I|]. inversion T; subst; try discriminate. apply T_plain. assumption.
    + split; [exact I|]. inversion T; subst; try discriminate. apply T_plain. assumption.
    + split; [exact I|]. inversion T; subst; try discriminate. apply T_plain. assumption.
Qed.
Lemma inits_change C gs m : Forall (global_ok C) (m_globals m) -> (Forall (global_ok (globals_env gs)) (m_globals m) <-> inits_read gs m).
Proof.
  intros H. rewrite Forall_forall in *. split.
  - intros K g x I. apply (proj1 (init_change C gs _ _ (H g I)) (K g I)).
  - intros K g I. apply (proj2 (init_change C gs _ _ (H g I))). intros x. apply K. exact I.
Qed.

(** ** The two verdicts *)
Theorem accepted_exact m : accepted m -> (forall f, In f (m_funcs m) -> no_pseudo (fn_body f)) ->
  (valid_module wasm10_validity m <-> unchecked m).
Proof.
  intros A NP. apply c40_iff in A; [|exact NP]. destruct A as (fts & ims & xs & [FS F1 F2 F3 F4 F5 F6 F7 F8 F9 F10 _ _ EN]). split.
  - intros (fts' & ims' & xs' & [FS' G1 G2 G3 G4 G5 G6 G7 G8 G9 G10 LT LM EN']). split; [|split; [|split; assumption]].
    + rewrite Forall_forall in G2. intros f I. destruct (G2 f I) as [ft [_ T]]. apply alignment_iff in T. apply T.
    + apply (inits_change _ _ _ F5). exact G5.
  - intros (NA & IR & LT & LM). exists fts, ims, xs. constructor; try assumption.
    + rewrite Forall_forall in *. intros f I. destruct (F2 f I) as [ft T]. exists ft. apply function_dialects. auto.
    + eapply Forall_mono; [|exact F3]. intros t. apply limits_ok_mono. discriminate.
    + eapply Forall_mono; [|exact F4]. intros t. apply limits_ok_mono. discriminate.
    + apply (inits_change _ _ _ F5). exact IR.
    + apply imports_ext_ok in F9 as (P & Q & R). apply imports_ext_ok. repeat split; [assumption|..].
      * eapply Forall_mono; [|exact Q]. intros t. apply limits_ok_mono. discriminate.
      * eapply Forall_mono; [|exact R]. intros t. apply limits_ok_mono. discriminate.
Qed.
Lemma limits_bounded n l : 0 < n -> limits_ok (n - 1) l -> Forall (fun x => x < n) (limits_u32s l).
Proof.
  intros P [A B]. unfold limits_u32s. constructor; [lia|]. destruct (lim_max l) as [x|]; constructor; [|constructor]. destruct (B x eq_refl). lia.
Qed.
Theorem official_exact m : valid_module wasm10_validity m -> limits_u32 m -> (accepted m <-> overchecked m).
Proof.
  intros V LU. pose proof V as (fts & ims & xs & [FS F1 F2 F3 F4 F5 F6 F7 F8 F9 F10 LT LM EN]).
  assert (NP : forall f, In f (m_funcs m) -> no_pseudo (fn_body f)).
  { intros f I. rewrite Forall_forall in F2. destruct (F2 f I) as [ft T]. eapply func_typed_no_pseudo; exact T. }
  rewrite (c40_iff m NP). split.
  - intros (fts' & ims' & xs' & [FS' G1 G2 G3 G4 G5 G6 G7 G8 G9 G10 _ _ EN']). split; [|split].
    + rewrite Forall_forall in G2. intros f I. destruct (G2 f I) as [ft T]. apply own_label_iff in T. apply T.
    + apply (inits_change _ _ _ F5). exact G5.
    + unfold small_memories, mem_space. apply Forall_app. apply imports_ext_ok in G9 as (_ & _ & R). rewrite Forall_forall in *. split.
      * intros t I. apply limits_bounded; [reflexivity|]. apply R. exact I.
      * rewrite Forall_forall. intros t I. apply in_map_iff in I as (t' & <- & I). apply limits_bounded; [reflexivity|]. apply G4. exact I.
  - intros (NJ & IR & SM). apply c40_iff; [exact NP|].
    unfold limits_u32, small_memories, table_space, mem_space in LU, SM. rewrite Forall_app in LU, SM. destruct LU as [LU1 LU2], SM as [SM1 SM2].
    cbn [vd_count_imports wasm10_validity] in LT, LM. unfold table_space, mem_space in LT, LM. rewrite app_length, map_length in LT, LM.
    apply c40_iff; [exact NP|]. exists fts, ims, xs. constructor; try assumption.
    + rewrite Forall_forall in *. intros f I. destruct (F2 f I) as [ft T]. exists ft. apply (proj2 (function_dialects _ _ _)). auto.
    + rewrite Forall_forall in *. intros t I. eapply limits_small; [|apply F3; assumption]. apply LU2. apply in_map. assumption.
    + rewrite Forall_forall in *. intros t I. eapply limits_small; [|apply F4; assumption]. apply SM2. apply in_map. assumption.
    + apply (inits_change _ _ _ F5). exact IR.
    + apply imports_ext_ok in F9 as (P & Q & R). apply imports_ext_ok. repeat split; [assumption|..].
      * rewrite Forall_forall in *. intros t I. eapply limits_small; [apply LU1; assumption|apply Q; assumption].
      * rewrite Forall_forall in *. intros t I. eapply limits_small; [apply SM1; assumption|apply R; assumption].
    + cbn [vd_count_imports whasm_validity]. rewrite map_length. lia.
    + cbn [vd_count_imports whasm_validity]. rewrite map_length. lia.
Qed.
(** for files, with nothing to assume *)
Theorem files_exact bs m : p_module bs = (Ok m, []) ->
  (accepted m -> (valid_module wasm10_validity m <-> unchecked m)) /\
  (valid_module wasm10_validity m -> (accepted m <-> overchecked m)) /\
  (accepted m /\ valid_module wasm10_validity m <-> accepted m /\ unchecked m) /\
  (accepted m /\ valid_module wasm10_validity m <-> valid_module wasm10_validity m /\ overchecked m).
Proof.
  intros P. pose proof (proj2 (proj1 (SectionsProof.module_exact _ _ _) P)) as W.
  assert (A : accepted m -> (valid_module wasm10_validity m <-> unchecked m)).
  { intros A. apply accepted_exact; [exact A|]. intros f I. eapply parsed_no_pseudo; eassumption. }
  assert (B : valid_module wasm10_validity m -> (accepted m <-> overchecked m)).
  { intros V. apply official_exact; [exact V|]. apply module_limits_u32. apply (module_range _ _ _ W). }
  tauto.
Qed.
