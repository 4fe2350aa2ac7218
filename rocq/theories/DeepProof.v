(** How deeply a file can nest calls at all (C68): sections have at most [2^32-1] bytes. *)
From Coq Require Import Lia.
From Verif Require Import SpecStack SpecVerdict AllocProof NestProof StackProof EncodeProof CodeProof CoreClaims ParserMeta TypesProof InstrProof ModuleProof SectionsProof ModuleClaims ModuleClaims2 HostProof ModuleValidProof ValidityClaims IntEndProof.
Open Scope N_scope.

Definition capped {A} (a : ap A) : Prop := forall bs n, In (Nest n) (snd (a bs)) -> 2 * n < 2 ^ 32.
Lemma capped_run {A} (p : parser A) : capped (a_run p).
Proof. intros bs n []. Qed.
Lemma capped_bind {A B} (a : ap A) (f : A -> ap B) : capped a -> (forall x, capped (f x)) -> capped (a_bind a f).
Proof.
  intros P F bs n. unfold a_bind. specialize (P bs n). destruct (a bs) as [[[x|e| |] r] l]; cbn [snd] in *; try assumption.
  specialize (F x r n). destruct (f x r) as [y l']. cbn [snd] in *. rewrite in_app_iff. tauto.
Qed.
Lemma capped_sized {A} (a : ap A) : deep 0 a -> capped (a_sized a).
Proof.
  intros D bs n. unfold a_sized, a_bind, a_run. destruct (p_u32 bs) as [[size|e| |] r] eqn:P; cbn [snd]; try (intros []).
  apply unsigned_all in P as (pre & -> & _ & _ & L). specialize (D (firstn (N.to_nat size) r)) as [_ D].
  destruct (a (firstn (N.to_nat size) r)) as [[o r'] l]. cbn [fst snd] in D. rewrite Forall_forall in D. intros I.
  assert (J : In (Nest n) l) by (destruct o; [destruct (negb _)| | |]; exact I). specialize (D _ J). cbn [nest_ok] in D.
  pose proof (firstn_le_length (N.to_nat size) r). lia.
Qed.
Lemma capped_section id s : capped (a_section id s).
Proof.
  pose proof (deep_run 0 _ suffixing_u32). pose proof (deep_run 0 _ suffixing_byte). pose proof (deep_run 0 _ suffixing_globalty).
  pose proof (deep_run 0 _ suffixing_importdesc). pose proof (deep_run 0 _ suffixing_exportdesc).
  pose proof (deep_run 0 _ suffixing_consume). pose proof (deep_run 0 _ suffixing_table). pose proof (deep_run 0 _ suffixing_mem).
  pose proof (deep_run 0 _ suffixing_start). pose proof (deep_run 0 _ suffixing_valty).
  unfold a_section, a_custom, a_import, a_global, a_export, a_elem, a_func, a_data.
  destruct id; try apply capped_run; (apply capped_bind; [apply capped_sized; m_deep|intros v]); try apply capped_run.
  cbv zeta. destruct (negb _); [apply capped_run|]. destruct (assign_types _ _ _); apply capped_run.
Qed.
Lemma capped_sections fuel : forall s, capped (a_sections fuel s).
Proof.
  induction fuel as [|f IH]; intros s; [intros bs n []|]. intros [|b bs]; [intros n []|]. cbn [a_sections].
  revert bs. intros bs. refine (_ (b :: bs)). apply capped_bind; [apply capped_run|]. intros id.
  destruct (_ && _); [apply capped_run|]. cbv zeta. apply capped_bind; [apply capped_section|]. intros s2. apply IH.
Qed.
Lemma nest_capped bs n : In (Nest n) (requests bs) -> 2 * n < 2 ^ 32.
Proof.
  revert bs n. change (capped a_module). apply capped_bind; [apply capped_run|]. intros magic. destruct (negb _); [apply capped_run|].
  apply capped_bind; [apply capped_run|]. intros version. destruct (negb _); [apply capped_run|].
  assert (B : forall fuel, capped (s <=+ a_sections fuel (mkPstate default_module [] 0) ;; a_ret (ps_result s))).
  { intros fuel. apply capped_bind; [apply capped_sections|]. intros s. apply capped_run. }
  intros bs. apply B.
Qed.

(** ** The deepest valid file *)
Lemma leb_pos bs : leb bs -> (1 <= length bs)%nat.
Proof. destruct 1; cbn [length]; lia. Qed.
Lemma body_cap bs m f : enc_module whasm_format bs m -> In f (m_funcs m) -> 3 * N.of_nat (depth_expr (fn_body f)) + 8 < 2 ^ 32.
Proof.
  intros (body & secs & -> & EL & _ & _ & ->) I. cbn [module_of m_funcs] in I.
  unfold pair_funcs in I. apply in_map_iff in I. destruct I as ([t c] & <- & I). apply in_combine_r in I. cbn [fn_body snd].
  apply in_flat_map in I. destruct I as (s & I & J). destruct (enc_list_within _ _ _ _ EL I) as (b & B & _).
  destruct s; cbn [sec_codes] in J; try destruct J. destruct B as (b' & -> & B).
  destruct B as (n & cont & -> & [(_ & _ & CAP) _] & n1 & es & -> & [(L1 & _) _] & ES). apply leb_pos in L1.
  destruct (enc_list_within _ _ _ _ ES J) as (b2 & B2 & L2). destruct B2 as (n2 & c2 & -> & [(_ & V2 & _) _] & B3). clear I J.
  destruct B3 as (rb & eb & runs & -> & (n3 & e3 & -> & [(L3 & _) _] & _) & _ & _ & isb & -> & B4). apply leb_pos in L3.
  apply (depth_lists whasm_format) in B4. pose proof (uleb_bound n2) as U. rewrite V2 in U. unfold fits_u in CAP.
  rewrite !app_length in *. cbn [length] in *. set (d := depth_expr (snd c)) in *. clearbody d.
  destruct (Nat.le_gt_cases 5 (length n2)) as [G|G]; [lia|].
  assert (128 ^ N.of_nat (length n2) <= 128 ^ 4) by (apply N.pow_le_mono_r; lia).
  change (128 ^ 4) with 268435456 in *. change (2 ^ 32) with 4294967296 in *. lia.
Qed.
Lemma const_flat C e : const_expr C e -> depth_expr e = 0%nat.
Proof.
  induction 1 as [|i e H F IH]; [reflexivity|]. change (depth_expr (i :: e)) with (Nat.max (depth i) (depth_expr e)). rewrite IH.
  destruct i; try contradiction; reflexivity.
Qed.
Lemma depth_cap bs m e : p_module bs = (Ok m, []) -> accepted m -> In e (module_exprs m) -> 3 * N.of_nat (depth_expr e) + 8 < 2 ^ 32.
Proof.
  intros P A I. apply module_exact in P as [_ P]. apply accepted_checked in A as (fts & ims & exs & MC).
  assert (Z : depth_expr e = 0%nat -> 3 * N.of_nat (depth_expr e) + 8 < 2 ^ 32) by (intros ->; reflexivity).
  unfold module_exprs in I. rewrite !in_app_iff, !in_map_iff in I. destruct I as [(f & <- & I)|[(g & <- & I)|[(g & <- & I)|(g & <- & I)]]].
  - eapply body_cap; eassumption.
  - apply Z. destruct (proj1 (Forall_forall _ _) (mc_globals_ok _ _ _ _ MC) _ I) as [C _]. eapply const_flat; exact C.
  - apply Z. destruct (proj1 (Forall_forall _ _) (mc_elem_ok _ _ _ _ MC) _ I) as (_ & [C _] & _). eapply const_flat; exact C.
  - apply Z. destruct (proj1 (Forall_forall _ _) (mc_data_ok _ _ _ _ MC) _ I) as (_ & [C _]). eapply const_flat; exact C.
Qed.
Theorem deepest_valid d : (exists bs m e, p_module bs = (Ok m, []) /\ accepted m /\ In e (module_exprs m) /\ depth_expr e = d) <->
  3 * N.of_nat d + 8 < 2 ^ 32.
Proof.
  split.
  - intros (bs & m & e & P & A & I & <-). eapply depth_cap; eassumption.
  - intros L. exists (encode (tower d)), (tower d), (nested_blocks d). split; [apply t_read; lia|]. split; [eexists; apply t_valid|].
    split; [left; reflexivity|apply nested_depth].
Qed.
