(** Proofs about validation on hosts with 32 and 64 bits. *)
From Coq Require Import String Lia.
From Verif Require Import ValidatorHost SpecFormat SpecRefs SpecVerdict EncodeProof ModuleProof SectionsProof CodeProof ModuleClaims TypingProof SafeProof ValidityClaims.
Open Scope N_scope.

Lemma slot_exact checks bits i len : i + 1 < 2 ^ bits ->
  label_slot checks bits i len = if i + 1 <? len then VOk (len - i - 1) else VErr.
Proof.
  intros H. unfold label_slot, usize_add, usize_sub. rewrite (N.mod_small i) by lia.
  assert (X : i + 1 <? 2 ^ bits = true) by (apply N.ltb_lt; lia). rewrite X. cbn [vbind].
  destruct (N.ltb_spec (i + 1) len) as [L|L]; cbn [negb]; [|reflexivity].
  assert (Y : i <=? len = true) by (apply N.leb_le; lia). rewrite Y. cbn [vbind].
  assert (Z : 1 <=? len - i = true) by (apply N.leb_le; lia). rewrite Z. cbn [vbind].
  assert (W : len - i - 1 <? len = true) by (apply N.ltb_lt; lia). rewrite W. reflexivity.
Qed.
Lemma h_label checks bits s i : i + 1 < 2 ^ bits -> h_labelidx checks bits s i = v_labelidx s i.
Proof.
  intros H. unfold h_labelidx, v_labelidx. rewrite slot_exact by assumption.
  destruct (i + 1 <? _); reflexivity.
Qed.
Lemma h_labels checks bits s fr ls : (forall l, In l ls -> l + 1 < 2 ^ bits) ->
  h_br_table_labels checks bits s fr ls = v_br_table_labels s fr ls.
Proof.
  induction ls as [|l ls IH]; intros H; cbn [h_br_table_labels v_br_table_labels]; [reflexivity|].
  rewrite h_label by (apply H; left; reflexivity). rewrite IH by (intros; apply H; right; assumption). reflexivity.
Qed.

Definition small_jumps (bits : N) (e : list instr) : Prop := forall d l, jump d l e -> l + 1 < 2 ^ bits.
Lemma h_seq_eq checks bits c e : Forall (fun i => forall s, small_jumps bits [i] -> h_instr checks bits c i s = v_instr c i s) e ->
  small_jumps bits e -> forall s, v_seq (h_instr checks bits c) e s = v_seq (v_instr c) e s.
Proof.
  induction 1 as [|i e Hi _ IH]; intros J s; cbn [v_seq]; [reflexivity|].
  rewrite Hi.
  - destruct (v_instr c i s); cbn [vbind]; try reflexivity. apply IH. intros d l K. apply (J d l).
    inversion K; subst; [eapply jump_here|eapply jump_inside]; try eassumption; right; assumption.
  - intros d l K. apply (J d l).
    inversion K as [? ? ? I L|? ? ? ? ? I L]; subst; destruct I as [<-|[]]; [eapply jump_here|eapply jump_inside]; try eassumption; left; reflexivity.
Qed.
Lemma h_instr_eq checks bits c i : forall s, small_jumps bits [i] -> h_instr checks bits c i s = v_instr c i s.
Proof.
  induction i as [i IH] using instr_children_ind. intros s J.
  assert (SQ : forall sub, In sub (children i) -> forall s, v_seq (h_instr checks bits c) sub s = v_seq (v_instr c) sub s).
  { intros sub I. apply h_seq_eq; [apply IH; assumption|]. intros d l K. apply (J (S d) l). eapply jump_inside; [left; reflexivity|eassumption..]. }
  assert (T : forall l, In l (branch_targets i) -> l + 1 < 2 ^ bits).
  { intros l I. apply (J 0%nat l). eapply jump_here; [left; reflexivity|assumption]. }
  clear IH J. destruct i; try reflexivity; cbn [h_instr v_instr].
  - rewrite SQ by (left; reflexivity). reflexivity.
  - rewrite SQ by (left; reflexivity). reflexivity.
  - destruct (pop_operands [T_I32] s) as [s1| |]; cbn [vbind]; try reflexivity.
    rewrite SQ by (left; reflexivity).
    match goal with |- vbind ?r _ = _ => destruct r as [s2| |] end; cbn [vbind]; try reflexivity.
    destruct (v_else s2) as [s3| |]; cbn [vbind]; try reflexivity.
    rewrite SQ by (right; left; reflexivity). reflexivity.
  - rewrite h_label by (apply T; left; reflexivity). reflexivity.
  - rewrite h_label by (apply T; left; reflexivity). reflexivity.
  - rewrite h_label by (apply T; apply in_or_app; right; left; reflexivity).
    destruct (v_labelidx s _) as [fr| |]; cbn [vbind]; try reflexivity.
    rewrite h_labels by (intros; apply T; apply in_or_app; left; assumption). reflexivity.
Qed.
Lemma h_expr_eq checks bits c e s : small_jumps bits e -> v_seq (h_instr checks bits c) e s = v_expr c e s.
Proof. intros J. apply h_seq_eq; [|assumption]. apply Forall_forall. intros; apply h_instr_eq; assumption. Qed.
Lemma h_func_eq checks bits f cs : small_jumps bits (fn_body f) -> h_func checks bits f cs = v_func f cs.
Proof.
  intros J. destruct cs as [c s]. unfold h_func, v_func. destruct (v_typeidx c (fn_ty f)); cbn [vbind]; try reflexivity.
  rewrite h_expr_eq by assumption. reflexivity.
Qed.
Lemma each_ext {A B} (v w : A -> vctx -> vres (B * vctx)) xs : (forall x cs, In x xs -> v x cs = w x cs) ->
  forall cs, v_each v xs cs = v_each w xs cs.
Proof.
  induction xs as [|x xs IH]; intros H cs; cbn [v_each]; [reflexivity|].
  rewrite (H x) by (left; reflexivity). destruct (w x cs); cbn [vbind]; try reflexivity.
  rewrite IH by (intros; apply H; right; assumption). reflexivity.
Qed.
Theorem host_same checks bits m :
  (forall f d l, In f (m_funcs m) -> jump d l (fn_body f) -> l + 1 < 2 ^ bits) ->
  h_validate checks bits m = validate m.
Proof.
  intros J. unfold h_validate, validate, v_module. destruct (context_from m); cbn [vbind]; try reflexivity.
  destruct (v_each v_type_item _ _); cbn [vbind]; try reflexivity.
  erewrite each_ext; [reflexivity|]. intros f cs I. apply h_func_eq. intros d l K. eapply J; eassumption.
Qed.

Lemma jump_u32 e d l : code_in_range e -> jump d l e -> l < 2 ^ 32.
Proof.
  intros R J. apply jump_at_depth in J as (j & A & I).
  assert (O : occurs j e). { clear - A. induction A; [apply occurs_here; assumption|eapply occurs_inside; eassumption]. }
  destruct (R j O) as [F _]. rewrite Forall_forall in F. apply F. destruct j; cbn in I |- *; tauto.
Qed.
Lemma body_in_range m f : (forall e, In e (module_exprs m) -> code_in_range e) -> In f (m_funcs m) -> code_in_range (fn_body f).
Proof. intros R I. apply R. apply in_or_app. left. apply in_map. assumption. Qed.

Theorem host_64 checks m : (forall e, In e (module_exprs m) -> code_in_range e) -> h_validate checks 64 m = validate m.
Proof.
  intros R. apply host_same. intros f d l I J. pose proof (jump_u32 _ _ _ (body_in_range _ _ R I) J) as H.
  change (2 ^ 64) with 18446744073709551616. change (2 ^ 32) with 4294967296 in H. lia.
Qed.
Theorem host_32 checks m : (forall e, In e (module_exprs m) -> code_in_range e) ->
  (forall f d, In f (m_funcs m) -> ~ jump d (2 ^ 32 - 1) (fn_body f)) -> h_validate checks 32 m = validate m.
Proof.
  intros R N. apply host_same. intros f d l I J. pose proof (jump_u32 _ _ _ (body_in_range _ _ R I) J) as H.
  destruct (N.eq_dec l (2 ^ 32 - 1)) as [->|E]; [exfalso; eapply N; eassumption|].
  change (2 ^ 32 - 1) with 4294967295 in E. change (2 ^ 32) with 4294967296 in *. lia.
Qed.

(** ** 32 bits: same acceptance *)
Lemma slot_wrap checks len fr : len < 2 ^ 32 -> label_slot checks 32 (2 ^ 32 - 1) len <> VOk fr.
Proof.
  intros L. unfold label_slot, usize_add, usize_sub.
  change ((2 ^ 32 - 1) mod 2 ^ 32) with 4294967295. change (4294967295 + 1 <? 2 ^ 32) with false.
  cbn [orb]. destruct checks; cbn [vbind]; [discriminate|].
  change ((4294967295 + 1) mod 2 ^ 32) with 0. destruct (N.ltb_spec 0 len) as [P|P]; cbn [negb]; [|discriminate].
  change (2 ^ 32) with 4294967296 in *.
  destruct (N.leb_spec 4294967295 len) as [Q|Q]; cbn [vbind].
  - assert (len = 4294967295) as -> by lia. discriminate.
  - assert (X : 1 <=? len + 4294967296 - 4294967295 = true) by (apply N.leb_le; lia). rewrite X. cbn [vbind].
    assert (Y : len + 4294967296 - 4294967295 - 1 <? len = false) by (apply N.ltb_ge; lia). rewrite Y. discriminate.
Qed.
Lemma h_label_ok checks s i fr : i < 2 ^ 32 -> N.of_nat (List.length (frames s)) < 2 ^ 32 ->
  h_labelidx checks 32 s i = VOk fr -> v_labelidx s i = VOk fr.
Proof.
  intros R L H. destruct (N.eq_dec i (2 ^ 32 - 1)) as [->|E].
  - unfold h_labelidx in H. apply vbind_ok in H as (sl & H & _). apply slot_wrap in H; [destruct H|assumption].
  - rewrite h_label in H; [assumption|]. change (2 ^ 32 - 1) with 4294967295 in E. change (2 ^ 32) with 4294967296 in *. lia.
Qed.
Lemma h_labels_ok checks s fr ls r : (forall l, In l ls -> l < 2 ^ 32) -> N.of_nat (List.length (frames s)) < 2 ^ 32 ->
  h_br_table_labels checks 32 s fr ls = VOk r -> v_br_table_labels s fr ls = VOk r.
Proof.
  induction ls as [|l ls IH]; intros R L; cbn [h_br_table_labels v_br_table_labels]; [intros H; exact H|].
  intros H. apply vbind_ok in H as (frm & H1 & H2). apply h_label_ok in H1; [|apply R; left; reflexivity|assumption].
  rewrite H1. cbn [vbind]. destruct (negb _); [assumption|]. apply IH; [intros; apply R; right; assumption|assumption..].
Qed.
Definition shallow (n d : nat) : Prop := N.of_nat (n + d) < 2 ^ 32.
Definition jumps_u32 (e : list instr) : Prop := forall d l, jump d l e -> l < 2 ^ 32.
Definition h_agrees checks c i := forall s s', shallow (List.length (frames s)) (depth i) -> jumps_u32 [i] ->
  h_instr checks 32 c i s = VOk s' -> v_instr c i s = VOk s'.
Lemma jumps_u32_cons i e : jumps_u32 (i :: e) -> jumps_u32 [i] /\ jumps_u32 e.
Proof.
  intros J. split; intros d l K; apply (J d l).
  - inversion K as [? ? ? I L|? ? ? ? ? I L]; subst; destruct I as [<-|[]]; [eapply jump_here|eapply jump_inside]; try eassumption; left; reflexivity.
  - inversion K; subst; [eapply jump_here|eapply jump_inside]; try eassumption; right; assumption.
Qed.
Lemma depth_expr_cons i e : depth_expr (i :: e) = Nat.max (depth i) (depth_expr e).
Proof. reflexivity. Qed.
Lemma h_seq_ok checks c e : Forall (h_agrees checks c) e -> forall s s',
  shallow (List.length (frames s)) (depth_expr e) -> jumps_u32 e ->
  v_seq (h_instr checks 32 c) e s = VOk s' -> v_seq (v_instr c) e s = VOk s'.
Proof.
  induction 1 as [|i e Hi _ IH]; intros s s' D J; cbn [v_seq]; [intros H; exact H|].
  intros H. apply vbind_ok in H as (s1 & H1 & H2). apply jumps_u32_cons in J as [J1 J2].
  rewrite depth_expr_cons in D. unfold shallow in D.
  apply Hi in H1; [|unfold shallow; lia|assumption]. rewrite H1. cbn [vbind]. pose proof (counts_instr c i _ _ H1).
  apply IH; [unfold shallow; lia|assumption..].
Qed.
Lemma h_instr_ok checks c i : h_agrees checks c i.
Proof.
  induction i as [i IH] using instr_children_ind. intros s s' D J H.
  assert (SQ : forall sub, In sub (children i) -> forall s s', shallow (List.length (frames s)) (depth_expr sub) ->
    v_seq (h_instr checks 32 c) sub s = VOk s' -> v_seq (v_instr c) sub s = VOk s').
  { intros sub I s1 s2 D1. apply h_seq_ok; [apply IH; assumption|assumption|].
    intros d l K. apply (J (S d) l). eapply jump_inside; [left; reflexivity|eassumption..]. }
  assert (T : forall l, In l (branch_targets i) -> l < 2 ^ 32).
  { intros l I. apply (J 0%nat l). eapply jump_here; [left; reflexivity|assumption]. }
  clear IH J. destruct i; try exact H; cbn [h_instr v_instr] in H |- *; unfold shallow in *; cbn [depth] in D.
  - apply vbind_ok in H as (s1 & H1 & H2). apply SQ in H1; [rewrite H1; exact H2|left; reflexivity|]. cbn [push_frame frames List.length]. unfold depth_expr. lia.
  - apply vbind_ok in H as (s1 & H1 & H2). apply SQ in H1; [rewrite H1; exact H2|left; reflexivity|]. cbn [push_frame frames List.length]. unfold depth_expr. lia.
  - apply vbind_ok in H as (s0 & H0 & H). rewrite H0. cbn [vbind]. apply pops_frames in H0.
    apply vbind_ok in H as (s1 & H1 & H). apply SQ in H1; [|left; reflexivity|cbn [push_frame frames List.length]; rewrite H0; unfold depth_expr; lia].
    rewrite H1. cbn [vbind].
    apply (counts_expr c) in H1. cbn [push_frame frames List.length] in H1. rewrite H0 in H1.
    apply vbind_ok in H as (s2 & H2 & H). rewrite H2. cbn [vbind]. apply else_frames in H2.
    apply vbind_ok in H as (s3 & H3 & H). apply SQ in H3; [|right; left; reflexivity|unfold depth_expr; lia].
    rewrite H3. exact H.
  - apply vbind_ok in H as (fr & H1 & H2). apply h_label_ok in H1; [|apply T; left; reflexivity|lia]. rewrite H1. exact H2.
  - apply vbind_ok in H as (fr & H1 & H2). apply h_label_ok in H1; [|apply T; left; reflexivity|lia]. rewrite H1. exact H2.
  - apply vbind_ok in H as (fr & H1 & H). apply h_label_ok in H1; [|apply T; apply in_or_app; right; left; reflexivity|lia]. rewrite H1. cbn [vbind].
    apply vbind_ok in H as (u & H2 & H). apply h_labels_ok in H2; [|intros; apply T; apply in_or_app; left; assumption|lia]. rewrite H2. exact H.
Qed.
Definition empty_ctx (cs : vctx) : Prop := stacks_not_empty (snd cs) = false.
Lemma empty_frames s : stacks_not_empty s = false -> frames s = [].
Proof. unfold stacks_not_empty. destruct (frames s); [reflexivity|discriminate]. Qed.
Definition body_fits (f : func) : Prop := jumps_u32 (fn_body f) /\ N.of_nat (depth_expr (fn_body f)) < 2 ^ 32 - 1.
Lemma h_func_ok checks f cs r : empty_ctx cs -> body_fits f -> h_func checks 32 f cs = VOk r -> v_func f cs = VOk r /\ empty_ctx (snd r).
Proof.
  destruct cs as [c s]. intros E [J D]. unfold empty_ctx in E. cbn [snd] in E. apply empty_frames in E. unfold h_func, v_func. intros H.
  apply vbind_ok in H as (t & H1 & H). rewrite H1. cbn [vbind].
  apply vbind_ok in H as (s1 & H2 & H).
  apply h_seq_ok in H2; [|apply Forall_forall; intros; apply h_instr_ok| |assumption].
  2: { unfold shallow. cbn [push_frame frames List.length]. rewrite E. cbn [List.length]. change (2 ^ 32 - 1) with 4294967295 in D. change (2 ^ 32) with 4294967296. lia. }
  unfold v_expr. rewrite H2. cbn [vbind]. apply vbind_ok in H as (rs & H3 & H). rewrite H3. cbn [vbind].
  destruct (stacks_not_empty (snd rs)) eqn:N; [discriminate|]. split; [assumption|]. injection H as <-. exact N.
Qed.
Lemma h_each_ok checks fs : Forall body_fits fs -> forall cs r, empty_ctx cs -> v_each (h_func checks 32) fs cs = VOk r -> v_each v_func fs cs = VOk r.
Proof.
  induction 1 as [|f fs F _ IH]; intros cs r E; cbn [v_each]; [intros H; exact H|]. intros H.
  apply vbind_ok in H as (x & H1 & H). apply h_func_ok in H1 as [H1 E1]; [|assumption..]. rewrite H1. cbn [vbind].
  apply vbind_ok in H as (xs & H2 & H). apply IH in H2; [|assumption]. rewrite H2. exact H.
Qed.
Lemma type_items_ctx ts cs r : v_each v_type_item ts cs = VOk r -> snd r = cs.
Proof.
  revert r. induction ts as [|t ts IH]; intros r; cbn [v_each]; [intros [= <-]; reflexivity|]. intros H.
  apply vbind_ok in H as (x & H1 & H). unfold v_type_item in H1. apply vbind_ok in H1 as (u & _ & [= <-]). cbn [snd] in H.
  apply vbind_ok in H as (y & H2 & [= <-]). cbn [snd]. apply IH. assumption.
Qed.
Lemma host_32_accepts checks m mt : Forall body_fits (m_funcs m) -> h_validate checks 32 m = VOk mt -> validate m = VOk mt.
Proof.
  intros F. unfold h_validate, validate, v_module. intros H.
  apply vbind_ok in H as (c & H1 & H). rewrite H1. cbn [vbind].
  apply vbind_ok in H as (r1 & H2 & H). rewrite H2. cbn [vbind]. apply type_items_ctx in H2.
  apply vbind_ok in H as (r2 & H3 & H). apply h_each_ok in H3; [|assumption|rewrite H2; reflexivity]. rewrite H3. exact H.
Qed.

Lemma child_depth i sub : In sub (children i) -> (S (depth_expr sub) <= depth i)%nat.
Proof. unfold depth_expr. destruct i; cbn [children In depth]; intros I; intuition subst; lia. Qed.
Lemma depth_in i e : In i e -> (depth i <= depth_expr e)%nat.
Proof.
  induction e as [|j e IH]; intros I; [destruct I|]. rewrite depth_expr_cons. destruct I as [<-|I]; [lia|]. apply IH in I. lia.
Qed.
Lemma jump_depth d l e : jump d l e -> (d <= depth_expr e)%nat.
Proof.
  induction 1 as [i l e I L|d i sub l e I C J IH]; [lia|]. apply child_depth in C. apply depth_in in I. lia.
Qed.

Theorem host_32_verdict checks m mt : (forall e, In e (module_exprs m) -> code_in_range e) ->
  (forall f, In f (m_funcs m) -> N.of_nat (depth_expr (fn_body f)) < 2 ^ 32 - 1) ->
  (h_validate checks 32 m = VOk mt <-> validate m = VOk mt).
Proof.
  intros R D. split.
  - apply host_32_accepts. apply Forall_forall. intros f I. split; [|apply D; assumption].
    intros d l J. eapply jump_u32; [apply (body_in_range _ _ R I)|eassumption].
  - intros H. rewrite host_32; [assumption|assumption|]. intros f d I J.
    assert (A : accepted m) by (exists mt; assumption). apply accepted_no_dangling in A as (_ & _ & _ & A).
    pose proof (A f I _ _ J). pose proof (jump_depth _ _ _ J). pose proof (D f I). lia.
Qed.

(** ** Files *)
Lemma enc_list_within {A} (E : format A) bs xs x : enc_list E bs xs -> In x xs -> exists b, E b x /\ (List.length b <= List.length bs)%nat.
Proof.
  intros (ch & F & ->). induction F as [|c y ch xs H F IH]; intros I; [destruct I|]. cbn [concat]. rewrite app_length.
  destruct I as [<-|I]; [exists c; split; [assumption|lia]|]. destruct (IH I) as (b & B & L). exists b. split; [assumption|lia].
Qed.
Lemma enc_vec_within {A} fd (E : format A) bs xs x : enc_vec fd E bs xs -> In x xs -> exists b, E b x /\ (List.length b <= List.length bs)%nat.
Proof.
  intros (n & es & -> & _ & H) I. destruct (enc_list_within _ _ _ _ H I) as (b & B & L). exists b. rewrite app_length. split; [assumption|lia].
Qed.
Lemma enc_sized_within {A} fd (E : format A) bs x : enc_sized fd E bs x -> exists b, E b x /\ (List.length b <= List.length bs)%nat.
Proof. intros (n & c & -> & _ & H). exists c. rewrite app_length. split; [assumption|lia]. Qed.
Lemma body_within bs m f : enc_module whasm_format bs m -> In f (m_funcs m) -> (3 * depth_expr (fn_body f) < List.length bs)%nat.
Proof.
  intros (body & secs & -> & EL & _ & _ & ->) I. cbn [module_of m_funcs] in I.
  unfold pair_funcs in I. apply in_map_iff in I. destruct I as ([t c] & <- & I). apply in_combine_r in I. cbn [fn_body snd].
  apply in_flat_map in I. destruct I as (s & I & J). destruct (enc_list_within _ _ _ _ EL I) as (b & B & L).
  destruct s; cbn [sec_codes] in J; try destruct J. destruct B as (b' & -> & B).
  apply enc_sized_within in B as (b1 & B & L1). destruct (enc_vec_within _ _ _ _ _ B J) as (b2 & B2 & L2).
  apply enc_sized_within in B2 as (b3 & B3 & L3).
  destruct B3 as (rb & eb & runs & -> & _ & _ & _ & isb & -> & B4).
  apply (depth_lists whasm_format) in B4. rewrite !app_length in L3. rewrite app_length. change (List.length (x0a :: b')) with (S (List.length b')) in L. cbn [List.length] in *. lia.
Qed.
Theorem host_file bs m : p_module bs = (Ok m, []) ->
  (forall checks, h_validate checks 64 m = validate m) /\
  (N.of_nat (List.length bs) < 2 ^ 32 -> forall checks mt, h_validate checks 32 m = VOk mt <-> validate m = VOk mt).
Proof.
  intros P. apply module_exact in P as [_ P]. pose proof (module_range _ _ _ P) as (_ & _ & R). split.
  - intros checks. apply host_64. assumption.
  - intros L checks mt. apply host_32_verdict; [assumption|]. intros f I.
    pose proof (body_within _ _ _ P I). change (2 ^ 32) with 4294967296 in *. change (4294967296 - 1) with 4294967295. lia.
Qed.

(** ** The program *)
Lemma parsed_pair bs m : fst (p_module bs) = Ok m -> p_module bs = (Ok m, []).
Proof.
  destruct (p_module bs) as [o rest] eqn:P. cbn [fst]. intros ->. pose proof P as Q. apply module_exact in Q as [-> _]. reflexivity.
Qed.
Theorem host_cli_64 checks args fs : h_cli checks 64 args fs = cli args fs.
Proof.
  unfold h_cli, cli. destruct (config_new args) as [cfg|]; [|reflexivity]. destruct (fs (cfg_filename cfg)) as [| |bs]; try reflexivity.
  destruct (fst (p_module bs)) as [m| | |] eqn:P; try reflexivity.
  apply parsed_pair in P. destruct (host_file _ _ P) as [H _]. rewrite H. reflexivity.
Qed.
Theorem host_cli_32 checks args fs : (forall f bs, fs f = Contents bs -> N.of_nat (List.length bs) < 2 ^ 32) ->
  (forall msgs, h_cli checks 32 args fs = Exit 0 msgs <-> cli args fs = Exit 0 msgs) /\
  (h_cli checks 32 args fs = cli args fs \/ h_cli checks 32 args fs = Crash).
Proof.
  intros L. unfold h_cli, cli. destruct (config_new args) as [cfg|].
  2: { split; [intros; reflexivity|left; reflexivity]. }
  destruct (fs (cfg_filename cfg)) as [| |bs] eqn:F; try (split; [intros; reflexivity|left; reflexivity]).
  destruct (fst (p_module bs)) as [m| | |] eqn:P; try (split; [intros; reflexivity|left; reflexivity]).
  apply parsed_pair in P. destruct (host_file _ _ P) as [_ H]. specialize (H (L _ _ F) checks).
  destruct (validate m) as [mt| |] eqn:V.
  - assert (E : h_validate checks 32 m = VOk mt) by (apply H; reflexivity). rewrite E. split; [intros; reflexivity|left; reflexivity].
  - destruct (h_validate checks 32 m) as [mt| |] eqn:E.
    + assert (X : VErr = VOk mt) by (apply (H mt); reflexivity). discriminate X.
    + split; [intros; reflexivity|left; reflexivity].
    + split; [intros; split; discriminate|right; reflexivity].
  - exfalso. apply (validate_no_panic m V).
Qed.

(** one function of type [] -> [] whose body is [br 4294967295] *)
Definition far_branch_file : list byte :=
  preamble ++ [x01; x04; x01; x60; x00; x00; x03; x02; x01; x00; x0a; x0a; x01; x08; x00; x0c; xff; xff; xff; xff; x0f; x0b].
Definition far_branch_module : module :=
  mkModule [mkFuncTy [] []] [mkFunc 0 [] [I_Br 4294967295]] [] [] [] [] [] None [] [].
Theorem host_32_panics : exists bs m, p_module bs = (Ok m, []) /\ validate m = VErr /\
  forall checks, h_validate checks 64 m = VErr /\ h_validate checks 32 m = VPanic.
Proof.
  exists far_branch_file, far_branch_module. split; [vm_compute; reflexivity|]. split; [vm_compute; reflexivity|].
  intros []; split; vm_compute; reflexivity.
Qed.
