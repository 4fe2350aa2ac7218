(** Type soundness: well typed code does not get stuck. *)
From Coq Require Import Lia.
From Verif Require Import SpecExec SpecVerdict ModuleValidProof ValidityClaims.
Open Scope N_scope.

Lemma same_refl ts : valtys_same ts ts = true.
Proof. induction ts as [|[] ts IH]; cbn; auto. Qed.
Lemma same_eq a b : valtys_same a b = true -> a = b.
Proof. revert b. induction a as [|x a IH]; intros [|y b]; cbn; try discriminate; auto. destruct x, y; try discriminate; intros H; apply IH in H; congruence. Qed.
Lemma functy_same_eq a b : functy_same a b = true -> a = b.
Proof. unfold functy_same. intros H. apply andb_prop in H as [H1 H2]. destruct a, b. apply same_eq in H1, H2. cbn in *. congruence. Qed.

(** the stack [vs] (top first) has types [ts] (top last) *)
Definition stk (ts : list valty) (vs : list value) : Prop := map type_of (rev vs) = ts.
Lemma stk_split ts1 ts2 vs : stk (ts1 ++ ts2) vs -> exists vs2 vs1, vs = rev vs2 ++ vs1 /\ map type_of vs2 = ts2 /\ stk ts1 vs1.
Proof.
  unfold stk. intros H. apply map_eq_app in H as (l1 & l2 & E & H1 & H2). exists l2, (rev l1).
  rewrite <- rev_app_distr, <- E, rev_involutive. split; [reflexivity|]. split; [assumption|]. rewrite rev_involutive. assumption.
Qed.
Lemma stk_app ts1 ts2 vs2 vs1 : map type_of vs2 = ts2 -> stk ts1 vs1 -> stk (ts1 ++ ts2) (rev vs2 ++ vs1).
Proof. unfold stk. intros <- <-. rewrite rev_app_distr, rev_involutive, map_app. reflexivity. Qed.
Lemma take_ok vs2 vs1 : take (map type_of vs2) (rev vs2 ++ vs1) = Some (vs2, vs1).
Proof.
  unfold take. rewrite map_length, <- rev_length, firstn_app, firstn_all, Nat.sub_diag. cbn [firstn]. rewrite app_nil_r, rev_involutive, same_refl.
  rewrite skipn_app, skipn_all, Nat.sub_diag. reflexivity.
Qed.
Lemma set_nth_length {A} n (x : A) l : length (set_nth n x l) = length l.
Proof. revert n. induction l as [|y l IH]; intros [|n]; cbn; auto. Qed.
Lemma set_nth_types n v l old : nth_error l n = Some old -> type_of v = type_of old -> map type_of (set_nth n v l) = map type_of l.
Proof. revert n. induction l as [|y l IH]; intros [|n]; cbn; intros H E; try discriminate; [congruence|]. f_equal. eapply IH; eassumption. Qed.
Lemma set_nth_other {A} n k (x : A) l : n <> k -> nth_error (set_nth n x l) k = nth_error l k.
Proof. revert n k. induction l as [|y l IH]; intros [|n] [|k] E; cbn; try reflexivity; try congruence. apply IH. congruence. Qed.
Lemma nth_types vs ts x t : map type_of vs = ts -> at_index ts x t -> exists v, at_N vs x = Some v /\ type_of v = t.
Proof.
  unfold at_index, at_N. intros <- H. rewrite nth_error_map in H. destruct (nth_error vs (N.to_nat x)) as [v|]; [|discriminate].
  exists v. split; [reflexivity|]. cbn in H. congruence.
Qed.
Lemma nth_same_length {A B} (xs : list A) (ys : list B) x y : length xs = length ys -> at_index ys x y -> exists a, at_N xs x = Some a.
Proof.
  unfold at_index, at_N. intros L H. destruct (nth_error xs (N.to_nat x)) eqn:E; [eauto|]. apply nth_error_None in E.
  assert (nth_error ys (N.to_nat x) <> None) by congruence. apply nth_error_Some in H0. lia.
Qed.

Section Sound.
Context (M : machine) (MOK : machine_ok M) (fs : list (finst M)) (C0 : tenv).
(** the functions fit the context *)
Definition finst_code_ok (f : finst M) : Prop :=
  match f with
  | F_Wasm t fn => exists own, func_type false own C0 fn t
  | F_Host _ _ => host_ok C0 (length fs) f
  end.
Context (FOK : Forall finst_code_ok fs).
Context (FTY : forall x ft, at_index (te_funcs C0) x ft -> exists f, at_N fs x = Some f /\ finst_type f = ft).

(** contexts inside of functions: everything but locals, labels and return *)
Definition ctx_ok (C : tenv) : Prop :=
  te_types C = te_types C0 /\ te_funcs C = te_funcs C0 /\ te_tables C = te_tables C0 /\ te_mems C = te_mems C0 /\ te_globals C = te_globals C0.
Definition labels_ok (C : tenv) (labels : list (list valty)) : Prop := forall l ts, at_index (te_labels C) l ts -> at_N labels l = Some ts.
Definition ret_ok (C : tenv) (ret : list valty) : Prop := forall ts, te_return C = Some ts -> ret = ts.

Definition conf_ok (C : tenv) (ts : list valty) (c : conf M) : Prop :=
  stk ts (c_stack c) /\ map type_of (c_vars c) = te_locals C /\ store_ok C0 (length fs) (c_store c).
Definition grows (c : conf M) (st : store M) : Prop := same_constants C0 (c_store c) st.

(** a result that is as the types [ts] say *)
Definition res_ok (C : tenv) (labels : list (list valty)) (ret ts : list valty) (st0 : store M) (r : result M) : Prop :=
  match r with
  | R_Normal c => conf_ok C ts c /\ same_constants C0 st0 (c_store c)
  | R_Branch l vs c => (exists lts, nth_error labels l = Some lts /\ map type_of vs = lts) /\
      map type_of (c_vars c) = te_locals C /\ store_ok C0 (length fs) (c_store c) /\ same_constants C0 st0 (c_store c)
  | R_Return vs st => map type_of vs = ret /\ store_ok C0 (length fs) st /\ same_constants C0 st0 st
  | R_Trap | R_Fuel => True
  | R_Stuck => False
  end.
Lemma same_trans (a b c : store M) : same_constants C0 a b -> same_constants C0 b c -> same_constants C0 a c.
Proof. intros H1 H2 x g A K. rewrite (H2 x g A K). apply (H1 x g A K). Qed.
Lemma same_self (a : store M) : same_constants C0 a a.
Proof. intros x g _ _. reflexivity. Qed.
Lemma res_after C labels ret ts st0 st1 r : same_constants C0 st0 st1 -> res_ok C labels ret ts st1 r -> res_ok C labels ret ts st0 r.
Proof. intros S. destruct r; cbn; intuition eauto using same_trans. Qed.

Lemma pop_ok (P : result M -> Prop) ts1 ts C c k : conf_ok C (ts1 ++ ts) c ->
  (forall vs c', map type_of vs = ts -> conf_ok C ts1 c' -> c_store c' = c_store c -> P (k vs c')) -> P (pop M ts c k).
Proof.
  intros (S & V & T) K. apply stk_split in S as (vs2 & vs1 & E & S2 & S1). unfold pop. rewrite E. subst ts. rewrite take_ok.
  apply K; [reflexivity|split; [assumption|split; assumption]|reflexivity].
Qed.
Lemma pop1_ok (P : result M -> Prop) ts1 t C c k : conf_ok C (ts1 ++ [t]) c ->
  (forall v c', type_of v = t -> conf_ok C ts1 c' -> c_store c' = c_store c -> P (k v c')) -> P (pop1 M t c k).
Proof.
  intros S K. unfold pop1. eapply pop_ok; [eassumption|]. intros vs c' H S' E.
  destruct vs as [|v [|]]; try discriminate. apply K; [cbn in H; congruence|assumption..].
Qed.
Lemma push_ok C ts1 ts2 vs c : map type_of vs = ts2 -> conf_ok C ts1 c -> conf_ok C (ts1 ++ ts2) (mkConf (rev vs ++ c_stack c) (c_vars c) (c_store c)).
Proof. intros H (S & V & T). split; [apply stk_app; assumption|split; assumption]. Qed.

Definition sound (n : nat) : Prop := forall C i ts1 ts2 labels ret ts0 c,
  ctx_ok C -> labels_ok C labels -> ret_ok C ret -> instr_type false C i ts1 ts2 -> conf_ok C (ts0 ++ ts1) c ->
  res_ok C labels ret (ts0 ++ ts2) (c_store c) (exec M (te_types C0) fs n labels ret i c).

Lemma run_seq_app run is js c : run_seq M run (is ++ js) c = match run_seq M run is c with R_Normal c' => run_seq M run js c' | r => r end.
Proof. revert c. induction is as [|i is IH]; intros c; cbn [app run_seq]; [destruct js; reflexivity|]. destruct (run i c); try reflexivity. apply IH. Qed.

Lemma sound_seq n : sound n -> forall C is ts1 ts2, seq_type false C is ts1 ts2 -> forall labels ret ts0 c,
  ctx_ok C -> labels_ok C labels -> ret_ok C ret -> conf_ok C (ts0 ++ ts1) c ->
  res_ok C labels ret (ts0 ++ ts2) (c_store c) (run_seq M (exec M (te_types C0) fs n labels ret) is c).
Proof.
  intros S C is ts1 ts2 T. induction T as [C ts|C is i ts1 ts0' ts ts3 T IH I]; intros labels ret ts0 c K L R G.
  - cbn [run_seq res_ok]. split; [assumption|apply same_self].
  - rewrite run_seq_app. specialize (IH labels ret ts0 c K L R G).
    destruct (run_seq M _ is c) as [c'| | | | |]; try exact IH. cbn [run_seq].
    destruct IH as [G' SC]. rewrite app_assoc in G' |- *.
    pose proof (S C i ts ts3 labels ret (ts0 ++ ts0') c' K L R I G') as H.
    apply (res_after _ _ _ _ _ _ _ SC) in H. destruct (exec _ _ _ n labels ret i c') as [c''| | | | |]; exact H.
Qed.

Lemma add_label_ok C rt : ctx_ok C -> ctx_ok (add_label rt C).
Proof. intros H. exact H. Qed.
Lemma labels_cons C labels rt : labels_ok C labels -> labels_ok (add_label rt C) (rt :: labels).
Proof.
  intros H l ts A. unfold at_index, at_N in *. cbn [te_labels add_label] in A.
  destruct (N.to_nat l) as [|k] eqn:E; cbn [nth_error] in *; [assumption|].
  specialize (H (N.of_nat k) ts). unfold at_index, at_N in H. rewrite Nat2N.id in H. apply H. assumption.
Qed.

Lemma leave_ok C labels ret ts0 rt st0 outer vs c : map type_of vs = rt -> stk ts0 outer ->
  map type_of (c_vars c) = te_locals C -> store_ok C0 (length fs) (c_store c) -> same_constants C0 st0 (c_store c) ->
  res_ok C labels ret (ts0 ++ rt) st0 (leave M rt outer vs c).
Proof.
  intros H S V T SC. unfold leave. rewrite H, same_refl. cbn. split; [|assumption]. split; [apply stk_app; assumption|split; assumption].
Qed.
Lemma block_ok C labels ret ts0 rt lts st0 outer on r : stk ts0 outer ->
  res_ok (add_label lts C) (lts :: labels) ret rt st0 r ->
  (forall vs c, map type_of vs = lts -> map type_of (c_vars c) = te_locals C -> store_ok C0 (length fs) (c_store c) ->
    same_constants C0 st0 (c_store c) -> res_ok C labels ret (ts0 ++ rt) st0 (on vs c)) ->
  res_ok C labels ret (ts0 ++ rt) st0 (run_block M rt outer on r).
Proof.
  intros S H B. destruct r as [c|[|l] vs c|vs st| | |]; cbn [run_block]; try exact H.
  - destruct H as ((H1 & H2 & H3) & H4). apply leave_ok; assumption.
  - destruct H as ((x & H1 & H2) & H3 & H4 & H5). cbn in H1. injection H1 as <-. apply B; assumption.
Qed.
Lemma branch_ok C labels ret ts0 ts st0 c ts' l : labels_ok C labels -> at_index (te_labels C) l ts -> conf_ok C (ts0 ++ ts) c ->
  same_constants C0 st0 (c_store c) -> res_ok C labels ret ts' st0 (branch M labels l c).
Proof.
  intros L A G SC. unfold branch. pose proof (L _ _ A) as E. rewrite E. cbn [found]. eapply pop_ok; [eassumption|]. intros vs c' H (S & V & T) Es. cbn. unfold at_N in E.
  split; [exists ts; split; assumption|]. split; [assumption|]. split; [assumption|]. rewrite Es. assumption.
Qed.
Lemma zeros ts : map type_of (map zero ts) = ts.
Proof. rewrite map_map. cbn. apply map_id. Qed.
Lemma finish_ok C labels ret ts0 ft caller st0 Cf r :
  stk ts0 (c_stack caller) -> map type_of (c_vars caller) = te_locals C ->
  res_ok Cf [ft_results ft] (ft_results ft) (ft_results ft) st0 r ->
  res_ok C labels ret (ts0 ++ ft_results ft) st0 (finish M ft caller r).
Proof.
  intros S V H.
  assert (P : forall vs st, map type_of vs = ft_results ft -> store_ok C0 (length fs) st -> same_constants C0 st0 st ->
    res_ok C labels ret (ts0 ++ ft_results ft) st0 (if valtys_same (map type_of vs) (ft_results ft) then push M vs (c_stack caller) (with_store M caller st) else R_Stuck)).
  { intros vs st H1 H2 H3. rewrite H1, same_refl. cbn. split; [|assumption]. split; [apply stk_app; assumption|split; assumption]. }
  destruct r as [c|l vs c|vs st| | |]; cbn [finish]; try exact H.
  - destruct H as ((H1 & H2 & H3) & H4). apply P; assumption.
  - destruct H as ((x & H1 & H2) & H3 & H4 & H5). destruct l as [|[|]]; cbn in H1; try discriminate. injection H1 as <-. apply P; assumption.
  - destruct H as (H1 & H2 & H3). apply P; assumption.
Qed.
(** calls: this is [call] inside of [exec] *)
Definition call_of (n : nat) (f : finst M) (c : conf M) : result M :=
  pop M (ft_params (finst_type f)) c (fun args c =>
    match f with
    | F_Host t h => or_trap M (h (c_store c) args) (fun sr =>
        if valtys_same (map type_of (snd sr)) (ft_results t) then push M (snd sr) (c_stack c) (with_store M c (fst sr)) else R_Stuck)
    | F_Wasm t fn =>
      finish M t c (run_seq M (exec M (te_types C0) fs n [ft_results t] (ft_results t)) (fn_body fn)
                    (mkConf [] (args ++ map zero (fn_locals fn)) (c_store c)))
    end).
Lemma call_ok n C labels ret ts0 f c : sound n -> In f fs -> conf_ok C (ts0 ++ ft_params (finst_type f)) c ->
  res_ok C labels ret (ts0 ++ ft_results (finst_type f)) (c_store c) (call_of n f c).
Proof.
  intros S I G. unfold call_of. eapply pop_ok; [eassumption|]. intros args c' HA (S1 & V1 & T1) E.
  rewrite Forall_forall in FOK. specialize (FOK f I). destruct f as [t fn|t h]; cbn [finst_type] in *.
  - destruct FOK as (own & AT & BT). eapply finish_ok; [assumption|assumption|].
    rewrite <- E.
    refine (sound_seq n S _ _ _ _ BT _ _ [] (mkConf [] (args ++ map zero (fn_locals fn)) (c_store c')) _ _ _ _).
    + repeat split; reflexivity.
    + intros l ts A. unfold at_index, at_N in *. cbn [func_env te_labels] in A. destruct own; [assumption|]. destruct (N.to_nat l); discriminate.
    + intros ts [= <-]. reflexivity.
    + split; [reflexivity|]. split; [|assumption]. cbn. rewrite map_app, zeros, HA. reflexivity.
  - rewrite <- E. destruct (h (c_store c') args) as [[st' r]|] eqn:HH; cbn [or_trap]; [|exact Logic.I].
    destruct (FOK _ _ _ _ T1 HA HH) as (H1 & H2 & H3). cbn [fst snd]. rewrite H1, same_refl. cbn. split; [|assumption].
    split; [apply stk_app; assumption|split; assumption].
Qed.

Lemma mem_at C (st : store M) x mt : ctx_ok C -> store_ok C0 (length fs) st -> at_index (te_mems C) x mt -> exists mm, at_N (s_mems st) x = Some mm.
Proof. intros (_ & _ & _ & E & _) [_ _ SM _] A. rewrite E in A. eapply nth_same_length; eassumption. Qed.
Lemma set_mem_ok (st : store M) k mm : store_ok C0 (length fs) st ->
  store_ok C0 (length fs) (mkStore (s_globals st) (s_tables st) (set_nth k mm (s_mems st))) /\
  same_constants C0 st (mkStore (s_globals st) (s_tables st) (set_nth k mm (s_mems st))).
Proof. intros [SG ST SM SE]. split; [split; cbn; [assumption|assumption|rewrite set_nth_length; assumption|assumption]|intros x g _ _; reflexivity]. Qed.
Lemma set_global_ok (st : store M) x g v old : store_ok C0 (length fs) st -> at_index (te_globals C0) x g -> gt_mut g = Var ->
  at_N (s_globals st) x = Some old -> type_of v = type_of old ->
  store_ok C0 (length fs) (mkStore (set_nth (N.to_nat x) v (s_globals st)) (s_tables st) (s_mems st)) /\
  same_constants C0 st (mkStore (set_nth (N.to_nat x) v (s_globals st)) (s_tables st) (s_mems st)).
Proof.
  intros [SG ST SM SE] A V O T. split.
  - split; cbn; try assumption. rewrite (set_nth_types _ _ _ old); assumption.
  - intros y gy AY CY. unfold at_N. cbn [s_globals]. apply set_nth_other. intros E. unfold at_index in *. rewrite E in A. congruence.
Qed.
Lemma loop_typed C rt b : seq_type false (add_label [] C) b [] rt -> instr_type false C (I_Loop rt b) [] rt.
Proof. intros H. apply T_loop. assumption. Qed.

Lemma exec_sound n : sound n.
Proof.
  induction n as [|n IH]; intros C i ts1 ts2 labels ret ts0 c K L R T G; [exact I|].
  pose proof K as (K1 & K2 & K3 & K4 & K5).
  cbn [exec].
  inversion T; subst; try (rewrite ?app_nil_r in * ).
  - (* plain *)
    rewrite H. eapply pop_ok; [eassumption|]. intros vs c' HV G' E. destruct (mach_num M i vs) as [r|] eqn:HN; cbn [or_trap]; [|exact I].
    unfold push. cbn [res_ok]. split; [|rewrite <- E; apply same_self].
    apply push_ok; [eapply num_ok; eassumption|assumption].
  - (* drop *) cbn [plain_type load_type store_type]. destruct G as (S & V & ST).
    apply stk_split in S as (vs2 & vs1 & E & S2 & S1). destruct vs2 as [|v [|]]; try discriminate. rewrite E. cbn.
    split; [|apply same_self]. split; [assumption|split; assumption].
  - (* select *) cbn [plain_type load_type store_type]. change [t; t; T_I32] with ([t; t] ++ [T_I32]) in G. rewrite app_assoc in G.
    eapply pop1_ok; [eassumption|]. intros z c' _ (S & V & ST) E.
    apply stk_split in S as (vs2 & vs1 & Es & S2 & S1). destruct vs2 as [|v1 [|v2 [|]]]; try discriminate. rewrite Es. cbn [rev app].
    injection S2 as E1 E2. rewrite E1, E2, same_refl. cbn. split; [|rewrite E; apply same_self].
    split; [|split; assumption]. cbn. apply (stk_app ts0 [t] [if is_zero z then v2 else v1]); [|assumption]. cbn. destruct (is_zero z); congruence.
  - (* local.get *) cbn [plain_type load_type store_type]. pose proof G as (S & V & ST).
    destruct (nth_types _ _ _ _ V H) as (v & E & TV). rewrite E. cbn [found]. unfold push. cbn [res_ok].
    split; [|apply same_self]. apply push_ok; [cbn; congruence|assumption].
  - (* local.set *) cbn [plain_type load_type store_type]. pose proof G as (S & V & ST).
    destruct (nth_types _ _ _ _ V H) as (v & E & TV). rewrite E. cbn [found]. rewrite TV.
    eapply pop1_ok; [eassumption|]. intros w c' TW (S' & V' & ST') Es. cbn. split; [|rewrite Es; apply same_self].
    split; [assumption|]. split; [|assumption]. cbn.
    destruct (nth_types _ _ _ _ V' H) as (v' & E' & TV'). rewrite (set_nth_types _ _ _ v'); [assumption|exact E'|congruence].
  - (* local.tee *) cbn [plain_type load_type store_type]. pose proof G as (S & V & ST).
    destruct (nth_types _ _ _ _ V H) as (v & E & TV). rewrite E. cbn [found]. rewrite TV.
    eapply pop1_ok; [eassumption|]. intros w c' TW (S' & V' & ST') Es. cbn. split; [|rewrite Es; apply same_self].
    split; [apply (stk_app ts0 [t] [w]); [cbn; congruence|assumption]|]. split; [|assumption]. cbn.
    destruct (nth_types _ _ _ _ V' H) as (v' & E' & TV'). rewrite (set_nth_types _ _ _ v'); [assumption|exact E'|congruence].
  - (* global.get *) cbn [plain_type load_type store_type]. pose proof G as (S & V & ST). rewrite K5 in H.
    destruct (nth_types _ _ x (gt_val g) (so_globals _ _ _ ST)) as (v & E & TV).
    { unfold at_index in *. rewrite nth_error_map, H. reflexivity. }
    rewrite E. cbn [found]. unfold push. cbn [res_ok].
    split; [|apply same_self]. apply push_ok; [cbn; congruence|assumption].
  - (* global.set *) cbn [plain_type load_type store_type]. pose proof G as (S & V & ST). rewrite K5 in H.
    destruct (nth_types _ _ x (gt_val g) (so_globals _ _ _ ST)) as (v & E & TV).
    { unfold at_index in *. rewrite nth_error_map, H. reflexivity. }
    rewrite E. cbn [found]. rewrite TV.
    eapply pop1_ok; [eassumption|]. intros w c' TW (S' & V' & ST') Es. cbn. rewrite <- Es in E |- *.
    destruct (set_global_ok _ _ _ w _ ST' H H0 E ltac:(congruence)) as [X Y]. split; [|assumption].
    split; [assumption|split; assumption].
  - (* load *) replace (plain_type i) with (@None (list valty * list valty)) by (destruct i; try discriminate H; reflexivity). rewrite H.
    destruct (mem_at _ _ _ _ K (proj2 (proj2 G)) H0) as (mm & E). unfold at_N in E. change (N.to_nat 0) with O in E. rewrite E. cbn [found].
    eapply pop1_ok; [eassumption|]. intros a0 c' _ G' Es. destruct (mach_load M i mm a0) as [r|] eqn:HL; cbn [or_trap]; [|exact I].
    unfold push. cbn [res_ok]. split; [|rewrite <- Es; apply same_self]. apply push_ok; [cbn; erewrite load_ok by eassumption; reflexivity|assumption].
  - (* store *) replace (plain_type i) with (@None (list valty * list valty)) by (destruct i; try discriminate H; reflexivity).
    replace (load_type i) with (@None (N * N * valty)) by (destruct i; try discriminate H; reflexivity). rewrite H.
    destruct (mem_at _ _ _ _ K (proj2 (proj2 G)) H0) as (mm & E). unfold at_N in E. change (N.to_nat 0) with O in E. rewrite E. cbn [found].
    change [T_I32; t] with ([T_I32] ++ [t]) in G. rewrite app_assoc in G.
    eapply pop1_ok; [eassumption|]. intros v c' _ G' Es. eapply pop1_ok; [eassumption|]. intros a0 c'' _ (S & V & ST) Es'.
    destruct (mach_store M i mm a0 v) as [mm'|]; cbn [or_trap]; [|exact I].
    destruct (set_mem_ok (c_store c'') 0 mm' ST) as [X Y]. split; [split; [assumption|split; assumption]|].
    replace (c_store c) with (c_store c'') by congruence. exact Y.
  - (* memory.size *) cbn [plain_type load_type store_type]. destruct (mem_at _ _ _ _ K (proj2 (proj2 G)) H) as (mm & E). rewrite E. cbn [found].
    unfold push. cbn [res_ok]. split; [|apply same_self]. apply push_ok; [cbn; rewrite size_ok by assumption; reflexivity|assumption].
  - (* memory.grow *) cbn [plain_type load_type store_type]. destruct (mem_at _ _ _ _ K (proj2 (proj2 G)) H) as (mm & E). rewrite E. cbn [found].
    eapply pop1_ok; [eassumption|]. intros v c' _ (S & V & ST) Es.
    destruct (set_mem_ok (c_store c') (N.to_nat x) (fst (mach_grow M mm v)) ST) as [X Y]. cbn. split; [|rewrite <- Es; exact Y].
    split; [apply (stk_app ts0 [T_I32] [_]); [cbn; rewrite grow_ok by assumption; reflexivity|assumption]|split; assumption].
  - (* nop *) cbn. split; [assumption|apply same_self].
  - (* unreachable *) exact I.
  - (* block *) cbn [plain_type load_type store_type]. pose proof G as (S & V & ST).
    eapply block_ok; [exact S| |].
    + refine (sound_seq n IH _ _ _ _ H _ _ [] (with_stack M c []) K (labels_cons _ _ _ L) R _).
      split; [reflexivity|split; assumption].
    + intros vs c' HV V' ST' SC. apply leave_ok; assumption.
  - (* loop *) cbn [plain_type load_type store_type]. pose proof G as (S & V & ST).
    eapply block_ok; [exact S| |].
    + refine (sound_seq n IH _ _ _ _ H _ _ [] (with_stack M c []) K (labels_cons _ _ _ L) R _).
      split; [reflexivity|split; assumption].
    + intros vs c' HV V' ST' SC. destruct vs; [|discriminate]. eapply res_after; [exact SC|].
      apply (IH C (I_Loop ts2 b) [] ts2 labels ret ts0 (with_stack M c' (c_stack c)) K L R T). rewrite app_nil_r. split; [assumption|split; assumption].
  - (* if *) cbn [plain_type load_type store_type]. eapply pop1_ok; [eassumption|]. intros z c' _ (S & V & ST) Es. rewrite <- Es.
    eapply block_ok; [exact S| |].
    + assert (HB : seq_type false (add_label ts2 C) (if is_zero z then b2 else b1) [] ts2) by (destruct (is_zero z); assumption).
      refine (sound_seq n IH _ _ _ _ HB _ _ [] (with_stack M c' []) K (labels_cons _ _ _ L) R _).
      split; [reflexivity|split; assumption].
    + intros vs c'' HV V' ST' SC. apply leave_ok; assumption.
  - (* br *) cbn [plain_type load_type store_type]. rewrite app_assoc in G. eapply branch_ok; [exact L|eassumption|exact G|apply same_self].
  - (* br_if *) cbn [plain_type load_type store_type]. rewrite app_assoc in G. eapply pop1_ok; [exact G|]. intros z c' _ G' Es.
    destruct (is_zero z).
    + split; [assumption|rewrite Es; apply same_self].
    + eapply branch_ok; [exact L|eassumption|exact G'|rewrite Es; apply same_self].
  - (* br_table *) cbn [plain_type load_type store_type]. rewrite !app_assoc in G. eapply pop1_ok; [exact G|]. intros z c' _ G' Es.
    eapply branch_ok; [exact L| |exact G'|rewrite Es; apply same_self].
    destruct (nth_in_or_default (N.to_nat (bits_of z)) ls ld) as [I|E]; [|exact (eq_ind_r (fun l => at_index (te_labels C) l ts) H0 E)].
    rewrite Forall_forall in H. apply H. assumption.
  - (* return *) cbn [plain_type load_type store_type]. rewrite app_assoc in G. rewrite (R _ H).
    eapply pop_ok; [exact G|]. intros vs c' HV (S & V & ST) Es. cbn. split; [assumption|]. split; [assumption|rewrite Es; apply same_self].
  - (* call *) cbn [plain_type load_type store_type]. rewrite K2 in H. destruct (FTY _ _ H) as (f & E & FT). rewrite E. cbn [found]. subst ft.
    apply call_ok; [assumption|eapply nth_error_In; exact E|assumption].
  - (* call_indirect *) cbn [plain_type load_type store_type]. rewrite K1 in H1. rewrite K3 in H. unfold at_index in H1. unfold at_N at 2. rewrite H1.
    destruct (nth_same_length _ _ _ _ (so_tables _ _ _ (proj2 (proj2 G))) H) as (tbl & E). rewrite E. cbn [found].
    rewrite app_assoc in G. eapply pop1_ok; [exact G|]. intros z c' _ G' Es.
    destruct (at_N tbl (bits_of z)) as [[a|]|] eqn:EA; cbn [or_trap]; try exact I.
    assert (LA : (a < length fs)%nat).
    { pose proof (so_entries _ _ _ (proj2 (proj2 G))) as SE. rewrite Forall_forall in SE. specialize (SE tbl (nth_error_In _ _ E)).
      rewrite Forall_forall in SE. apply (SE (Some a)); [eapply nth_error_In; exact EA|reflexivity]. }
    destruct (nth_error fs a) as [f|] eqn:EF; [|apply nth_error_None in EF; lia]. cbn [found].
    destruct (functy_same (finst_type f) ft) eqn:FS; [|exact I]. apply functy_same_eq in FS. subst ft. rewrite <- Es.
    apply call_ok; [assumption|eapply nth_error_In; exact EF|assumption].
Qed.

Lemma call_no_return n f c vs st : call_of n f c <> R_Return vs st.
Proof.
  unfold call_of, pop. destruct (take _ _) as [[args rest]|]; [|discriminate]. destruct f as [t fn|t h].
  - unfold finish. destruct (run_seq _ _ _ _) as [c'|[|l] vs' c'|vs' st'| | |]; try discriminate; destruct (valtys_same _ _); discriminate.
  - unfold or_trap. destruct (h _ _) as [[st' r]|]; [|discriminate]. destruct (valtys_same _ _); discriminate.
Qed.
Theorem sound_calls st : store_ok C0 (length fs) st -> safe_call C0 (te_types C0) fs st.
Proof.
  intros ST fuel a f args E HA. unfold invoke. destruct fuel as [|n]; [exact I|]. cbn [exec plain_type load_type store_type].
  unfold at_N. rewrite Nat2N.id, E. cbn [found].
  match goal with |- match ?x with _ => _ end => change x with (call_of n f (mkConf (rev args) [] st)) end.
  assert (H := call_ok n (func_env false C0 (mkFuncTy [] []) []) [] [] [] f (mkConf (rev args) [] st) (exec_sound n) (nth_error_In _ _ E)).
  cbn [app c_store] in H. specialize (H ltac:(split; [unfold stk; cbn; rewrite rev_involutive; assumption|split; [reflexivity|assumption]])).
  destruct (call_of n f _) as [c|l vs c|vs s| | |] eqn:EC; cbn [res_ok] in H; try exact H.
  - destruct H as [(H1 & _ & H2) H3]. split; [exact H1|split; assumption].
  - destruct H as ((x & H & _) & _). destruct l; discriminate H.
  - exfalso. eapply call_no_return; eassumption.
Qed.
End Sound.
