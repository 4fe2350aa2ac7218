(** Accepted modules run: no function gets stuck, and instantiation does not either (given initialisers that
    read imported globals). *)
From Coq Require Import Lia.
From Verif Require Import SpecExec SpecDeviations SpecVerdict InitProof ModuleValidProof ValidityClaims ExecProof.
Open Scope N_scope.

Lemma at_index_app_l {A} (xs ys : list A) x a : at_index xs x a -> at_index (xs ++ ys) x a.
Proof. unfold at_index. intros H. rewrite nth_error_app1; [assumption|]. apply nth_error_Some. congruence. Qed.

Lemma Forall2_len {A B} (R : A -> B -> Prop) xs ys : Forall2 R xs ys -> length xs = length ys.
Proof. induction 1; cbn; congruence. Qed.

(** the functions of an instance have the types the context says *)
Lemma instance_types {M} m fts (imported others : list (finst M)) : func_space m fts ->
  map finst_type imported = firstn (length (imported_funcs (m_imports m))) fts ->
  map finst_type (instance_funcs m fts imported others) = fts ++ map finst_type others.
Proof.
  intros FS E. unfold instance_funcs. rewrite !map_app, map_map. cbn [finst_type].
  pose proof (Forall2_len _ _ _ FS) as L. unfold func_index in L. rewrite app_length, map_length in L.
  assert (LI : length imported = length (imported_funcs (m_imports m))).
  { rewrite <- (map_length finst_type imported), E, firstn_length. lia. }
  rewrite E, app_assoc. f_equal. rewrite LI.
  assert (X : map (fun x : functy * func => fst x) (combine (skipn (length (imported_funcs (m_imports m))) fts) (m_funcs m)) = skipn (length (imported_funcs (m_imports m))) fts).
  { assert (LS : length (skipn (length (imported_funcs (m_imports m))) fts) = length (m_funcs m)) by (rewrite skipn_length; lia).
    revert LS. generalize (skipn (length (imported_funcs (m_imports m))) fts). intros l. generalize (m_funcs m). clear.
    induction l as [|t l IH]; intros [|f fs] H; cbn in *; try discriminate; [reflexivity|]. f_equal. apply IH. congruence. }
  etransitivity; [apply f_equal; exact X|]. apply firstn_skipn.
Qed.
Lemma instance_code m fts t f n : func_space m fts -> n = length (imported_funcs (m_imports m)) ->
  In (t, f) (combine (skipn n fts) (m_funcs m)) -> at_index (m_types m) (fn_ty f) t /\ In f (m_funcs m).
Proof.
  intros FS -> I. split; [|eapply in_combine_r; exact I]. unfold func_space, func_index in FS.
  apply Forall2_app_inv_l in FS as (l1 & l2 & F1 & F2 & ->). apply Forall2_len in F1.
  rewrite F1, skipn_app, skipn_all, Nat.sub_diag in I. cbn [app skipn] in I. clear F1.
  revert l2 F2 I. induction (m_funcs m) as [|g fs IH]; intros l2 F2 I; [destruct l2; destruct I|].
  inversion F2; subst. cbn in I. destruct I as [[= <- <-]|I]; [assumption|]. eapply IH; eassumption.
Qed.

Section Module.
Context (m : module) (fts : list functy) (M : machine) (MOK : machine_ok M) (imported others : list (finst M)).
Local Notation fs := (instance_funcs m fts imported others).
Local Notation C := (module_env m fts).
Context (FS : func_space m fts) (IMP : map finst_type imported = firstn (length (imported_funcs (m_imports m))) fts).
Context (HI : Forall (host_ok C (length fs)) imported) (HO : Forall (host_ok C (length fs)) others).
Context (FT : Forall (fun f => exists ft, func_type false false C f ft) (m_funcs m)).

Lemma instance_fok : Forall (finst_code_ok M fs C) fs.
Proof.
  assert (H : forall f, host_ok C (length fs) f -> finst_code_ok M fs C f) by (intros [t fn|t h] H; [destruct H|exact H]).
  unfold instance_funcs at 2. apply Forall_app. split; [eapply Forall_impl; [exact H|exact HI]|].
  apply Forall_app. split; [|eapply Forall_impl; [exact H|exact HO]].
  apply Forall_forall. intros x I. apply in_map_iff in I as ([t f] & <- & I). cbn [fst snd finst_code_ok].
  assert (L : length imported = length (imported_funcs (m_imports m))).
  { pose proof (Forall2_len _ _ _ FS) as L. unfold func_index in L. rewrite app_length, map_length in L.
    rewrite <- (map_length finst_type imported), IMP, firstn_length. lia. }
  apply (instance_code m fts t f _ FS L) in I as [A I]. rewrite Forall_forall in FT. destruct (FT f I) as (ft & A' & B).
  assert (ft = t) as -> by (unfold at_index in *; cbn in A'; congruence). exists false. split; assumption.
Qed.
Lemma instance_fty x ft : at_index (te_funcs C) x ft -> exists f, at_N fs x = Some f /\ finst_type f = ft.
Proof.
  intros A. apply (at_index_app_l _ (map finst_type others)) in A. cbn [te_funcs module_env] in A.
  rewrite <- (instance_types m fts imported others FS IMP) in A. unfold at_index in A. rewrite nth_error_map in A.
  unfold at_N. destruct (nth_error fs (N.to_nat x)) as [f|]; [|discriminate]. exists f. split; [reflexivity|]. cbn in A. congruence.
Qed.
Lemma instance_safe st : store_ok C (length fs) st -> safe_call C (m_types m) fs st.
Proof. intros ST. exact (sound_calls M MOK fs C instance_fok instance_fty st ST). Qed.
End Module.

Theorem accepted_safe m : accepted m -> (forall f, In f (m_funcs m) -> no_pseudo (fn_body f)) ->
  exists fts, func_space m fts /\ forall M imported others st, machine_ok M ->
    let fs := instance_funcs m fts imported others in
    let C := module_env m fts in
    map finst_type imported = firstn (length (imported_funcs (m_imports m))) fts ->
    Forall (host_ok C (length fs)) imported -> Forall (host_ok C (length fs)) others ->
    store_ok C (length fs) st -> safe_call (M:=M) C (m_types m) fs st.
Proof.
  intros A P. apply (c40_iff m P) in A as (fts & ims & exs & T). exists fts. split; [exact (mt_funcs_typed _ _ _ _ _ T)|].
  intros M imported others st MOK fs C IMP HI HO ST. apply instance_safe; try assumption; [exact (mt_funcs_typed _ _ _ _ _ T)|exact (mt_funcs_ok _ _ _ _ _ T)].
Qed.

(** ** Instantiation *)
Lemma const_run {M} (MOK : machine_ok M) a C e ts1 ts2 : seq_type a C e ts1 ts2 -> forall (st : store M) ,
  const_expr C e ->
  (forall x g, In (I_GlobalGet x) e -> at_index (te_globals C) x g -> exists v, at_N (s_globals st) x = Some v /\ type_of v = gt_val g) ->
  forall stack vars, stk ts1 stack -> exists stack', run_seq M (exec M [] [] 1 [] []) e (mkConf stack vars st) = R_Normal (mkConf stack' vars st) /\ stk ts2 stack'.
Proof.
  intros T. induction T as [C ts|C is i ts1 ts0 ts ts3 T IH I]; intros st CE GV stack vars S.
  - exists stack. split; [reflexivity|assumption].
  - apply Forall_app in CE as [CE CI]. inversion CI as [|? ? CI1 _]; subst.
    destruct (IH st CE) with (stack := stack) (vars := vars) as (s1 & R1 & S1); [|assumption|].
    { intros x g J. apply GV. apply in_or_app. left. assumption. }
    rewrite run_seq_app, R1.
    assert (GP : forall r ts', ts = [] -> map type_of r = ts' -> stk (ts0 ++ ts') (rev r ++ s1)).
    { intros r ts' -> E. rewrite app_nil_r in S1. apply stk_app; assumption. }
    destruct (plain_type i) as [[ta tb]|] eqn:PT.
    { assert (ta = []) as -> by (destruct i; try destruct CI1; cbn in PT; congruence).
      assert (ts = [] /\ ts3 = tb) as [Ea Eb] by (destruct i; try destruct CI1; cbn in PT; inversion I; subst; try discriminate; cbn in *; split; congruence).
      cbn [run_seq exec]. rewrite PT. unfold pop. change (take [] _) with (Some (@nil value, s1)). cbv beta iota.
      destruct (mach_num M i []) as [r|] eqn:HN; [|exfalso; eapply const_ok; eassumption].
      cbn [or_trap]. unfold push. eexists. split; [reflexivity|]. cbn [c_stack with_stack]. apply GP; [assumption|].
      subst ts3. eapply num_ok; [exact MOK|exact PT| |exact HN]. reflexivity. }
    destruct i; try destruct CI1; try discriminate PT.
    assert (exists g, at_index (te_globals C) a0 g /\ ts = [] /\ ts3 = [gt_val g]) as (g & AG' & Ea & ->) by (inversion I; subst; try discriminate; eauto).
    destruct (GV a0 g) as (v & EV & TV); [apply in_or_app; right; left; reflexivity|assumption|].
    cbn [run_seq exec plain_type load_type store_type]. cbn [c_store]. rewrite EV. cbn [found]. unfold push. eexists. split; [reflexivity|]. cbn [c_stack].
    apply (GP [v]); [assumption|cbn; congruence].
Qed.

Lemma eval_ok {M} (MOK : machine_ok M) C (st : store M) e t : init_ok C e t ->
  (forall x g, In (I_GlobalGet x) e -> at_index (te_globals C) x g -> exists v, at_N (s_globals st) x = Some v /\ type_of v = gt_val g) ->
  exists v, eval_init st e = Some v /\ type_of v = t.
Proof.
  intros [CE T] GV. destruct (const_run MOK _ _ _ _ _ T st CE GV [] [] eq_refl) as (s' & R & S). unfold eval_init. rewrite R. cbn [c_stack].
  unfold stk in S. assert (L : length s' = 1%nat) by (rewrite <- rev_length, <- (map_length type_of), S; reflexivity).
  destruct s' as [|v [|]]; try discriminate. exists v. split; [reflexivity|]. cbn in S. congruence.
Qed.
Lemma eval_in_store {M} (MOK : machine_ok M) C n (st : store M) e t : store_ok C n st -> init_ok C e t -> exists v, eval_init st e = Some v /\ type_of v = t.
Proof.
  intros ST T. eapply eval_ok; [assumption|exact T|]. intros x g _ A. apply (nth_types _ _ _ _ (so_globals _ _ _ ST)).
  unfold at_index in *. rewrite nth_error_map, A. reflexivity.
Qed.

Lemma all_some_ok {A B} (f : A -> option B) (R : A -> B -> Prop) xs : (forall x, In x xs -> exists y, f x = Some y /\ R x y) ->
  exists ys, all_some f xs = Some ys /\ Forall2 R xs ys.
Proof.
  induction xs as [|x xs IH]; intros H; [exists []; split; [reflexivity|constructor]|].
  destruct (H x) as (y & E & RY); [left; reflexivity|]. destruct IH as (ys & E' & F); [intros z I; apply H; right; assumption|].
  exists (y :: ys). cbn. rewrite E, E'. split; [reflexivity|constructor; assumption].
Qed.
Lemma set_nth_forall {A} (P : A -> Prop) n x l : P x -> Forall P l -> Forall P (set_nth n x l).
Proof. intros H F. revert n. induction F as [|y l Hy F IH]; intros [|n]; cbn; constructor; auto. Qed.
Definition entry_ok (n : nat) (e : option nat) : Prop := forall a, e = Some a -> (a < n)%nat.
Lemma Forall_firstn {A} (P : A -> Prop) n l : Forall P l -> Forall P (firstn n l).
Proof. intros F. revert n. induction F; intros [|n]; cbn; constructor; auto. Qed.
Lemma Forall_skipn {A} (P : A -> Prop) n l : Forall P l -> Forall P (skipn n l).
Proof. intros F. revert n. induction F; intros [|n]; cbn; try constructor; auto. Qed.
Lemma write_elem_ok n tb v xs tb' : Forall (entry_ok n) tb -> Forall (fun x => (N.to_nat x < n)%nat) xs -> write_elem tb v xs = Some tb' -> Forall (entry_ok n) tb'.
Proof.
  intros F X. unfold write_elem. destruct (Nat.leb _ _); [|discriminate]. intros [= <-].
  apply Forall_app. split; [apply Forall_firstn; assumption|]. apply Forall_app. split; [|apply Forall_skipn; assumption].
  apply Forall_forall. intros e I. apply in_map_iff in I as (x & <- & I). rewrite Forall_forall in X. intros a [= <-]. apply X. assumption.
Qed.

Definition inst_ok {M} (C : tenv) (n : nat) (r : inst_result M) : Prop :=
  match r with Inst_Ok st => store_ok C n st | Inst_Fail | Inst_Fuel => True | Inst_Stuck => False end.
Lemma init_elems_ok {M} (MOK : machine_ok M) C n es (st : store M) : (length (te_funcs C) <= n)%nat -> Forall (elem_ok C) es -> store_ok C n st ->
  inst_ok C n (init_elems es st).
Proof.
  intros L F. revert st. induction F as [|e es ((t & AT & _) & IO & XI) F IH]; intros st ST; cbn [init_elems]; [exact ST|].
  destruct (eval_in_store MOK C n st _ _ ST IO) as (v & EV & _). rewrite EV.
  destruct (nth_same_length _ _ _ _ (so_tables _ _ _ ST) AT) as (tb & ET). rewrite ET.
  destruct (write_elem tb v (el_init e)) as [tb'|] eqn:W; [|exact I]. apply IH. destruct ST as [SG STb SM SE].
  split; cbn [s_globals s_tables s_mems]; try assumption; [rewrite set_nth_length; assumption|].
  apply set_nth_forall; [|assumption]. eapply write_elem_ok; [| |exact W].
  - rewrite Forall_forall in SE. apply SE. eapply nth_error_In; exact ET.
  - eapply Forall_impl; [|exact XI]. intros x (ft & A). unfold at_index in A. cbn beta.
    assert (H : nth_error (te_funcs C) (N.to_nat x) <> None) by congruence. apply nth_error_Some in H. lia.
Qed.
Lemma init_datas_ok {M} (MOK : machine_ok M) C n ds (st : store M) : Forall (data_ok C) ds -> store_ok C n st -> inst_ok C n (init_datas ds st).
Proof.
  intros F. revert st. induction F as [|d ds ((t & AT) & IO) F IH]; intros st ST; cbn [init_datas]; [exact ST|].
  destruct (eval_in_store MOK C n st _ _ ST IO) as (v & EV & _). rewrite EV.
  destruct (nth_same_length _ _ _ _ (so_mems _ _ _ ST) AT) as (mm & EM). rewrite EM.
  destruct (mach_init M mm v (da_init d)) as [mm'|]; [|exact I]. apply IH. destruct ST as [SG STb SM SE].
  split; cbn [s_globals s_tables s_mems]; try assumption. rewrite set_nth_length; assumption.
Qed.

Lemma eval_get {M} (st : store M) x : eval_init st [I_GlobalGet x] = at_N (s_globals st) x.
Proof. unfold eval_init, run_seq, exec. cbn. destruct (at_N (s_globals st) x); reflexivity. Qed.
Lemma all_some_none {A B} (f : A -> option B) xs x : In x xs -> f x = None -> all_some f xs = None.
Proof.
  intros I E. induction xs as [|y xs IH]; [contradiction I|]. cbn. destruct I as [->|I]; [rewrite E; reflexivity|]. rewrite (IH I). destruct (f y); reflexivity.
Qed.
Theorem unfit_init_stuck m g x M n (imp : store M) fs fuel : In g (m_globals m) -> glob_init g = [I_GlobalGet x] ->
  (length (imported_globals (m_imports m)) <= N.to_nat x)%nat -> imports_fit m n imp -> instantiate m imp fs fuel = Inst_Stuck.
Proof.
  intros I E L [IG _ _ _]. cbn [te_globals] in IG. apply (f_equal (@length _)) in IG. rewrite !map_length in IG. unfold instantiate.
  rewrite (all_some_none _ _ g I); [reflexivity|]. cbn beta. rewrite E, eval_get. apply nth_error_None. unfold at_N. lia.
Qed.

Theorem accepted_instantiates m : accepted m -> (forall f, In f (m_funcs m) -> no_pseudo (fn_body f)) ->
  inits_fit m ->
  exists fts, func_space m fts /\ forall M imported others imp fuel, machine_ok M ->
    let fs := instance_funcs m fts imported others in
    let C := module_env m fts in
    map finst_type imported = firstn (length (imported_funcs (m_imports m))) fts ->
    Forall (host_ok C (length fs)) imported -> Forall (host_ok C (length fs)) others ->
    imports_fit (M:=M) m (length fs) imp ->
    match instantiate m imp fs fuel with
    | Inst_Ok st => store_ok C (length fs) st
    | Inst_Fail | Inst_Fuel => True
    | Inst_Stuck => False
    end.
Proof.
  intros A P NG. apply (c40_iff m P) in A as (fts & ims & exs & T). destruct T as [FS _ FT _ _ GT ET DT ST _ _ _ _ _]. exists fts. split; [assumption|].
  intros M imported others imp fuel MOK fs C IMP HI HO FIT. change (inst_ok C (length fs) (instantiate m imp fs fuel)).
  unfold instantiate.
  destruct (all_some_ok (fun g => eval_init imp (glob_init g)) (fun g v => type_of v = gt_val (glob_ty g)) (m_globals m)) as (vs & EV & FV).
  { intros g I. rewrite Forall_forall in GT. specialize (GT g I). pose proof GT as GT'. unfold global_ok in GT'.
    apply init_one in GT' as (i & E1 & CI & _).
    assert (D : (exists x, i = I_GlobalGet x) \/ forall x, i <> I_GlobalGet x) by (destruct i; try (right; discriminate); left; eauto).
    destruct D as [[x ->]|D].
    - destruct (NG g x I E1) as (t & AT & TV). destruct (nth_types _ _ x (gt_val t) (so_globals _ _ _ FIT)) as (v & EV & TV'); [unfold at_index in *; cbn [te_globals]; rewrite nth_error_map, AT; reflexivity|].
      exists v. rewrite E1, eval_get. split; [exact EV|congruence].
    - destruct (eval_ok MOK _ imp _ _ GT) as (v & E & TV); [|eauto].
      intros x g' J. exfalso. rewrite E1 in J. destruct J as [J|[]]. exact (D x J). }
  rewrite EV. destruct FIT as [IG IT IM IE]. cbn [te_globals te_tables te_mems] in *.
  assert (LF : (length (te_funcs C) <= length fs)%nat).
  { rewrite <- (map_length finst_type fs). unfold fs. rewrite instance_types by assumption. rewrite app_length. cbn. lia. }
  match goal with |- context[init_elems _ ?s] => assert (S0 : store_ok C (length fs) s) end.
  { split; cbn [s_globals s_tables s_mems C module_env te_globals te_tables te_mems].
    - unfold global_space. rewrite !map_app, IG. f_equal. clear -FV. induction FV; cbn; congruence.
    - unfold table_space. rewrite !app_length, !map_length, IT. reflexivity.
    - unfold mem_space. rewrite !app_length, !map_length, IM. reflexivity.
    - apply Forall_app. split; [assumption|]. apply Forall_forall. intros tb I. apply in_map_iff in I as (t & <- & _).
      apply Forall_forall. intros e I. apply repeat_spec in I. subst e. discriminate. }
  pose proof (init_elems_ok MOK C (length fs) _ _ LF ET S0) as S1. destruct (init_elems _ _) as [st1| | |]; try exact S1. cbn [inst_ok] in S1.
  pose proof (init_datas_ok MOK C (length fs) _ _ DT S1) as S2. destruct (init_datas _ _) as [st2| | |]; try exact S2. cbn [inst_ok] in S2.
  unfold run_start. destruct (m_start m) as [s|]; [|exact S2]. specialize (ST s eq_refl). unfold start_ok in ST.
  destruct (instance_fty m fts M imported others FS IMP _ _ ST) as (f & EF & TF).
  pose proof (instance_safe m fts M MOK imported others FS IMP HI HO FT st2 S2 fuel (N.to_nat (st_func s)) f [] EF) as SC.
  rewrite TF in SC. specialize (SC eq_refl). fold fs in SC.
  destruct (invoke M (m_types m) fs fuel (N.to_nat (st_func s)) [] st2); try exact SC. apply SC.
Qed.

(** ** Tables keep their lengths *)
Lemma write_elem_length tb v xs tb' : write_elem tb v xs = Some tb' -> length tb' = length tb.
Proof.
  unfold write_elem. destruct (Nat.leb_spec (N.to_nat (bits_of v) + length xs) (length tb)); [|discriminate]. intros [= <-].
  rewrite !app_length, map_length, firstn_length, skipn_length. change (@length funcidx xs) with (@length N xs) in *. lia.
Qed.
Lemma set_nth_lengths {A} n (x y : list A) l : nth_error l n = Some y -> length x = length y -> map (@length A) (set_nth n x l) = map (@length A) l.
Proof.
  revert n. induction l as [|z l IH]; intros [|n] H L; try discriminate H; cbn in *; [injection H as ->; congruence|]. rewrite (IH n H L). reflexivity.
Qed.
Lemma init_elems_lengths {M} es : forall st st' : store M, init_elems es st = Inst_Ok st' -> map (@length _) (s_tables st') = map (@length _) (s_tables st).
Proof.
  induction es as [|e es IH]; intros st st'; cbn [init_elems]; [intros [= <-]; reflexivity|]. destruct (eval_init st (el_offset e)) as [v|]; [|discriminate].
  destruct (at_N (s_tables st) (el_table e)) as [tb|] eqn:T; [|discriminate]. destruct (write_elem tb v (el_init e)) as [tb'|] eqn:W; [|discriminate].
  intros H. apply IH in H. rewrite H. cbn [s_tables]. apply write_elem_length in W. eapply set_nth_lengths; eassumption.
Qed.
Lemma init_datas_tables {M} ds : forall st st' : store M, init_datas ds st = Inst_Ok st' -> s_tables st' = s_tables st.
Proof.
  induction ds as [|d ds IH]; intros st st'; cbn [init_datas]; [intros [= <-]; reflexivity|]. destruct (eval_init st (da_offset d)) as [v|]; [|discriminate].
  destruct (at_N (s_mems st) (da_mem d)) as [mm|]; [|discriminate]. destruct (mach_init M mm v (da_init d)) as [mm'|]; [|discriminate].
  intros H. apply IH in H. exact H.
Qed.
Theorem tables_sized M m (imp : store M) fs fuel st : m_start m = None -> instantiate m imp fs fuel = Inst_Ok st ->
  map (@length _) (s_tables st) = map (@length _) (s_tables imp) ++ map (fun t => N.to_nat (lim_min (tt_lim (tab_ty t)))) (m_tables m).
Proof.
  intros S. unfold instantiate. destruct (all_some _ _) as [vs|]; [|discriminate].
  match goal with |- context [init_elems _ ?s] => destruct (init_elems (m_elem m) s) as [st1| | |] eqn:E end; try discriminate.
  destruct (init_datas (m_data m) st1) as [st2| | |] eqn:D; try discriminate. unfold run_start. rewrite S. intros [= <-].
  rewrite (init_datas_tables _ _ _ D), (init_elems_lengths _ _ _ E). cbn [s_tables]. rewrite map_app, map_map. f_equal. apply map_ext. intros t. apply repeat_length.
Qed.
(** a segment that is written is there *)
Theorem segment_written tb v xs tb' : write_elem tb v xs = Some tb' -> forall k,
  nth_error tb' k = match Nat.ltb k (N.to_nat (bits_of v)), nth_error xs (k - N.to_nat (bits_of v)) with
                    | false, Some x => Some (Some (N.to_nat x))
                    | _, _ => nth_error tb k
                    end.
Proof.
  unfold write_elem. set (o := N.to_nat (bits_of v)). change (@length funcidx xs) with (@length N xs). destruct (Nat.leb_spec (o + @length N xs) (length tb)) as [L|L]; [|discriminate]. intros [= <-] k.
  destruct (Nat.ltb_spec k o) as [K|K].
  - rewrite nth_error_app1 by (rewrite firstn_length; lia). clear L. revert k K. generalize o. induction tb as [|t tb IH]; intros [|o'] [|k] K; cbn; try lia; try reflexivity.
    apply IH. lia.
  - rewrite nth_error_app2 by (rewrite firstn_length; lia). rewrite firstn_length. replace (k - Nat.min o (length tb))%nat with (k - o)%nat by lia.
    destruct (nth_error xs (k - o)) as [x|] eqn:X.
    + rewrite nth_error_app1 by (rewrite map_length; apply nth_error_Some; unfold funcidx, u32 in *; congruence). rewrite nth_error_map. unfold funcidx, u32 in *. rewrite X. reflexivity.
    + apply nth_error_None in X. rewrite nth_error_app2 by (rewrite map_length; exact X). rewrite map_length.
      assert (G : forall n i (l : list (option nat)), nth_error (skipn n l) i = nth_error l (n + i)).
      { induction n as [|n IH]; intros i l; [reflexivity|]. destruct l; cbn; [destruct i; reflexivity|apply IH]. }
      rewrite G. f_equal. unfold funcidx, u32 in *. lia.
Qed.
