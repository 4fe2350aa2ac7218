(** The body of a function can be put in the place of a call of it. *)
From Coq Require Import Lia.
From Verif Require Import SpecInline SpecVerdict SpecTyping ParserModule ValidatorModule TypingProof DialectValidProof ValidityClaims ReplaceProof.
Open Scope N_scope.

Scheme instr_type_m := Induction for instr_type Sort Prop with seq_type_m := Induction for seq_type Sort Prop.
Combined Scheme typing_m from instr_type_m, seq_type_m.

(** ** Code inside of another function *)
Record sees (k n : N) (C C' : tenv) : Prop := {
  se_types : te_types C' = te_types C; se_funcs : te_funcs C' = te_funcs C; se_tables : te_tables C' = te_tables C;
  se_mems : te_mems C' = te_mems C; se_globals : te_globals C' = te_globals C;
  se_locals : forall x t, at_index (te_locals C) x t -> at_index (te_locals C') (k + x) t;
  se_labels : forall l t, at_index (te_labels C) l t -> at_index (te_labels C') l t;
  se_return : forall ts, te_return C = Some ts -> at_index (te_labels C') n ts;
}.
Lemma at_next {A} (x : A) xs n y : at_index (x :: xs) (n + 1) y <-> at_index xs n y.
Proof. unfold at_index. replace (N.to_nat (n + 1)) with (S (N.to_nat n)) by lia. reflexivity. Qed.
Lemma at_mono {A} (a : A) xs ys : (forall l t, at_index xs l t -> at_index ys l t) -> forall l t, at_index (a :: xs) l t -> at_index (a :: ys) l t.
Proof.
  intros H l t. destruct (N.eq_dec l 0) as [->|E]; [exact (fun h => h)|]. replace l with (N.pred l + 1) by lia. rewrite !at_next. apply H.
Qed.
Lemma sees_label k n C C' rt : sees k n C C' -> sees k (n + 1) (add_label rt C) (add_label rt C').
Proof.
  intros [T F B M G L Q R]. constructor; cbn [add_label te_types te_funcs te_tables te_mems te_globals te_locals te_labels te_return]; try assumption.
  - apply at_mono, Q.
  - intros ts H. apply at_next, R, H.
Qed.
Lemma moved_typed al :
  (forall C i t t', instr_type al C i t t' -> forall k n C', sees k n C C' -> instr_type al C' (moved k n i) t t') /\
  (forall C e t t', seq_type al C e t t' -> forall k n C', sees k n C C' -> seq_type al C' (map (moved k n) e) t t').
Proof.
  apply typing_m; intros.
  - replace (moved k n i) with i by (destruct i; try discriminate; reflexivity). apply T_plain. assumption.
  - apply T_drop.
  - apply T_select.
  - cbn [moved]. apply T_local_get. apply (se_locals _ _ _ _ H). assumption.
  - cbn [moved]. apply T_local_set. apply (se_locals _ _ _ _ H). assumption.
  - cbn [moved]. apply T_local_tee. apply (se_locals _ _ _ _ H). assumption.
  - cbn [moved]. apply T_global_get. rewrite (se_globals _ _ _ _ H). assumption.
  - cbn [moved]. apply T_global_set; [rewrite (se_globals _ _ _ _ H)|]; assumption.
  - replace (moved k n i) with i by (destruct i; try discriminate; reflexivity). eapply T_load; [eassumption|rewrite (se_mems _ _ _ _ H); eassumption|assumption].
  - replace (moved k n i) with i by (destruct i; try discriminate; reflexivity). eapply T_store; [eassumption|rewrite (se_mems _ _ _ _ H); eassumption|assumption].
  - cbn [moved]. eapply T_mem_size. rewrite (se_mems _ _ _ _ H). eassumption.
  - cbn [moved]. eapply T_mem_grow. rewrite (se_mems _ _ _ _ H). eassumption.
  - apply T_nop.
  - apply T_unreachable.
  - cbn [moved]. apply T_block, H, sees_label. assumption.
  - cbn [moved]. apply T_loop, H, sees_label. assumption.
  - cbn [moved]. apply T_if; [apply H|apply H0]; apply sees_label; assumption.
  - cbn [moved]. apply T_br, (se_labels _ _ _ _ H). assumption.
  - cbn [moved]. apply T_br_if, (se_labels _ _ _ _ H). assumption.
  - cbn [moved]. apply T_br_table; [eapply Forall_impl; [|eassumption]; intros l A|]; apply (se_labels _ _ _ _ H); assumption.
  - cbn [moved]. apply T_br, (se_return _ _ _ _ H). assumption.
  - cbn [moved]. apply T_call. rewrite (se_funcs _ _ _ _ H). assumption.
  - cbn [moved]. eapply T_call_indirect; [rewrite (se_tables _ _ _ _ H); eassumption|assumption|rewrite (se_types _ _ _ _ H); assumption].
  - apply S_nil.
  - rewrite map_app. cbn [map]. eapply S_snoc; [apply H|apply H0]; assumption.
Qed.

(** ** More variables *)
Record wider (C C' : tenv) : Prop := {
  wi_types : te_types C' = te_types C; wi_funcs : te_funcs C' = te_funcs C; wi_tables : te_tables C' = te_tables C;
  wi_mems : te_mems C' = te_mems C; wi_globals : te_globals C' = te_globals C;
  wi_locals : forall x t, at_index (te_locals C) x t -> at_index (te_locals C') x t;
  wi_labels : te_labels C' = te_labels C; wi_return : te_return C' = te_return C;
}.
Lemma wider_label C C' rt : wider C C' -> wider (add_label rt C) (add_label rt C').
Proof. intros [T F B M G L Q R]. constructor; cbn; try assumption. rewrite Q. reflexivity. Qed.
Lemma wider_typed al :
  (forall C i t t', instr_type al C i t t' -> forall C', wider C C' -> instr_type al C' i t t') /\
  (forall C e t t', seq_type al C e t t' -> forall C', wider C C' -> seq_type al C' e t t').
Proof.
  apply typing_m; intros.
  - apply T_plain. assumption.
  - apply T_drop.
  - apply T_select.
  - apply T_local_get. apply (wi_locals _ _ H). assumption.
  - apply T_local_set. apply (wi_locals _ _ H). assumption.
  - apply T_local_tee. apply (wi_locals _ _ H). assumption.
  - apply T_global_get. rewrite (wi_globals _ _ H). assumption.
  - apply T_global_set; [rewrite (wi_globals _ _ H)|]; assumption.
  - eapply T_load; [eassumption|rewrite (wi_mems _ _ H); eassumption|assumption].
  - eapply T_store; [eassumption|rewrite (wi_mems _ _ H); eassumption|assumption].
  - eapply T_mem_size. rewrite (wi_mems _ _ H). eassumption.
  - eapply T_mem_grow. rewrite (wi_mems _ _ H). eassumption.
  - apply T_nop.
  - apply T_unreachable.
  - apply T_block, H, wider_label. assumption.
  - apply T_loop, H, wider_label. assumption.
  - apply T_if; [apply H|apply H0]; apply wider_label; assumption.
  - apply T_br. rewrite (wi_labels _ _ H). assumption.
  - apply T_br_if. rewrite (wi_labels _ _ H). assumption.
  - apply T_br_table; rewrite (wi_labels _ _ H); assumption.
  - apply T_return. rewrite (wi_return _ _ H). assumption.
  - apply T_call. rewrite (wi_funcs _ _ H). assumption.
  - eapply T_call_indirect; [rewrite (wi_tables _ _ H); eassumption|assumption|rewrite (wi_types _ _ H); assumption].
  - apply S_nil.
  - eapply S_snoc; [apply H|apply H0]; assumption.
Qed.

(** ** What is put in the place of the call *)
Lemma numbers_snoc k n : numbers k (S n) = numbers k n ++ [k + N.of_nat n].
Proof. unfold numbers. rewrite seq_S, map_app. reflexivity. Qed.
Lemma sets_typed al C k t ps : (forall i u, nth_error ps i = Some u -> at_index (te_locals C) (k + N.of_nat i) u) ->
  seq_type al C (map I_LocalSet (rev (numbers k (length ps)))) (t ++ ps) t.
Proof.
  induction ps as [|p ps IH] using rev_ind; intros H.
  - cbn. rewrite app_nil_r. apply S_nil.
  - rewrite app_length, Nat.add_comm. cbn [length Nat.add]. rewrite numbers_snoc, rev_app_distr. cbn [rev app map]. rewrite app_assoc.
    eapply seq_cons; [apply T_local_set, H; rewrite nth_error_app2, Nat.sub_diag; [reflexivity|lia]|]. rewrite app_nil_r. apply IH.
    intros i u E. apply H. rewrite nth_error_app1; [exact E|]. apply nth_error_Some. congruence.
Qed.
Lemma zeros_typed al C t l : Forall (fun xt => at_index (te_locals C) (fst xt) (snd xt)) l ->
  seq_type al C (flat_map (fun xt => [zero_const (snd xt); I_LocalSet (fst xt)]) l) t t.
Proof.
  induction 1 as [|[x u] l H _ IH]; cbn [flat_map fst snd app] in *; [apply S_nil|].
  rewrite <- (app_nil_r t) at 1. eapply seq_cons; [apply (T_plain al C (zero_const u) [] [u]); destruct u; reflexivity|].
  eapply seq_cons; [apply T_local_set, H|]. rewrite app_nil_r. exact IH.
Qed.
Lemma at_behind {A} (pre xs post : list A) i u : nth_error xs i = Some u -> at_index (pre ++ xs ++ post) (N.of_nat (length pre) + N.of_nat i) u.
Proof.
  intros H. unfold at_index. replace (N.to_nat _) with (length pre + i)%nat by lia. rewrite nth_error_app2 by lia. replace (_ - _)%nat with i by lia.
  rewrite nth_error_app1; [exact H|]. apply nth_error_Some. congruence.
Qed.
Lemma numbers_at {A} (pre xs : list A) :
  Forall (fun xt => at_index (pre ++ xs) (fst xt) (snd xt)) (combine (numbers (N.of_nat (length pre)) (length xs)) xs).
Proof.
  apply Forall_forall. intros [x u] I. apply In_nth_error in I as [i I].
  assert (L : length (numbers (N.of_nat (length pre)) (length xs)) = length xs) by (unfold numbers; rewrite map_length, seq_length; reflexivity).
  assert (K : (i < length xs)%nat).
  { assert (J : (i < length (combine (numbers (N.of_nat (length pre)) (length xs)) xs))%nat) by (apply nth_error_Some; congruence).
    rewrite combine_length, L in J. lia. }
  destruct (nth_error xs i) as [u'|] eqn:E; [|apply nth_error_None in E; lia].
  assert (E' : nth_error (numbers (N.of_nat (length pre)) (length xs)) i = Some (N.of_nat (length pre) + N.of_nat i)).
  { unfold numbers. rewrite nth_error_map. replace (nth_error (seq 0 (length xs)) i) with (Some i); [reflexivity|].
    symmetry. rewrite (nth_error_nth' _ 0%nat) by (rewrite seq_length; exact K). rewrite seq_nth by exact K. reflexivity. }
  apply (nth_error_nth _ _ (0, u)) in I. rewrite (combine_nth _ _ _ _ _ L) in I.
  apply (nth_error_nth _ _ 0) in E'. pose proof (nth_error_nth _ _ u E) as E2. rewrite E', E2 in I. injection I as <- <-. cbn [fst snd].
  pose proof (at_behind pre xs [] i u' E) as Z. rewrite app_nil_r in Z. exact Z.
Qed.
(** What the caller sees, with the variables of [g] behind its own *)
Lemma inlined_typed al own (M C : tenv) t g : 
  func_type al own M g t -> te_types C = te_types M -> te_funcs C = te_funcs M -> te_tables C = te_tables M -> te_mems C = te_mems M ->
  te_globals C = te_globals M -> forall pre, te_locals C = pre ++ ft_params t ++ fn_locals g -> forall k ts, k = N.of_nat (length pre) ->
  seq_type al C (inlined k t g) (ts ++ ft_params t) (ts ++ ft_results t).
Proof.
  intros [I B] E1 E2 E3 E4 E5 pre EL k ts ->. unfold inlined. eapply seq_app; [apply sets_typed|].
  { intros i u H. rewrite EL. apply at_behind. exact H. }
  eapply seq_app; [apply zeros_typed|].
  { rewrite EL, app_assoc. replace (N.of_nat (length pre) + N.of_nat (length (ft_params t))) with (N.of_nat (length (pre ++ ft_params t))) by (rewrite app_length; lia).
    apply numbers_at. }
  rewrite <- (app_nil_r ts) at 1. apply seq_one, T_block. eapply (proj2 (moved_typed al)); [exact B|].
  constructor; cbn [func_env add_label te_types te_funcs te_tables te_mems te_globals te_locals te_labels te_return]; try assumption.
  - intros x u H. rewrite EL. unfold at_index in *. replace (N.to_nat _) with (length pre + N.to_nat x)%nat by lia.
    rewrite nth_error_app2 by lia. replace (_ - _)%nat with (N.to_nat x) by lia. exact H.
  - intros l u. destruct own; [|unfold at_index; destruct (N.to_nat l); discriminate]. apply at_mono. intros ? ?. unfold at_index. destruct (N.to_nat _); discriminate.
  - intros ? [= <-]. reflexivity.
Qed.

(** ** In a module *)
Lemma replace_any al e1 e2 p : forall C t t',
  (forall ts ts', seq_type al (relabel C (labels_at p (te_labels C))) e1 ts ts' -> seq_type al (relabel C (labels_at p (te_labels C))) e2 ts ts') ->
  seq_type al C (put p e1) t t' -> seq_type al C (put p e2) t t'.
Proof.
  induction p as [a b|a rt p IH b|a rt p IH b|a rt p IH o b|a rt o p IH b]; intros C t t' K H; cbn [put labels_at] in *.
  - rewrite relabel_self in K. apply seq_app_inv in H as (t2 & A & H). apply seq_app_inv in H as (t3 & E & B).
    eapply seq_app; [exact A|]. eapply seq_app; [apply K, E|exact B].
  - apply seq_app_inv in H as (t2 & A & H). apply seq_cons_inv in H as (t0 & u & u' & -> & E & B). eapply seq_app; [exact A|].
    eapply seq_cons; [|exact B]. inversion E; subst; try discriminate. apply T_block. apply IH; assumption.
  - apply seq_app_inv in H as (t2 & A & H). apply seq_cons_inv in H as (t0 & u & u' & -> & E & B). eapply seq_app; [exact A|].
    eapply seq_cons; [|exact B]. inversion E; subst; try discriminate. apply T_loop. apply IH; assumption.
  - apply seq_app_inv in H as (t2 & A & H). apply seq_cons_inv in H as (t0 & u & u' & -> & E & B). eapply seq_app; [exact A|].
    eapply seq_cons; [|exact B]. inversion E; subst; try discriminate. apply T_if; [|assumption]. apply IH; assumption.
  - apply seq_app_inv in H as (t2 & A & H). apply seq_cons_inv in H as (t0 & u & u' & -> & E & B). eapply seq_app; [exact A|].
    eapply seq_cons; [|exact B]. inversion E; subst; try discriminate. apply T_if; [assumption|]. apply IH; assumption.
Qed.
Lemma call_inv al C x t ts ts' : at_index (te_funcs C) x t -> seq_type al C [I_Call x] ts ts' ->
  exists ts0, ts = ts0 ++ ft_params t /\ ts' = ts0 ++ ft_results t.
Proof.
  intros A H. apply seq_cons_inv in H as (t0 & u & u' & -> & E & B). apply seq_nil_inv in B. inversion E; subst; try discriminate.
  unfold at_index in *. assert (ft = t) by congruence. subst. eauto.
Qed.
Lemma own_type m x t g fts : func_space m fts -> own_func m x t g -> at_index fts x t.
Proof.
  intros F (y & E & G & T). unfold func_space, func_index in F. unfold at_index. rewrite E. clear E.
  assert (N1 : nth_error (imported_funcs (m_imports m) ++ map fn_ty (m_funcs m)) (length (imported_funcs (m_imports m)) + y) = Some (fn_ty g)).
  { rewrite nth_error_app2 by lia. replace (_ - _)%nat with y by lia. rewrite nth_error_map, G. reflexivity. }
  revert N1. generalize (length (imported_funcs (m_imports m)) + y)%nat. induction F as [|a b l l' H F IH]; intros n; [destruct n; discriminate|].
  destruct n as [|n]; [|apply IH]. cbn [nth_error]. intros [= ->]. unfold at_index in *. congruence.
Qed.
Lemma inline_valid d m fs ty locals p gs x t g ft : (forall fs fs', vd_init_globals d (with_funcs m fs) = vd_init_globals d (with_funcs m fs')) ->
  let before := with_body m fs ty locals (put p [I_Call x]) gs in
  own_func before x t g -> at_index (m_types m) ty ft -> valid_module d before ->
  valid_module d (with_body m fs ty (locals ++ ft_params t ++ fn_locals g)
    (put p (inlined (N.of_nat (length (ft_params ft) + length locals)) t g)) gs).
Proof.
  intros DG before O TY (fts & ims & exs & [F T C TB ME GL EL DA ST IM EX OT OM NM]). pose proof (own_type _ _ _ _ _ F O) as X.
  unfold before, with_body in *. cbn [with_funcs m_funcs] in *. set (body := put p (inlined _ t g)).
  assert (G : exists ft, func_type (vd_align d) (vd_own_label d) (module_env m fts) g ft).
  { destruct O as (y & _ & G & _). apply nth_error_In in G. exact (proj1 (Forall_forall _ _) C _ G). }
  assert (G' : func_type (vd_align d) (vd_own_label d) (module_env m fts) g t).
  { destruct O as (y & _ & _ & A). destruct G as (t' & I & B). cbn [module_env te_types with_funcs m_types] in *. unfold at_index in *.
    assert (t' = t) by congruence. subst t'. split; assumption. }
  assert (Q : exists ft, func_type (vd_align d) (vd_own_label d) (module_env m fts) (mkFunc ty (locals ++ ft_params t ++ fn_locals g) body) ft).
  { apply Forall_app in C as [_ C]. apply Forall_inv in C as (ft' & I & B). exists ft'. split; [exact I|]. cbn [fn_body fn_locals fn_ty] in *.
    cbn [module_env te_types with_funcs m_types] in I. unfold at_index in I, TY. assert (ft' = ft) by congruence. subst ft'. unfold expr_type in *.
    apply (replace_any _ [I_Call x]); [|apply (proj2 (wider_typed _) _ _ _ _ B)].
    - intros ts ts' H. apply (call_inv _ _ _ t) in H as (ts0 & -> & ->); [|exact X].
      apply (inlined_typed _ _ _ _ _ _ G') with (pre := ft_params ft ++ locals); try reflexivity.
      + cbn [relabel func_env te_locals]. rewrite app_assoc. reflexivity.
      + rewrite app_length. reflexivity.
    - constructor; try reflexivity. cbn [func_env te_locals]. intros y u H. unfold at_index in *. rewrite app_assoc, nth_error_app1; [exact H|].
      apply nth_error_Some. congruence. }
  exists fts, ims, exs. constructor; try assumption.
  - unfold func_space, func_index in *. cbn [with_funcs m_funcs m_imports m_types] in *. rewrite map_app in *. exact F.
  - cbn [with_funcs m_funcs]. apply Forall_app in C as [C1 C2]. apply Forall_app. split; [exact C1|]. inversion C2 as [|? ? _ C3]; subst. constructor; [exact Q|exact C3].
  - rewrite (DG _ (fs ++ mkFunc ty locals (put p [I_Call x]) :: gs)). exact GL.
Qed.
Theorem inline_official m fs ty locals p gs x t g ft :
  let before := with_body m fs ty locals (put p [I_Call x]) gs in
  own_func before x t g -> at_index (m_types m) ty ft -> valid_module wasm10_validity before ->
  valid_module wasm10_validity (with_body m fs ty (locals ++ ft_params t ++ fn_locals g)
    (put p (inlined (N.of_nat (length (ft_params ft) + length locals)) t g)) gs).
Proof. apply inline_valid. reflexivity. Qed.
Lemma typed_bodies d m : valid_module d m -> forall f, In f (m_funcs m) -> no_pseudo (fn_body f).
Proof.
  intros (fts & ims & exs & V) f I. pose proof (mt_funcs_ok _ _ _ _ _ V) as C. destruct (proj1 (Forall_forall _ _) C _ I) as (ft & _ & B).
  exact (proj2 (typed_no_pseudo _) _ _ _ _ B).
Qed.
Theorem inline_accepted m fs ty locals p gs x t g ft :
  let before := with_body m fs ty locals (put p [I_Call x]) gs in
  (forall f, In f (m_funcs before) -> no_pseudo (fn_body f)) ->
  own_func before x t g -> at_index (m_types m) ty ft -> accepted before ->
  accepted (with_body m fs ty (locals ++ ft_params t ++ fn_locals g)
    (put p (inlined (N.of_nat (length (ft_params ft) + length locals)) t g)) gs).
Proof.
  intros before NP O TY A. apply (c40_iff _ NP) in A. apply (inline_valid whasm_validity m fs ty locals p gs x t g ft (fun _ _ => eq_refl) O TY) in A.
  apply c40_iff; [exact (typed_bodies _ _ A)|exact A].
Qed.

(** ** The other direction *)
Lemma sets_inv al C k ps : (forall i u, nth_error ps i = Some u -> at_index (te_locals C) (k + N.of_nat i) u) -> forall t t',
  seq_type al C (map I_LocalSet (rev (numbers k (length ps)))) t t' -> t = t' ++ ps.
Proof.
  induction ps as [|p ps IH] using rev_ind; intros L t t' H.
  - cbn in H. apply seq_nil_inv in H. rewrite app_nil_r. exact H.
  - rewrite app_length, Nat.add_comm in H. cbn [length Nat.add] in H. rewrite numbers_snoc, rev_app_distr in H. cbn [rev app map] in H.
    apply seq_cons_inv in H as (t0 & u & u' & -> & E & H). inversion E as [| | | |? ? v V| | | | | | | | | | | | | | | | | |]; subst; try discriminate.
    rewrite app_nil_r in H. assert (v = p).
    { specialize (L (length ps) p). rewrite nth_error_app2, Nat.sub_diag in L by lia. specialize (L eq_refl). unfold at_index in *. congruence. }
    subst v. apply IH in H; [subst t0; rewrite app_assoc; reflexivity|].
    intros i v E'. apply L. rewrite nth_error_app1; [exact E'|]. apply nth_error_Some. congruence.
Qed.
Lemma zeros_inv al C l : Forall (fun xt => at_index (te_locals C) (fst xt) (snd xt)) l -> forall t t',
  seq_type al C (flat_map (fun xt => [zero_const (snd xt); I_LocalSet (fst xt)]) l) t t' -> t' = t.
Proof.
  induction 1 as [|[x u] l L _ IH]; intros t t' H; cbn [flat_map fst snd app] in *; [symmetry; eapply seq_nil_inv, H|].
  apply seq_cons_inv in H as (t0 & a & a' & -> & E & H). apply seq_cons_inv in H as (t1 & b & b' & Q & E2 & H).
  assert (a = [] /\ a' = [u]) as [-> ->] by (destruct u; inversion E; subst; try discriminate; match goal with P : plain_type _ = _ |- _ => injection P as <- <- end; auto).
  inversion E2 as [| | | |? ? v V| | | | | | | | | | | | | | | | | |]; subst; try discriminate. apply app_inj_tail in Q as [-> ->].
  apply IH in H. rewrite H, !app_nil_r. reflexivity.
Qed.
Lemma inlined_inv al C t g : forall pre, te_locals C = pre ++ ft_params t ++ fn_locals g -> forall k ts ts', k = N.of_nat (length pre) ->
  seq_type al C (inlined k t g) ts ts' -> exists ts0, ts = ts0 ++ ft_params t /\ ts' = ts0 ++ ft_results t.
Proof.
  intros pre EL k ts ts' -> H. unfold inlined in H. apply seq_app_inv in H as (t1 & A & H). apply seq_app_inv in H as (t2 & B & H).
  apply sets_inv in A; [|intros i u E; rewrite EL; apply at_behind, E]. apply zeros_inv in B; [subst t2|].
  - exists t1. split; [exact A|]. apply seq_cons_inv in H as (t0 & u & u' & -> & E & H). apply seq_nil_inv in H. inversion E; subst; try discriminate.
    rewrite app_nil_r. reflexivity.
  - rewrite EL, app_assoc. replace (N.of_nat (length pre) + N.of_nat (length (ft_params t))) with (N.of_nat (length (pre ++ ft_params t))) by (rewrite app_length; lia).
    apply numbers_at.
Qed.
(** Code is exchanged in one function; the others are typed. *)
Lemma exchange_valid d m fs ty locals p gs e1 e2 : (forall fs fs', vd_init_globals d (with_funcs m fs) = vd_init_globals d (with_funcs m fs')) ->
  (forall fts ft ts ts', func_space (with_body m fs ty locals (put p e1) gs) fts -> at_index (m_types m) ty ft ->
     Forall (fun f => exists ft, func_type (vd_align d) (vd_own_label d) (module_env m fts) f ft) (fs ++ gs) ->
     let C := func_env (vd_own_label d) (module_env m fts) ft locals in
     seq_type (vd_align d) (relabel C (labels_at p (te_labels C))) e1 ts ts' -> seq_type (vd_align d) (relabel C (labels_at p (te_labels C))) e2 ts ts') ->
  valid_module d (with_body m fs ty locals (put p e1) gs) -> valid_module d (with_body m fs ty locals (put p e2) gs).
Proof.
  intros DG K (fts & ims & exs & [F T C TB ME GL EL DA ST IM EX OT OM NM]). pose proof F as F0. unfold with_body in *. cbn [with_funcs m_funcs] in *.
  apply Forall_app in C as [C1 C2]. inversion C2 as [|? ? (ft & I & B) C3]; subst.
  assert (Q : exists ft, func_type (vd_align d) (vd_own_label d) (module_env m fts) (mkFunc ty locals (put p e2)) ft).
  { exists ft. split; [exact I|]. cbn [fn_body fn_locals fn_ty] in *. apply (replace_any _ e1); [|exact B]. intros ts ts'.
    apply K; [exact F0|exact I|]. apply Forall_app. split; assumption. }
  exists fts, ims, exs. constructor; try assumption.
  - unfold func_space, func_index in *. cbn [with_funcs m_funcs m_imports m_types] in *. rewrite map_app in *. exact F.
  - cbn [with_funcs m_funcs]. apply Forall_app. split; [exact C1|]. constructor; [exact Q|exact C3].
  - rewrite (DG _ (fs ++ mkFunc ty locals (put p e1) :: gs)). exact GL.
Qed.
Lemma exchange_call d m fs ty pre locals p gs x t g ft : (forall fs fs', vd_init_globals d (with_funcs m fs) = vd_init_globals d (with_funcs m fs')) ->
  locals = pre ++ ft_params t ++ fn_locals g ->
  let with_code e := with_body m fs ty locals (put p e) gs in
  own_func (with_code [I_Call x]) x t g -> In g (fs ++ gs) -> at_index (m_types m) ty ft ->
  (valid_module d (with_code [I_Call x]) <-> valid_module d (with_code (inlined (N.of_nat (length (ft_params ft) + length pre)) t g))).
Proof.
  intros DG -> with_code O G TY. split; (apply exchange_valid; [exact DG|]); intros fts ft' ts ts' F TY' A C H.
  - assert (ft' = ft) by (unfold at_index in *; congruence). subst ft'.
    apply (call_inv _ _ _ t) in H as (ts0 & -> & ->); [|exact (own_type _ _ _ _ _ F O)].
    destruct (proj1 (Forall_forall _ _) A _ G) as (t' & I & B). assert (t' = t).
    { destruct O as (y & _ & _ & A'). cbn [module_env te_types with_code with_body with_funcs m_types] in *. unfold at_index in *. congruence. }
    subst t'. apply (inlined_typed _ _ _ _ _ _ (conj I B)) with (pre := ft_params ft ++ pre); try reflexivity.
    + cbn [C relabel func_env te_locals]. rewrite <- app_assoc. reflexivity.
    + rewrite app_length. reflexivity.
  - assert (ft' = ft) by (unfold at_index in *; congruence). subst ft'.
    apply (inlined_inv _ _ t g (ft_params ft ++ pre)) in H as (ts0 & -> & ->).
    + apply seq_one, T_call. eapply own_type; [|exact O]. unfold with_code, with_body, func_space, func_index in *. cbn [with_funcs m_funcs m_imports m_types] in *.
      rewrite map_app in *. exact F.
    + cbn [C relabel func_env te_locals]. rewrite <- app_assoc. reflexivity.
    + rewrite app_length. reflexivity.
Qed.
Lemma moved_children k n i sub : In sub (children (moved k n i)) -> exists b, In b (children i) /\ sub = map (moved k (n + 1)) b.
Proof. destruct i; cbn; intros H; try contradiction; repeat (destruct H as [<-|H]; [eexists; split; [|reflexivity]; auto|]); contradiction. Qed.
Lemma moved_pseudo j : (j = I_End \/ j = I_Else) -> forall e, occurs j e -> forall k n b, e = map (moved k n) b -> occurs j b.
Proof.
  intros J e O. induction O as [e I|i sub e I S O IH]; intros k n b ->; apply in_map_iff in I as (i' & E & I).
  - apply occurs_here. replace j with i'; [exact I|]. destruct J as [-> | ->]; destruct i'; try discriminate; reflexivity.
  - subst i. apply moved_children in S as (b' & S & ->). eapply occurs_inside; [exact I|exact S|]. eapply IH. reflexivity.
Qed.
Lemma inlined_no_pseudo k t g : no_pseudo (fn_body g) -> no_pseudo (inlined k t g).
Proof.
  intros [N1 N2]. unfold inlined. apply no_pseudo_app; [|apply no_pseudo_app].
  - induction (rev _) as [|x l IH]; [split; intros O; inversion O; contradiction|]. apply (no_pseudo_app [_]); [apply leaf_no_pseudo; [reflexivity|discriminate..]|exact IH].
  - induction (combine _ _) as [|[x u] l IH]; [split; intros O; inversion O; contradiction|]. cbn [flat_map]. apply no_pseudo_app; [|exact IH].
    apply (no_pseudo_app [_] [_]); apply leaf_no_pseudo; destruct u; (reflexivity || discriminate).
  - apply no_pseudo_block. split; intros O; [apply N1|apply N2]; (eapply moved_pseudo; [|exact O|reflexivity]); auto.
Qed.
Theorem inline_iff m fs ty pre p gs x t g ft :
  let locals := pre ++ ft_params t ++ fn_locals g in
  let with_code e := with_body m fs ty locals (put p e) gs in
  (forall f, In f (m_funcs (with_code [])) -> no_pseudo (fn_body f)) ->
  own_func (with_code [I_Call x]) x t g -> In g (fs ++ gs) -> at_index (m_types m) ty ft ->
  (accepted (with_code [I_Call x]) <-> accepted (with_code (inlined (N.of_nat (length (ft_params ft) + length pre)) t g))).
Proof.
  intros locals with_code NP O G TY.
  assert (NC : forall e, no_pseudo e -> forall f, In f (m_funcs (with_code e)) -> no_pseudo (fn_body f)).
  { intros e E f I. unfold with_code, with_body in *. cbn [with_funcs m_funcs] in *. apply in_app_iff in I as [I|[<-|I]].
    - apply NP, in_app_iff. auto.
    - cbn [fn_body]. apply (no_pseudo_put p []); [|exact E]. apply (NP (mkFunc ty locals (put p []))), in_app_iff. cbn. auto.
    - apply NP, in_app_iff. cbn. auto. }
  rewrite (c40_iff (with_code [I_Call x])) by (apply NC, leaf_no_pseudo; [reflexivity|discriminate..]).
  rewrite (c40_iff (with_code (inlined _ t g))).
  - apply exchange_call; [reflexivity|reflexivity|exact O|exact G|exact TY].
  - apply NC, inlined_no_pseudo. unfold with_code, with_body in NP. cbn [with_funcs m_funcs] in NP. apply NP, in_app_iff.
    apply in_app_iff in G as [G|G]; cbn; auto.
Qed.
