(** The numbers of the variables of a function do not matter. *)
From Coq Require Import Lia Permutation.
From Verif Require Import SpecVars SpecVerdict SpecTyping ParserModule ValidatorModule TypingProof ModuleValidProof DialectValidProof ValidityClaims InlineProof
  ExecProof InstProof InlineExecProof.
Open Scope N_scope.

(** ** Code that differs in the numbers of variables only: [P x y]: what is [x] here is [y] there *)
Definition no_vars (i : instr) : Prop :=
  match i with I_Block _ _ | I_Loop _ _ | I_If _ _ _ | I_LocalGet _ | I_LocalSet _ | I_LocalTee _ => False | _ => True end.
Inductive rel (P : N -> N -> Prop) : instr -> instr -> Prop :=
| Q_same i : no_vars i -> rel P i i
| Q_get x y : P x y -> rel P (I_LocalGet x) (I_LocalGet y)
| Q_set x y : P x y -> rel P (I_LocalSet x) (I_LocalSet y)
| Q_tee x y : P x y -> rel P (I_LocalTee x) (I_LocalTee y)
| Q_block rt b b' : rels P b b' -> rel P (I_Block rt b) (I_Block rt b')
| Q_loop rt b b' : rels P b b' -> rel P (I_Loop rt b) (I_Loop rt b')
| Q_if rt b b' d d' : rels P b b' -> rels P d d' -> rel P (I_If rt b d) (I_If rt b' d')
with rels (P : N -> N -> Prop) : list instr -> list instr -> Prop :=
| Q_nil : rels P [] []
| Q_cons i i' e e' : rel P i i' -> rels P e e' -> rels P (i :: e) (i' :: e').
Scheme rel_m := Induction for rel Sort Prop with rels_m := Induction for rels Sort Prop.
Combined Scheme rel_both from rel_m, rels_m.

Definition pairs (r : N -> N) (xs : list N) (x y : N) : Prop := In x xs /\ y = r x.
Fixpoint rel_renamed r xs (i : instr) {struct i} : incl (vars_of i) xs -> rel (pairs r xs) i (renamed r i).
Proof.
  destruct i; cbn [vars_of renamed]; intros H; try (apply Q_same; exact I).
  all: try (first [apply Q_get|apply Q_set|apply Q_tee]; split; [apply H; left; reflexivity|reflexivity]).
  all: first [apply Q_block|apply Q_loop|apply Q_if].
  all: match goal with |- rels _ ?b _ => assert (H' : incl (flat_map vars_of b) xs) by (first [exact H|intros z Z; apply H, in_or_app; auto]); clear H; revert H' end.
  all: match goal with |- incl (flat_map vars_of ?b) _ -> _ => induction b as [|j b IH]; intros H; [apply Q_nil|] end.
  all: cbn [flat_map] in H; apply Q_cons; [apply rel_renamed|apply IH]; intros z Z; apply H, in_or_app; auto.
Qed.
Lemma rels_renamed r xs e : incl (flat_map vars_of e) xs -> rels (pairs r xs) e (map (renamed r) e).
Proof.
  induction e as [|i e IH]; intros H; [apply Q_nil|]. cbn [flat_map] in H. cbn [map].
  apply Q_cons; [apply rel_renamed|apply IH]; intros z Z; apply H, in_or_app; auto.
Qed.
Fixpoint rel_self (i : instr) {struct i} : rel eq i i.
Proof.
  destruct i; try (apply Q_same; exact I); try (first [apply Q_get|apply Q_set|apply Q_tee]; reflexivity).
  all: first [apply Q_block|apply Q_loop|apply Q_if].
  all: match goal with |- rels _ ?b _ => induction b as [|j b IH]; [apply Q_nil|apply Q_cons; [apply rel_self|exact IH]] end.
Qed.
Lemma rels_self e : rels eq e e.
Proof. induction e; [apply Q_nil|apply Q_cons; [apply rel_self|assumption]]. Qed.
Lemma rel_sym P : (forall i i', rel P i i' -> rel (fun x y => P y x) i' i) /\ (forall e e', rels P e e' -> rels (fun x y => P y x) e' e).
Proof.
  apply rel_both; intros; first [apply Q_same; assumption|apply Q_get; assumption|apply Q_set; assumption|apply Q_tee; assumption
    |apply Q_block; assumption|apply Q_loop; assumption|apply Q_if; assumption|apply Q_nil|apply Q_cons; assumption].
Qed.
Lemma rels_snoc P e i e' : rels P (e ++ [i]) e' -> exists f j, e' = f ++ [j] /\ rels P e f /\ rel P i j.
Proof.
  revert e'. induction e as [|k e IH]; intros e' H; cbn [app] in H; inversion H as [|? k' ? e2 K R]; subst.
  - inversion R; subst. exists [], k'. split; [reflexivity|]. split; [apply Q_nil|exact K].
  - apply IH in R as (f & j & -> & F & J). exists (k' :: f), j. split; [reflexivity|]. split; [apply Q_cons; assumption|exact J].
Qed.

(** ** Types *)
Record sees_vars (P : N -> N -> Prop) (C C' : tenv) : Prop := {
  sv_types : te_types C' = te_types C; sv_funcs : te_funcs C' = te_funcs C; sv_tables : te_tables C' = te_tables C;
  sv_mems : te_mems C' = te_mems C; sv_globals : te_globals C' = te_globals C;
  sv_locals : forall x y t, P x y -> at_index (te_locals C) x t -> at_index (te_locals C') y t;
  sv_labels : te_labels C' = te_labels C; sv_return : te_return C' = te_return C;
}.
Lemma sees_vars_label P C C' rt : sees_vars P C C' -> sees_vars P (add_label rt C) (add_label rt C').
Proof. intros [T F B M G L Q R]. constructor; cbn; try assumption. rewrite Q. reflexivity. Qed.
Lemma rel_typed al P :
  (forall C i t t', instr_type al C i t t' -> forall i' C', rel P i i' -> sees_vars P C C' -> instr_type al C' i' t t') /\
  (forall C e t t', seq_type al C e t t' -> forall e' C', rels P e e' -> sees_vars P C C' -> seq_type al C' e' t t').
Proof.
  apply typing_m; intros.
  24: { match goal with H : rels _ [] _ |- _ => inversion H; subst end. apply S_nil. }
  24: { match goal with H : rels _ (_ ++ _) _ |- _ => apply rels_snoc in H as (f & j & -> & F & J) end. eapply S_snoc; eauto. }
  all: match goal with H : rel _ _ _, S : sees_vars _ _ _ |- _ => rename S into V; inversion H; subst; clear H; try discriminate end.
  - apply T_plain. assumption.
  - apply T_drop.
  - apply T_select.
  - contradiction.
  - apply T_local_get. eapply sv_locals; eassumption.
  - contradiction.
  - apply T_local_set. eapply sv_locals; eassumption.
  - contradiction.
  - apply T_local_tee. eapply sv_locals; eassumption.
  - apply T_global_get. rewrite (sv_globals _ _ _ V). assumption.
  - apply T_global_set; [rewrite (sv_globals _ _ _ V)|]; assumption.
  - eapply T_load; [eassumption|rewrite (sv_mems _ _ _ V); eassumption|assumption].
  - eapply T_store; [eassumption|rewrite (sv_mems _ _ _ V); eassumption|assumption].
  - eapply T_mem_size. rewrite (sv_mems _ _ _ V). eassumption.
  - eapply T_mem_grow. rewrite (sv_mems _ _ _ V). eassumption.
  - apply T_nop.
  - apply T_unreachable.
  - contradiction.
  - apply T_block. eauto using sees_vars_label.
  - contradiction.
  - apply T_loop. eauto using sees_vars_label.
  - contradiction.
  - apply T_if; eauto using sees_vars_label.
  - apply T_br. rewrite (sv_labels _ _ _ V). assumption.
  - apply T_br_if. rewrite (sv_labels _ _ _ V). assumption.
  - apply T_br_table; rewrite (sv_labels _ _ _ V); assumption.
  - apply T_return. rewrite (sv_return _ _ _ V). assumption.
  - apply T_call. rewrite (sv_funcs _ _ _ V). assumption.
  - eapply T_call_indirect; [rewrite (sv_tables _ _ _ V); eassumption|assumption|rewrite (sv_types _ _ _ V); assumption].
Qed.
Lemma sees_funcs (P : N -> N -> Prop) own C ft L L' : (forall x y t, P x y -> at_index (ft_params ft ++ L) x t -> at_index (ft_params ft ++ L') y t) ->
  sees_vars P (func_env own C ft L) (func_env own C ft L').
Proof. intros H. constructor; try reflexivity. exact H. Qed.
Lemma body_valid d m fs ty L L' body body' gs ft (P : N -> N -> Prop) :
  (forall fs fs', vd_init_globals d (with_funcs m fs) = vd_init_globals d (with_funcs m fs')) ->
  at_index (m_types m) ty ft -> rels P body body' ->
  (forall x y t, P x y -> at_index (ft_params ft ++ L) x t -> at_index (ft_params ft ++ L') y t) ->
  valid_module d (with_body m fs ty L body gs) -> valid_module d (with_body m fs ty L' body' gs).
Proof.
  intros DG TY R Hv (fts & ims & exs & [F T C TB ME GL EL DA ST IM EX OT OM NM]). unfold with_body in *. cbn [with_funcs m_funcs] in *.
  exists fts, ims, exs. constructor; try assumption.
  - unfold func_space, func_index in *. cbn [with_funcs m_funcs m_imports m_types] in *. rewrite map_app in *. exact F.
  - cbn [with_funcs m_funcs]. apply Forall_app in C as [C1 C2]. apply Forall_app. split; [exact C1|]. inversion C2 as [|? ? (ft' & I & B) C3]; subst.
    constructor; [|exact C3]. exists ft'. split; [exact I|]. cbn [fn_body fn_locals fn_ty] in *. cbn [module_env te_types with_funcs m_types] in I.
    unfold at_index in I, TY. assert (ft' = ft) by congruence. subst ft'. unfold expr_type in *.
    eapply (proj2 (rel_typed _ P)); [exact B|exact R|]. apply sees_funcs. exact Hv.
  - rewrite (DG _ (fs ++ mkFunc ty L body :: gs)). exact GL.
Qed.
Theorem vars_official m fs ty L L' body gs ft r : at_index (m_types m) ty ft -> same_typed r (ft_params ft ++ L) (ft_params ft ++ L') body ->
  valid_module wasm10_validity (with_body m fs ty L body gs) <-> valid_module wasm10_validity (with_body m fs ty L' (map (renamed r) body) gs).
Proof.
  intros TY S. pose proof (rels_renamed r _ body (incl_refl _)) as R. split.
  - apply (body_valid wasm10_validity m fs ty L L' body _ gs ft _ (fun _ _ => eq_refl) TY R). intros x y t [I ->]. unfold at_index. rewrite (S x I). tauto.
  - apply rel_sym in R. apply (body_valid wasm10_validity m fs ty L' L _ body gs ft _ (fun _ _ => eq_refl) TY R). intros y x t [I ->]. unfold at_index.
    rewrite (S x I). tauto.
Qed.

(** ** The verdict *)
Lemma rel_checked (P : N -> N -> Prop) c L L' : (forall x y, P x y -> v_lookup L' y = v_lookup L x) ->
  (forall i i', rel P i i' -> forall s, v_instr (set_locals c L') i' s = v_instr (set_locals c L) i s) /\
  (forall e e', rels P e e' -> forall s, v_seq (v_instr (set_locals c L')) e' s = v_seq (v_instr (set_locals c L)) e s).
Proof.
  intros V. apply rel_both; intros.
  - destruct i; try contradiction; reflexivity.
  - cbn [v_instr]. unfold v_localidx. cbn [set_locals c_locals]. rewrite (V _ _ p). reflexivity.
  - cbn [v_instr]. unfold v_localidx. cbn [set_locals c_locals]. rewrite (V _ _ p). reflexivity.
  - cbn [v_instr]. unfold v_localidx. cbn [set_locals c_locals]. rewrite (V _ _ p). reflexivity.
  - cbn [v_instr]. rewrite H. reflexivity.
  - cbn [v_instr]. rewrite H. reflexivity.
  - cbn [v_instr]. destruct (pop_operands _ s) as [s1| |]; cbn [vbind]; try reflexivity. rewrite H.
    match goal with |- vbind ?x _ = _ => destruct x as [s2| |]; cbn [vbind]; try reflexivity end.
    match goal with |- vbind ?x _ = _ => destruct x as [s3| |]; cbn [vbind]; try reflexivity end. rewrite H0. reflexivity.
  - reflexivity.
  - cbn [v_seq]. rewrite H. destruct (v_instr (set_locals c L) i s); cbn [vbind]; [apply H0|reflexivity|reflexivity].
Qed.
Lemma lookup_same {A} (l l' : list A) x y : nth_error l' (N.to_nat y) = nth_error l (N.to_nat x) -> v_lookup l' y = v_lookup l x.
Proof.
  intros E. unfold v_lookup. rewrite E. destruct (nth_error l (N.to_nat x)) as [t|] eqn:H.
  - assert (L1 : nth_error l (N.to_nat x) <> None) by congruence. assert (L2 : nth_error l' (N.to_nat y) <> None) by congruence. apply nth_error_Some in L1, L2.
    destruct (N.leb_spec (N.of_nat (length l)) x), (N.leb_spec (N.of_nat (length l')) y); try lia. reflexivity.
  - apply nth_error_None in H, E. destruct (N.leb_spec (N.of_nat (length l)) x), (N.leb_spec (N.of_nat (length l')) y); try lia. reflexivity.
Qed.
Lemma vars_func c s ty L L' body ft r : v_typeidx c ty = VOk ft -> same_typed r (ft_params ft ++ L) (ft_params ft ++ L') body ->
  v_func (mkFunc ty L' (map (renamed r) body)) (c, s) = v_func (mkFunc ty L body) (c, s).
Proof.
  intros T S. unfold v_func. cbn [fn_ty fn_locals fn_body]. rewrite T. cbn [vbind]. unfold v_expr.
  rewrite (proj2 (rel_checked (pairs r (flat_map vars_of body)) (set_ret c (Some (ft_results ft))) (ft_params ft ++ L) (ft_params ft ++ L')
    ltac:(intros x y [I ->]; apply lookup_same, S, I)) body (map (renamed r) body)); [reflexivity|]. apply rels_renamed, incl_refl.
Qed.
Theorem vars_verdict m fs ty L L' body gs ft r : at_index (m_types m) ty ft -> same_typed r (ft_params ft ++ L) (ft_params ft ++ L') body ->
  validate (with_body m fs ty L' (map (renamed r) body) gs) = validate (with_body m fs ty L body gs).
Proof.
  intros TY S. set (m1 := with_body m fs ty L body gs). set (m2 := with_body m fs ty L' (map (renamed r) body) gs).
  assert (K : forall fts, v_typeidx (module_ctx m fts) ty = VOk ft).
  { intros fts. unfold v_typeidx, v_lookup. cbn [module_ctx c_types]. unfold at_index in TY. rewrite TY.
    assert (Z : nth_error (m_types m) (N.to_nat ty) <> None) by congruence. apply nth_error_Some in Z.
    destruct (N.leb_spec (N.of_nat (length (m_types m))) ty); [lia|reflexivity]. }
  assert (CH : forall fts ims exs, module_checked m2 fts ims exs <-> module_checked m1 fts ims exs).
  { intros fts ims exs. split; intros [FS F1 F2 F3 F4 F5 F6 F7 F8 F9 F10 LT LM EN]; constructor; try assumption.
    1,3: unfold m1, m2, with_body, func_space, func_index in *; cbn [with_funcs m_funcs m_imports m_types] in *; rewrite map_app in *; exact FS.
    all: unfold m1, m2, with_body in F2 |- *; cbn [with_funcs m_funcs] in F2 |- *; apply Forall_app in F2 as [A B]; apply Forall_app; split; [exact A|];
      inversion B as [|? ? (t & E) B2]; subst; constructor; [|exact B2]; exists t; refine (eq_trans _ E).
    - symmetry. apply (vars_func (module_ctx m fts) empty_stacks ty L L' body ft r (K fts) S).
    - apply (vars_func (module_ctx m fts) empty_stacks ty L L' body ft r (K fts) S). }
  assert (E : forall mt, validate m2 = VOk mt <-> validate m1 = VOk mt).
  { intros mt. unfold validate. rewrite !v_module_checked. split; intros (fts & H); exists fts; apply CH; exact H. }
  destruct (validate m2) as [mt| |] eqn:V1, (validate m1) as [mt2| |] eqn:V2; try reflexivity.
  all: try (pose proof (proj1 (E _) eq_refl) as Y; congruence).
  all: try (pose proof (proj2 (E _) eq_refl) as Y; congruence).
  all: destruct (validate_total m2) as [[? Y]|Y], (validate_total m1) as [[? Z]|Z]; congruence.
Qed.

(** ** What code does *)
Section Sim.
Variable M : machine.
Variable types : list functy.
Variables funcs funcs' : list (finst M).

Definition emb (P : N -> N -> Prop) (c c' : conf M) : Prop :=
  c_stack c' = c_stack c /\ c_store c' = c_store c /\ forall x y, P x y -> at_N (c_vars c') y = at_N (c_vars c) x.
Definition simr P (r r' : result M) : Prop :=
  match r with
  | R_Normal c => exists c', emb P c c' /\ r' = R_Normal c'
  | R_Branch l vs c => exists c', emb P c c' /\ r' = R_Branch l vs c'
  | r => r' = r
  end.
(** variables do not fall together *)
Definition apart (P : N -> N -> Prop) : Prop := forall x x' y y', P x y -> P x' y' -> (x = x' <-> y = y').
Definition fun_rel (f f' : finst M) : Prop :=
  f' = f \/ exists u h h' P, f = F_Wasm u h /\ f' = F_Wasm u h' /\ apart P /\ rels P (fn_body h) (fn_body h') /\
    forall args, length args = length (ft_params u) -> forall x y, P x y -> at_N (args ++ map zero (fn_locals h')) y = at_N (args ++ map zero (fn_locals h)) x.
Hypothesis funs : forall a, match nth_error funcs a, nth_error funcs' a with Some f, Some f' => fun_rel f f' | None, None => True | _, _ => False end.

Lemma emb_stack P c c' s : emb P c c' -> emb P (with_stack M c s) (with_stack M c' s).
Proof. intros (A & B & V). split; [reflexivity|]. split; [exact B|exact V]. Qed.
Lemma emb_store P c c' s : emb P c c' -> emb P (with_store M c s) (with_store M c' s).
Proof. intros (A & B & V). split; [exact A|]. split; [reflexivity|exact V]. Qed.
Lemma simr_push P c c' vs rest : emb P c c' -> simr P (push M vs rest c) (push M vs rest c').
Proof. intros E. unfold push. eexists. split; [apply emb_stack, E|reflexivity]. Qed.
Lemma simr_pop P ts c c' k k' : emb P c c' ->
  (forall vs d d', emb P d d' -> simr P (k vs d) (k' vs d')) -> simr P (pop M ts c k) (pop M ts c' k').
Proof. intros E K. unfold pop. rewrite (proj1 E). destruct (take ts (c_stack c)) as [[vs rest]|]; [|reflexivity]. apply K, emb_stack, E. Qed.
Lemma simr_pop1 P u c c' k k' : emb P c c' ->
  (forall v d d', emb P d d' -> simr P (k v d) (k' v d')) -> simr P (pop1 M u c k) (pop1 M u c' k').
Proof. intros E K. apply simr_pop; [exact E|]. intros [|v [|]] d d' D; [reflexivity|apply K, D|reflexivity]. Qed.
Lemma simr_found {A} P (o : option A) k k' : (forall a, simr P (k a) (k' a)) -> simr P (found M o k) (found M o k').
Proof. intros K. destruct o; [apply K|reflexivity]. Qed.
Lemma simr_trap {A} P (o : option A) k k' : (forall a, simr P (k a) (k' a)) -> simr P (or_trap M o k) (or_trap M o k').
Proof. intros K. destruct o; [apply K|reflexivity]. Qed.
Lemma simr_branch P labels l c c' : emb P c c' -> simr P (branch M labels l c) (branch M labels l c').
Proof.
  intros E. unfold branch. apply simr_found. intros ts. apply simr_pop; [exact E|]. intros vs d d' D. exists d'. split; [exact D|reflexivity].
Qed.
Lemma set_nth_same {A} n (v : A) xs : (n < length xs)%nat -> nth_error (set_nth n v xs) n = Some v.
Proof. revert n. induction xs as [|y xs IH]; intros [|n] H; cbn in *; try lia; [reflexivity|]. apply IH. lia. Qed.
Lemma set_nth_other {A} n k (v : A) xs : n <> k -> nth_error (set_nth n v xs) k = nth_error xs k.
Proof. revert n k. induction xs as [|y xs IH]; intros [|n] [|k] H; cbn; try reflexivity; try congruence. apply IH. congruence. Qed.
Lemma emb_set P c c' x y v : apart P -> P x y -> at_N (c_vars c) x <> None -> emb P c c' ->
  emb P (with_vars M c (set_nth (N.to_nat x) v (c_vars c))) (with_vars M c' (set_nth (N.to_nat y) v (c_vars c'))).
Proof.
  intros AP PX O (A & B & V). split; [exact A|]. split; [exact B|]. intros x' y' P'. cbn [with_vars c_vars].
  pose proof (AP _ _ _ _ PX P') as Q. unfold at_N in *. destruct (N.eq_dec x x') as [->|NE].
  - rewrite <- (proj1 Q eq_refl). rewrite !set_nth_same; [reflexivity| |]; apply nth_error_Some; [exact O|]. rewrite (V _ _ PX). exact O.
  - rewrite !set_nth_other; [apply V, P'| |]; [lia|]. intros E. apply NE, Q. lia.
Qed.
Definition sim_code (n : nat) : Prop := forall P labels ret e e' c c', apart P -> rels P e e' -> emb P c c' ->
  simr P (run_seq M (exec M types funcs n labels ret) e c) (run_seq M (exec M types funcs' n labels ret) e' c').
Definition sim_instr (n : nat) : Prop := forall P labels ret i i' c c', apart P -> rel P i i' -> emb P c c' ->
  simr P (exec M types funcs n labels ret i c) (exec M types funcs' n labels ret i' c').
Lemma simr_finish P P1 u c c' r r' : emb P c c' -> simr P1 r r' -> simr P (finish M u c r) (finish M u c' r').
Proof.
  intros E S. unfold finish. rewrite (proj1 E).
  assert (K : forall vs st, simr P (if valtys_same (map type_of vs) (ft_results u) then push M vs (c_stack c) (with_store M c st) else R_Stuck)
    (if valtys_same (map type_of vs) (ft_results u) then push M vs (c_stack c) (with_store M c' st) else R_Stuck)).
  { intros vs st. destruct (valtys_same _ _); [|reflexivity]. apply simr_push, emb_store, E. }
  destruct r as [d|l vs d|vs st| | |]; cbn [simr] in S; try (subst r'; first [apply K|reflexivity]).
  - destruct S as (d' & (D1 & D2 & _) & ->). rewrite D1, D2. apply K.
  - destruct S as (d' & (D1 & D2 & _) & ->). destruct l; [|reflexivity]. rewrite D2. apply K.
Qed.
Lemma simr_leave P rt outer vs d d' : emb P d d' -> simr P (leave M rt outer vs d) (leave M rt outer vs d').
Proof. intros E. unfold leave. destruct (valtys_same _ _); [|reflexivity]. apply simr_push, E. Qed.
Lemma simr_block P rt outer ob ob' r r' : simr P r r' -> (forall vs d d', emb P d d' -> simr P (ob vs d) (ob' vs d')) ->
  simr P (run_block M rt outer ob r) (run_block M rt outer ob' r').
Proof.
  intros S K. destruct r as [d|l vs d|vs st| | |]; cbn [simr] in S; try (subst r'; reflexivity).
  - destruct S as (d' & D & ->). cbn [run_block]. rewrite (proj1 D). apply simr_leave, D.
  - destruct S as (d' & D & ->). destruct l as [|l]; cbn [run_block]; [apply K, D|]. exists d'. split; [exact D|reflexivity].
Qed.
Lemma apart_eq : apart eq.
Proof. intros x x' y y' <- <-. reflexivity. Qed.
Lemma sim_call n P f f' c c' : sim_code n -> fun_rel f f' -> emb P c c' ->
  simr P (call_at M types funcs n f c) (call_at M types funcs' n f' c').
Proof.
  intros S F E. unfold call_at. assert (T : finst_type f' = finst_type f) by (destruct F as [->|(u & h & h' & Q & -> & -> & _)]; reflexivity). rewrite T.
  unfold pop. rewrite (proj1 E). destruct (take _ (c_stack c)) as [[args rest]|] eqn:TK; [|reflexivity].
  apply take_inv in TK as [TK _]. assert (E1 : emb P (with_stack M c rest) (with_stack M c' rest)) by (apply emb_stack, E).
  set (c1 := with_stack M c rest) in *. set (c1' := with_stack M c' rest) in *. destruct E1 as (Q1 & Q2 & QV).
  assert (E1 : emb P c1 c1') by (split; [exact Q1|split; [exact Q2|exact QV]]).
  destruct F as [->|(u & h & h' & Q & -> & -> & AP & R & V)].
  - destruct f as [u h|u h]; cbn [finst_type] in *.
    + apply simr_finish with (P1 := eq); [exact E1|]. apply S; [apply apart_eq|apply rels_self|]. rewrite Q2.
      split; [reflexivity|]. split; [reflexivity|]. intros x y <-. reflexivity.
    + rewrite Q1, Q2. apply simr_trap. intros [st r]. cbn [fst snd]. destruct (valtys_same _ _); [|reflexivity]. apply simr_push, emb_store, E1.
  - cbn [finst_type] in *. apply simr_finish with (P1 := Q); [exact E1|]. apply S; [exact AP|exact R|]. rewrite Q2.
    split; [reflexivity|]. split; [reflexivity|]. cbn [c_vars]. apply V. rewrite <- TK. symmetry. apply map_length.
Qed.
Lemma sim_instr_next n : sim_instr n -> sim_code n -> sim_instr (S n).
Proof.
  intros SI SC P labels ret i i' c c' AP L E. pose proof E as (Q1 & Q2 & QV).
  destruct L as [i St|x y PX|x y PX|x y PX|rt b b' B|rt b b' B|rt b b' d d' B D].
  - cbn [exec]. rewrite Q2. destruct (plain_type i) as [[ts1 ts2]|]; [|destruct (load_type i) as [lt|]; [|destruct (store_type i) as [[st1 ty]|]]].
    + apply simr_pop; [exact E|]. intros vs d d' D. apply simr_trap. intros r. rewrite (proj1 D). apply simr_push, D.
    + apply simr_found. intros mm. apply simr_pop1; [exact E|]. intros v d d' D. apply simr_trap. intros r. rewrite (proj1 D). apply simr_push, D.
    + destruct st1. apply simr_found. intros mm. apply simr_pop1; [exact E|]. intros v d d' D. apply simr_pop1; [exact D|]. intros v2 d2 d2' D2.
      apply simr_trap. intros mm'. rewrite (proj1 (proj2 D2)). eexists. split; [apply emb_store, D2|reflexivity].
    + destruct i; try contradiction St; try reflexivity.
      all: try (eexists; split; [exact E|reflexivity]).
      all: try (apply simr_branch, E).
      all: try (rewrite Q1; destruct (c_stack c); [reflexivity|]; eexists; split; [apply emb_stack, E|reflexivity]).
      all: try (apply simr_found; intros v; rewrite Q1; apply simr_push, E).
      all: try (apply simr_found; intros v; apply simr_pop1; [exact E|]; intros w d d' D; rewrite ?(proj1 D), ?(proj1 (proj2 D));
                first [apply simr_push, emb_store, D | eexists; split; [apply emb_store, D|reflexivity]]).
      all: try (apply simr_pop1; [exact E|]; intros w d d' D; first [
        apply simr_branch, D
       | destruct (is_zero w); [eexists; split; [exact D|reflexivity]|apply simr_branch, D]
       | rewrite (proj1 D); destruct (c_stack d) as [|v2 [|v1 vs]]; try reflexivity; destruct (valtys_same _ _); [apply simr_push, D|reflexivity] ]).
      * (* return *)
        apply simr_pop; [exact E|]. intros vs d d' D. rewrite (proj1 (proj2 D)). reflexivity.
      * (* call *)
        match goal with |- context [at_N funcs ?z] => pose proof (funs (N.to_nat z)) as FR; unfold at_N; destruct (nth_error funcs (N.to_nat z)) as [f|], (nth_error funcs' (N.to_nat z)) as [f'|] end;
          try contradiction; [|reflexivity]. cbn [found]. apply (sim_call n P f f' c c' SC FR E).
      * (* call_indirect *)
        apply simr_found. intros tb. apply simr_found. intros ft. apply simr_pop1; [exact E|]. intros z d d' D. apply simr_trap. intros addr.
        pose proof (funs addr) as FR. destruct (nth_error funcs addr) as [f|], (nth_error funcs' addr) as [f'|]; try contradiction; [|reflexivity]. cbn [found].
        assert (T : finst_type f' = finst_type f) by (destruct FR as [->|(u & h & h' & Q & -> & -> & _)]; reflexivity).
        destruct (functy_same (finst_type f) ft) eqn:FS; rewrite T, FS; [|reflexivity].
        pose proof (sim_call n P f f' d d' SC FR D) as R. unfold call_at in R. rewrite T in R. exact R.
  - cbn [exec plain_type load_type store_type]. rewrite (QV _ _ PX), Q1. apply simr_found. intros v. apply simr_push, E.
  - cbn [exec plain_type load_type store_type]. rewrite (QV _ _ PX). destruct (at_N (c_vars c) x) as [v|] eqn:H; [|reflexivity]. cbn [found].
    unfold pop1, pop. rewrite Q1. destruct (take _ (c_stack c)) as [[vs rest]|]; [|reflexivity]. destruct vs as [|w [|]]; [reflexivity| |reflexivity].
    eexists. split; [|reflexivity]. apply (emb_set P (with_stack M c rest) (with_stack M c' rest) x y w AP PX); [cbn [with_stack c_vars]; congruence|apply emb_stack, E].
  - cbn [exec plain_type load_type store_type]. rewrite (QV _ _ PX). destruct (at_N (c_vars c) x) as [v|] eqn:H; [|reflexivity]. cbn [found].
    unfold pop1, pop. rewrite Q1. destruct (take _ (c_stack c)) as [[vs rest]|]; [|reflexivity]. destruct vs as [|w [|]]; [reflexivity| |reflexivity].
    apply simr_push. apply (emb_set P (with_stack M c rest) (with_stack M c' rest) x y w AP PX); [cbn [with_stack c_vars]; congruence|apply emb_stack, E].
  - cbn [exec plain_type load_type store_type]. rewrite Q1. apply simr_block; [|intros; apply simr_leave; assumption].
    apply SC; [exact AP|exact B|apply emb_stack, E].
  - cbn [exec plain_type load_type store_type]. rewrite Q1. apply simr_block.
    + apply SC; [exact AP|exact B|apply emb_stack, E].
    + intros [|v vs] d d' D; [|reflexivity]. apply SI; [exact AP|apply Q_loop, B|apply emb_stack, D].
  - cbn [exec plain_type load_type store_type]. apply simr_pop1; [exact E|]. intros z e e' H. rewrite (proj1 H).
    apply simr_block; [|intros; apply simr_leave; assumption]. apply SC; [exact AP|destruct (is_zero z); assumption|apply emb_stack, H].
Qed.
Lemma sim_code_here n : sim_instr n -> sim_code n.
Proof.
  intros SI P labels ret e e' c c' AP R. revert c c'. induction R as [|i i' e e' H R IH]; intros c c' E; [exists c'; split; [exact E|reflexivity]|].
  cbn [run_seq]. pose proof (SI P labels ret i i' c c' AP H E) as K. revert K. generalize (exec M types funcs' n labels ret i' c').
  destruct (exec M types funcs n labels ret i c) as [d|l vs d|vs st| | |]; cbn [simr]; intros r' K; try (subst r'; reflexivity).
  - destruct K as (d' & D & ->). apply IH, D.
  - destruct K as (d' & D & ->). exists d'. split; [exact D|reflexivity].
Qed.
Lemma sim_all n : sim_instr n /\ sim_code n.
Proof.
  induction n as [|n [SI SC]].
  - assert (Z : sim_instr 0) by (intros P labels ret i i' c c' _ _ _; reflexivity). split; [exact Z|apply sim_code_here, Z].
  - assert (Z := sim_instr_next n SI SC). split; [exact Z|apply sim_code_here, Z].
Qed.
End Sim.
Lemma list_ext {A} : forall xs ys : list A, (forall i, nth_error xs i = nth_error ys i) -> xs = ys.
Proof.
  induction xs as [|x xs IH]; intros [|y ys] H; [reflexivity|discriminate (H O)|discriminate (H O)|]. pose proof (H O) as H0. cbn in H0. injection H0 as ->.
  f_equal. apply IH. intros i. apply (H (S i)).
Qed.
Lemma emb_eq M c c' : emb M eq c c' -> c' = c.
Proof.
  destruct c as [a b s], c' as [a' b' s']. intros (A & B & V). cbn in A, B, V. subst. f_equal. apply list_ext. intros i.
  specialize (V (N.of_nat i) (N.of_nat i) eq_refl). unfold at_N in V. rewrite Nnat.Nat2N.id in V. exact V.
Qed.
Lemma vars_invoke M types funcs funcs' :
  (forall a, match nth_error funcs a, nth_error funcs' a with Some f, Some f' => fun_rel M f f' | None, None => True | _, _ => False end) ->
  forall n a args st, invoke M types funcs' n a args st = invoke M types funcs n a args st.
Proof.
  intros F n a args st. unfold invoke.
  assert (R : simr M eq (exec M types funcs n [] [] (I_Call (N.of_nat a)) (mkConf (rev args) [] st))
                        (exec M types funcs' n [] [] (I_Call (N.of_nat a)) (mkConf (rev args) [] st))).
  { apply (proj1 (sim_all M types funcs funcs' F n)); [apply apart_eq|apply rel_self|]. split; [reflexivity|]. split; [reflexivity|]. intros x y <-. reflexivity. }
  destruct (exec M types funcs n [] [] _ _) as [d|l vs d|vs s| | |]; cbn [simr] in R; try exact R; destruct R as (d' & D & ->); apply emb_eq in D; congruence.
Qed.

(** ** Functions of an instance *)
Lemma own_rel M u h h' gs : fun_rel M (F_Wasm u h) (F_Wasm u h') -> forall fs us, nth_error us (length fs) = Some u -> forall a,
  match nth_error (map (fun p => @F_Wasm M (fst p) (snd p)) (combine us (fs ++ h :: gs))) a,
        nth_error (map (fun p => @F_Wasm M (fst p) (snd p)) (combine us (fs ++ h' :: gs))) a with
  | Some f, Some f' => fun_rel M f f' | None, None => True | _, _ => False end.
Proof.
  intros L fs.
  induction fs as [|f0 fs IH]; intros [|v us] U a; try discriminate.
  - cbn in U. injection U as ->. destruct a as [|a]; cbn; [exact L|]. destruct (nth_error _ a); [left; reflexivity|exact I].
  - destruct a as [|a]; cbn; [left; reflexivity|]. apply (IH us U a).
Qed.
Lemma app_rel M (a a' b : list (finst M)) : length a' = length a ->
  (forall k, match nth_error a k, nth_error a' k with Some f, Some f' => fun_rel M f f' | None, None => True | _, _ => False end) -> forall k,
  match nth_error (a ++ b) k, nth_error (a' ++ b) k with Some f, Some f' => fun_rel M f f' | None, None => True | _, _ => False end.
Proof.
  intros L H k. destruct (Nat.lt_ge_cases k (length a)) as [J|J].
  - rewrite !nth_error_app1 by lia. apply H.
  - rewrite !nth_error_app2 by lia. rewrite L. destruct (nth_error b _); [left; reflexivity|exact I].
Qed.
Section Inst.
Variables (m : module) (fs : list func) (ty : N) (L L' : list valty) (body : list instr) (gs : list func) (ft : functy) (r : N -> N).
Local Notation before := (with_body m fs ty L body gs).
Local Notation after := (with_body m fs ty L' (map (renamed r) body) gs).
Hypothesis TY : at_index (m_types m) ty ft.
Hypothesis S : same_typed r (ft_params ft ++ L) (ft_params ft ++ L') body.
Hypothesis K : kept_apart r (N.of_nat (length (ft_params ft))) body.
Lemma renamed_rel M : fun_rel M (F_Wasm ft (mkFunc ty L body)) (F_Wasm ft (mkFunc ty L' (map (renamed r) body))).
Proof.
  right. exists ft, (mkFunc ty L body), (mkFunc ty L' (map (renamed r) body)), (pairs r (flat_map vars_of body)). split; [reflexivity|]. split; [reflexivity|].
  destruct K as [K1 K2 K3]. split; [|split].
  - intros x x' y y' [I ->] [I' ->]. split; [congruence|]. apply K1; assumption.
  - cbn [fn_body]. apply rels_renamed, incl_refl.
  - cbn [fn_locals]. intros args LA x y [I ->]. pose proof (S x I) as T. unfold at_N. destruct (N.lt_ge_cases x (N.of_nat (length (ft_params ft)))) as [J|J].
    + rewrite (K2 x I J). rewrite !nth_error_app1 by lia. reflexivity.
    + pose proof (K3 x I J) as J'. rewrite !nth_error_app2 in * by lia. rewrite LA, !nth_error_map, T. reflexivity.
Qed.
Lemma vars_space fts : func_space before fts -> func_space after fts.
Proof. unfold func_space, func_index. cbn [with_body with_funcs m_types m_imports m_funcs]. rewrite !map_app. cbn [map fn_ty]. exact (fun H => H). Qed.
Theorem vars_same (M : machine) fts (imported others : list (finst M)) fuel a args st : 
  func_space before fts -> length imported = length (imported_funcs (m_imports m)) ->
  invoke M (m_types m) (instance_funcs after fts imported others) fuel a args st = invoke M (m_types m) (instance_funcs before fts imported others) fuel a args st.
Proof.
  intros F LI. assert (U : nth_error (skipn (length imported) fts) (length fs) = Some ft).
  { rewrite skipn_nth, LI. destruct (space_nth _ _ F (length (imported_funcs (m_imports m)) + length fs) ty) as (ft' & H & A).
    - unfold func_index. cbn [with_body with_funcs m_imports m_funcs]. rewrite nth_error_app2 by lia. rewrite Nat.add_comm, Nat.add_sub, map_app.
      rewrite nth_error_app2 by (rewrite map_length; lia). rewrite map_length, Nat.sub_diag. reflexivity.
    - rewrite H. unfold at_index in *. cbn [with_body with_funcs m_types] in A. congruence. }
  apply vars_invoke. unfold instance_funcs. cbn [with_body with_funcs m_funcs]. intros b. rewrite !app_assoc. apply app_rel.
  - rewrite !app_length. f_equal. apply own_length.
  - clear b. intros b. destruct (Nat.lt_ge_cases b (length imported)) as [J|J].
    + rewrite !nth_error_app1 by exact J. destruct (nth_error imported b); [left; reflexivity|exact I].
    + rewrite !nth_error_app2 by exact J. apply own_rel with (u := ft); [apply renamed_rel|exact U].
Qed.
Theorem vars_instantiates (M : machine) fts (imported others : list (finst M)) imp fuel :
  func_space before fts -> length imported = length (imported_funcs (m_imports m)) ->
  instantiate after imp (instance_funcs after fts imported others) fuel = instantiate before imp (instance_funcs before fts imported others) fuel.
Proof.
  intros F LI. unfold instantiate, run_start. cbn [with_body with_funcs m_globals m_tables m_mems m_elem m_data m_start m_types].
  destruct (all_some _ _); [|reflexivity]. destruct (init_elems _ _); try reflexivity. destruct (init_datas _ _); try reflexivity.
  destruct (m_start m) as [s|]; [|reflexivity]. rewrite (vars_same M fts imported others fuel (N.to_nat (st_func s)) [] _ F LI). reflexivity.
Qed.
End Inst.

(** ** Variables left out, and in another order *)
Lemma unused_typed ps A D B body (n := N.of_nat (length ps + length A)) (k := N.of_nat (length D)) :
  (forall x, In x (flat_map vars_of body) -> x < n \/ n + k <= x) ->
  same_typed (closed_up n k) (ps ++ A ++ D ++ B) (ps ++ A ++ B) body /\ kept_apart (closed_up n k) (N.of_nat (length ps)) body.
Proof.
  intros U. unfold closed_up. split; [|split].
  - intros x X. unfold n, k in *. destruct (U x X) as [H|H]; destruct (N.ltb_spec x (N.of_nat (length ps + length A))); try lia; rewrite !app_assoc.
    + rewrite (nth_error_app1 (ps ++ A)) by (rewrite app_length; lia). rewrite <- (app_assoc (ps ++ A)), (nth_error_app1 (ps ++ A)) by (rewrite app_length; lia). reflexivity.
    + rewrite (nth_error_app2 (ps ++ A)) by (rewrite app_length; lia). rewrite (nth_error_app2 ((ps ++ A) ++ D)) by (rewrite !app_length; lia).
      f_equal. rewrite !app_length. lia.
  - intros x y X Y. unfold n, k in *. destruct (U x X), (U y Y); destruct (N.ltb_spec x (N.of_nat (length ps + length A))), (N.ltb_spec y (N.of_nat (length ps + length A))); lia.
  - intros x X L. unfold n in *. destruct (N.ltb_spec x (N.of_nat (length ps + length A))); lia.
  - intros x X L. unfold n, k in *. destruct (U x X); destruct (N.ltb_spec x (N.of_nat (length ps + length A))); lia.
Qed.
Lemma reordered_typed ps L L' : Permutation L L' ->
  exists r, forall body, same_typed r (ps ++ L) (ps ++ L') body /\ kept_apart r (N.of_nat (length ps)) body.
Proof.
  intros P. apply Permutation_sym, Permutation_nth_error in P as (_ & f & INJ & F). set (n := N.of_nat (length ps)).
  exists (fun x => if x <? n then x else n + N.of_nat (f (N.to_nat (x - n)))). intros body. split; [|split].
  - intros x _. unfold n in *. destruct (N.ltb_spec x (N.of_nat (length ps))).
    + rewrite !nth_error_app1 by lia. reflexivity.
    + rewrite !nth_error_app2 by lia. replace (N.to_nat (_ + _) - length ps)%nat with (f (N.to_nat (x - N.of_nat (length ps)))) by lia. rewrite <- F. f_equal. lia.
  - intros x y _ _. destruct (N.ltb_spec x n), (N.ltb_spec y n); try lia. intros E.
    assert (Q : f (N.to_nat (x - n)) = f (N.to_nat (y - n))) by lia. apply INJ in Q. lia.
  - intros x _ H. destruct (N.ltb_spec x n); [reflexivity|lia].
  - intros x _ H. destruct (N.ltb_spec x n); lia.
Qed.
Theorem vars_unused m fs ty A D B body gs ft (n := N.of_nat (length (ft_params ft) + length A)) (k := N.of_nat (length D)) : at_index (m_types m) ty ft ->
  (forall x, In x (flat_map vars_of body) -> x < n \/ n + k <= x) ->
  let before := with_body m fs ty (A ++ D ++ B) body gs in
  let after := with_body m fs ty (A ++ B) (map (renamed (closed_up n k)) body) gs in
  validate after = validate before /\
  forall M fts (imported others : list (finst M)) fuel a args st, func_space before fts -> length imported = length (imported_funcs (m_imports m)) ->
    invoke M (m_types m) (instance_funcs after fts imported others) fuel a args st = invoke M (m_types m) (instance_funcs before fts imported others) fuel a args st.
Proof.
  intros TY U before after. destruct (unused_typed (ft_params ft) A D B body U) as [S K]. split.
  - apply (vars_verdict m fs ty (A ++ D ++ B) (A ++ B) body gs ft); assumption.
  - intros M fts imported others fuel a args st. apply (vars_same m fs ty (A ++ D ++ B) (A ++ B) body gs ft); assumption.
Qed.
Theorem vars_reordered m fs ty L L' gs ft : at_index (m_types m) ty ft -> Permutation L L' -> exists r, forall body,
  let before := with_body m fs ty L body gs in
  let after := with_body m fs ty L' (map (renamed r) body) gs in
  validate after = validate before /\
  forall M fts (imported others : list (finst M)) fuel a args st, func_space before fts -> length imported = length (imported_funcs (m_imports m)) ->
    invoke M (m_types m) (instance_funcs after fts imported others) fuel a args st = invoke M (m_types m) (instance_funcs before fts imported others) fuel a args st.
Proof.
  intros TY P. destruct (reordered_typed (ft_params ft) L L' P) as (r & H). exists r. intros body before after. destruct (H body) as [S K]. split.
  - apply (vars_verdict m fs ty L L' body gs ft); assumption.
  - intros M fts imported others fuel a args st. apply (vars_same m fs ty L L' body gs ft); assumption.
Qed.
