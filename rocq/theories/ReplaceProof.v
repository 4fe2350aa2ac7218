(** Code can be replaced anywhere by other code exactly if that has the same types. *)
From Coq Require Import Lia.
From Verif Require Import SpecReplace SpecVerdict SpecTyping ValidatorModule TypingProof DialectValidProof ValidityClaims.

Definition relabel (C : tenv) (ls : list (list valty)) : tenv :=
  mkTenv (te_types C) (te_funcs C) (te_tables C) (te_mems C) (te_globals C) (te_locals C) ls (te_return C).
Lemma relabel_self C : relabel C (te_labels C) = C.
Proof. destruct C. reflexivity. Qed.
Lemma add_label_relabel rt C : add_label rt C = relabel C (rt :: te_labels C).
Proof. reflexivity. Qed.

Lemma seq_app_inv al C a b t1 t3 : seq_type al C (a ++ b) t1 t3 -> exists t2, seq_type al C a t1 t2 /\ seq_type al C b t2 t3.
Proof.
  revert t1. induction a as [|i a IH]; intros t1 H; cbn [app] in H.
  - exists t1. split; [constructor|exact H].
  - apply seq_cons_inv in H as (t0 & t & t' & -> & I & H). apply IH in H as (t2 & A & B). exists t2. split; [|exact B]. eapply seq_cons; eassumption.
Qed.

Lemma replace_typed e1 e2 p : forall C t t',
  (forall ts ts', seq_type false (relabel C (labels_at p (te_labels C))) e1 ts ts' -> seq_type false (relabel C (labels_at p (te_labels C))) e2 ts ts') ->
  seq_type false C (put p e1) t t' -> seq_type false C (put p e2) t t'.
Proof.
  induction p as [a b|a rt p IH b|a rt p IH b|a rt p IH o b|a rt o p IH b]; intros C t t' K H; cbn [put labels_at] in *.
  - rewrite relabel_self in K. apply seq_app_inv in H as (t2 & A & H). apply seq_app_inv in H as (t3 & E & B).
    eapply seq_app; [exact A|]. eapply seq_app; [apply K, E|exact B].
  - apply seq_app_inv in H as (t2 & A & H). apply seq_cons_inv in H as (t0 & u & u' & -> & E & B). eapply seq_app; [exact A|].
    eapply seq_cons; [|exact B]. inversion E; subst; try discriminate. apply T_block. apply IH; assumption.
  - apply seq_app_inv in H as (t2 & A & H). apply seq_cons_inv in H as (t0 & u & u' & -> & E & B). eapply seq_app; [exact A|].
    eapply seq_cons; [|exact B]. inversion E; subst; try discriminate. apply T_loop. apply IH; assumption.
  - apply seq_app_inv in H as (t2 & A & H). apply seq_cons_inv in H as (t0 & u & u' & -> & E & B). eapply seq_app; [exact A|].
    eapply seq_cons; [|exact B]. inversion E; subst; try discriminate. apply T_if; [|assumption]. apply IH; assumption.
  - apply seq_app_inv in H as (t2 & A & H). apply seq_cons_inv in H as (t0 & u & u' & -> & E & B). eapply seq_app; [exact A|].
    eapply seq_cons; [|exact B]. inversion E; subst; try discriminate. apply T_if; [assumption|]. apply IH; assumption.
Qed.

Lemma body_accepted_iff c ty ft locals e : at_index (c_types c) ty ft -> no_pseudo e ->
  (body_accepted c ty locals e <-> seq_type false (inside c ft locals []) e [] (ft_results ft)).
Proof.
  intros A N. unfold body_accepted. split.
  - intros [[t cs] R]. pose proof (proj1 (v_func_typing c (mkFunc ty locals e) t N) (ex_intro _ cs R)) as [A' T].
    cbn [fn_ty tenv_of te_types] in A'. unfold at_index in A, A'. cbn [fn_ty tenv_of te_types] in A'. assert (t = ft) by congruence. subst. exact T.
  - intros T. destruct (proj2 (v_func_typing c (mkFunc ty locals e) ft N)) as [cs R]; [split; [exact A|exact T]|]. eauto.
Qed.

Lemma replaceable c ty ft locals p e1 e2 : at_index (c_types c) ty ft -> no_pseudo (put p e1) ->
  (forall ts ts', seq_type false (inside c ft locals (labels_at p [])) e1 ts ts' -> seq_type false (inside c ft locals (labels_at p [])) e2 ts ts') ->
  body_accepted c ty locals (put p e1) -> body_accepted c ty locals (put p e2).
Proof.
  intros A N K B. apply (body_accepted_iff _ _ _ _ _ A N) in B. apply (replace_typed e1 e2 p) in B; [|exact K].
  assert (N2 : no_pseudo (put p e2)) by (eapply (proj2 (typed_no_pseudo false)), B).
  apply (body_accepted_iff _ _ _ _ _ A N2). exact B.
Qed.

(** ** A place that tells the types *)
Definition constant (t : valty) : instr :=
  match t with T_I32 => I_ConstI32 0%Z | T_I64 => I_ConstI64 0%Z | T_F32 => I_ConstF32 0 | T_F64 => I_ConstF64 0 end.
Definition probe (t : valty) : instr := match t with T_I32 => I_I32Eqz | T_I64 => I_I64Eqz | T_F32 => I_F32Neg | T_F64 => I_F64Neg end.
Definition make (ts : list valty) : list instr := map constant ts.
Definition take (ts : list valty) : list instr := flat_map (fun t => [probe t; I_Drop]) (rev ts).

Lemma make_typed al C ts t : seq_type al C (make ts) t (t ++ ts).
Proof.
  revert t. induction ts as [|x ts IH]; intros t; cbn [make map].
  - rewrite app_nil_r. constructor.
  - rewrite <- (app_nil_r t) at 1. apply (seq_cons al C _ _ t [] [x]); [constructor; destruct x; reflexivity|].
    specialize (IH (t ++ [x])). rewrite <- app_assoc in IH. exact IH.
Qed.
Lemma make_inv al C ts : forall t t', seq_type al C (make ts) t t' -> t' = t ++ ts.
Proof.
  induction ts as [|x ts IH]; intros t t' H; cbn [make map] in H.
  - apply seq_nil_inv in H. subst. rewrite app_nil_r. reflexivity.
  - apply seq_cons_inv in H as (t0 & u & u' & -> & I & H). apply IH in H as ->. destruct x; inversion I; subst; try discriminate;
      match goal with Q : plain_type _ = _ |- _ => injection Q as <- <- end; rewrite app_nil_r, <- app_assoc; reflexivity.
Qed.
Lemma take_snoc ts x : take (ts ++ [x]) = probe x :: I_Drop :: take ts.
Proof. unfold take. rewrite rev_app_distr. reflexivity. Qed.
Lemma take_typed al C ts t : seq_type al C (take ts) (t ++ ts) t.
Proof.
  induction ts as [|x ts IH] using rev_ind; cbn.
  - rewrite app_nil_r. constructor.
  - rewrite take_snoc, app_assoc. destruct x; (eapply seq_cons; [constructor; reflexivity|]); (eapply (seq_cons al C I_Drop _ _ [_] []); [apply T_drop|rewrite app_nil_r; exact IH]).
Qed.
Lemma take_inv al C ts : forall t t', seq_type al C (take ts) t t' -> t = t' ++ ts.
Proof.
  induction ts as [|x ts IH] using rev_ind; intros t t' H.
  - apply seq_nil_inv in H. subst. rewrite app_nil_r. reflexivity.
  - rewrite take_snoc in H. apply seq_cons_inv in H as (t0 & u & u' & -> & I & H). apply seq_cons_inv in H as (t1 & v & v' & E & J & H).
    apply IH in H. inversion J; subst; try discriminate. rewrite app_nil_r in H. subst t1.
    assert (Q : exists y, u = [x] /\ u' = [y]).
    { destruct x; inversion I; subst; try discriminate; match goal with Q : plain_type _ = _ |- _ => injection Q as <- <- end; eauto. }
    destruct Q as (y & -> & ->). apply app_inj_tail in E as [-> _]. rewrite <- app_assoc. reflexivity.
Qed.

(** the last of the blocks around holds the probing code; each ends with constants *)
Fixpoint nest (rts : list (list valty)) (a b : list instr) (out : list valty) : place :=
  match rts with [] => P_at a (b ++ make out) | rt :: rts => P_block [] rt (nest rts a b rt) (take rt ++ make out) end.
Lemma nest_labels rts a b out ls : labels_at (nest rts a b out) ls = rev rts ++ ls.
Proof.
  revert out ls. induction rts as [|rt rts IH]; intros out ls; [reflexivity|]. cbn [nest labels_at rev]. rewrite IH, <- app_assoc. reflexivity.
Qed.
Lemma nest_typed ts ts' e rts : forall C out,
  seq_type false (relabel C (rev rts ++ te_labels C)) e ts ts' -> seq_type false C (put (nest rts (make ts) (take ts') out) e) [] out.
Proof.
  induction rts as [|rt rts IH]; intros C out H; cbn [nest put].
  - cbn [rev app] in H. rewrite relabel_self in H. eapply seq_app; [apply (make_typed false C ts [])|]. eapply seq_app; [exact H|].
    eapply seq_app; [apply (take_typed false C ts' [])|]. apply (make_typed false C out []).
  - cbn [app]. apply (seq_cons false C _ _ [] [] rt); [|eapply seq_app; [apply (take_typed false C rt [])|apply (make_typed false C out [])]].
    apply T_block. apply IH. cbn [rev] in H. rewrite <- app_assoc in H. exact H.
Qed.
Lemma nest_inv ts ts' e rts : forall C out,
  seq_type false C (put (nest rts (make ts) (take ts') out) e) [] out -> seq_type false (relabel C (rev rts ++ te_labels C)) e ts ts'.
Proof.
  induction rts as [|rt rts IH]; intros C out H; cbn [nest put] in H.
  - cbn [rev app]. rewrite relabel_self. apply seq_app_inv in H as (t1 & A & H). apply seq_app_inv in H as (t2 & E & H).
    apply seq_app_inv in H as (t3 & T & M). apply make_inv in A. cbn in A. subst t1. apply make_inv in M.
    assert (t3 = []) as -> by (apply (f_equal (@length _)) in M; rewrite app_length in M; destruct t3; [reflexivity|cbn in M; lia]).
    apply take_inv in T. cbn in T. subst t2. exact E.
  - cbn [app] in H. apply seq_cons_inv in H as (t0 & u & u' & E & I & _). inversion I; subst; try discriminate.
    match goal with Q : seq_type false (add_label _ _) _ _ _ |- _ => apply IH in Q end. cbn [rev]. rewrite <- app_assoc. assumption.
Qed.
Lemma no_pseudo_typed C e t t' : seq_type false C e t t' -> no_pseudo e.
Proof. apply (proj2 (typed_no_pseudo false)). Qed.

Lemma no_pseudo_app a b : no_pseudo a -> no_pseudo b -> no_pseudo (a ++ b).
Proof. intros [A B] [A' B']. split; rewrite occurs_app; tauto. Qed.
Lemma no_pseudo_make ts : no_pseudo (make ts).
Proof. eapply no_pseudo_typed, (make_typed false (mkTenv [] [] [] [] [] [] [] None) ts []). Qed.
Lemma no_pseudo_take ts : no_pseudo (take ts).
Proof. eapply no_pseudo_typed, (take_typed false (mkTenv [] [] [] [] [] [] [] None) ts []). Qed.
Lemma no_pseudo_block rt b : no_pseudo b -> no_pseudo [I_Block rt b].
Proof.
  intros [A B]. split; intros O; inversion O as [? I|x sub ? I C O']; subst; destruct I as [E|[]]; try discriminate E; subst x; destruct C as [<-|[]]; contradiction.
Qed.
Lemma no_pseudo_nest ts ts' e rts out : no_pseudo e -> no_pseudo (put (nest rts (make ts) (take ts') out) e).
Proof.
  intros N. revert out. induction rts as [|rt rts IH]; intros out; cbn [nest put app].
  - apply no_pseudo_app; [apply no_pseudo_make|]. apply no_pseudo_app; [exact N|]. apply no_pseudo_app; [apply no_pseudo_take|apply no_pseudo_make].
  - apply (no_pseudo_app [_]); [apply no_pseudo_block, IH|]. apply no_pseudo_app; [apply no_pseudo_take|apply no_pseudo_make].
Qed.

Lemma replaceable_iff c ty ft locals labels e1 e2 : at_index (c_types c) ty ft -> no_pseudo e2 ->
  ((forall p, labels_at p [] = labels -> no_pseudo (put p e1) -> body_accepted c ty locals (put p e1) -> body_accepted c ty locals (put p e2)) <->
   (forall ts ts', seq_type false (inside c ft locals labels) e1 ts ts' -> seq_type false (inside c ft locals labels) e2 ts ts')).
Proof.
  intros A N2. split.
  - intros H ts ts' T. pose (p := nest (rev labels) (make ts) (take ts') (ft_results ft)).
    assert (L : labels_at p [] = labels) by (unfold p; rewrite nest_labels, rev_involutive, app_nil_r; reflexivity).
    assert (T' : seq_type false (relabel (inside c ft locals []) (rev (rev labels) ++ [])) e1 ts ts') by (rewrite rev_involutive, app_nil_r; exact T).
    apply (nest_typed ts ts' e1 (rev labels) (inside c ft locals []) (ft_results ft)) in T'. fold p in T'.
    pose proof (no_pseudo_typed _ _ _ _ T') as N1. specialize (H p L N1 (proj2 (body_accepted_iff _ _ _ _ _ A N1) T')).
    apply (body_accepted_iff _ _ _ _ _ A (no_pseudo_nest ts ts' e2 (rev labels) (ft_results ft) N2)) in H. apply nest_inv in H.
    rewrite rev_involutive, app_nil_r in H. exact H.
  - intros K p <- N B. eapply replaceable; eassumption.
Qed.

(** ** Instances *)
Lemma same_types_swap c ty ft locals p e1 e2 : at_index (c_types c) ty ft -> no_pseudo (put p e1) -> no_pseudo (put p e2) ->
  (forall ts ts', seq_type false (inside c ft locals (labels_at p [])) e1 ts ts' <-> seq_type false (inside c ft locals (labels_at p [])) e2 ts ts') ->
  (body_accepted c ty locals (put p e1) <-> body_accepted c ty locals (put p e2)).
Proof. intros A N1 N2 K. split; eapply replaceable; try eassumption; intros ts ts'; apply K. Qed.
Lemma accepted_type c ty locals e : body_accepted c ty locals e -> exists ft, at_index (c_types c) ty ft.
Proof.
  intros [[t cs] R]. unfold v_func in R. cbn [fn_ty] in R. apply vbind_ok in R as (ft & R & _). exists ft. apply v_lookup_ok. exact R.
Qed.
Lemma nop_types C ts ts' : seq_type false C [I_Nop] ts ts' <-> seq_type false C [] ts ts'.
Proof.
  split; intros H.
  - apply seq_cons_inv in H as (t0 & t & t' & -> & I & H). inversion I; subst; try discriminate. exact H.
  - apply seq_nil_inv in H as <-. rewrite <- (app_nil_r ts). apply seq_one. apply T_nop.
Qed.
Lemma tee_types C x ts ts' : seq_type false C [I_LocalTee x] ts ts' <-> seq_type false C [I_LocalSet x; I_LocalGet x] ts ts'.
Proof.
  split; intros H.
  - apply seq_cons_inv in H as (t0 & t & t' & -> & I & H). apply seq_nil_inv in H as <-. inversion I; subst; try discriminate.
    eapply seq_cons; [apply T_local_set; eassumption|]. apply seq_one. apply T_local_get. assumption.
  - apply seq_cons_inv in H as (t0 & t & t' & -> & I & H). apply seq_cons_inv in H as (t1 & u & u' & E & J & H). apply seq_nil_inv in H as <-.
    inversion I; subst; try discriminate.
    inversion J; subst; try discriminate. rewrite !app_nil_r in E. subst t1.
    unfold at_index in *. match goal with A : nth_error ?l ?n = Some ?a, B : nth_error ?l ?n = Some ?b |- _ => rewrite A in B; injection B as <- end. apply seq_one. apply T_local_tee. assumption.
Qed.
Lemma if_types C rt a b ts ts' : seq_type false C [I_If rt a b] ts ts' <-> seq_type false C [I_I32Eqz; I_If rt b a] ts ts'.
Proof.
  split; intros H.
  - apply seq_cons_inv in H as (t0 & t & t' & -> & I & H). inversion I; subst; try discriminate.
    eapply seq_cons; [constructor; reflexivity|]. eapply seq_cons; [apply T_if; eassumption|exact H].
  - apply seq_cons_inv in H as (t0 & t & t' & -> & I & H). apply seq_cons_inv in H as (t1 & u & u' & E & J & H).
    inversion I; subst; try discriminate. match goal with Q : plain_type _ = _ |- _ => injection Q as <- <- end.
    inversion J; subst; try discriminate. apply app_inj_tail in E as [-> _]. eapply seq_cons; [apply T_if; eassumption|exact H].
Qed.
Lemma dead_types C j e ts ts' : diverts j -> seq_type false C (j :: e) ts ts' -> seq_type false C [j] ts ts'.
Proof.
  intros J H. apply seq_cons_inv in H as (t0 & t & t' & -> & I & _).
  assert (K : instr_type false C j (t0 ++ t) ts').
  { destruct j; try contradiction J; inversion I; subst; try discriminate; try rewrite (app_assoc t0); first [apply T_unreachable | eapply T_br; eassumption | eapply T_br_table; eassumption | eapply T_return; eassumption]. }
  apply (seq_one false C j [] _ _ K).
Qed.

Lemma occurs_swap j a i i' b e : (occurs j [i] -> occurs j [i'] \/ occurs j e) -> occurs j (a ++ i :: b) -> occurs j (a ++ i' :: b) \/ occurs j e.
Proof.
  intros K O. change (i :: b) with ([i] ++ b) in O. change (i' :: b) with ([i'] ++ b). rewrite !occurs_app in *. tauto.
Qed.
Lemma occurs_put j p e e' : children j = [] -> occurs j (put p e) -> occurs j (put p e') \/ occurs j e.
Proof.
  intros L. induction p as [a b|a rt p IH b|a rt p IH b|a rt p IH o b|a rt o p IH b]; cbn [put]; [rewrite !occurs_app; tauto| | | |]; apply occurs_swap; intros O;
    (inversion O as [? I|x sub ? I C O']; subst; destruct I as [E|[]]; subst; [discriminate L|]); cbn [children In] in C.
  - destruct C as [<-|[]]. apply IH in O' as [O'|O']; [left|auto]. eapply occurs_inside; [left; reflexivity|left; reflexivity|exact O'].
  - destruct C as [<-|[]]. apply IH in O' as [O'|O']; [left|auto]. eapply occurs_inside; [left; reflexivity|left; reflexivity|exact O'].
  - destruct C as [<-|[<-|[]]].
    + apply IH in O' as [O'|O']; [left|auto]. eapply occurs_inside; [left; reflexivity|left; reflexivity|exact O'].
    + left. eapply occurs_inside; [left; reflexivity|right; left; reflexivity|exact O'].
  - destruct C as [<-|[<-|[]]].
    + left. eapply occurs_inside; [left; reflexivity|left; reflexivity|exact O'].
    + apply IH in O' as [O'|O']; [left|auto]. eapply occurs_inside; [left; reflexivity|right; left; reflexivity|exact O'].
Qed.
Lemma no_pseudo_put p e e' : no_pseudo (put p e) -> no_pseudo e' -> no_pseudo (put p e').
Proof.
  intros [A B] [A' B']. split; intros O; apply (occurs_put _ p e' e) in O; try reflexivity; tauto.
Qed.
Lemma no_pseudo_in p e : no_pseudo (put p e) -> no_pseudo e.
Proof.
  assert (K : forall j, occurs j e -> occurs j (put p e)); [|intros [A B]; split; intros O; [apply A|apply B]; apply K, O].
  intros j O. induction p as [a b|a rt p IH b|a rt p IH b|a rt p IH o b|a rt o p IH b]; cbn [put]; [rewrite !occurs_app; tauto| | | |];
    (eapply occurs_inside; [apply in_elt| |exact IH]); cbn; tauto.
Qed.
Lemma leaf_no_pseudo i : children i = [] -> i <> I_End -> i <> I_Else -> no_pseudo [i].
Proof.
  intros L A B. split; intros O; inversion O as [? I|x sub ? I C O']; subst; destruct I as [E|[]]; try congruence; subst; rewrite L in C; destruct C.
Qed.

Lemma swap_anywhere c ty locals p e1 e2 : no_pseudo (put p e1) -> no_pseudo e2 ->
  (forall C ts ts', seq_type false C e1 ts ts' <-> seq_type false C e2 ts ts') ->
  (body_accepted c ty locals (put p e1) <-> body_accepted c ty locals (put p e2)).
Proof.
  intros N1 N2 K. pose proof (no_pseudo_put p e1 e2 N1 N2) as N. split; intros H; destruct (accepted_type _ _ _ _ H) as [ft A];
    (eapply (replaceable c ty ft); [exact A| | |exact H]; [assumption|]; intros ts ts'; apply K).
Qed.
Lemma nop_anywhere c ty locals p : no_pseudo (put p []) -> (body_accepted c ty locals (put p [I_Nop]) <-> body_accepted c ty locals (put p [])).
Proof.
  intros N. assert (L : no_pseudo [I_Nop]) by (apply leaf_no_pseudo; [reflexivity|discriminate..]).
  apply swap_anywhere; [eapply no_pseudo_put; eassumption|eapply no_pseudo_in, N|]. intros C ts ts'. apply nop_types.
Qed.
Lemma tee_anywhere c ty locals p x : no_pseudo (put p []) ->
  (body_accepted c ty locals (put p [I_LocalTee x]) <-> body_accepted c ty locals (put p [I_LocalSet x; I_LocalGet x])).
Proof.
  intros N. apply swap_anywhere.
  - eapply no_pseudo_put; [exact N|]. apply leaf_no_pseudo; [reflexivity|discriminate..].
  - apply (no_pseudo_app [_] [_]); apply leaf_no_pseudo; first [reflexivity|discriminate].
  - intros C ts ts'. apply tee_types.
Qed.
Lemma if_anywhere c ty locals p rt a b : no_pseudo (put p [I_If rt a b]) ->
  (body_accepted c ty locals (put p [I_If rt a b]) <-> body_accepted c ty locals (put p [I_I32Eqz; I_If rt b a])).
Proof.
  intros N. apply swap_anywhere; [exact N| |intros C ts ts'; apply if_types].
  apply no_pseudo_in in N. apply (no_pseudo_app [_] [_]); [apply leaf_no_pseudo; first [reflexivity|discriminate]|].
  destruct N as [A B]. split; intros O; [apply A|apply B]; inversion O as [? I|x sub ? I C O']; subst; destruct I as [E|[]]; try discriminate E; subst x;
    (eapply occurs_inside; [left; reflexivity| |exact O']); cbn in *; tauto.
Qed.
Lemma dead_anywhere c ty locals p j e : diverts j -> no_pseudo (put p (j :: e)) ->
  body_accepted c ty locals (put p (j :: e)) -> body_accepted c ty locals (put p [j]).
Proof.
  intros J N H. destruct (accepted_type _ _ _ _ H) as [ft A]. eapply (replaceable c ty ft); [exact A|exact N| |exact H].
  intros ts ts'. apply dead_types. exact J.
Qed.

(** ** In a module *)
Lemma module_replace m fs ty locals p gs e1 e2 :
  (forall f, In f (m_funcs (with_body m fs ty locals (put p e1) gs)) -> no_pseudo (fn_body f)) ->
  (forall fts ft ts ts', func_space (with_body m fs ty locals (put p e1) gs) fts -> at_index (m_types m) ty ft ->
     seq_type false (inside_module m fts ft locals (labels_at p [])) e1 ts ts' -> seq_type false (inside_module m fts ft locals (labels_at p [])) e2 ts ts') ->
  accepted (with_body m fs ty locals (put p e1) gs) -> accepted (with_body m fs ty locals (put p e2) gs).
Proof.
  intros N K A. apply (c40_iff _ N) in A as (fts & ims & exs & [F T C TB ME GL EL DA ST IM EX OT OM NM]).
  unfold with_body in *. cbn [with_funcs m_funcs] in *.
  assert (Q : exists ft, func_type false false (module_env m fts) (mkFunc ty locals (put p e2)) ft).
  { apply Forall_app in C as [_ C]. apply Forall_inv in C as (ft & I & B). exists ft. split; [exact I|]. cbn [fn_body fn_locals] in *.
    eapply replace_typed; [|exact B]. intros ts ts' H. exact (K fts ft ts ts' F I H). }
  assert (F' : map fn_ty (fs ++ mkFunc ty locals (put p e2) :: gs) = map fn_ty (fs ++ mkFunc ty locals (put p e1) :: gs)) by (rewrite !map_app; reflexivity).
  apply c40_iff.
  - intros f I. apply in_app_iff in I as [I|[<-|I]]; [apply N, in_app_iff; auto| |apply N, in_app_iff; cbn; auto].
    destruct Q as (ft & _ & B). eapply no_pseudo_typed, B.
  - exists fts, ims, exs. constructor; try assumption.
    + unfold func_space, func_index in *. cbn [with_funcs m_funcs m_imports m_types] in *. rewrite F'. exact F.
    + cbn [with_funcs m_funcs]. apply Forall_app in C as [C1 C2]. apply Forall_app. split; [exact C1|]. inversion C2 as [|? ? _ C3]; subst. constructor; [exact Q|exact C3].
Qed.
Lemma module_dead m fs ty locals p gs j e : diverts j ->
  (forall f, In f (m_funcs (with_body m fs ty locals (put p (j :: e)) gs)) -> no_pseudo (fn_body f)) ->
  accepted (with_body m fs ty locals (put p (j :: e)) gs) -> accepted (with_body m fs ty locals (put p [j]) gs).
Proof. intros J N. apply module_replace; [exact N|]. intros fts ft ts ts' _ _. apply dead_types. exact J. Qed.
