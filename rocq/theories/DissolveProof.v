(** A block to which no branch goes can be dissolved. *)
From Coq Require Import Lia Bool.
From Verif Require Import SpecDissolve SpecVerdict SpecTyping ParserModule ValidatorModule TypingProof ModuleValidProof DialectValidProof ValidityClaims InlineProof
  ExecProof InstProof.
From Verif Require InlineExecProof SameProof.
Open Scope N_scope.

(** ** Related code: [md]: how far away the label is that is gone *)
Definition deeper (md : option N) : option N := option_map (fun d => d + 1) md.
Definition lab (md : option N) (l l' : N) : Prop := match md with None => l' = l | Some k => l <> k /\ l' = closer k l end.
Definition calm (i : instr) : Prop :=
  match i with I_Block _ _ | I_Loop _ _ | I_If _ _ _ | I_Br _ | I_BrIf _ | I_BrTable _ _ => False | _ => True end.
Inductive like : option N -> instr -> instr -> Prop :=
| L_same md i : calm i -> like md i i
| L_br md l l' : lab md l l' -> like md (I_Br l) (I_Br l')
| L_brif md l l' : lab md l l' -> like md (I_BrIf l) (I_BrIf l')
| L_table md ls ls' l l' : Forall2 (lab md) ls ls' -> lab md l l' -> like md (I_BrTable ls l) (I_BrTable ls' l')
| L_block md rt b b' : likes (deeper md) b b' -> like md (I_Block rt b) (I_Block rt b')
| L_loop md rt b b' : likes (deeper md) b b' -> like md (I_Loop rt b) (I_Loop rt b')
| L_if md rt b b' d d' : likes (deeper md) b b' -> likes (deeper md) d d' -> like md (I_If rt b d) (I_If rt b' d')
with likes : option N -> list instr -> list instr -> Prop :=
| L_nil md : likes md [] []
| L_cons md i i' e e' : like md i i' -> likes md e e' -> likes md (i :: e) (i' :: e')
| L_spot rt b b' e e' : likes (Some 0) b b' -> likes None e e' -> likes None (I_Block rt b :: e) (b' ++ e').
Scheme like_m := Induction for like Sort Prop with likes_m := Induction for likes Sort Prop.
Combined Scheme like_both from like_m, likes_m.

Lemma labs_self ls : Forall2 (lab None) ls ls.
Proof. induction ls; constructor; [reflexivity|assumption]. Qed.
Fixpoint like_self (i : instr) {struct i} : like None i i.
Proof.
  destruct i; try (apply L_same; exact I); try (apply L_br; reflexivity); try (apply L_brif; reflexivity); try (apply L_table; [apply labs_self|reflexivity]).
  all: first [apply L_block|apply L_loop|apply L_if].
  all: match goal with |- likes _ ?b _ => induction b as [|j b IH]; [apply L_nil|apply L_cons; [apply like_self|exact IH]] end.
Qed.
Lemma likes_self e : likes None e e.
Proof. induction e; [apply L_nil|apply L_cons; [apply like_self|assumption]]. Qed.
Lemma labs_closer k ls : existsb (fun x => x =? k) ls = false -> Forall2 (lab (Some k)) ls (map (closer k) ls).
Proof.
  induction ls as [|l ls IH]; cbn [existsb map]; intros H; constructor; apply orb_false_iff in H as [A B].
  - split; [apply N.eqb_neq, A|reflexivity].
  - apply IH, B.
Qed.
Fixpoint like_freed k (i : instr) {struct i} : goes_to k i = false -> like (Some k) i (freed k i).
Proof.
  destruct i; cbn [goes_to freed]; intros H; try (apply L_same; exact I).
  all: try (first [apply L_br|apply L_brif]; split; [apply N.eqb_neq, H|reflexivity]).
  all: try (apply orb_false_iff in H as [H1 H2]).
  all: try (apply L_table; [apply labs_closer, H1|split; [apply N.eqb_neq, H2|reflexivity]]).
  all: first [apply L_block|apply L_loop|apply L_if]; cbn [deeper option_map].
  all: match goal with |- likes _ ?b _ => match goal with Q : existsb _ b = false |- _ => revert Q end; clear - like_freed; induction b as [|j b IH]; cbn [existsb map]; intros Q;
    [apply L_nil|apply orb_false_iff in Q as [Q1 Q2]; apply L_cons; [apply like_freed, Q1|apply IH, Q2]] end.
Qed.
Lemma likes_freed k e : existsb (goes_to k) e = false -> likes (Some k) e (map (freed k) e).
Proof.
  induction e as [|i e IH]; cbn [existsb map]; intros Q; [apply L_nil|]. apply orb_false_iff in Q as [Q1 Q2]. apply L_cons; [apply like_freed, Q1|apply IH, Q2].
Qed.
Lemma likes_app a : forall b b', likes None b b' -> likes None (a ++ b) (a ++ b').
Proof. induction a as [|i a IH]; intros b b' H; [exact H|]. apply L_cons; [apply like_self|apply IH, H]. Qed.
Lemma likes_put rt b p : never_left b -> likes None (put p [I_Block rt b]) (put p (map (freed 0) b)).
Proof.
  intros H. induction p as [x y|x rt0 p IH y|x rt0 p IH y|x rt0 p IH o y|x rt0 o p IH y]; cbn [put]; apply likes_app.
  - apply L_spot; [apply likes_freed, H|apply likes_self].
  - apply L_cons; [apply L_block, IH|apply likes_self].
  - apply L_cons; [apply L_loop, IH|apply likes_self].
  - apply L_cons; [apply L_if; [exact IH|apply likes_self]|apply likes_self].
  - apply L_cons; [apply L_if; [apply likes_self|exact IH]|apply likes_self].
Qed.
Lemma lab_deeper md l l' : lab (deeper md) l l' -> (l = 0 /\ l' = 0) \/ exists j j', l = j + 1 /\ l' = j' + 1 /\ lab md j j'.
Proof.
  destruct md as [k|]; cbn [deeper option_map lab].
  - intros [NE ->]. unfold closer. destruct (N.eq_dec l 0) as [->|Z].
    + left. split; [reflexivity|]. destruct (N.ltb_spec 0 (k + 1)); lia.
    + right. exists (l - 1), (closer k (l - 1)). unfold closer. destruct (N.ltb_spec l (k + 1)), (N.ltb_spec (l - 1) k); lia.
  - intros ->. destruct (N.eq_dec l 0) as [->|Z]; [left; auto|]. right. exists (l - 1), (l - 1). repeat split; lia.
Qed.

(** ** Types *)
Record sees_labels (md : option N) (C C' : tenv) : Prop := {
  sl_types : te_types C' = te_types C; sl_funcs : te_funcs C' = te_funcs C; sl_tables : te_tables C' = te_tables C;
  sl_mems : te_mems C' = te_mems C; sl_globals : te_globals C' = te_globals C; sl_locals : te_locals C' = te_locals C;
  sl_labels : forall l l' ts, lab md l l' -> at_index (te_labels C) l ts -> at_index (te_labels C') l' ts;
  sl_return : te_return C' = te_return C;
}.
Lemma labels_down {A} md (ls ls' : list A) x : (forall l l' ts, lab md l l' -> nth_error ls (N.to_nat l) = Some ts -> nth_error ls' (N.to_nat l') = Some ts) ->
  forall l l' ts, lab (deeper md) l l' -> nth_error (x :: ls) (N.to_nat l) = Some ts -> nth_error (x :: ls') (N.to_nat l') = Some ts.
Proof.
  intros H l l' ts L. apply lab_deeper in L as [[-> ->]|(j & j' & -> & -> & L)]; [exact (fun Q => Q)|].
  replace (N.to_nat (j + 1)) with (S (N.to_nat j)) by lia. replace (N.to_nat (j' + 1)) with (S (N.to_nat j')) by lia. cbn [nth_error]. apply H, L.
Qed.
Lemma labels_gone {A} (ls : list A) x : forall l l' ts, lab (Some 0) l l' -> nth_error (x :: ls) (N.to_nat l) = Some ts -> nth_error ls (N.to_nat l') = Some ts.
Proof.
  intros l l' ts [NE ->]. unfold closer. destruct (N.ltb_spec l 0); [lia|]. replace (N.to_nat l) with (S (N.to_nat (l - 1))) by lia. exact (fun Q => Q).
Qed.
Lemma sees_deeper md C C' rt : sees_labels md C C' -> sees_labels (deeper md) (add_label rt C) (add_label rt C').
Proof. intros [T F B M G L Q R]. constructor; cbn; try assumption. unfold at_index in *. apply (labels_down md). exact Q. Qed.
Lemma sees_gone C C' rt : sees_labels None C C' -> sees_labels (Some 0) (add_label rt C) C'.
Proof.
  intros [T F B M G L Q R]. constructor; cbn; try assumption. unfold at_index in *. intros l l' ts H A. apply (Q _ _ _ eq_refl). apply (labels_gone _ rt l l' ts H A).
Qed.
Lemma seq_under al C e t t' : seq_type al C e t t' -> forall u, seq_type al C e (u ++ t) (u ++ t').
Proof.
  intros H u. induction H as [C ts|C is i ts1 ts0 ts ts3 H IH J]; [apply S_nil|]. rewrite app_assoc. eapply S_snoc; [|exact J]. rewrite <- app_assoc. exact IH.
Qed.
Lemma table_fits md C C' ts ls ls' : sees_labels md C C' -> Forall2 (lab md) ls ls' -> Forall (fun l => at_index (te_labels C) l ts) ls ->
  Forall (fun l => at_index (te_labels C') l ts) ls'.
Proof.
  intros V H. induction H as [|l l' ls ls' L H IH]; intros F; [constructor|]. inversion F; subst. constructor; [eapply sl_labels; eassumption|]. apply IH. assumption.
Qed.
Lemma like_typed al :
  (forall md i i', like md i i' -> forall C C' t t', sees_labels md C C' -> instr_type al C i t t' -> instr_type al C' i' t t') /\
  (forall md e e', likes md e e' -> forall C C' t t', sees_labels md C C' -> seq_type al C e t t' -> seq_type al C' e' t t').
Proof.
  apply like_both.
  - intros md i Q C C' t t' V H. inversion H; subst; try contradiction.
    + apply T_plain. assumption.
    + apply T_drop.
    + apply T_select.
    + apply T_local_get. rewrite (sl_locals _ _ _ V). assumption.
    + apply T_local_set. rewrite (sl_locals _ _ _ V). assumption.
    + apply T_local_tee. rewrite (sl_locals _ _ _ V). assumption.
    + apply T_global_get. rewrite (sl_globals _ _ _ V). assumption.
    + apply T_global_set; [rewrite (sl_globals _ _ _ V)|]; assumption.
    + eapply T_load; [eassumption|rewrite (sl_mems _ _ _ V); eassumption|assumption].
    + eapply T_store; [eassumption|rewrite (sl_mems _ _ _ V); eassumption|assumption].
    + eapply T_mem_size. rewrite (sl_mems _ _ _ V). eassumption.
    + eapply T_mem_grow. rewrite (sl_mems _ _ _ V). eassumption.
    + apply T_nop.
    + apply T_unreachable.
    + apply T_return. rewrite (sl_return _ _ _ V). assumption.
    + apply T_call. rewrite (sl_funcs _ _ _ V). assumption.
    + eapply T_call_indirect; [rewrite (sl_tables _ _ _ V); eassumption|assumption|rewrite (sl_types _ _ _ V); assumption].
  - intros md l l' L C C' t t' V H. inversion H; subst; try discriminate. apply T_br. eapply sl_labels; eassumption.
  - intros md l l' L C C' t t' V H. inversion H; subst; try discriminate. apply T_br_if. eapply sl_labels; eassumption.
  - intros md ls ls' l l' Ls L C C' t t' V H. inversion H; subst; try discriminate. apply T_br_table; [eapply table_fits; eassumption|eapply sl_labels; eassumption].
  - intros md rt b b' B IH C C' t t' V H. inversion H; subst; try discriminate. apply T_block. eapply IH; [apply sees_deeper, V|assumption].
  - intros md rt b b' B IH C C' t t' V H. inversion H; subst; try discriminate. apply T_loop. eapply IH; [apply sees_deeper, V|assumption].
  - intros md rt b b' d d' B IHB D IHD C C' t t' V H. inversion H; subst; try discriminate.
    apply T_if; [eapply IHB|eapply IHD]; try eassumption; apply sees_deeper, V.
  - intros md C C' t t' V H. apply seq_nil_inv in H as ->. apply S_nil.
  - intros md i i' e e' L IHi Le IHe C C' t t' V H. apply seq_cons_inv in H as (t0 & u & u' & -> & E & H). eapply seq_cons; [eapply IHi; eassumption|]. eapply IHe; eassumption.
  - intros rt b b' e e' B IHB Le IHe C C' t t' V H. apply seq_cons_inv in H as (t0 & u & u' & -> & E & H). inversion E; subst; try discriminate.
    eapply seq_app; [|eapply IHe; eassumption]. apply seq_under. eapply IHB; [|eassumption]. apply sees_gone, V.
Qed.
Lemma sees_self C : sees_labels None C C.
Proof. constructor; try reflexivity. intros l l' ts ->. exact (fun H => H). Qed.
Lemma dissolve_valid d m fs ty L p rt b gs : (forall fs fs', vd_init_globals d (with_funcs m fs) = vd_init_globals d (with_funcs m fs')) ->
  never_left b -> valid_module d (with_body m fs ty L (put p [I_Block rt b]) gs) -> valid_module d (with_body m fs ty L (put p (map (freed 0) b)) gs).
Proof.
  intros DG NL (fts & ims & exs & [F T C TB ME GL EL DA ST IM EX OT OM NM]). unfold with_body in *. cbn [with_funcs m_funcs] in *.
  exists fts, ims, exs. constructor; try assumption.
  - unfold func_space, func_index in *. cbn [with_funcs m_funcs m_imports m_types] in *. rewrite map_app in *. exact F.
  - cbn [with_funcs m_funcs]. apply Forall_app in C as [C1 C2]. apply Forall_app. split; [exact C1|]. inversion C2 as [|? ? (ft & I & B) C3]; subst.
    constructor; [|exact C3]. exists ft. split; [exact I|]. cbn [fn_body fn_locals fn_ty] in *. unfold expr_type in *.
    eapply (proj2 (like_typed _)); [apply likes_put, NL|apply sees_self|exact B].
  - rewrite (DG _ (fs ++ mkFunc ty L (put p [I_Block rt b]) :: gs)). exact GL.
Qed.
Theorem dissolve_official m fs ty L p rt b gs : never_left b -> valid_module wasm10_validity (with_body m fs ty L (put p [I_Block rt b]) gs) ->
  valid_module wasm10_validity (with_body m fs ty L (put p (map (freed 0) b)) gs).
Proof. apply dissolve_valid. reflexivity. Qed.
Theorem dissolve_accepted m fs ty L p rt b gs : let before := with_body m fs ty L (put p [I_Block rt b]) gs in
  (forall f, In f (m_funcs before) -> no_pseudo (fn_body f)) -> never_left b -> accepted before -> accepted (with_body m fs ty L (put p (map (freed 0) b)) gs).
Proof.
  intros before NP NL A. apply (c40_iff _ NP) in A. apply (dissolve_valid whasm_validity m fs ty L p rt b gs (fun _ _ => eq_refl) NL) in A.
  apply c40_iff; [exact (typed_bodies _ _ A)|exact A].
Qed.

(** ** What code does *)
Section Sim.
Variable M : machine.
Variable types : list functy.
Variables funcs funcs' : list (finst M).
(** [back]: from the code without the block to that with it *)
Variable back : bool.

(** [base]: what is on the stack around the block that is gone *)
Definition emb (base : list value) (c c' : conf M) : Prop := c' = mkConf (c_stack c ++ base) (c_vars c) (c_store c).
Definition core base (md : option N) (r r' : result M) : Prop :=
  match r with
  | R_Normal c => exists c', emb base c c' /\ r' = R_Normal c'
  | R_Branch l vs c => exists l' s, lab md (N.of_nat l) (N.of_nat l') /\ r' = R_Branch l' vs (with_stack M c s)
  | R_Return vs st => r' = R_Return vs st
  | R_Trap => r' = R_Trap
  | R_Fuel => back = false
  | R_Stuck => True
  end.
Definition simr base md (r r' : result M) : Prop := (back = true /\ r' = R_Fuel) \/ core base md r r'.
Definition labels_fit md (labels labels' : list (list valty)) : Prop := forall l l' ts, lab md l l' -> at_N labels l = Some ts -> at_N labels' l' = Some ts.
Definition fun_like (f f' : finst M) : Prop :=
  f' = f \/ exists u h h', f = F_Wasm u h /\ f' = F_Wasm u h' /\ fn_locals h' = fn_locals h /\ likes None (fn_body h) (fn_body h').
Hypothesis funs : forall a f, nth_error funcs a = Some f -> exists f', nth_error funcs' a = Some f' /\ fun_like f f'.

Lemma simr_stuck base md r' : simr base md R_Stuck r'.
Proof. right. exact I. Qed.
Lemma take_under ts s vs rest base : take ts s = Some (vs, rest) -> take ts (s ++ base) = Some (vs, rest ++ base).
Proof. intros H. apply InlineExecProof.take_inv in H as [<- ->]. rewrite <- app_assoc. apply take_ok. Qed.
Lemma simr_normal base md c c' : emb base c c' -> simr base md (R_Normal c) (R_Normal c').
Proof. intros E. right. exists c'. split; [exact E|reflexivity]. Qed.
Lemma simr_push base md c vs rest c' : c_vars c' = c_vars c -> c_store c' = c_store c -> simr base md (push M vs rest c) (push M vs (rest ++ base) c').
Proof. intros V S. unfold push. apply simr_normal. unfold emb, with_stack. cbn [c_stack c_vars c_store]. rewrite V, S, app_assoc. reflexivity. Qed.
Lemma simr_pop base md ts c c' k k' : emb base c c' ->
  (forall vs d d', emb base d d' -> simr base md (k vs d) (k' vs d')) -> simr base md (pop M ts c k) (pop M ts c' k').
Proof.
  intros -> K. unfold pop. cbn [c_stack]. destruct (take ts (c_stack c)) as [[vs rest]|] eqn:H; [|apply simr_stuck]. rewrite (take_under _ _ _ _ base H). apply K. reflexivity.
Qed.
Lemma simr_pop1 base md u c c' k k' : emb base c c' ->
  (forall v d d', emb base d d' -> simr base md (k v d) (k' v d')) -> simr base md (pop1 M u c k) (pop1 M u c' k').
Proof. intros E K. apply simr_pop; [exact E|]. intros [|v [|]] d d' D; [apply simr_stuck|apply K, D|apply simr_stuck]. Qed.
Lemma simr_found {A} base md (o : option A) k k' : (forall a, simr base md (k a) (k' a)) -> simr base md (found M o k) (found M o k').
Proof. intros K. destruct o; [apply K|apply simr_stuck]. Qed.
Lemma simr_trap {A} base md (o : option A) k k' : (forall a, simr base md (k a) (k' a)) -> simr base md (or_trap M o k) (or_trap M o k').
Proof. intros K. destruct o; [apply K|right; reflexivity]. Qed.
Lemma simr_branch base md labels labels' l l' c c' : labels_fit md labels labels' -> lab md l l' -> emb base c c' ->
  simr base md (branch M labels l c) (branch M labels' l' c').
Proof.
  intros F L E. unfold branch. destruct (at_N labels l) as [ts|] eqn:H; [|apply simr_stuck]. rewrite (F _ _ _ L H). cbn [found]. apply simr_pop; [exact E|].
  intros vs d d' ->. right. exists (N.to_nat l'), (c_stack d ++ base). rewrite !Nnat.N2Nat.id. split; [exact L|reflexivity].
Qed.
(** with fuel [n] and [n'] *)
Definition codes md (n n' : nat) : Prop := forall base labels labels' ret e e' c c', likes md e e' -> emb base c c' -> labels_fit md labels labels' ->
  simr base md (run_seq M (exec M types funcs n labels ret) e c) (run_seq M (exec M types funcs' n' labels' ret) e' c').
Definition instrs md (n n' : nat) : Prop := forall base labels labels' ret i i' c c', like md i i' -> emb base c c' -> labels_fit md labels labels' ->
  simr base md (exec M types funcs n labels ret i c) (exec M types funcs' n' labels' ret i' c').
Lemma simr_finish base md u c c' r r' : emb base c c' -> simr [] None r r' -> simr base md (finish M u c r) (finish M u c' r').
Proof.
  intros -> [[B ->]|S]; [left; split; [exact B|reflexivity]|]. unfold finish. cbn [c_stack].
  assert (K : forall vs st, simr base md (if valtys_same (map type_of vs) (ft_results u) then push M vs (c_stack c) (with_store M c st) else R_Stuck)
    (if valtys_same (map type_of vs) (ft_results u) then push M vs (c_stack c ++ base) (with_store M (mkConf (c_stack c ++ base) (c_vars c) (c_store c)) st) else R_Stuck)).
  { intros vs st. destruct (valtys_same _ _); [|apply simr_stuck]. apply simr_push; reflexivity. }
  destruct r as [d|l vs d|vs st| | |]; cbn [core] in S.
  - destruct S as (d' & -> & ->). cbn [c_stack c_store]. rewrite app_nil_r. apply K.
  - destruct S as (l' & s & L & ->). cbn [lab] in L. apply Nnat.Nat2N.inj in L as ->. destruct l; [|apply simr_stuck]. cbn [with_stack c_store]. apply K.
  - subst r'. apply K.
  - subst r'. right. reflexivity.
  - apply simr_stuck.
  - right. exact S.
Qed.
Lemma simr_leave base md rt outer vs d d' : c_vars d' = c_vars d -> c_store d' = c_store d ->
  simr base md (leave M rt outer vs d) (leave M rt (outer ++ base) vs d').
Proof. intros V S. unfold leave. destruct (valtys_same _ _); [|apply simr_stuck]. apply simr_push; assumption. Qed.
Lemma simr_block base md rt outer ob ob' r r' : simr [] (deeper md) r r' ->
  (forall vs d d', c_vars d' = c_vars d -> c_store d' = c_store d -> simr base md (ob vs d) (ob' vs d')) ->
  simr base md (run_block M rt outer ob r) (run_block M rt (outer ++ base) ob' r').
Proof.
  intros [[B ->]|S] K; [left; split; [exact B|reflexivity]|]. destruct r as [d|l vs d|vs st| | |]; cbn [core] in S.
  - destruct S as (d' & -> & ->). cbn [run_block c_stack]. rewrite app_nil_r. apply simr_leave; reflexivity.
  - destruct S as (l' & s & L & ->). apply lab_deeper in L as [[L L']|(j & j' & L & L' & H)].
    + destruct l; [|lia]. destruct l'; [|lia]. cbn [run_block]. apply K; reflexivity.
    + destruct l as [|l]; [lia|]. destruct l' as [|l']; [lia|]. cbn [run_block]. right. exists l', s. split; [|reflexivity].
      replace (N.of_nat l) with j by lia. replace (N.of_nat l') with j' by lia. exact H.
  - subst r'. right. reflexivity.
  - subst r'. right. reflexivity.
  - apply simr_stuck.
  - right. exact S.
Qed.
Lemma fit_self labels : labels_fit None labels labels.
Proof. intros l l' ts ->. exact (fun H => H). Qed.
Lemma sim_call n n' base md f f' c c' : codes None n n' -> fun_like f f' -> emb base c c' ->
  simr base md (InlineExecProof.call_at M types funcs n f c) (InlineExecProof.call_at M types funcs' n' f' c').
Proof.
  intros S F E. unfold InlineExecProof.call_at. assert (T : finst_type f' = finst_type f) by (destruct F as [->|(u & h & h' & -> & -> & _)]; reflexivity). rewrite T.
  apply simr_pop; [exact E|]. intros args d d' D. destruct F as [->|(u & h & h' & -> & -> & L & B)].
  - destruct f as [u h|u h].
    + apply simr_finish; [exact D|]. apply S; [apply likes_self| |apply fit_self]. rewrite D. reflexivity.
    + rewrite D. cbn [c_stack c_store]. apply simr_trap. intros [st r]. cbn [fst snd]. destruct (valtys_same _ _); [|apply simr_stuck]. apply simr_push; reflexivity.
  - apply simr_finish; [exact D|]. apply S; [exact B| |apply fit_self]. rewrite D, L. reflexivity.
Qed.
Lemma labels_deeper md labels labels' ts : labels_fit md labels labels' -> labels_fit (deeper md) (ts :: labels) (ts :: labels').
Proof. intros F. unfold labels_fit, at_N in *. apply (labels_down md). exact F. Qed.
Lemma nth_labs md : forall ls ls' l l' n, Forall2 (lab md) ls ls' -> lab md l l' -> lab md (nth n ls l) (nth n ls' l').
Proof. intros ls ls' l l' n H L. revert n. induction H; intros [|n]; cbn; auto. Qed.
Lemma instrs_next md n n' : instrs md n n' -> codes (deeper md) n n' -> codes None n n' -> instrs md (S n) (S n').
Proof.
  intros SI SC SN base labels labels' ret i i' c c' L E F. pose proof E as Q.
  destruct L as [md i St|md l l' L|md l l' L|md ls ls' l l' Ls L|md rt b b' B|md rt b b' B|md rt b b' d d' B D].
  - cbn [exec]. assert (Q2 : c_store c' = c_store c) by (rewrite Q; reflexivity). assert (Q3 : c_vars c' = c_vars c) by (rewrite Q; reflexivity).
    assert (Q1 : c_stack c' = c_stack c ++ base) by (rewrite Q; reflexivity).
    rewrite Q2. destruct (plain_type i) as [[ts1 ts2]|]; [|destruct (load_type i) as [lt|]; [|destruct (store_type i) as [[st1 ty]|]]].
    + apply simr_pop; [exact E|]. intros vs d d' ->. apply simr_trap. intros r. cbn [c_stack]. apply simr_push; reflexivity.
    + apply simr_found. intros mm. apply simr_pop1; [exact E|]. intros v d d' ->. apply simr_trap. intros r. cbn [c_stack]. apply simr_push; reflexivity.
    + destruct st1. apply simr_found. intros mm. apply simr_pop1; [exact E|]. intros v d d' D. apply simr_pop1; [exact D|]. intros v2 d2 d2' ->.
      apply simr_trap. intros mm'. apply simr_normal. reflexivity.
    + destruct i; try apply simr_stuck; try contradiction St.
      all: try (right; reflexivity).
      all: try (apply simr_normal; exact E).
      all: try (rewrite Q1; destruct (c_stack c); [apply simr_stuck|]; cbn [app]; apply simr_normal; rewrite Q; reflexivity).
      all: try (rewrite ?Q3; apply simr_found; intros v; rewrite Q1; apply simr_push; assumption).
      all: try (rewrite ?Q3; apply simr_found; intros v; apply simr_pop1; [exact E|]; intros w d d' ->; cbn [c_stack c_vars c_store];
                first [apply simr_push; reflexivity | apply simr_normal; reflexivity]).
      * (* return *)
        apply simr_pop; [exact E|]. intros vs d d' ->. right. reflexivity.
      * (* call *)
        match goal with |- context [at_N funcs ?y] => destruct (at_N funcs y) as [f|] eqn:H; [|apply simr_stuck] end.
        destruct (funs _ _ H) as (f' & H' & FL). unfold at_N. rewrite H'. cbn [found]. apply (sim_call n n' base md f f' c c' SN FL E).
      * (* call_indirect *)
        apply simr_found. intros tb. apply simr_found. intros ft. apply simr_pop1; [exact E|]. intros z d d' D. apply simr_trap. intros addr.
        destruct (nth_error funcs addr) as [f|] eqn:H; [|apply simr_stuck]. destruct (funs _ _ H) as (f' & H' & FL). rewrite H'. cbn [found].
        assert (T : finst_type f' = finst_type f) by (destruct FL as [->|(u & h & h' & -> & -> & _)]; reflexivity).
        destruct (functy_same (finst_type f) ft) eqn:FS; rewrite T, FS; [|right; reflexivity].
        pose proof (sim_call n n' base md f f' d d' SN FL D) as R. unfold InlineExecProof.call_at in R. rewrite T in R. exact R.
      * (* select *)
        apply simr_pop1; [exact E|]. intros w d d' ->. cbn [c_stack]. destruct (c_stack d) as [|v2 [|v1 vs]]; try apply simr_stuck. cbn [app].
        destruct (valtys_same _ _); [apply simr_push; reflexivity|apply simr_stuck].
  - cbn [exec plain_type load_type store_type]. apply simr_branch; assumption.
  - cbn [exec plain_type load_type store_type]. apply simr_pop1; [exact E|]. intros z d d' D. destruct (is_zero z); [apply simr_normal, D|].
    apply simr_branch; assumption.
  - cbn [exec plain_type load_type store_type]. apply simr_pop1; [exact E|]. intros z d d' D. apply simr_branch; [exact F|apply nth_labs; assumption|exact D].
  - cbn [exec plain_type load_type store_type]. rewrite Q. cbn [c_stack]. apply simr_block; [|intros; apply simr_leave; assumption].
    apply SC; [exact B|reflexivity|apply labels_deeper, F].
  - cbn [exec plain_type load_type store_type]. rewrite Q. cbn [c_stack]. apply simr_block.
    + apply SC; [exact B|reflexivity|apply labels_deeper, F].
    + intros [|v vs] d d' DV DS; [|apply simr_stuck]. apply SI; [apply L_loop, B| |exact F]. unfold emb, with_stack. cbn [c_stack c_vars c_store]. rewrite DV, DS. reflexivity.
  - cbn [exec plain_type load_type store_type]. apply simr_pop1; [exact E|]. intros z e e' ->. cbn [c_stack].
    apply simr_block; [|intros; apply simr_leave; assumption]. apply SC; [destruct (is_zero z); assumption|reflexivity|apply labels_deeper, F].
Qed.
(** a block and its code *)
Lemma simr_gone base rt c c' r r' : emb base c c' -> simr (c_stack c') (Some 0) r r' -> simr base None (run_block M rt (c_stack c) (leave M rt (c_stack c)) r) r'.
Proof.
  clear funs. intros E [[B ->]|R]; [left; split; [exact B|reflexivity]|]. destruct r as [d|l vs d|vs st| | |]; cbn [core run_block] in *; try (right; exact R).
  - destruct R as (d' & -> & ->). unfold leave. destruct (valtys_same _ _); [|apply simr_stuck].
    unfold push. apply simr_normal. unfold emb, with_stack. cbn [c_stack c_vars c_store]. rewrite E, rev_involutive. cbn [c_stack]. rewrite app_assoc. reflexivity.
  - destruct R as (l' & s & [NE L] & ->). destruct l as [|l]; [exfalso; apply NE; reflexivity|]. right. exists l', s. split; [|reflexivity].
    cbn [lab]. unfold closer in L. destruct (N.ltb_spec (N.of_nat (S l)) 0); lia.
Qed.
Lemma fit_gone labels labels' rt : labels_fit None labels labels' -> labels_fit (Some 0) (rt :: labels) labels'.
Proof. intros F l l' ts H A. apply (F _ _ _ eq_refl). exact (labels_gone _ rt l l' ts H A). Qed.
Definition spots (n n' : nat) : Prop := forall base labels labels' ret rt b b' c c', likes (Some 0) b b' -> emb base c c' -> labels_fit None labels labels' ->
  simr base None (exec M types funcs n labels ret (I_Block rt b) c) (run_seq M (exec M types funcs' n' labels' ret) b' c').
Lemma simr_then base md r r' (k k' : conf M -> result M) : simr base md r r' -> (forall d d', emb base d d' -> simr base md (k d) (k' d')) ->
  simr base md (SameProof.andthen M k r) (SameProof.andthen M k' r').
Proof.
  intros [[B ->]|R] K; [left; split; [exact B|reflexivity]|]. destruct r as [d|l vs d|vs st| | |]; cbn [core] in R; try (subst r'; right; reflexivity).
  - destruct R as (d' & D & ->). apply K, D.
  - destruct R as (l' & s & Q & ->). right. exists l', s. split; [exact Q|reflexivity].
  - apply simr_stuck.
  - right. exact R.
Qed.
Lemma codes_here md n n' : instrs md n n' -> (md = None -> spots n n') -> codes md n n'.
Proof.
  intros SI SP base labels labels' ret e e' c c' L E F. revert c c' E.
  induction L as [md|md i i' e e' H L IH|rt b b' e e' B IHB L IH]; intros c c' E.
  - apply simr_normal, E.
  - rewrite !SameProof.seq_cons. apply simr_then; [apply SI; assumption|]. intros d d' D. apply IH; assumption.
  - rewrite SameProof.seq_cons, SameProof.seq_app. apply simr_then; [apply SP; trivial|]. intros d d' D. apply IH; assumption.
Qed.
Lemma block_body n labels ret rt b c : exec M types funcs (S n) labels ret (I_Block rt b) c =
  run_block M rt (c_stack c) (leave M rt (c_stack c)) (run_seq M (exec M types funcs n (rt :: labels) ret) b (with_stack M c [])).
Proof. reflexivity. Qed.
Lemma no_branch fs n a args st : match invoke M types fs n a args st with R_Branch _ _ _ => False | _ => True end.
Proof.
  unfold invoke. destruct n as [|n]; [exact I|]. cbn [exec plain_type load_type store_type]. destruct (at_N fs _) as [f|]; [|exact I]. cbn [found]. unfold pop.
  destruct (take _ _) as [[vs rest]|]; [|exact I]. destruct f as [u h|u h].
  - unfold finish. destruct (run_seq _ _ _ _) as [d|[|l] us d|us s| | |]; try exact I; destruct (valtys_same _ _); exact I.
  - unfold or_trap. destruct (h _ _) as [[s r]|]; [|exact I]. destruct (valtys_same _ _); exact I.
Qed.
Lemma sim_invoke n n' a args st : instrs None n n' ->
  (back = true /\ invoke M types funcs' n' a args st = R_Fuel) \/ (back = false /\ invoke M types funcs n a args st = R_Fuel) \/
  invoke M types funcs n a args st = R_Stuck \/ invoke M types funcs' n' a args st = invoke M types funcs n a args st.
Proof.
  intros SI. pose proof (no_branch funcs n a args st) as NB. unfold invoke in *.
  destruct (SI [] [] [] [] (I_Call (N.of_nat a)) (I_Call (N.of_nat a)) (mkConf (rev args) [] st) (mkConf (rev args) [] st) (L_same None (I_Call (N.of_nat a)) I)
    ltac:(unfold emb; cbn [c_stack c_vars c_store]; rewrite app_nil_r; reflexivity) (fit_self [])) as [R|R]; [left; exact R|]. right. revert R NB.
  generalize (exec M types funcs' n' [] [] (I_Call (N.of_nat a)) (mkConf (rev args) [] st)).
  destruct (exec M types funcs n [] [] (I_Call (N.of_nat a)) (mkConf (rev args) [] st)) as [d|l vs d|vs s| | |]; cbn [core]; intros r' R NB; auto.
  - destruct R as (d' & -> & ->). right. right. rewrite app_nil_r. destruct d. reflexivity.
  - contradiction.
Qed.
End Sim.
(** ** With the same fuel *)
Section Forth.
Variable M : machine.
Variable types : list functy.
Variables funcs funcs' : list (finst M).
Hypothesis funs : forall a f, nth_error funcs a = Some f -> exists f', nth_error funcs' a = Some f' /\ fun_like M f f'.
Local Notation instrs := (instrs M types funcs funcs' false).
Local Notation codes := (codes M types funcs funcs' false).
Local Notation spots := (spots M types funcs funcs' false).
Lemma spots_forth n : codes (Some 0) n n -> spots (S n) (S n).
Proof.
  intros SC base labels labels' ret rt b b' c c' B E F. rewrite block_body. eapply simr_gone; [exact E|].
  pose proof (SC (c_stack c') (rt :: labels) labels' ret b b' (with_stack M c []) c' B ltac:(rewrite E; reflexivity) (fit_gone _ _ _ F)) as [[? _]|R]; [discriminate|].
  pose proof (SameProof.upto_seq M _ _ (fun i d => SameProof.upto_exec M types funcs' n labels' ret i d) b' c') as U. right. revert R U.
  generalize (run_seq M (exec M types funcs' (S n) labels' ret) b' c'). generalize (run_seq M (exec M types funcs' n labels' ret) b' c').
  destruct (run_seq M (exec M types funcs n (rt :: labels) ret) b (with_stack M c [])) as [d|l vs d|vs st| | |]; cbn [core]; intros r1 r2 R U; try exact R.
  - destruct R as (d' & -> & ->). rewrite U by discriminate. eexists. split; reflexivity.
  - destruct R as (l' & s & L & ->). rewrite U by discriminate. exists l', s. split; [exact L|reflexivity].
  - subst r1. apply U. discriminate.
  - subst r1. apply U. discriminate.
Qed.
Lemma forth_all n : (forall md, instrs md n n) /\ forall md, codes md n n.
Proof.
  induction n as [|n [SI SC]].
  - assert (Z : forall md, instrs md 0%nat 0%nat) by (intros md base labels labels' ret i i' c c' _ _ _; right; reflexivity). split; [exact Z|]. intros md.
    apply codes_here; [apply Z|]. intros _ base labels labels' ret rt b b' c c' _ _ _. right. reflexivity.
  - assert (Z : forall md, instrs md (S n) (S n)) by (intros md; apply instrs_next; auto). split; [exact Z|]. intros md. apply codes_here; [apply Z|].
    intros _. apply spots_forth, SC.
Qed.
End Forth.
(** ** Back, with enough fuel *)
Section Back.
Variable M : machine.
Variable types : list functy.
Variables funcs funcs' : list (finst M).
Hypothesis funs : forall a f, nth_error funcs a = Some f -> exists f', nth_error funcs' a = Some f' /\ fun_like M f f'.
Local Notation instrs := (instrs M types funcs funcs' true).
Local Notation codes := (codes M types funcs funcs' true).
Local Notation spots := (spots M types funcs funcs' true).
Lemma simr_upto base md r r1 r' : SameProof.upto M r r1 -> simr M true base md r r' -> simr M true base md r1 r'.
Proof. intros U [L|R]; [left; exact L|]. right. rewrite U; [exact R|]. intros ->. discriminate R. Qed.
Lemma instrs_more md n n' : instrs md n n' -> instrs md (S n) n'.
Proof. intros H base labels labels' ret i i' c c' L E F. eapply simr_upto; [apply SameProof.upto_exec|apply H; assumption]. Qed.
Lemma codes_more md n n' : codes md n n' -> codes md (S n) n'.
Proof.
  intros H base labels labels' ret e e' c c' L E F. eapply simr_upto; [apply SameProof.upto_seq; intros; apply SameProof.upto_exec|apply H; assumption].
Qed.
Lemma spots_back n n' : codes (Some 0) n n' -> spots (S n) n'.
Proof.
  intros SC base labels labels' ret rt b b' c c' B E F. rewrite block_body. eapply simr_gone; [exact E|].
  apply SC; [exact B|rewrite E; reflexivity|apply fit_gone, F].
Qed.
Lemma some_codes k n n' : instrs (Some k) n n' -> codes (Some k) n n'.
Proof. intros H. apply codes_here; [exact H|discriminate]. Qed.
Lemma back_all n : (forall k, instrs (Some k) (n + n) n) /\ instrs None (S (n + n)) n.
Proof.
  induction n as [|n [SI SN]].
  - split; [intros k|]; intros base labels labels' ret i i' c c' _ _ _; left; split; reflexivity.
  - assert (CN : codes None (S (n + n)) n) by (apply codes_here; [exact SN|]; intros _; apply spots_back, some_codes, SI).
    replace (S n + S n)%nat with (S (S (n + n))) by lia. split.
    + intros k. apply instrs_next; [exact funs|apply instrs_more, SI| |exact CN]. apply codes_more, some_codes, SI.
    + apply instrs_next; [exact funs|apply instrs_more, SN|apply codes_more, CN|apply codes_more, CN].
Qed.
End Back.
Lemma forth_invoke M types funcs funcs' : (forall a f, nth_error funcs a = Some f -> exists f', nth_error funcs' a = Some f' /\ fun_like M f f') ->
  forall n a args st, invoke M types funcs n a args st <> R_Stuck -> invoke M types funcs n a args st <> R_Fuel ->
  invoke M types funcs' n a args st = invoke M types funcs n a args st.
Proof.
  intros F n a args st NS NF. destruct (sim_invoke M types funcs funcs' false n n a args st (proj1 (forth_all M types funcs funcs' F n) None)) as [[? _]|[[_ R]|[R|R]]]; congruence.
Qed.
Lemma back_invoke M types funcs funcs' : (forall a f, nth_error funcs a = Some f -> exists f', nth_error funcs' a = Some f' /\ fun_like M f f') ->
  forall n a args st, invoke M types funcs' n a args st <> R_Fuel -> invoke M types funcs (S (n + n)) a args st <> R_Stuck ->
  invoke M types funcs (S (n + n)) a args st = invoke M types funcs' n a args st.
Proof.
  intros F n a args st NF NS. destruct (sim_invoke M types funcs funcs' true _ n a args st (proj2 (back_all M types funcs funcs' F n))) as [[_ R]|[[? _]|[R|R]]]; congruence.
Qed.

(** ** Functions of an instance *)
Lemma own_like M h h' gs : fn_locals h' = fn_locals h -> likes None (fn_body h) (fn_body h') -> forall fs us a f,
  nth_error (map (fun p => @F_Wasm M (fst p) (snd p)) (combine us (fs ++ h :: gs))) a = Some f ->
  exists f', nth_error (map (fun p => @F_Wasm M (fst p) (snd p)) (combine us (fs ++ h' :: gs))) a = Some f' /\ fun_like M f f'.
Proof.
  intros LO L. induction fs as [|f0 fs IH]; intros [|v us] a f H; try (destruct a; discriminate H).
  - destruct a as [|a]; cbn in H |- *.
    + injection H as <-. eexists. split; [reflexivity|]. right. exists v, h, h'. auto.
    + exists f. split; [exact H|left; reflexivity].
  - destruct a as [|a]; cbn in H |- *; [exists f; split; [exact H|left; reflexivity]|]. apply (IH us a f H).
Qed.
Section Inst.
Variables (m : module) (fs : list func) (ty : N) (L : list valty) (p : place) (rt : retval) (b : list instr) (gs : list func).
Local Notation before := (with_body m fs ty L (put p [I_Block rt b]) gs).
Local Notation after := (with_body m fs ty L (put p (map (freed 0) b)) gs).
Hypothesis NL : never_left b.
Lemma dissolve_space fts : func_space before fts -> func_space after fts.
Proof. unfold func_space, func_index. cbn [with_body with_funcs m_types m_imports m_funcs]. rewrite !map_app. cbn [map fn_ty]. exact (fun H => H). Qed.
Lemma dissolve_funcs M fts (imported others : list (finst M)) a f : nth_error (instance_funcs before fts imported others) a = Some f ->
  exists f', nth_error (instance_funcs after fts imported others) a = Some f' /\ fun_like M f f'.
Proof.
  unfold instance_funcs. cbn [with_body with_funcs m_funcs].
  set (own := map _ (combine (skipn (length imported) fts) (fs ++ mkFunc ty L (put p [I_Block rt b]) :: gs))).
  set (own' := map _ (combine (skipn (length imported) fts) (fs ++ mkFunc ty L (put p (map (freed 0) b)) :: gs))).
  assert (Q : length own' = length own) by apply InlineExecProof.own_length.
  assert (K : forall k f, nth_error own k = Some f -> exists f', nth_error own' k = Some f' /\ fun_like M f f').
  { intros k f0 H. apply (own_like M (mkFunc ty L (put p [I_Block rt b])) (mkFunc ty L (put p (map (freed 0) b))) gs eq_refl (likes_put rt b p NL) fs _ k f0 H). }
  intros H. destruct (Nat.lt_ge_cases a (length imported)) as [I|I].
  - rewrite nth_error_app1 in H |- * by exact I. exists f. split; [exact H|left; reflexivity].
  - rewrite nth_error_app2 in H |- * by exact I. destruct (Nat.lt_ge_cases (a - length imported) (length own)) as [J|J].
    + rewrite nth_error_app1 in H by exact J. rewrite nth_error_app1 by (rewrite Q; exact J). apply K, H.
    + rewrite nth_error_app2 in H by exact J. rewrite nth_error_app2 by (rewrite Q; exact J). rewrite Q. exists f. split; [exact H|left; reflexivity].
Qed.
Theorem dissolve_same (M : machine) fts (imported others : list (finst M)) fuel a args st :
  let r := invoke M (m_types m) (instance_funcs before fts imported others) fuel a args st in r <> R_Stuck -> r <> R_Fuel ->
  invoke M (m_types m) (instance_funcs after fts imported others) fuel a args st = r.
Proof. apply forth_invoke, dissolve_funcs. Qed.
Theorem dissolve_back (M : machine) fts (imported others : list (finst M)) fuel a args st :
  let r := invoke M (m_types m) (instance_funcs after fts imported others) fuel a args st in r <> R_Fuel ->
  let fuel' := (1 + 2 * fuel)%nat in
  invoke M (m_types m) (instance_funcs before fts imported others) fuel' a args st = r \/
  invoke M (m_types m) (instance_funcs before fts imported others) fuel' a args st = R_Stuck.
Proof.
  intros r NF fuel'. replace fuel' with (S (fuel + fuel)) by (unfold fuel'; lia).
  assert (D : forall x : result M, x = R_Stuck \/ x <> R_Stuck) by (intros []; first [left; reflexivity|right; discriminate]).
  destruct (D (invoke M (m_types m) (instance_funcs before fts imported others) (S (fuel + fuel)) a args st)) as [H|H]; [right; exact H|left].
  apply back_invoke; [apply dissolve_funcs|exact NF|exact H].
Qed.
Theorem dissolve_instantiates (M : machine) fts (imported others : list (finst M)) imp fuel :
  let r := instantiate before imp (instance_funcs before fts imported others) fuel in r <> Inst_Stuck -> r <> Inst_Fuel ->
  instantiate after imp (instance_funcs after fts imported others) fuel = r.
Proof.
  cbv zeta. unfold instantiate. cbn [with_body with_funcs m_globals m_tables m_mems m_elem m_data].
  destruct (all_some _ (m_globals m)); [|congruence]. destruct (init_elems _ _) as [st| | |]; try congruence. destruct (init_datas _ _) as [st'| | |]; try congruence.
  unfold run_start. cbn [with_body with_funcs m_start m_types]. destruct (m_start m) as [s|]; [|reflexivity]. intros NS NF.
  rewrite (dissolve_same M fts imported others fuel (N.to_nat (st_func s)) [] st'); [reflexivity| |];
    intros E; cbn [with_body with_funcs] in E, NS, NF; rewrite E in NS, NF; congruence.
Qed.
(** no call of an instance of an accepted module gets stuck *)
Theorem dissolve_runs : (forall f, In f (m_funcs before) -> no_pseudo (fn_body f)) -> accepted before ->
  exists fts, func_space before fts /\ func_space after fts /\ forall M imported others st, machine_ok M ->
    let fs1 := instance_funcs before fts imported others in
    let fs2 := instance_funcs after fts imported others in
    let C := module_env before fts in
    map finst_type imported = firstn (length (imported_funcs (m_imports m))) fts ->
    Forall (host_ok C (length fs1)) imported -> Forall (host_ok C (length fs1)) others -> store_ok C (length fs1) st ->
    forall a f args r, nth_error fs1 a = Some f -> map type_of args = ft_params (finst_type f) -> r <> R_Fuel ->
      (exists fuel, invoke M (m_types m) fs1 fuel a args st = r) <-> (exists fuel, invoke M (m_types m) fs2 fuel a args st = r).
Proof.
  intros NP A. destruct (accepted_safe _ A NP) as (fts & F & S). exists fts. split; [exact F|]. split; [apply dissolve_space, F|].
  intros M imported others st MO fs1 fs2 C IT HI HO ST a f args r N T NF.
  assert (NS : forall fuel, invoke M (m_types m) fs1 fuel a args st <> R_Stuck).
  { intros fuel E. specialize (S M imported others st MO IT HI HO ST fuel a f args N T). cbn [with_body with_funcs m_types] in S. fold fs1 in S.
    unfold fs1 in *. cbn [with_body with_funcs] in *. rewrite E in S. exact S. }
  split; intros [fuel E].
  - exists fuel. rewrite <- E. apply dissolve_same; [apply NS|]. unfold fs1 in E. rewrite E. exact NF.
  - exists (1 + 2 * fuel)%nat. destruct (dissolve_back M fts imported others fuel a args st) as [H|H].
    + unfold fs2 in E. rewrite E. exact NF.
    + unfold fs1. rewrite H. exact E.
    + exfalso. exact (NS _ H).
Qed.
End Inst.
