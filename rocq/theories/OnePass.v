(** All parsers read their input in one pass, and modules have one meaning. *)
From Coq Require Import Lia ZifyN ZifyNat.
From Verif Require Import ParserModule SpecFormat SpecParser SpecStream ElementSpec ParserMeta TypesProof InstrProof
  ModuleProof SectionsProof ModuleClaims ModuleClaims2.
Open Scope N_scope.

(** ** Combinators *)
Definition single {A} (p : parser A) : Prop := suffixing p /\ one_pass p.

Lemma no_progress {A} (pre r : list A) : pre ++ r = r -> pre = [].
Proof. intros H. apply (f_equal (@length A)) in H. rewrite app_length in H. destruct pre; [reflexivity|cbn in H; lia]. Qed.
Lemma single_const {A} (o : outcome A) : single (fun bs => (o, bs)).
Proof.
  split; [intros bs; exists []; reflexivity|]. intros pre r o' H _ r'. injection H as <- H.
  rewrite (no_progress _ _ H). reflexivity.
Qed.
Lemma single_ret {A} (a : A) : single (ret a). Proof. apply single_const. Qed.
Lemma single_fail {A} e : single (@fail A e). Proof. apply single_const. Qed.
Lemma single_bind {A B} (p : parser A) (f : A -> parser B) :
  single p -> (forall a, single (f a)) -> single (bind p f).
Proof.
  intros [P1 P2] F. split; [apply suffixing_bind; [assumption|intros; apply F]|].
  intros pre r o H NE r'. unfold bind in *. destruct (P1 (pre ++ r)) as [pre1 E1].
  destruct (p (pre ++ r)) as [o1 r1] eqn:E. cbn [snd] in E1.
  assert (CASE : (exists a, o1 = Ok a /\ f a r1 = (o, r)) \/ (r1 = r /\ (forall a, o1 <> Ok a) /\
    match o1 with Ok a => True | Err e => o = Err e | Panic => o = Panic | OutOfFuel => o = OutOfFuel end)).
  { destruct o1; [left; eauto|right|right|right]; injection H as <- <-; repeat split; try discriminate. }
  destruct CASE as [(a & -> & FA)|(-> & NO & O)].
  - destruct (F a) as [F1 F2]. destruct (F1 r1) as [pre2 E2]. rewrite FA in E2. cbn [snd] in E2. subst r1.
    assert (pre = pre1 ++ pre2) as ->. { rewrite app_assoc in E1. apply app_inv_tail in E1. assumption. }
    rewrite <- app_assoc in E. rewrite <- app_assoc.
    rewrite (P2 pre1 (pre2 ++ r) _ E) by (destruct pre2; [assumption|discriminate]).
    apply (F2 _ _ _ FA NE).
  - rewrite (P2 pre r _ E NE). destruct o1; [destruct (NO a); reflexivity|subst; reflexivity..].
Qed.
Lemma single_byte : single p_byte.
Proof.
  split; [apply suffixing_byte|]. intros pre r o H NE r'.
  destruct pre as [|b pre]; cbn [app] in H.
  - destruct r as [|b r]; [contradiction|]. injection H as _ H. apply (f_equal (@length byte)) in H. cbn in H. lia.
  - injection H as <- H. rewrite (no_progress _ _ H). reflexivity.
Qed.
Lemma single_times {A} n (p : parser A) : single p -> single (p_times n p).
Proof.
  intros P. induction n; cbn [p_times]; [apply single_ret|].
  apply single_bind; [assumption|]. intros x. apply single_bind; [assumption|]. intros; apply single_ret.
Qed.

(** ** Numbers *)
Lemma uleb_suffix size mask bs : forall result shift, exists pre, bs = pre ++ snd (uleb_loop size mask result shift bs).
Proof.
  induction bs as [|b bs IH]; intros result shift; [exists []; reflexivity|].
  assert (HERE : forall o : outcome N, exists pre, b :: bs = pre ++ snd (o, bs)) by (intros o; exists [b]; reflexivity).
  assert (NEXT : forall re sh, exists pre, b :: bs = pre ++ snd (uleb_loop size mask re sh bs)).
  { intros re sh. destruct (IH re sh) as [pre E]. exists (b :: pre). cbn [app]. f_equal. exact E. }
  cbn [uleb_loop]. repeat (match goal with |- context [if ?c then _ else _] => destruct c
    | |- context [match ?c with Some _ => _ | None => _ end] => destruct c end); first [apply HERE|apply NEXT].
Qed.
Lemma uleb_one_pass size mask pre : forall result shift r o, uleb_loop size mask result shift (pre ++ r) = (o, r) -> r <> [] ->
  forall r', uleb_loop size mask result shift (pre ++ r') = (o, r').
Proof.
  induction pre as [|b pre IH]; intros result shift r o H NE r'; cbn [app] in *.
  - destruct r as [|b r]; [contradiction|exfalso]. clear NE r'.
    assert (HERE : forall o' : outcome N, (o', r) <> (o, b :: r)).
    { intros o' X. injection X as _ X. apply (f_equal (@length byte)) in X. cbn in X. lia. }
    assert (NEXT : forall re sh, uleb_loop size mask re sh r <> (o, b :: r)).
    { intros re sh X. destruct (uleb_suffix size mask r re sh) as [q E]. rewrite X in E. cbn [snd] in E.
      apply (f_equal (@length byte)) in E. rewrite app_length in E. cbn in E. lia. }
    cbn [uleb_loop] in H.
    repeat (match type of H with context [if ?c then _ else _] => destruct c
      | context [match ?c with Some _ => _ | None => _ end] => destruct c end); first [eapply HERE, H|eapply NEXT, H].
  - assert (HERE : forall o' : outcome N, (o', pre ++ r) = (o, r) -> (o', pre ++ r') = (o, r')).
    { intros o' X. injection X as <- X. rewrite (no_progress _ _ X). reflexivity. }
    cbn [uleb_loop] in *.
    repeat (match type of H with context [if ?c then _ else _] => destruct c
      | context [match ?c with Some _ => _ | None => _ end] => destruct c end);
      first [apply HERE, H|apply (IH _ _ _ _ H NE)].
Qed.
Lemma sleb_suffix size mask bs : forall result shift positive, exists pre, bs = pre ++ snd (sleb_loop size mask result shift positive bs).
Proof.
  induction bs as [|b bs IH]; intros result shift positive; [exists []; reflexivity|].
  assert (HERE : forall o : outcome Z, exists pre, b :: bs = pre ++ snd (o, bs)) by (intros o; exists [b]; reflexivity).
  assert (NEXT : forall re sh po, exists pre, b :: bs = pre ++ snd (sleb_loop size mask re sh po bs)).
  { intros re sh po. destruct (IH re sh po) as [pre E]. exists (b :: pre). cbn [app]. f_equal. exact E. }
  cbn [sleb_loop]. repeat (match goal with |- context [if ?c then _ else _] => destruct c
    | |- context [match ?c with Some _ => _ | None => _ end] => destruct c end); first [apply HERE|apply NEXT].
Qed.
Lemma sleb_one_pass size mask pre : forall result shift positive r o,
  sleb_loop size mask result shift positive (pre ++ r) = (o, r) -> r <> [] ->
  forall r', sleb_loop size mask result shift positive (pre ++ r') = (o, r').
Proof.
  induction pre as [|b pre IH]; intros result shift positive r o H NE r'; cbn [app] in *.
  - destruct r as [|b r]; [contradiction|exfalso]. clear NE r'.
    assert (HERE : forall o' : outcome Z, (o', r) <> (o, b :: r)).
    { intros o' X. injection X as _ X. apply (f_equal (@length byte)) in X. cbn in X. lia. }
    assert (NEXT : forall re sh po, sleb_loop size mask re sh po r <> (o, b :: r)).
    { intros re sh po X. destruct (sleb_suffix size mask r re sh po) as [q E]. rewrite X in E. cbn [snd] in E.
      apply (f_equal (@length byte)) in E. rewrite app_length in E. cbn in E. lia. }
    cbn [sleb_loop] in H.
    repeat (match type of H with context [if ?c then _ else _] => destruct c
      | context [match ?c with Some _ => _ | None => _ end] => destruct c end); first [eapply HERE, H|eapply NEXT, H].
  - assert (HERE : forall o' : outcome Z, (o', pre ++ r) = (o, r) -> (o', pre ++ r') = (o, r')).
    { intros o' X. injection X as <- X. rewrite (no_progress _ _ X). reflexivity. }
    cbn [sleb_loop] in *.
    repeat (match type of H with context [if ?c then _ else _] => destruct c
      | context [match ?c with Some _ => _ | None => _ end] => destruct c end);
      first [apply HERE, H|apply (IH _ _ _ _ _ H NE)].
Qed.
Lemma single_unsigned size : single (p_unsigned size).
Proof.
  split; [apply suffixing_unsigned|]. unfold p_unsigned. destruct (u_from_u8 size 127).
  - intros pre r o. apply uleb_one_pass.
  - apply single_const.
Qed.
Lemma single_signed size : single (p_signed size).
Proof.
  split; [apply suffixing_signed|]. unfold p_signed. destruct (s_from_u8 size 127).
  - intros pre r o. apply sleb_one_pass.
  - apply single_const.
Qed.
Lemma single_u32 : single p_u32. Proof. apply single_unsigned. Qed.
Lemma single_float h n : single (p_float h n).
Proof. apply single_bind; [apply single_times, single_byte|]. intros; apply single_ret. Qed.

(** ** Vectors, sized elements, strings *)
Lemma single_vec {A} (p : parser A) : single p -> single (p_vec p).
Proof. intros P. apply single_bind; [apply single_u32|]. intros n. apply single_times, P. Qed.
Lemma single_map {A B} (p : parser A) (u : A -> B) : single p -> single (x <- p ;; ret (u x)).
Proof. intros P. apply single_bind; [assumption|]. intros; apply single_ret. Qed.
Lemma single_unwrapping_vec {A B} (p : parser A) (u : A -> B) : single p -> single (p_unwrapping_vec p u).
Proof. intros P. rewrite unwrapping_vec. apply single_vec, single_map, P. Qed.
Lemma single_runs {A} k (p : parser A) : single p -> forall acc, single (p_runs k p acc).
Proof.
  intros P. induction k; intros acc; cbn [p_runs]; [apply single_ret|].
  apply single_bind; [apply single_u32|]. intros n. apply single_bind; [assumption|]. intros; apply IHk.
Qed.
Lemma single_compact_vec {A} (p : parser A) : single p -> single (p_compact_vec p).
Proof. intros P. apply single_bind; [apply single_u32|]. intros n. apply single_runs, P. Qed.
Lemma single_consume : single p_consume.
Proof.
  split; [intros bs; exists bs; cbn; rewrite app_nil_r; reflexivity|].
  intros pre r o H NE. injection H as _ H. congruence.
Qed.
Lemma single_window {A} (p : parser A) size : single p -> single (p_window p size).
Proof.
  intros [P1 P2]. split; [apply suffixing_window; assumption|].
  intros pre r o H NE r'. unfold p_window in *.
  pose proof (firstn_skipn (N.to_nat size) (pre ++ r)) as FS.
  pose proof (firstn_length (N.to_nat size) (pre ++ r)) as FL.
  set (w := firstn (N.to_nat size) (pre ++ r)) in *. set (af := skipn (N.to_nat size) (pre ++ r)) in *.
  destruct (P1 w) as [prew E]. destruct (p w) as [ow rw] eqn:PW. cbn [snd] in E.
  assert (RR : r = rw ++ af).
  { destruct ow; [|injection H as _ H; congruence..]. destruct (negb _); injection H as _ H; congruence. }
  assert (pre = prew) as ->.
  { rewrite RR, E, <- app_assoc in FS. apply app_inv_tail in FS. congruence. }
  assert (LW : (length prew <= N.to_nat size)%nat).
  { rewrite E, app_length in FL. lia. }
  set (w' := firstn (N.to_nat size - length prew) r'). set (af' := skipn (N.to_nat size - length prew) r').
  assert (W' : firstn (N.to_nat size) (prew ++ r') = prew ++ w').
  { rewrite firstn_app, (firstn_all2 prew) by lia. reflexivity. }
  assert (AF' : skipn (N.to_nat size) (prew ++ r') = af').
  { rewrite skipn_app, (skipn_all2 prew) by lia. reflexivity. }
  assert (RR' : r' = w' ++ af') by (symmetry; apply firstn_skipn).
  assert (Q : p (prew ++ w') = (ow, w')).
  { destruct rw as [|b rw].
    - assert (length w = N.to_nat size) as LS.
      { assert (af <> []) by (rewrite RR in NE; exact NE).
        pose proof (skipn_length (N.to_nat size) (prew ++ r)) as SL. fold af in SL. destruct af; [contradiction|].
        cbn [length] in SL. lia. }
      rewrite app_nil_r in E. assert (w' = []) as ->.
      { unfold w'. rewrite <- E, LS, Nat.sub_diag. reflexivity. }
      rewrite app_nil_r, <- E. assumption.
    - rewrite E in PW. apply (P2 _ _ _ PW). discriminate. }
  rewrite W', AF', Q. rewrite app_length.
  assert (CW : (length w - length rw = length prew)%nat) by (rewrite E, app_length; lia).
  rewrite CW in H. replace (length prew + length w' - length w')%nat with (length prew) by lia.
  rewrite <- RR'. destruct ow; [|congruence..]. destruct (negb _); congruence.
Qed.
Lemma single_sized {A} (p : parser A) : single p -> single (p_sized p).
Proof.
  intros P. rewrite p_sized_window. apply single_bind; [apply single_u32|]. intros n. apply single_window, P.
Qed.
Lemma single_string : single p_string.
Proof.
  apply single_bind; [apply single_unwrapping_vec, single_byte|]. intros raw.
  destruct (utf8_valid raw); [apply single_ret|apply single_fail].
Qed.

(** ** Types *)
Ltac m_single := repeat first
  [ apply single_ret | apply single_fail | apply single_byte | apply single_u32 | apply single_string
  | apply single_vec | apply single_compact_vec | apply single_sized | apply single_unwrapping_vec
  | assumption | apply single_bind; [|intro] ].
Lemma single_limits : single p_limits.
Proof. unfold p_limits. apply single_bind; [apply single_byte|]. intros []; m_single. Qed.
Lemma single_valty : single p_valty.
Proof. unfold p_valty. apply single_bind; [apply single_byte|]. intros []; m_single. Qed.
Lemma single_elemty : single p_elemty.
Proof. unfold p_elemty. apply single_bind; [apply single_byte|]. intros []; m_single. Qed.
Lemma single_mut : single p_mut.
Proof. unfold p_mut. apply single_bind; [apply single_byte|]. intros []; m_single. Qed.
Lemma single_retval : single p_retval.
Proof. unfold p_retval. apply single_bind; [apply single_byte|]. intros []; apply single_const. Qed.
Lemma single_functy : single p_functy.
Proof. pose proof single_valty. unfold p_functy. apply single_bind; [apply single_byte|]. intros []; m_single. Qed.
Lemma single_tablety : single p_tablety.
Proof. pose proof single_elemty. pose proof single_limits. unfold p_tablety. m_single. Qed.
Lemma single_memty : single p_memty.
Proof. pose proof single_limits. unfold p_memty. m_single. Qed.
Lemma single_globalty : single p_globalty.
Proof. pose proof single_valty. pose proof single_mut. unfold p_globalty. m_single. Qed.

(** ** Instructions: with fixed fuel, then with the fuel supplied *)
Lemma single_instr_sub fuel : single (p_instr fuel) /\ forall acc, single (p_subexpr fuel acc).
Proof.
  induction fuel as [|f [IH1 IH2]]; cbn [p_instr p_subexpr].
  - split; intros; apply single_const.
  - split.
    + apply single_bind; [apply single_byte|]. intros b.
      refine (closed_opcode (fun A p _ => single p) _ _ _ _ _ _ _ _ _ _ (p_subexpr f []) (p_subexpr f []) _ b).
      * exact @single_ret.
      * exact @single_fail.
      * exact (fun A B p _ f _ => single_bind p f).
      * exact single_u32.
      * apply single_signed.
      * apply single_signed.
      * apply single_float.
      * apply single_float.
      * exact single_retval.
      * apply single_vec, single_u32.
      * apply IH2.
    + intros acc. apply single_bind; [assumption|]. intros i.
      destruct i; first [apply single_ret | apply IH2].
Qed.
Lemma single_expr_of sub : single sub -> single (p_expr_of sub).
Proof.
  intros S. apply (closed_expr_of (fun A p _ => single p) (@single_ret) (@single_fail)
    (fun A B p _ f _ => single_bind p f) sub sub S).
Qed.
(** A family of parsers indexed by fuel, of which enough is always supplied *)
Lemma single_fueled {A} (q : nat -> parser A) (need : nat -> nat) :
  (forall f, single (q f)) ->
  (forall f f', (f <= f')%nat -> fuel_le (q f) (q f')) ->
  (forall bs, fst (q (need (length bs)) bs) <> OutOfFuel) ->
  single (fun bs => q (need (length bs)) bs).
Proof.
  intros S M E.
  assert (X : forall f bs, (need (length bs) <= f)%nat -> q (need (length bs)) bs = q f bs).
  { intros f bs L. symmetry. apply (M _ _ L). apply E. }
  split; [intros bs; apply S|].
  intros pre r o H NE r'. set (F := (need (length (pre ++ r)) + need (length (pre ++ r')))%nat).
  rewrite (X F) in * by (unfold F; lia). apply (S F) with (r := r); assumption.
Qed.
Lemma single_expr : single p_expr.
Proof.
  unfold p_expr. apply (single_fueled (fun f => p_expr_of (p_subexpr f [])) fuel_for).
  - intros f. apply single_expr_of, single_instr_sub.
  - intros f f' L. apply fuel_le_expr_of, fuel_mono, L.
  - intros bs. apply (safe_expr bs).
Qed.
Lemma single_constexpr : single p_constexpr. Proof. apply single_expr. Qed.
Lemma single_instr_top : single p_instr_top.
Proof.
  unfold p_instr_top. apply (single_fueled p_instr fuel_for).
  - intros f. apply single_instr_sub.
  - intros f f' L. apply fuel_mono, L.
  - intros bs. apply (safe_instr_top bs).
Qed.

(** ** Module components *)
Lemma single_func : single p_func.
Proof. pose proof single_valty. pose proof single_expr. unfold p_func. m_single. Qed.
Lemma single_table : single p_table. Proof. pose proof single_tablety. unfold p_table. m_single. Qed.
Lemma single_mem : single p_mem. Proof. pose proof single_memty. unfold p_mem. m_single. Qed.
Lemma single_global : single p_global.
Proof. pose proof single_globalty. pose proof single_constexpr. unfold p_global. m_single. Qed.
Lemma single_elem : single p_elem.
Proof. pose proof single_constexpr. unfold p_elem, p_tableidx, p_funcidx. m_single. Qed.
Lemma single_data : single p_data.
Proof. pose proof single_constexpr. unfold p_data, p_memidx. m_single. Qed.
Lemma single_start : single p_start. Proof. unfold p_start, p_funcidx. m_single. Qed.
Lemma single_importdesc : single p_importdesc.
Proof.
  pose proof single_tablety. pose proof single_memty. pose proof single_globalty. unfold p_importdesc, p_typeidx.
  apply single_bind; [apply single_byte|]. intros []; m_single.
Qed.
Lemma single_exportdesc : single p_exportdesc.
Proof.
  unfold p_exportdesc, p_funcidx, p_tableidx, p_memidx, p_globalidx.
  apply single_bind; [apply single_byte|]. intros []; m_single.
Qed.
Lemma single_import : single p_import. Proof. pose proof single_importdesc. unfold p_import. m_single. Qed.
Lemma single_export : single p_export. Proof. pose proof single_exportdesc. unfold p_export. m_single. Qed.
Lemma single_custom : single p_custom. Proof. pose proof single_consume. unfold p_custom. m_single. Qed.
Lemma single_section id s : single (p_section id s).
Proof.
  pose proof single_custom. pose proof single_functy. pose proof single_import. pose proof single_table.
  pose proof single_mem. pose proof single_global. pose proof single_export. pose proof single_start.
  pose proof single_elem. pose proof single_func. pose proof single_data.
  unfold p_section, p_typeidx. destruct id; try apply single_fail; m_single.
  destruct (negb _); [apply single_fail|]. destruct (assign_types _ _ _); [apply single_ret|apply single_const..].
Qed.
Lemma single_element A (p : parser A) : element A p -> single p.
Proof.
  induction 1; try (first [apply single_byte|apply single_unsigned|apply single_signed|apply single_float|apply single_string
    |apply single_limits|apply single_valty|apply single_elemty|apply single_retval|apply single_functy|apply single_tablety
    |apply single_memty|apply single_mut|apply single_globalty|apply single_instr_top|apply single_expr|apply single_constexpr
    |apply single_func|apply single_table|apply single_mem|apply single_global|apply single_elem|apply single_data|apply single_start
    |apply single_importdesc|apply single_exportdesc|apply single_import|apply single_export|apply single_section]).
  - apply single_sized, single_custom.
  - apply single_vec; assumption.
  - apply single_unwrapping_vec; assumption.
  - apply single_compact_vec; assumption.
  - apply single_times; assumption.
  - apply single_sized; assumption.
Qed.

(** ** Modules *)
Lemma single_sections fuel : forall s, single (p_sections fuel s).
Proof.
  induction fuel as [|f IH]; intros s; [apply single_const|].
  split; [apply suffixing_sections|]. intros pre r o H NE r'. destruct pre as [|id pre]; cbn [app] in *.
  - destruct r as [|id r]; [contradiction|exfalso]. rewrite sections_cons in H.
    assert (S : forall o', (o', r) <> (o, id :: r)).
    { intros o' X. injection X as _ X. apply (f_equal (@length byte)) in X. cbn in X. lia. }
    destruct (_ && _); [eapply S, H|].
    assert (SF : suffixing (bind (p_section id (mark s id)) (p_sections f))).
    { apply suffixing_bind; [apply suffixing_section|]. intros; apply suffixing_sections. }
    destruct (SF r) as [q E]. rewrite H in E. cbn [snd] in E. apply (f_equal (@length byte)) in E.
    rewrite app_length in E. cbn in E. lia.
  - rewrite sections_cons in *. destruct (_ && _).
    + apply (single_const (Err (UnexpectedSectionId id))) with (r := r); assumption.
    + refine (proj2 (single_bind (p_section id _) _ (single_section _ _) (fun s2 => IH s2)) pre r o H NE r').
Qed.
Lemma single_module : single p_module.
Proof.
  unfold p_module. apply single_bind; [apply single_times, single_byte|]. intros magic.
  destruct (negb _); [apply single_fail|]. apply single_bind; [apply single_times, single_byte|]. intros version.
  destruct (negb _); [apply single_fail|].
  assert (Q : forall F, single (s <- p_sections F (mkPstate default_module [] 0) ;; ret (ps_result s))).
  { intros F. apply single_map, single_sections. }
  split; [intros bs; apply Q|]. intros pre r o H NE r'.
  set (F := (S (length (pre ++ r)) + S (length (pre ++ r')))%nat).
  unfold bind in *. rewrite (sections_fuel _ F) in H by (unfold F; lia).
  rewrite (sections_fuel _ F) by (unfold F; lia).
  refine (proj2 (Q F) pre r o _ NE r'). exact H.
Qed.
Lemma all_one_pass : (forall A (p : parser A), element A p -> one_pass p) /\ one_pass p_module.
Proof. split; [intros A p E; apply (single_element A p E)|apply single_module]. Qed.
(** An error before the end of the file is final. *)
Lemma dead_prefix pre r e : p_module (pre ++ r) = (Err e, r) -> r <> [] ->
  forall r' m, ~ enc_module whasm_format (pre ++ r') m.
Proof.
  intros H NE r' m E. assert (X : p_module (pre ++ r') = (Ok m, [])) by (apply module_exact; auto).
  rewrite (proj2 single_module _ _ _ H NE r') in X. discriminate.
Qed.

(** ** One meaning *)
Lemma one_reading bs m : p_module bs = (Ok m, []) ->
  forall d m', d = whasm_format \/ d = wasm10_format -> enc_module d bs m' -> m' = m.
Proof.
  intros H d m' [->| ->] E.
  - assert (X : p_module bs = (Ok m', [])) by (apply module_exact; auto). congruence.
  - apply official_parses in E. congruence.
Qed.
Lemma one_reading_expr p1 p2 r1 r2 e1 e2 : enc_expr whasm_format p1 e1 -> enc_expr whasm_format p2 e2 ->
  p1 ++ r1 = p2 ++ r2 -> p1 = p2 /\ e1 = e2 /\ r1 = r2.
Proof.
  intros E1 E2 H. destruct (exact_prefix_free _ _ exact_expr _ _ _ _ _ _ E1 E2 H) as [-> ->].
  apply app_inv_head in H. auto.
Qed.
