(** Lemmas behind the property theorems about instructions and modules. *)
From Coq Require Import String Lia ZifyN ZifyNat.
From Verif Require Import ParserModule SpecFormat SpecCode ParserMeta TypesProof InstrProof ModuleProof
  SectionsProof CodeProof DialectProof ElementSpec.
Open Scope N_scope.

(** ** C16-C18: prefixes of the list of sections *)
Lemma section_runs fd id pre sec : enc_section fd (id :: pre) sec -> Byte.to_N id = section_id sec /\ byte_is id 0 = is_custom sec.
Proof. intros H. destruct (section_first _ _ _ H) as (id' & r & E & H1 & H2). injection E as <- <-. auto. Qed.

Lemma section_bad id pre sec s tl : enc_section whasm_format (id :: pre) sec -> ~ sec_ok s sec ->
  p_section id s (pre ++ tl) = (Err UnexpectedEndOfFile, tl).
Proof.
  intros H N. destruct sec; try (exfalso; apply N; exact I).
  destruct H as (b & E & H). injection E as -> ->.
  assert (X : p_sized (p_unwrapping_vec (p_sized p_func) (fun f => f)) (b ++ tl)
     = (Ok (map (fun c : code => mkFunc 0 (fst c) (snd c)) v), tl)).
  { apply (exact_sized _ (fun bs fs => exists cs, enc_vec whasm_format (enc_code whasm_format) bs cs /\ fs = map (fun c : code => mkFunc 0 (fst c) (snd c)) cs)).
    - rewrite unwrapping_vec. pose proof suffixing_func. m_suffixing.
    - apply exact_code_vec.
    - exists b. split; [reflexivity|]. apply enc_sized_map. eauto. }
  unfold p_section. unfold bind at 1. rewrite X. rewrite map_length. cbn in N.
  destruct (Nat.eqb_spec (List.length v) (List.length (ps_func_types s))); [contradiction|reflexivity].
Qed.

(** Sections that have been run; continue with the rest *)
Lemma sections_prefix b1 secs : enc_list (enc_section whasm_format) b1 secs -> forall s s' tl fuel,
  run s secs s' -> (length (b1 ++ tl) < fuel)%nat ->
  p_sections fuel s (b1 ++ tl) = p_sections (S (length tl)) s' tl.
Proof.
  intros (ch & F & ->). induction F as [|c sec ch secs E F IH]; intros s s' tl fuel R L.
  - inversion R; subst. cbn [concat app] in *. apply sections_fuel; lia.
  - inversion R as [|? ? ? ? O OK R']; subst. destruct fuel as [|f]; [lia|].
    destruct (section_first _ _ _ E) as (id & r & -> & E2 & E3). cbn [concat app] in *.
    rewrite sections_cons. rewrite E3, E2.
    assert (M : mark s id = marks s sec) by (unfold mark, marks; rewrite E3, E2; reflexivity).
    replace (negb (is_custom sec) && (section_id sec <=? ps_last_id s)) with false.
    2: { symmetry. destruct (is_custom sec); [reflexivity|]. cbn. apply N.leb_gt. auto. }
    assert (X : p_section id (mark s id) ((r ++ concat ch) ++ tl) = (Ok (step (marks s sec) sec), concat ch ++ tl)).
    { rewrite M. rewrite <- app_assoc. apply exact_section. eauto 10. }
    unfold bind. rewrite X. apply IH; [assumption|]. rewrite !app_length in *. cbn in L. rewrite !app_length in L. lia.
Qed.
(** Sections that cannot be run: the outcome does not depend on what follows *)
Lemma sections_stuck b1 secs : enc_list (enc_section whasm_format) b1 secs -> forall s,
  (exists s', run s secs s') \/
  exists e, forall tl fuel, (length (b1 ++ tl) < fuel)%nat -> fst (p_sections fuel s (b1 ++ tl)) = Err e.
Proof.
  intros (ch & F & ->). induction F as [|c sec ch secs E F IH]; intros s.
  - left. exists s. constructor.
  - destruct (section_first _ _ _ E) as (id & r & -> & E2 & E3).
    assert (M : mark s id = marks s sec) by (unfold mark, marks; rewrite E3, E2; reflexivity).
    destruct (negb (byte_is id 0) && (Byte.to_N id <=? ps_last_id s)) eqn:C.
    + right. exists (UnexpectedSectionId id). intros tl [|f] L; [lia|]. cbn [concat app]. rewrite sections_cons, C. reflexivity.
    + assert (D : sec_ok (marks s sec) sec \/ ~ sec_ok (marks s sec) sec).
      { destruct sec; cbn; auto.
        match goal with |- ?a = ?b \/ _ => destruct (Nat.eq_dec a b); auto end. }
      destruct D as [OK|NOK].
      * assert (X : forall tl, p_section id (mark s id) ((r ++ concat ch) ++ tl) = (Ok (step (marks s sec) sec), concat ch ++ tl)).
        { intros tl. rewrite M. rewrite <- app_assoc. apply exact_section. eauto 10. }
        destruct (IH (step (marks s sec) sec)) as [[s' R]|[e H]].
        -- left. exists s'. constructor; [|assumption|assumption]. intros Z. rewrite E3, Z, E2 in C. cbn in C.
           apply N.leb_gt in C. assumption.
        -- right. exists e. intros tl [|f] L; [lia|]. cbn [concat app] in *. rewrite sections_cons, C. unfold bind.
           rewrite X. apply H. rewrite !app_length in *. cbn in L. rewrite !app_length in L. lia.
      * right. exists UnexpectedEndOfFile. intros tl [|f] L; [lia|]. cbn [concat app] in *. rewrite sections_cons, C.
        unfold bind. rewrite M, <- !app_assoc. rewrite (section_bad _ _ _ _ _ E NOK). reflexivity.
Qed.

Lemma last_id_max secs : ordered secs -> forall s, In s secs -> is_custom s = false -> section_id s <= last_id 0 secs.
Proof.
  unfold ordered. fold (ids secs). generalize 0. induction secs as [|x secs IH]; intros lo O s I C; [destruct I|].
  cbn [last_id]. unfold ids in O. cbn [filter] in O. destruct I as [->|I].
  - rewrite C in *. cbn in O. apply last_id_ge. apply O.
  - destruct (is_custom x); [apply IH; assumption|]. cbn in O. apply IH; [apply O|assumption|assumption].
Qed.
Lemma last_id_bound secs : last_id 0 secs <= 11.
Proof.
  assert (G : forall lo, lo <= 11 -> last_id lo secs <= 11); [|apply G; lia].
  induction secs as [|s secs IH]; intros lo L; cbn [last_id]; [assumption|]. apply IH.
  destruct s; cbn; try assumption; lia.
Qed.

(** C16 *)
Lemma order_error b1 secs id rest :
  enc_list (enc_section whasm_format) b1 secs -> ordered secs -> counts_match whasm_format secs ->
  id <> x00 ->
  ((exists s, In s secs /\ is_custom s = false /\ Byte.to_N id <= section_id s) ->
     p_module (preamble ++ b1 ++ id :: rest) = (Err (UnexpectedSectionId id), rest)) /\
  (11 < Byte.to_N id -> p_module (preamble ++ b1 ++ id :: rest) = (Err (InvalidSectionId id), rest)).
Proof.
  intros E O C NZ.
  assert (R : p_module (preamble ++ b1 ++ id :: rest) =
    bind (fun bs => p_sections (S (length bs)) (state_of secs) bs) (fun s => ret (ps_result s)) (id :: rest)).
  { rewrite module_preamble. unfold bind, p_body. rewrite (sections_prefix b1 secs E _ (state_of secs)); [reflexivity| |lia].
    apply run_init. auto. }
  rewrite R. unfold bind at 1 2. rewrite sections_cons. cbn [state_of ps_last_id].
  assert (NB : byte_is id 0 = false) by (destruct id; try reflexivity; congruence).
  rewrite NB. cbn [negb andb]. split.
  - intros (s & I & CU & LE). pose proof (last_id_max secs O s I CU).
    replace (Byte.to_N id <=? last_id 0 secs) with true by (symmetry; apply N.leb_le; lia). reflexivity.
  - intros L. pose proof (last_id_bound secs).
    replace (Byte.to_N id <=? last_id 0 secs) with false by (symmetry; apply N.leb_gt; lia).
    unfold bind, mark. rewrite NB.
    assert (X : forall st bs, p_section id st bs = (Err (InvalidSectionId id), bs)).
    { intros st bs. destruct id; try reflexivity; exfalso; cbn in L; lia. }
    rewrite X. reflexivity.
Qed.
Lemma increasing_nodup lo l : increasing lo l -> NoDup l.
Proof.
  revert lo; induction l as [|x l IH]; intros lo I; [constructor|]. cbn in I. destruct I as [_ I].
  constructor; [|eapply IH; exact I]. intros X. apply (increasing_lt _ _ _ I) in X. lia.
Qed.
Lemma no_duplicates bs m rest : p_module bs = (Ok m, rest) ->
  exists body secs, bs = preamble ++ body /\ enc_list (enc_section whasm_format) body secs /\
    NoDup (map section_id (filter (fun s => negb (is_custom s)) secs)).
Proof.
  intros H. apply module_exact in H. destruct H as (_ & body & secs & -> & E & O & _).
  exists body, secs. split; [reflexivity|]. split; [assumption|]. eapply increasing_nodup, O.
Qed.

(** C17 *)
Lemma custom_run s cs : run s (map S_Custom cs) s.
Proof. induction cs as [|c cs IH]; cbn; constructor; [discriminate|exact I|exact IH]. Qed.
Lemma custom_transparent b1 secs c cs b2 :
  enc_list (enc_section whasm_format) b1 secs -> enc_list (enc_section whasm_format) c (map S_Custom cs) ->
  fst (p_module (preamble ++ b1 ++ c ++ b2)) = fst (p_module (preamble ++ b1 ++ b2)).
Proof.
  intros E1 E2. rewrite !module_preamble. unfold bind, p_body.
  destruct (sections_stuck b1 secs E1 (mkPstate default_module [] 0)) as [[s' R]|[e H]].
  - rewrite (sections_prefix b1 secs E1 _ s' (c ++ b2)) by (auto; lia).
    rewrite (sections_prefix b1 secs E1 _ s' b2) by (auto; lia).
    rewrite (sections_prefix c _ E2 _ s' b2); [reflexivity|apply custom_run|lia].
  - pose proof (H (c ++ b2) (S (length (b1 ++ c ++ b2))) ltac:(lia)) as X1.
    pose proof (H b2 (S (length (b1 ++ b2))) ltac:(lia)) as X2.
    destruct (p_sections _ _ (b1 ++ c ++ b2)) as [o1 r1], (p_sections _ _ (b1 ++ b2)) as [o2 r2].
    cbn [fst] in X1, X2. subst. reflexivity.
Qed.

(** C18 *)
Lemma sections_of_accepted body secs m rest :
  enc_list (enc_section whasm_format) body secs -> p_module (preamble ++ body) = (Ok m, rest) ->
  ordered secs /\ counts_match whasm_format secs /\ m = module_of secs /\ rest = [].
Proof.
  intros E H. rewrite module_preamble in H. apply bind_ok in H. destruct H as (s & r & H & K).
  injection K as <- <-. unfold p_body in H.
  destruct (sections_stuck body secs E (mkPstate default_module [] 0)) as [[s' R]|[e X]].
  - pose proof R as R'. apply run_init in R'. destruct R' as (O & C & ->).
    rewrite (run_init_ok body secs E O C) in H by lia. injection H as <- <-. auto.
  - specialize (X [] (S (length body))). rewrite app_nil_r in X. specialize (X ltac:(lia)).
    rewrite H in X. discriminate.
Qed.
Lemma nth_combine {A B} (a : list A) : forall (b : list B) i p, nth_error (combine a b) i = Some p <->
  nth_error a i = Some (fst p) /\ nth_error b i = Some (snd p).
Proof.
  induction a as [|x a IH]; intros b i [u v].
  - destruct i; cbn; (split; [discriminate|intros [X _]; discriminate]).
  - destruct b as [|y b]; [destruct i; cbn; (split; [discriminate|intros [_ X]; discriminate])|].
    destruct i; cbn; [|apply IH]. split; [intros [= -> ->]; auto|intros [[= ->] [= ->]]; reflexivity].
Qed.
Lemma pairing body secs m rest :
  enc_list (enc_section whasm_format) body secs -> p_module (preamble ++ body) = (Ok m, rest) ->
  (forall i f, nth_error (m_funcs m) i = Some f <->
     exists t ls e, nth_error (flat_map sec_typeidxs secs) i = Some t /\
       nth_error (flat_map sec_codes secs) i = Some (ls, e) /\ f = mkFunc t ls e) /\
  (has_code secs -> length (m_funcs m) = length (flat_map sec_typeidxs secs) /\
     length (m_funcs m) = length (flat_map sec_codes secs)).
Proof.
  intros E H. destruct (sections_of_accepted _ _ _ _ E H) as (O & C & -> & _). split.
  - intros i f. cbn [module_of m_funcs]. unfold pair_funcs. split.
    + intros N. rewrite nth_error_map in N. destruct (nth_error (combine _ _) i) as [[t [ls e]]|] eqn:X; [|discriminate].
      apply nth_combine in X. cbn [fst snd option_map] in *. injection N as <-. exists t, ls, e. tauto.
    + intros (t & ls & e & N1 & N2 & ->). rewrite nth_error_map.
      match goal with |- option_map _ ?x = _ => assert (X : x = Some (t, (ls, e))) by (apply nth_combine; auto) end.
      rewrite X. reflexivity.
  - intros HC. destruct C as [C|[_ C]]; [|contradiction]. cbn [module_of m_funcs]. unfold pair_funcs.
    rewrite map_length, combine_length, C, Nat.min_id. auto.
Qed.
Lemma no_code body secs : enc_list (enc_section whasm_format) body secs -> ordered secs -> ~ has_code secs ->
  p_module (preamble ++ body) = (Ok (module_of secs), []) /\ m_funcs (module_of secs) = [].
Proof.
  intros E O C. split.
  - apply module_exact. split; [reflexivity|]. exists body, secs. split; [reflexivity|]. split; [exact E|]. split; [exact O|].
    split; [|reflexivity]. right. split; [exact I|exact C].
  - assert (H : flat_map sec_codes secs = []).
    { clear -C. induction secs as [|s secs IH]; [reflexivity|]. cbn [flat_map].
      rewrite IH by (intros [v I]; apply C; exists v; right; exact I). destruct s; try reflexivity. exfalso. apply C. exists v. left. reflexivity. }
    cbn [module_of m_funcs]. rewrite H. unfold pair_funcs. rewrite combine_nil. reflexivity.
Qed.
Lemma wrong_count b1 secs v tl :
  enc_list (enc_section whasm_format) b1 (secs ++ [S_Code v]) -> ordered (secs ++ [S_Code v]) ->
  length v <> length (flat_map sec_typeidxs secs) ->
  p_module (preamble ++ b1 ++ tl) = (Err UnexpectedEndOfFile, tl).
Proof.
  intros (ch & F & ->) O N. apply Forall2_app_inv_r in F. destruct F as (c1 & c2 & F1 & F2 & ->).
  inversion F2 as [|c sec ? ? E F3]; subst. inversion F3; subst. clear F2 F3.
  rewrite concat_app. cbn [concat]. rewrite app_nil_r, <- app_assoc.
  destruct (section_first _ _ _ E) as (id & r & -> & E2 & E3). cbn [app].
  assert (O1 : ordered secs /\ increasing (last_id 0 secs) (ids [S_Code v])) by (apply increasing_app in O; exact O).
  destruct O1 as [O1 O2]. unfold ids in O2. cbn in O2. destruct O2 as [O2 _].
  rewrite module_preamble. unfold bind, p_body.
  rewrite (sections_prefix (concat c1) secs (ex_intro _ c1 (conj F1 eq_refl)) _ (state_of secs)); [| |lia].
  2: { apply run_init. split; [assumption|]. split; [|reflexivity]. right. split; [exact I|].
       intros [w I]. pose proof (last_id_max _ O1 (S_Code w) I eq_refl) as LM. cbn in LM. lia. }
  rewrite sections_cons, E3, E2. cbn [is_custom negb andb section_id state_of ps_last_id].
  replace (10 <=? last_id 0 secs) with false by (symmetry; apply N.leb_gt; lia).
  unfold bind. rewrite (section_bad _ _ _ _ _ E); [reflexivity|].
  unfold mark. rewrite E3. cbn. assumption.
Qed.

(** ** C19-C21: all elements *)
Lemma local_map {A B} (p : parser A) (u : A -> B) : local p -> local (x <- p ;; ret (u x)).
Proof. intros L. apply local_bind; [assumption|]. intros a. apply local_ret. Qed.
Lemma local_err_custom : local_err p_custom.
Proof.
  unfold p_custom. apply local_err_bind; [apply local_string|apply local_string|].
  intros n bs e r H. discriminate.
Qed.
Lemma local_section id s : local (p_section id s).
Proof.
  assert (V : forall A B (p : parser A) (f : A -> parser B), suffixing p -> local p -> (forall a, local (f a)) ->
    local (bind (p_sized p) f)).
  { intros A B p f S L F. apply local_bind; [apply local_sized; [assumption|apply L]|assumption]. }
  assert (W : forall A B (p : parser A) (u : A -> B), suffixing p -> local p -> local (bind (p_sized (p_vec p)) (fun v => ret v))).
  { intros A B p u S L. apply V; [apply suffixing_vec; assumption|apply local_vec; assumption|intros; apply local_ret]. }
  unfold p_section, p_typeidx. destruct id; try apply local_fail.
  - apply local_bind; [apply local_sized; [apply suffixing_custom|apply local_err_custom]|]. intros; apply local_ret.
  - apply V; [apply suffixing_vec, suffixing_functy|apply local_vec, local_functy|intros; apply local_ret].
  - apply V; [apply suffixing_vec, suffixing_import|apply local_vec, local_import|intros; apply local_ret].
  - apply V; [apply suffixing_vec, suffixing_u32|apply local_vec, local_u32|intros; apply local_ret].
  - apply V; [apply suffixing_vec, suffixing_table|apply local_vec, local_table|intros; apply local_ret].
  - apply V; [apply suffixing_vec, suffixing_mem|apply local_vec, local_mem|intros; apply local_ret].
  - apply V; [apply suffixing_vec, suffixing_global|apply local_vec, local_global|intros; apply local_ret].
  - apply V; [apply suffixing_vec, suffixing_export|apply local_vec, local_export|intros; apply local_ret].
  - apply V; [apply suffixing_start|apply local_start|intros; apply local_ret].
  - apply V; [apply suffixing_vec, suffixing_elem|apply local_vec, local_elem|intros; apply local_ret].
  - rewrite unwrapping_vec. apply V.
    + pose proof suffixing_func. m_suffixing.
    + apply local_vec, local_map, local_sized; [apply suffixing_func|apply local_func].
    + intros fs. destruct (Nat.eqb_spec (List.length fs) (List.length (ps_func_types s))) as [L|L]; cbn [negb]; [|apply local_fail].
      destruct (assign_types_ok _ _ L) as [r ->]. apply local_ret.
  - apply V; [apply suffixing_vec, suffixing_data|apply local_vec, local_data|intros; apply local_ret].
Qed.
Record tame {A} (p : parser A) : Prop := mkTame {
  tame_suffixing : suffixing p; tame_safe : safe p; tame_local : local p }.
Lemma element_tame A (p : parser A) : element A p -> tame p.
Proof.
  assert (U : forall n, 8 <= n -> tame (p_unsigned n)).
  { intros n H. split; [apply suffixing_unsigned|apply safe_unsigned; assumption|split; [apply local_ok_unsigned; assumption|apply local_err_unsigned]]. }
  assert (S : forall n, 8 <= n -> tame (p_signed n)).
  { intros n H. split; [apply suffixing_signed|apply safe_signed; assumption|split; [apply local_ok_signed; assumption|apply local_err_signed]]. }
  assert (FL : forall n, tame (p_float LittleEndian n)).
  { intros n. split; [apply suffixing_float|apply safe_float|split; [apply local_ok_float|apply local_err_float]]. }
  induction 1 as [ | | | | | | | | | | | | | | | | | | | | | | | | | | | | | | | | | | | |
    | A p _ IH | A B p u _ IH | A p _ IH | A n p _ IH | A p _ IH].
  - split; [apply suffixing_byte|apply safe_byte|apply local_byte].
  - apply U; lia. - apply U; lia. - apply U; lia. - apply U; lia.
  - apply S; lia. - apply S; lia. - apply S; lia. - apply S; lia.
  - apply FL. - apply FL.
  - split; [apply suffixing_string|apply safe_string|apply local_string].
  - split; [apply suffixing_limits|apply safe_limits|split; [apply local_ok_limits|apply local_err_limits]].
  - split; [apply suffixing_valty|apply safe_valty|apply local_valty].
  - split; [apply suffixing_elemty|apply safe_elemty|split; [apply local_ok_elemty|apply local_err_elemty]].
  - split; [apply suffixing_retval|apply safe_retval|split; [apply local_ok_retval|apply local_err_retval]].
  - split; [apply suffixing_functy|apply safe_functy|apply local_functy].
  - split; [apply suffixing_tablety|apply safe_tablety|apply local_tablety].
  - split; [apply suffixing_memty|apply safe_memty|apply local_memty].
  - split; [apply suffixing_mut|apply safe_mut|split; [apply local_ok_mut|apply local_err_mut]].
  - split; [apply suffixing_globalty|apply safe_globalty|apply local_globalty].
  - split; [apply suffixing_instr_top|apply safe_instr_top|split; [apply local_ok_instr_top|apply local_err_instr_top]].
  - split; [apply suffixing_expr|apply safe_expr|apply local_expr].
  - split; [apply suffixing_expr|apply safe_expr|apply local_expr].
  - split; [apply suffixing_func|apply safe_func|apply local_func].
  - split; [apply suffixing_table|apply safe_table|apply local_table].
  - split; [apply suffixing_mem|apply safe_mem|apply local_mem].
  - split; [apply suffixing_global|apply safe_global|apply local_global].
  - split; [apply suffixing_elem|apply safe_elem|apply local_elem].
  - split; [apply suffixing_data|apply safe_data|apply local_data].
  - split; [apply suffixing_start|apply safe_start|apply local_start].
  - split; [apply suffixing_importdesc|apply safe_importdesc|apply local_importdesc].
  - split; [apply suffixing_exportdesc|apply safe_exportdesc|apply local_exportdesc].
  - split; [apply suffixing_import|apply safe_import|apply local_import].
  - split; [apply suffixing_export|apply safe_export|apply local_export].
  - split; [apply suffixing_sized, suffixing_custom|apply safe_sized, safe_custom|apply local_sized; [apply suffixing_custom|apply local_err_custom]].
  - split; [apply suffixing_section|apply safe_section|apply local_section].
  - destruct IH as [I1 I2 I3]. split; [apply suffixing_vec|apply safe_vec|apply local_vec]; assumption.
  - destruct IH as [I1 I2 I3]. rewrite unwrapping_vec.
    split; [apply suffixing_vec, suffixing_bind; [|intros; apply suffixing_ret]|apply safe_vec, safe_bind; [|intros; apply safe_ret]|apply local_vec, local_map]; assumption.
  - destruct IH as [I1 I2 I3]. split; [apply suffixing_compact_vec|apply safe_compact_vec|apply local_compact_vec]; assumption.
  - destruct IH as [I1 I2 I3]. unfold p_array. split; [apply suffixing_times|apply safe_times|split; [apply local_ok_times|apply local_err_times]]; first [assumption|apply I3].
  - destruct IH as [I1 I2 I3]. split; [apply suffixing_sized|apply safe_sized|apply local_sized; [|apply I3]]; assumption.
Qed.
Lemma element_safe A (p : parser A) : element A p -> safe p.
Proof. intros E. apply (element_tame A p E). Qed.
Lemma element_local A (p : parser A) : element A p -> suffixing p /\ local_ok p /\ local_err p.
Proof. intros E. destruct (element_tame A p E) as [? ? []]. auto. Qed.
Lemma element_truncation A (p : parser A) : element A p -> truncation_safe p.
Proof. intros E. destruct (element_tame A p E) as [? ? []]. apply truncation; assumption. Qed.

(** Cutting a module *)
Lemma module_truncation body m pre suf :
  p_module (preamble ++ body) = (Ok m, []) -> preamble ++ body = pre ++ suf ->
  (forall b1 secs1, enc_list (enc_section whasm_format) b1 secs1 -> pre <> preamble ++ b1) ->
  exists e r, p_module pre = (Err e, r) /\ early_end e.
Proof.
  intros H E NB.
  destruct (Nat.ltb_spec (length pre) 8) as [L|L].
  - (* inside the preamble *)
    assert (P : pre = firstn (length pre) preamble).
    { apply (f_equal (firstn (length pre))) in E. rewrite (firstn_app (length pre) pre), Nat.sub_diag, firstn_all, firstn_O, app_nil_r in E.
      rewrite firstn_app in E. replace (length pre - length preamble)%nat with O in E by (cbn; lia).
      rewrite firstn_O, app_nil_r in E. symmetry. exact E. }
    destruct (Nat.ltb_spec (length pre) 4) as [L4|L4].
    + exists UnexpectedEndOfFile, []. split; [apply module_short; assumption|left; reflexivity].
    + exists UnexpectedEndOfFile, []. split; [|left; reflexivity].
      rewrite P. destruct (length pre) as [|[|[|[|[|[|[|[|n]]]]]]]]; try lia; reflexivity.
  - assert (P : exists p, pre = preamble ++ p /\ body = p ++ suf).
    { exists (skipn 8 pre). assert (X : firstn 8 pre = preamble).
      { apply (f_equal (firstn 8)) in E. rewrite firstn_app in E. change (length preamble) with 8%nat in E.
        rewrite Nat.sub_diag, firstn_O, app_nil_r in E. change (firstn 8 preamble) with preamble in E.
        rewrite firstn_app in E. replace (8 - length pre)%nat with O in E by lia. rewrite firstn_O, app_nil_r in E. auto. }
      assert (Y : pre = preamble ++ skipn 8 pre) by (rewrite <- X at 1; symmetry; apply firstn_skipn).
      split; [assumption|]. rewrite Y in E. rewrite <- app_assoc in E. apply app_inv_head in E. assumption. }
    destruct P as (p & -> & ->). clear L E.
    apply module_exact in H. destruct H as (_ & body & secs & E & EL & O & C & ->).
    apply app_inv_head in E. subst body. destruct EL as (ch & F & E).
    assert (NB' : forall b1 secs1, enc_list (enc_section whasm_format) b1 secs1 -> p <> b1).
    { intros b1 secs1 X ->. eapply NB; [eassumption|reflexivity]. }
    clear NB.
    assert (R : run (mkPstate default_module [] 0) secs (state_of secs)) by (apply run_init; auto).
    rewrite module_preamble. unfold bind, p_body.
    assert (G : exists e r, p_sections (S (length p)) (mkPstate default_module [] 0) p = (Err e, r) /\ early_end e).
    2: { destruct G as (e & r & G & EE). rewrite G. eauto. }
    assert (LF : (length p < S (length p))%nat) by lia. revert LF. generalize (S (length p)) as fuel.
    clear O C. revert p E NB' R. generalize (state_of secs). intros s' p E NB' R. revert p E NB'.
    remember (mkPstate default_module [] 0) as s eqn:Es. clear Es. revert s R.
    induction F as [|c sec ch secs H F IH]; intros s R p E NB' fuel LF.
    + exfalso. destruct p; [|discriminate]. apply (NB' [] []); [exists []; split; [constructor|reflexivity]|reflexivity].
    + inversion R as [|? ? ? ? OO OK R']; subst. destruct fuel as [|f]; [lia|].
      destruct (section_first _ _ _ H) as (id & r & -> & E2 & E3). cbn [concat app] in E.
      destruct p as [|id' p]; [exfalso; apply (NB' [] []); [exists []; split; [constructor|reflexivity]|reflexivity]|].
      cbn [app] in E. injection E as -> E.
      rewrite sections_cons, E3, E2.
      assert (M : mark s id = marks s sec) by (unfold mark, marks; rewrite E3, E2; reflexivity).
      replace (negb (is_custom sec) && (section_id sec <=? ps_last_id s)) with false.
      2: { symmetry. destruct (is_custom sec); [reflexivity|]. cbn. apply N.leb_gt. auto. }
      assert (X : forall tl, p_section id (mark s id) (r ++ tl) = (Ok (step (marks s sec) sec), tl)).
      { intros tl. rewrite M. apply exact_section. eauto 10. }
      destruct (Nat.ltb_spec (length p) (length r)) as [Lp|Lp].
      * destruct (truncation (p_section id (mark s id)) (safe_section _ _) (proj1 (local_section _ _)) (proj2 (local_section _ _))
          p suf (step (marks s sec) sec) (concat ch)) as (e & r' & T & EE).
        { rewrite E. apply X. }
        { apply (f_equal (@length byte)) in E. rewrite !app_length in E. lia. }
        unfold bind. rewrite T. eauto.
      * assert (P : p = r ++ skipn (length r) p /\ skipn (length r) p ++ suf = concat ch).
        { assert (FR : firstn (length r) p = r).
          { apply (f_equal (firstn (length r))) in E. rewrite !firstn_app, Nat.sub_diag, firstn_all, firstn_O, app_nil_r in E.
            replace (length r - length p)%nat with O in E by lia. rewrite firstn_O, app_nil_r in E. exact E. }
          split; [rewrite <- FR at 1; symmetry; apply firstn_skipn|].
          apply (f_equal (skipn (length r))) in E. rewrite !skipn_app, Nat.sub_diag, skipn_all, skipn_O in E.
          replace (length r - length p)%nat with O in E by lia. rewrite skipn_O in E. exact E. }
        destruct P as [P1 P2]. rewrite P1. unfold bind. rewrite X. apply IH.
        -- assumption.
        -- assumption.
        -- intros b1 secs1 (ch1 & F1 & ->) Q. apply (NB' (id :: r ++ concat ch1) (sec :: secs1)).
           ++ exists ((id :: r) :: ch1). split; [constructor; assumption|reflexivity].
           ++ rewrite P1, Q at 1. reflexivity.
        -- rewrite P1 in LF. cbn in LF. rewrite app_length in LF. lia.
Qed.
