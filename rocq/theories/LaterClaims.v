(** Files of WebAssembly 2.0 (C67): modules that are accepted, and a file that is misread. *)
From Coq Require Import Lia.
From Verif Require Import SpecLater LaterProof ParserModule SpecParser ParserMeta SpecVerdict SpecRefs ValidityClaims SpecCode EncodeProof ModuleClaims2.
Open Scope N_scope.
Open Scope list_scope.

Lemma count_map {A B} (f : B -> bool) (g : A -> B) l : count f (map g l) = count (fun x => f (g x)) l.
Proof. unfold count. induction l as [|x l IH]; [reflexivity|]. cbn. destruct (f (g x)); cbn; congruence. Qed.
Lemma later_tables m : tables2 (later_module m) = length (table_space m).
Proof.
  unfold tables2, table_space, later_module. cbn [m2_imports m2_tables m2_mems]. rewrite count_map, app_length, !map_length. f_equal.
  unfold imported_tables, count. induction (m_imports m) as [|[mo na []] l IH]; cbn; [reflexivity|exact IH|f_equal; exact IH|exact IH..].
Qed.
Lemma later_mems m : mems2 (later_module m) = length (mem_space m).
Proof.
  unfold mems2, mem_space, later_module. cbn [m2_imports m2_tables m2_mems]. rewrite count_map, app_length, !map_length. f_equal.
  unfold imported_mems, count. induction (m_imports m) as [|[mo na []] l IH]; cbn; [reflexivity|exact IH|exact IH|f_equal; exact IH|exact IH].
Qed.
Lemma tables2_rest m m' : except_segments m = except_segments m' -> tables2 m = tables2 m' /\ mems2 m = mems2 m'.
Proof.
  intros E. split; [change (tables2 (except_segments m) = tables2 (except_segments m'))|
    change (mems2 (except_segments m) = mems2 (except_segments m'))]; rewrite E; reflexivity.
Qed.
Lemma read_accepted fd bs m m2 : p_module bs = (Ok m, []) -> accepted m -> enc2_module fd bs m2 ->
  (tables2 m2 <= 1)%nat -> (mems2 m2 <= 1)%nat -> m2 = later_module m.
Proof.
  intros P A E T M. destruct (tables2_rest _ _ (read_rest fd bs m m2 P E)) as [ET EM]. rewrite ET, later_tables in T.
  rewrite EM, later_mems in M. destruct (accepted_no_dangling m A) as [R _].
  apply (read_same fd bs m m2 P E).
  - intros e H. assert (L : el_table e < size m 0 S_Table).
    { apply R. unfold module_refs. apply in_or_app; right. apply in_or_app; left. apply in_flat_map. exists e. split; [exact H|left; reflexivity]. }
    unfold size in L. lia.
  - intros d H. assert (L : da_mem d < size m 0 S_Mem).
    { apply R. unfold module_refs. apply in_or_app; right. apply in_or_app; right. apply in_or_app; left.
      apply in_map_iff. exists d. auto. }
    unfold size in L. lia.
Qed.

(** ** A file that is misread *)
Definition import_table : list byte := [x00; x00; x01; x70; x00; x00].
Definition import_global : list byte := [x00; x00; x03; x7f; x00].
Definition import_func : list byte := [x00; x00; x00; x00].
Definition misread_imports : list (list byte) := repeat import_table 66 ++ repeat import_global 12 ++ repeat import_func 10.
Definition misread_elem : list byte := [x02; x41; x23; x0b; x0b; x00; x09] ++ repeat x00 9.
Definition misread : list byte :=
  [x00; x61; x73; x6d; x01; x00; x00; x00] ++ [x01; x04; x01; x60; x00; x00]
  ++ ([x02; xf1; x03; x58] ++ concat misread_imports) ++ ([x09; x11; x01] ++ misread_elem).
Definition imports_later : list import2 :=
  repeat (mkImport2 [] [] (ID2_table (mkTableTy2 (mkLimits 0 None) R_func))) 66
  ++ repeat (mkImport2 [] [] (ID2_global (mkGlobalTy2 Const (W_num T_I32)))) 12 ++ repeat (mkImport2 [] [] (ID2_func 0)) 10.
Definition elem_later : elem2 := mkElem2 R_func (ref_funcs (repeat 0 9)) (M_active 65 [J_old (I_GlobalGet 11)]).
Definition misread_secs : list section2 := [S2_type [mkFuncTy2 [] []]; S2_import imports_later; S2_element [elem_later]].

Lemma u32_20 bs v : p_u32 bs = (Ok v, []) -> (length bs <= 5)%nat -> enc_u32 wasm20_format bs v.
Proof.
  intros P L. apply exact_u32 in P. destruct P as (pre & -> & [E _]). rewrite app_nil_r in *. split; [exact E|].
  unfold wasm20_format, fd_int_len, wasm10_format. replace ((32 + 6) / 7) with 5 by reflexivity. lia.
Qed.
Ltac u32 := apply u32_20; [reflexivity|cbn; lia].
Lemma forall2_repeat {A B} (R : A -> B -> Prop) x y n : R x y -> Forall2 R (repeat x n) (repeat y n).
Proof. intros H. induction n; cbn; constructor; assumption. Qed.
Lemma misread_later : enc2_module wasm20_format misread (module2_of misread_secs).
Proof.
  exists ([x01; x04; x01; x60; x00; x00] ++ ([x02; xf1; x03; x58] ++ concat misread_imports) ++ ([x09; x11; x01] ++ misread_elem)), misread_secs.
  split; [reflexivity|]. split.
  - exists [[x01; x04; x01; x60; x00; x00]; [x02; xf1; x03; x58] ++ concat misread_imports; [x09; x11; x01] ++ misread_elem].
    split; [|rewrite !concat_cons; cbn [concat]; rewrite app_nil_r; reflexivity].
    constructor; [|constructor; [|constructor; [|constructor]]].
    + exists [x04; x01; x60; x00; x00]. split; [reflexivity|]. exists [x04], [x01; x60; x00; x00]. split; [reflexivity|]. split; [u32|].
      exists [x01], [x60; x00; x00]. split; [reflexivity|]. split; [u32|]. exists [[x60; x00; x00]]. split; [|reflexivity].
      constructor; [|constructor]. exists [x00], [x00]. split; [reflexivity|].
      split; exists [x00], []; (split; [reflexivity|]; split; [u32|]; exists []; split; [constructor|reflexivity]).
    + exists ([xf1; x03; x58] ++ concat misread_imports). split; [reflexivity|]. exists [xf1; x03], ([x58] ++ concat misread_imports). split; [reflexivity|].
      split; [u32|]. exists [x58], (concat misread_imports). split; [reflexivity|]. split; [u32|]. exists misread_imports. split; [|reflexivity].
      assert (N0 : enc_name wasm20_format [x00] []).
      { split; [|exists []; split; [constructor|reflexivity]]. exists [x00], []. split; [reflexivity|]. split; [u32|]. exists []. split; [constructor|reflexivity]. }
      apply Forall2_app; [|apply Forall2_app]; apply forall2_repeat; exists [x00], [x00].
      * exists [x01; x70; x00; x00]. split; [reflexivity|]. split; [exact N0|]. split; [exact N0|]. exists [x70; x00; x00]. split; [reflexivity|].
        exists [x70], [x00; x00]. split; [reflexivity|]. split; [reflexivity|]. exists [x00]. split; [reflexivity|u32].
      * exists [x03; x7f; x00]. split; [reflexivity|]. split; [exact N0|]. split; [exact N0|]. exists [x7f; x00]. split; reflexivity.
      * exists [x00; x00]. split; [reflexivity|]. split; [exact N0|]. split; [exact N0|]. exists [x00]. split; [reflexivity|u32].
    + exists ([x11; x01] ++ misread_elem). split; [reflexivity|]. exists [x11], ([x01] ++ misread_elem). split; [reflexivity|]. split; [u32|].
      exists [x01], misread_elem. split; [reflexivity|]. split; [u32|]. exists [misread_elem]. split; [|reflexivity].
      constructor; [|constructor].
      apply (el2_2 _ [x02] [x41] [x23; x0b; x0b] [x00] (x09 :: repeat x00 9)); [u32|u32| |split; reflexivity|].
      * exists [x23; x0b]. split; [reflexivity|]. apply (enc2_instrs_cons _ _ [] [x23; x0b] []); [|constructor].
        apply enc2_old; [reflexivity|]. apply (enc_index _ _ x23 11); [reflexivity|u32].
      * exists [x09], (repeat x00 9). split; [reflexivity|]. split; [u32|]. exists (repeat [x00] 9). split; [|reflexivity].
        apply forall2_repeat. u32.
  - split; [unfold ordered2; cbn; lia|]. split; [reflexivity|]. split; [|reflexivity]. cbn. intros n H. intuition discriminate.
Qed.

Lemma misread_witness : exists bs m m2, p_module bs = (Ok m, []) /\ accepted m /\ enc2_module wasm20_format bs m2 /\ m2 <> later_module m /\
  m_elem m = [mkElem 2 [I_ConstI32 35%Z] (0 :: 9 :: repeat 0 9)] /\
  m2 = mkModule2 [mkFuncTy2 [] []] [] [] [] []
    [mkElem2 R_func (repeat [J_ref_func 0] 9) (M_active 65 [J_old (I_GlobalGet 11)])] [] None
    (repeat (mkImport2 [] [] (ID2_table (mkTableTy2 (mkLimits 0 None) R_func))) 66
     ++ repeat (mkImport2 [] [] (ID2_global (mkGlobalTy2 Const (W_num T_I32)))) 12
     ++ repeat (mkImport2 [] [] (ID2_func 0)) 10) [] None.
Proof.
  eexists misread, _, (module2_of misread_secs). split; [vm_compute; reflexivity|]. split; [eexists; vm_compute; reflexivity|].
  split; [exact misread_later|].
  split; [intros C; apply (f_equal m2_elem) in C; vm_compute in C; discriminate C|]. split; reflexivity.
Qed.

(** ** The forms of segments, and the data count *)
Lemma zero_offset : enc2_expr wasm20_format [x41; x00; x0b] [J_old (I_ConstI32 0%Z)].
Proof.
  exists [x41; x00]. split; [reflexivity|]. apply (enc2_instrs_cons _ _ [] [x41; x00] []); [|constructor]. apply enc2_old; [reflexivity|].
  apply enc_i32_const. split; [|discriminate]. split; [apply leb_last; reflexivity|]. split; [reflexivity|]. split; [discriminate|reflexivity].
Qed.
Lemma null_expr : enc2_expr wasm20_format [xd0; x70; x0b] [J_ref_null R_func].
Proof.
  exists [xd0; x70]. split; [reflexivity|]. apply (enc2_instrs_cons _ _ [] [xd0; x70] []); [|constructor]. apply enc2_ref_null. reflexivity.
Qed.
Lemma one_null : enc_vec wasm20_format (enc2_expr wasm20_format) [x01; xd0; x70; x0b] [[J_ref_null R_func]].
Proof.
  exists [x01], [xd0; x70; x0b]. split; [reflexivity|]. split; [u32|]. exists [[xd0; x70; x0b]]. split; [|reflexivity].
  constructor; [exact null_expr|constructor].
Qed.
Lemma one_index : enc_vec wasm20_format (enc_u32 wasm20_format) [x01; x05] [5].
Proof. exists [x01], [x05]. split; [reflexivity|]. split; [u32|]. exists [[x05]]. split; [|reflexivity]. constructor; [u32|constructor]. Qed.
Lemma one_byte : enc_vec wasm20_format enc_byte [x01; x05] [x05].
Proof. exists [x01], [x05]. split; [reflexivity|]. split; [u32|]. exists [[x05]]. split; [|reflexivity]. constructor; [reflexivity|constructor]. Qed.
Lemma elem_forms :
  Forall2 (enc2_elem wasm20_format)
    [[x00; x41; x00; x0b; x01; x05]; [x01; x00; x01; x05]; [x02; x03; x41; x00; x0b; x00; x01; x05]; [x03; x00; x01; x05];
     [x04; x41; x00; x0b; x01; xd0; x70; x0b]; [x05; x6f; x01; xd0; x70; x0b]; [x06; x03; x41; x00; x0b; x70; x01; xd0; x70; x0b];
     [x07; x70; x01; xd0; x70; x0b]]
    [mkElem2 R_func [[J_ref_func 5]] (M_active 0 [J_old (I_ConstI32 0%Z)]); mkElem2 R_func [[J_ref_func 5]] M_passive;
     mkElem2 R_func [[J_ref_func 5]] (M_active 3 [J_old (I_ConstI32 0%Z)]); mkElem2 R_func [[J_ref_func 5]] M_declarative;
     mkElem2 R_func [[J_ref_null R_func]] (M_active 0 [J_old (I_ConstI32 0%Z)]); mkElem2 R_extern [[J_ref_null R_func]] M_passive;
     mkElem2 R_func [[J_ref_null R_func]] (M_active 3 [J_old (I_ConstI32 0%Z)]); mkElem2 R_func [[J_ref_null R_func]] M_declarative].
Proof.
  repeat apply Forall2_cons; [..|constructor].
  - apply (el2_0 _ [x00] [x41; x00; x0b] [x01; x05] _ [5]); [u32|exact zero_offset|exact one_index].
  - apply (el2_1 _ [x01] [x00] [x01; x05] _ [5]); [u32|split; reflexivity|exact one_index].
  - apply (el2_2 _ [x02] [x03] [x41; x00; x0b] [x00] [x01; x05] 3 _ _ [5]); [u32|u32|exact zero_offset|split; reflexivity|exact one_index].
  - apply (el2_3 _ [x03] [x00] [x01; x05] _ [5]); [u32|split; reflexivity|exact one_index].
  - apply (el2_4 _ [x04] [x41; x00; x0b] [x01; xd0; x70; x0b]); [u32|exact zero_offset|exact one_null].
  - apply (el2_5 _ [x05] [x6f] [x01; xd0; x70; x0b]); [u32|reflexivity|exact one_null].
  - apply (el2_6 _ [x06] [x03] [x41; x00; x0b] [x70] [x01; xd0; x70; x0b]); [u32|u32|exact zero_offset|reflexivity|exact one_null].
  - apply (el2_7 _ [x07] [x70] [x01; xd0; x70; x0b]); [u32|reflexivity|exact one_null].
Qed.
Lemma data_forms :
  Forall2 (enc2_data wasm20_format)
    [[x00; x41; x00; x0b; x01; x05]; [x01; x01; x05]; [x02; x03; x41; x00; x0b; x01; x05]]
    [mkData2 [x05] (M_active 0 [J_old (I_ConstI32 0%Z)]); mkData2 [x05] M_passive; mkData2 [x05] (M_active 3 [J_old (I_ConstI32 0%Z)])].
Proof.
  repeat apply Forall2_cons; [..|constructor].
  - apply (da2_0 _ [x00] [x41; x00; x0b] [x01; x05]); [u32|exact zero_offset|exact one_byte].
  - apply (da2_1 _ [x01] [x01; x05]); [u32|exact one_byte].
  - apply (da2_2 _ [x02] [x03] [x41; x00; x0b] [x01; x05]); [u32|u32|exact zero_offset|exact one_byte].
Qed.
(** one data segment, counted; the same file with a wrong count, and with the count behind *)
Lemma counted : enc2_module wasm20_format (preamble ++ [x0c; x01; x01; x0b; x04; x01; x01; x01; x05])
  (mkModule2 [] [] [] [] [] [] [mkData2 [x05] M_passive] None [] [] (Some 1)).
Proof.
  exists [x0c; x01; x01; x0b; x04; x01; x01; x01; x05], [S2_datacount 1; S2_data [mkData2 [x05] M_passive]]. split; [reflexivity|].
  split; [|split; [unfold ordered2; cbn; lia|split; [reflexivity|split; [|reflexivity]]]].
  - exists [[x0c; x01; x01]; [x0b; x04; x01; x01; x01; x05]]. split; [|reflexivity]. constructor; [|constructor; [|constructor]].
    + exists [x01; x01]. split; [reflexivity|]. exists [x01], [x01]. split; [reflexivity|]. split; u32.
    + exists [x04; x01; x01; x01; x05]. split; [reflexivity|]. exists [x04], [x01; x01; x01; x05]. split; [reflexivity|]. split; [u32|].
      exists [x01], [x01; x01; x05]. split; [reflexivity|]. split; [u32|]. exists [[x01; x01; x05]]. split; [|reflexivity].
      constructor; [|constructor]. apply (da2_1 _ [x01] [x01; x05]); [u32|exact one_byte].
  - cbn. intros n [E|[E|[]]]; [injection E as <-; reflexivity|discriminate E].
Qed.
Lemma data_count_order :
  ordered2 [S2_element []; S2_custom ([], []); S2_datacount 0; S2_code []; S2_data []] /\
  ~ ordered2 [S2_datacount 0; S2_element []] /\ ~ ordered2 [S2_code []; S2_datacount 0] /\ ~ ordered2 [S2_data []; S2_datacount 0] /\
  ~ ordered2 [S2_datacount 0; S2_datacount 0].
Proof. unfold ordered2. cbn. lia. Qed.

(** ** Different modules stay different *)
Definition short_types (e : list instr) : Prop := forall j rt, occurs j e -> block_type j = Some rt -> (length rt <= 1)%nat.
Lemma short_in e i : short_types e -> In i e -> short_types [i].
Proof.
  intros H I j rt O. apply (H j rt). inversion O as [? X|y sub ? X C O']; subst; destruct X as [<-|[]].
  - apply occurs_here. exact I.
  - eapply occurs_inside; eassumption.
Qed.
Lemma short_child i sub : short_types [i] -> In sub (children i) -> short_types sub.
Proof. intros H I j rt O. apply H. eapply occurs_inside; [left; reflexivity|exact I|exact O]. Qed.
Lemma blockty_inj a b : (length a <= 1)%nat -> (length b <= 1)%nat -> later_blockty a = later_blockty b -> a = b.
Proof. destruct a as [|x [|? ?]], b as [|y [|? ?]]; cbn; try lia; intros _ _ H; first [reflexivity|discriminate H|injection H as ->; reflexivity]. Qed.
Lemma map_inj_in {A B} (f : A -> B) l : forall l', (forall x y, In x l -> In y l' -> f x = f y -> x = y) -> map f l = map f l' -> l = l'.
Proof.
  induction l as [|x l IH]; intros [|y l'] H E; try discriminate E; [reflexivity|]. injection E as E1 E2. f_equal.
  - apply H; [left; reflexivity|left; reflexivity|exact E1].
  - apply IH; [intros u v U V; apply H; right; assumption|exact E2].
Qed.
Lemma later_instr_inj : forall i j, short_types [i] -> short_types [j] -> later_instr i = later_instr j -> i = j.
Proof.
  intros i. induction i as [i IH] using instr_children_ind. intros j SI SJ E.
  assert (SQ : forall sub sub', In sub (children i) -> In sub' (children j) -> map later_instr sub = map later_instr sub' -> sub = sub').
  { intros sub sub' I J M. apply (map_inj_in later_instr); [|exact M]. intros x y X Y. specialize (IH sub I). rewrite Forall_forall in IH.
    apply IH; [exact X|exact (short_in _ _ (short_child _ _ SI I) X)|exact (short_in _ _ (short_child _ _ SJ J) Y)]. }
  assert (BI : forall rt, block_type i = Some rt -> (length rt <= 1)%nat) by (intros rt; apply SI; apply occurs_here; left; reflexivity).
  assert (BJ : forall rt, block_type j = Some rt -> (length rt <= 1)%nat) by (intros rt; apply SJ; apply occurs_here; left; reflexivity).
  clear IH SI SJ.
  assert (K : (exists rt b, i = I_Block rt b) \/ (exists rt b, i = I_Loop rt b) \/ (exists rt b d, i = I_If rt b d) \/ later_instr i = J_old i)
    by (destruct i; eauto 8).
  assert (L : (exists rt b, j = I_Block rt b) \/ (exists rt b, j = I_Loop rt b) \/ (exists rt b d, j = I_If rt b d) \/ later_instr j = J_old j)
    by (destruct j; eauto 8).
  destruct K as [(r1 & b1 & ->)|[(r1 & b1 & ->)|[(r1 & b1 & d1 & ->)|K]]]; destruct L as [(r2 & b2 & ->)|[(r2 & b2 & ->)|[(r2 & b2 & d2 & ->)|L]]];
    try rewrite K in E; try rewrite L in E; cbn [later_instr] in E; try discriminate E; cbn [children block_type] in *.
  - injection E as E1 E2. rewrite (blockty_inj _ _ (BI _ eq_refl) (BJ _ eq_refl) E1), (SQ b1 b2); cbn; auto.
  - injection E as E1 E2. rewrite (blockty_inj _ _ (BI _ eq_refl) (BJ _ eq_refl) E1), (SQ b1 b2); cbn; auto.
  - injection E as E1 E2 E3. rewrite (blockty_inj _ _ (BI _ eq_refl) (BJ _ eq_refl) E1), (SQ b1 b2), (SQ d1 d2); cbn; auto.
  - injection E as E1. exact E1.
Qed.
Lemma later_expr_inj e e' : short_types e -> short_types e' -> later_expr e = later_expr e' -> e = e'.
Proof. intros S S' E. apply (map_inj_in later_instr); [|exact E]. intros x y X Y. apply later_instr_inj; [exact (short_in _ _ S X)|exact (short_in _ _ S' Y)]. Qed.
Lemma vals_inj (l l' : list valty) : map W_num l = map W_num l' -> l = l'.
Proof. apply map_inj_in. intros x y _ _ [= H]. exact H. Qed.
Lemma funcs_inj (l l' : list funcidx) : ref_funcs l = ref_funcs l' -> l = l'.
Proof. apply map_inj_in. intros x y _ _ [= H]. exact H. Qed.
Theorem later_inj m m' : (forall e, In e (module_exprs m) -> well_nested e) -> (forall e, In e (module_exprs m') -> well_nested e) ->
  later_module m = later_module m' -> m = m'.
Proof.
  intros W W' E. assert (S : forall e, In e (module_exprs m) -> short_types e) by (intros e I; exact (proj2 (proj2 (W e I)))).
  assert (S' : forall e, In e (module_exprs m') -> short_types e) by (intros e I; exact (proj2 (proj2 (W' e I)))). clear W W'. unfold module_exprs in *.
  assert (TT : forall t t', later_tablety t = later_tablety t' -> t = t') by (intros [l []] [l' []] [= H]; cbn in H; subst; reflexivity).
  assert (GT : forall t t', later_globalty t = later_globalty t' -> t = t') by (intros [u v] [u' v'] [= H1 H2]; cbn in *; subst; reflexivity).
  destruct m as [ty fu ta me gl el da st im ex], m' as [ty' fu' ta' me' gl' el' da' st' im' ex'].
  unfold later_module in E. cbn [m_types m_funcs m_tables m_mems m_globals m_elem m_data m_start m_imports m_exports] in *.
  injection E as E1 E2 E3 E4 E5 E6 E7 E8 E9 E10. f_equal; try assumption.
  - apply (map_inj_in later_functy) in E1; [exact E1|]. intros [p r] [p' r'] _ _ H. unfold later_functy in H. injection H as H1 H2. apply vals_inj in H1, H2. congruence.
  - apply (map_inj_in later_func) in E2; [exact E2|]. intros [a l b] [a' l' b'] I I' H. unfold later_func in H. cbn [fn_ty fn_locals fn_body] in H. injection H as H1 H2 H3. apply vals_inj in H2.
    apply later_expr_inj in H3; [congruence|apply S|apply S']; rewrite in_app_iff, in_map_iff; left; eexists; (split; [|eassumption]); reflexivity.
  - apply (map_inj_in (fun t => later_tablety (tab_ty t))) in E3; [exact E3|]. intros [t] [t'] _ _ H. apply TT in H. cbn in H. congruence.
  - apply (map_inj_in mem_ty) in E4; [exact E4|]. intros [t] [t'] _ _ H. cbn in H. congruence.
  - apply (map_inj_in later_global) in E5; [exact E5|]. intros [t e] [t' e'] I I' H. unfold later_global in H. cbn [glob_ty glob_init] in H. injection H as H1 H2 H3.
    assert (t = t') by (apply GT; unfold later_globalty; congruence).
    apply later_expr_inj in H3; [congruence|apply S|apply S']; rewrite !in_app_iff, !in_map_iff; right; left; eexists; (split; [|eassumption]); reflexivity.
  - apply (map_inj_in later_elem) in E6; [exact E6|]. intros [t o i] [t' o' i'] I I' H. unfold later_elem in H. cbn [el_table el_offset el_init] in H. injection H as H1 H2 H3. apply funcs_inj in H1.
    apply later_expr_inj in H3; [congruence|apply S|apply S']; rewrite !in_app_iff, !in_map_iff; right; right; left; eexists; (split; [|eassumption]); reflexivity.
  - apply (map_inj_in later_data) in E7; [exact E7|]. intros [t o i] [t' o' i'] I I' H. unfold later_data in H. cbn [da_mem da_offset da_init] in H. injection H as H1 H2 H3.
    apply later_expr_inj in H3; [congruence|apply S|apply S']; rewrite !in_app_iff, !in_map_iff; right; right; right; eexists; (split; [|eassumption]); reflexivity.
  - destruct st as [[s]|], st' as [[s']|]; cbn in E8; congruence.
  - apply (map_inj_in later_import) in E9; [exact E9|]. intros [a b d] [a' b' d'] _ _ H. unfold later_import in H. cbn [im_module im_name im_desc] in H. injection H as H1 H2 H3. subst.
    f_equal. destruct d as [x|[l []]|[l]|[u v]], d' as [x'|[l' []]|[l']|[u' v']]; cbn in H3; try discriminate H3; unfold later_tablety, later_globalty in H3; cbn in H3; injection H3; intros; subst; reflexivity.
Qed.
Theorem later_distinct bs m bs' m' : p_module bs = (Ok m, []) -> p_module bs' = (Ok m', []) -> later_module m = later_module m' -> m = m'.
Proof. intros P P'. apply later_inj; intros e I; [exact (parsed_module_nested _ _ _ _ P I)|exact (parsed_module_nested _ _ _ _ P' I)]. Qed.
