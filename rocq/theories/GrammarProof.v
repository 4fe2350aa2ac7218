(** The older parser agrees with the current one, element by element. *)
From Coq Require Import Lia String.
From Verif Require Import ParserModule SpecFormat SpecGrammar ParserMeta TypesProof InstrProof ModuleProof SectionsProof ModuleClaims.
Open Scope N_scope.

Lemma same_err {A} e e' r r' : @same A (Err e, r) (GErr e', r'). Proof. exact I. Qed.
Lemma agree_ret {A} (a : A) : agree (ret a) (gret a).
Proof. intros bs. split; reflexivity. Qed.
Lemma agree_fail {A} e e' : @agree A (fail e) (gfail e').
Proof. intros bs. exact I. Qed.
Lemma agree_bind {A B} p g (f : A -> parser B) h : agree p g -> (forall a, agree (f a) (h a)) -> agree (bind p f) (gbind g h).
Proof.
  intros P F bs. specialize (P bs). unfold bind, gbind, same in *. destruct (p bs) as [[a| | |] r], (g bs) as [[b| | |] r']; try contradiction; try exact I.
  destruct P as [<- <-]. apply F.
Qed.
Lemma agree_byte : agree p_byte g_byte.
Proof. intros [|b r]; cbn; auto. Qed.

Lemma same_uleb size mask bs : forall result shift, same (uleb_loop size mask result shift bs) (g_uleb_loop size mask result shift bs).
Proof.
  induction bs as [|b bs IH]; intros result shift; [exact I|]. cbn [uleb_loop g_uleb_loop].
  destruct (u_from_u8 size _); [|exact I]. destruct (size <=? shift).
  - destruct (negb _); [exact I|]. destruct (_ =? 0); [split; reflexivity|apply IH].
  - destruct (u_shl _ _ _); [|exact I]. destruct (u_shr _ _ _); [|exact I]. destruct (negb _); [exact I|].
    destruct (shift <? size); destruct (_ =? 0); try (split; reflexivity); apply IH.
Qed.
Lemma agree_unsigned size : agree (p_unsigned size) (g_unsigned size).
Proof. intros bs. unfold p_unsigned, g_unsigned. destruct (u_from_u8 size _); [apply same_uleb|exact I]. Qed.
Lemma same_finish size result shift positive r : same (sleb_finish size result shift positive, r) (g_sleb_finish size result shift positive, r).
Proof. unfold sleb_finish, g_sleb_finish. destruct (_ && _)%bool; [|split; reflexivity]. destruct (s_shl _ _ _); [split; reflexivity|exact I]. Qed.
Lemma same_sleb size mask bs : forall result shift positive,
  same (sleb_loop size mask result shift positive bs) (g_sleb_loop size mask result shift positive bs).
Proof.
  induction bs as [|b bs IH]; intros result shift positive; [exact I|]. cbn [sleb_loop g_sleb_loop].
  destruct (s_from_u8 size _); [|exact I]. destruct (size <=? shift).
  - destruct (_ || _)%bool; [|exact I]. destruct (_ =? 0); [apply same_finish|apply IH].
  - destruct (s_shl _ _ _); [|exact I]. destruct (s_shr _ _ _); [|exact I]. destruct (negb _); [exact I|].
    destruct (shift <? size); destruct (N.land _ 128 =? 0); try apply same_finish; apply IH.
Qed.
Lemma agree_signed size : agree (p_signed size) (g_signed size).
Proof. intros bs. unfold p_signed, g_signed. destruct (s_from_u8 size _); [apply same_sleb|exact I]. Qed.

Lemma agree_times {A} (p : parser A) g n : agree p g -> agree (p_times n p) (g_times n g).
Proof.
  intros P. induction n as [|n IH]; [apply agree_ret|]. cbn [p_times g_times]. apply agree_bind; [exact P|]. intros x.
  apply agree_bind; [exact IH|]. intros xs. apply agree_ret.
Qed.
Lemma agree_u32 : agree p_u32 g_u32. Proof. apply agree_unsigned. Qed.
Lemma agree_vec {A} (p : parser A) g : agree p g -> agree (p_vec p) (g_vec g).
Proof. intros P. apply agree_bind; [apply agree_u32|]. intros n. apply agree_times, P. Qed.
Lemma agree_uvec {A} (p : parser A) g : agree p g -> agree (p_unwrapping_vec p (fun x => x)) (g_vec g).
Proof.
  intros P. apply agree_bind; [apply agree_u32|]. intros n. apply agree_times. intros bs. specialize (P bs). unfold bind, ret.
  destruct (p bs) as [[| | |] ?]; exact P.
Qed.
Lemma agree_runs {A} (p : parser A) g k : agree p g -> forall acc, agree (p_runs k p acc) (g_runs k g acc).
Proof.
  intros P. induction k as [|k IH]; intros acc; [apply agree_ret|]. cbn [p_runs g_runs]. apply agree_bind; [apply agree_u32|]. intros n.
  apply agree_bind; [exact P|]. intros x. apply IH.
Qed.
Lemma agree_vecvec {A} (p : parser A) g : agree p g -> agree (p_compact_vec p) (g_vecvec g).
Proof. intros P. apply agree_bind; [apply agree_u32|]. intros n. apply agree_runs, P. Qed.
Lemma agree_float size : agree (p_float LittleEndian size) (g_float size).
Proof. apply agree_bind; [apply agree_times, agree_byte|]. intros m. apply agree_ret. Qed.
Lemma agree_string : agree p_string g_string.
Proof. apply agree_bind; [apply agree_uvec, agree_byte|]. intros raw. destruct (utf8_valid raw); [apply agree_ret|apply agree_fail]. Qed.
Lemma agree_sized {A} (p : parser A) g : agree p g -> agree (p_sized p) (g_sized g).
Proof.
  intros P. apply agree_bind; [apply agree_u32|]. intros n bs. specialize (P (firstn (N.to_nat n) bs)). unfold same in *.
  destruct (p (firstn (N.to_nat n) bs)) as [[a| | |] r], (g (firstn (N.to_nat n) bs)) as [[b| | |] r']; try contradiction; try exact I.
  destruct P as [<- <-]. rewrite N.eqb_sym. destruct (_ =? n); cbn; auto.
Qed.

(** ** Types *)
Lemma agree_enum {A} (k : byte -> parser A) h : (forall b, agree (k b) (h b)) -> agree (b <- p_byte ;; k b) (g_enum h).
Proof. intros K. apply agree_bind; [apply agree_byte|exact K]. Qed.
Ltac by_byte := apply agree_enum; intros b; destruct b; first [apply agree_fail|idtac].
Lemma agree_valty : agree p_valty g_valtype.
Proof. by_byte; apply agree_ret. Qed.
Lemma agree_retval : agree p_retval g_blocktype.
Proof.
  apply agree_enum. intros b bs.
  assert (X : forall b, same (match p_valty [b] with (Ok t, _) => (Ok [t], bs) | (Err e, _) => (Err e, bs) | (Panic, _) => (Panic, bs) | (OutOfFuel, _) => (OutOfFuel, bs) end)
     ((t <~ g_forward b g_valtype ;; gret [t]) bs)).
  { clear b. intros b. destruct b; first [exact I|split; reflexivity]. }
  destruct b; first [split; reflexivity|exact (X _)].
Qed.
Ltac step := first [apply agree_ret | apply agree_fail | apply agree_byte | apply agree_u32 | apply agree_unsigned | apply agree_signed | apply agree_float | apply agree_string
  | apply agree_valty | apply agree_retval | apply agree_uvec | apply agree_vec | apply agree_vecvec
  | match goal with |- agree (bind _ _) (gbind _ _) => apply agree_bind; [|intros ?] end].
Lemma agree_functy : agree p_functy g_functype.
Proof. by_byte. repeat step. Qed.
Lemma agree_limits : agree p_limits g_limits.
Proof. by_byte; repeat step. Qed.
Lemma agree_elemty : agree p_elemty g_elemtype.
Proof. by_byte; repeat step. Qed.
Lemma agree_tablety : agree p_tablety g_tabletype.
Proof. apply agree_bind; [apply agree_elemty|]. intros e. apply agree_bind; [apply agree_limits|]. intros l. apply agree_ret. Qed.
Lemma agree_memty : agree p_memty g_memtype.
Proof. apply agree_bind; [apply agree_limits|]. intros l. apply agree_ret. Qed.
Lemma agree_mut : agree p_mut g_mut.
Proof. by_byte; repeat step. Qed.
Lemma agree_globalty : agree p_globalty g_globaltype.
Proof. apply agree_bind; [apply agree_valty|]. intros v. apply agree_bind; [apply agree_mut|]. intros m. apply agree_ret. Qed.

(** ** Instructions *)
Lemma agree_expr_of sub gsub : agree sub gsub -> agree (p_expr_of sub) (g_expression_of gsub).
Proof. intros S. apply agree_bind; [exact S|]. intros [e i]. destruct i; first [apply agree_ret|apply agree_fail]. Qed.
(** what ends a list of instructions *)
Definition ends_list (p : parser (list instr * instr)) : Prop := forall bs e i r, p bs = (Ok (e, i), r) -> i = I_End \/ i = I_Else.
Lemma agree_bind_ok {A B} p g (f : A -> parser B) h : agree p g -> (forall bs a r, p bs = (Ok a, r) -> same (f a r) (h a r)) -> agree (bind p f) (gbind g h).
Proof.
  intros P F bs. specialize (P bs). unfold bind, gbind, same in *. specialize (F bs). destruct (p bs) as [[a| | |] r], (g bs) as [[b| | |] r']; try contradiction; try exact I.
  destruct P as [<- <-]. apply F. reflexivity.
Qed.
Lemma agree_if sub gsub : agree sub gsub -> ends_list sub ->
  agree (p_if_of sub) (v <~ g_if gsub ;; gret (I_If (fst v) (fst (snd v)) (snd (snd v)))).
Proof.
  intros S E bs. unfold p_if_of, g_if. unfold bind at 1, gbind at 1 2. pose proof (agree_retval bs) as R. unfold same in R.
  destruct (p_retval bs) as [[rt| | |] r], (g_blocktype bs) as [[b| | |] r']; try contradiction; try exact I.
  destruct R as [<- <-]. unfold bind at 1, gbind at 1. pose proof (S r) as T. unfold same in T. pose proof (E r) as N.
  destruct (sub r) as [[[b1 i1]| | |] r1], (gsub r) as [[b| | |] r1']; try contradiction; try exact I. destruct T as [<- <-].
  destruct (N _ _ _ eq_refl) as [-> | ->]; [split; reflexivity|]. cbn [is_else]. unfold bind, gbind. pose proof (S r1) as T. unfold same in T.
  destruct (sub r1) as [[[b2 i2]| | |] r2], (gsub r1) as [[b| | |] r2']; try contradiction; try exact I. destruct T as [<- <-].
  destruct i2; first [exact I|split; reflexivity].
Qed.
Lemma agree_assoc {A B C} (p : parser C) (g : gparser A) (h : A -> gparser B) k :
  agree p (gbind g (fun a => gbind (h a) k)) -> agree p (gbind (gbind g h) k).
Proof. intros H bs. specialize (H bs). unfold gbind in *. destruct (g bs) as [[| | |] r]; exact H. Qed.
Lemma agree_gret {A B} (p : parser B) (a : A) k : agree p (k a) -> agree p (gbind (gret a) k).
Proof. intros H. exact H. Qed.
Lemma agree_opcode sub gsub b : agree sub gsub -> ends_list sub -> agree (p_opcode sub b) (g_variant gsub b).
Proof.
  intros S E. destruct b; cbn [p_opcode g_variant];
  first [ apply agree_fail | apply agree_ret | apply agree_if; assumption
    | solve [repeat step]
    | unfold g_memarg, g_block; apply agree_assoc, agree_bind; [first [apply agree_u32|apply agree_retval]|intros ?];
      apply agree_assoc, agree_bind; [first [apply agree_u32|apply agree_expr_of, S]|intros ?]; apply agree_gret, agree_ret ].
Qed.
Lemma subexpr_ends fuel : forall acc, ends_list (p_subexpr fuel acc).
Proof.
  induction fuel as [fuel IH] using lt_wf_ind. intros acc bs e i r H. destruct fuel as [|f]; [discriminate H|]. cbn [p_subexpr] in H. unfold bind in H.
  destruct (p_instr f bs) as [[j| | |] r1]; try discriminate H.
  destruct j; try (eapply (IH f); [lia|exact H]); unfold ret in H; injection H as _ <- _; auto.
Qed.
Lemma agree_code fuel : agree (p_instr fuel) (g_instruction fuel) /\ forall acc, agree (p_subexpr fuel acc) (g_instrlist fuel acc).
Proof.
  induction fuel as [|f [I1 I2]]; [split; [|intros acc]; intros bs; exact I|]. split.
  - cbn [p_instr g_instruction]. apply agree_enum. intros b. apply agree_opcode; [apply I2|apply subexpr_ends].
  - intros acc. cbn [p_subexpr g_instrlist]. apply agree_bind; [exact I1|]. intros i. destruct i; first [apply agree_ret|apply I2].
Qed.
Lemma agree_expr : agree p_expr g_expression.
Proof. intros bs. exact (agree_expr_of _ _ (proj2 (agree_code (fuel_for (List.length bs))) []) bs). Qed.
Lemma agree_instr fuel : agree (p_instr fuel) (g_instruction fuel).
Proof. apply agree_code. Qed.

(** ** Sections *)
Ltac step2 := first [apply agree_expr | apply agree_tablety | apply agree_memty | apply agree_globalty | apply agree_functy | step].
Lemma agree_importdesc : agree p_importdesc g_importdesc. Proof. by_byte; repeat step2. Qed.
Lemma agree_exportdesc : agree p_exportdesc g_exportdesc. Proof. by_byte; repeat step2. Qed.
Lemma agree_import : agree p_import g_import.
Proof. unfold p_import, g_import. repeat step2. apply agree_importdesc. Qed.
Lemma agree_export : agree p_export g_export.
Proof. unfold p_export, g_export. repeat step2. apply agree_exportdesc. Qed.
Lemma agree_table : agree p_table g_table. Proof. unfold p_table, g_table. repeat step2. Qed.
Lemma agree_mem : agree p_mem g_memory. Proof. unfold p_mem, g_memory. repeat step2. Qed.
Lemma agree_global : agree p_global g_global. Proof. unfold p_global, g_global, p_constexpr. repeat step2. Qed.
Lemma agree_start : agree p_start g_start. Proof. unfold p_start, g_start. repeat step2. Qed.
Lemma agree_elem : agree p_elem g_element. Proof. unfold p_elem, g_element, p_constexpr. repeat step2. Qed.
Lemma agree_data : agree p_data g_data. Proof. unfold p_data, g_data, p_constexpr. repeat step2. Qed.

(** ** The sections of the older parser are those of the specification *)
Definition gsection_of (s : section) : gsection :=
  match s with
  | S_Custom v => GS_Custom v | S_Type v => GS_Type v | S_Import v => GS_Import v | S_Function v => GS_Function v
  | S_Table v => GS_Table v | S_Memory v => GS_Memory v | S_Global v => GS_Global v | S_Export v => GS_Export v
  | S_Start v => GS_Start v | S_Element v => GS_Element v | S_Code v => GS_Code v | S_Data v => GS_Data v
  end.
Lemma section_of_of s : section_of (gsection_of s) = s. Proof. destruct s; reflexivity. Qed.
Lemma gsection_of_of s : gsection_of (section_of s) = s. Proof. destruct s; reflexivity. Qed.

(** the same with the combinators of the current parser *)
Definition q_all : parser (list byte) := fun bs => (Ok bs, []).
Definition q_custom : parser (name * list byte) := n <- p_string ;; p <- q_all ;; ret (n, p).
Definition q_func : parser code := l <- p_compact_vec p_valty ;; c <- p_expr ;; ret (l, c).
Definition q_contents (b : byte) : parser section :=
  match b with
  | x00 => v <- p_sized q_custom ;; ret (S_Custom v)
  | x01 => v <- p_sized (p_vec p_functy) ;; ret (S_Type v)
  | x02 => v <- p_sized (p_vec p_import) ;; ret (S_Import v)
  | x03 => v <- p_sized (p_vec p_typeidx) ;; ret (S_Function v)
  | x04 => v <- p_sized (p_vec p_table) ;; ret (S_Table v)
  | x05 => v <- p_sized (p_vec p_mem) ;; ret (S_Memory v)
  | x06 => v <- p_sized (p_vec p_global) ;; ret (S_Global v)
  | x07 => v <- p_sized (p_vec p_export) ;; ret (S_Export v)
  | x08 => v <- p_sized p_start ;; ret (S_Start v)
  | x09 => v <- p_sized (p_vec p_elem) ;; ret (S_Element v)
  | x0a => v <- p_sized (p_vec (p_sized q_func)) ;; ret (S_Code v)
  | x0b => v <- p_sized (p_vec p_data) ;; ret (S_Data v)
  | id => fail (InvalidSectionId id)
  end.
Lemma until_all bs : forall fuel, (List.length bs < fuel)%nat -> g_until fuel g_byte bs = (GOk bs, []).
Proof.
  induction bs as [|b bs IH]; intros [|f] L; cbn in L; try lia; [reflexivity|]. cbn [g_until]. unfold gbind at 1. cbn [g_byte]. unfold gbind.
  rewrite IH by lia. reflexivity.
Qed.
Lemma agree_all : agree q_all (g_list g_byte).
Proof. intros bs. unfold g_list. rewrite until_all by lia. split; reflexivity. Qed.
Lemma agree_custom : agree q_custom g_custom.
Proof. apply agree_bind; [apply agree_string|]. intros n. apply agree_bind; [apply agree_all|]. intros p. apply agree_ret. Qed.
Lemma agree_func : agree q_func (l <~ g_vecvec g_valtype ;; c <~ g_expression ;; gret (l, c)).
Proof. unfold q_func. repeat step2. Qed.
Lemma agree_wrap {A} (p : parser A) g (mk : A -> gsection) (mk' : A -> section) : agree p g -> (forall v, section_of (mk v) = mk' v) ->
  agree (v <- p_sized p ;; ret (mk' v)) (s <~ (v <~ g_sized g ;; gret (mk v)) ;; gret (section_of s)).
Proof.
  intros P E. apply agree_assoc, agree_bind; [apply agree_sized, P|]. intros v. apply agree_gret. rewrite E. apply agree_ret.
Qed.
Lemma agree_section : agree (b <- p_byte ;; q_contents b) (s <~ g_section ;; gret (section_of s)).
Proof.
  unfold g_section, g_enum. apply agree_assoc, agree_bind; [apply agree_byte|]. intros b.
  destruct b; first [intros bs; exact I|idtac]; cbn [q_contents]; apply agree_wrap; try reflexivity;
  first [ apply agree_custom | apply agree_start | apply agree_vec, agree_functy | apply agree_vec, agree_import | apply agree_vec, agree_u32
    | apply agree_vec, agree_table | apply agree_vec, agree_mem | apply agree_vec, agree_global | apply agree_vec, agree_export
    | apply agree_vec, agree_elem | apply agree_vec, agree_sized, agree_func | apply agree_vec, agree_data ].
Qed.

Lemma q_func_ok bs c rest : q_func bs = (Ok c, rest) <-> p_func bs = (Ok (mkFunc 0 (fst c) (snd c)), rest).
Proof.
  unfold q_func, p_func. destruct c as [l e]. rewrite !bind_ok. cbn [fst snd]. split.
  - intros (l' & r & H1 & H2). exists l', r. split; [exact H1|]. apply bind_ok in H2 as (e' & r2 & H2 & H3). apply bind_ok. exists e', r2. split; [exact H2|].
    injection H3 as -> -> ->. reflexivity.
  - intros (l' & r & H1 & H2). exists l', r. split; [exact H1|]. apply bind_ok in H2 as (e' & r2 & H2 & H3). apply bind_ok. exists e', r2. split; [exact H2|].
    injection H3 as -> -> ->. reflexivity.
Qed.
Lemma exact_q_func : exact q_func (enc_func whasm_format).
Proof.
  intros bs c rest. rewrite q_func_ok. rewrite (exact_func bs _ rest). unfold enc_func0. split.
  - intros (pre & -> & c' & H & E). injection E as E1 E2. exists pre. split; [reflexivity|]. destruct c, c'; cbn in *; subst. exact H.
  - intros (pre & -> & H). exists pre. split; [reflexivity|]. exists c. auto.
Qed.
Lemma suffixing_q_func : suffixing q_func. Proof. unfold q_func. m_suffixing. Qed.
Lemma safe_q_func : safe q_func. Proof. unfold q_func. m_safe. Qed.
Lemma suffixing_q_all : suffixing q_all.
Proof. intros bs. exists bs. symmetry. apply app_nil_r. Qed.
Lemma suffixing_q_custom : suffixing q_custom.
Proof. pose proof suffixing_q_all. unfold q_custom. m_suffixing. Qed.
Lemma safe_q_custom : safe q_custom.
Proof. assert (safe q_all) by (intros bs; split; discriminate). unfold q_custom. m_safe. Qed.
Lemma exact_q_custom : exact_all q_custom (enc_custom whasm_format).
Proof.
  intros bs [n p]. unfold q_custom. rewrite bind_ok. split.
  - intros (n' & r & H1 & H2). apply exact_string in H1 as (p1 & -> & H1). cbn in H2. injection H2 as -> ->. exists p1. auto.
  - intros (p1 & -> & H1). exists n, p. split; [apply exact_string; eauto|reflexivity].
Qed.
Lemma exact_contents b : exact (q_contents b) (fun pre sec => enc_section whasm_format (b :: pre) sec).
Proof.
  assert (X : forall A (p : parser A) (E : format A) (mk : A -> section), suffixing p -> exact_all p E ->
    (forall pre sec, enc_section whasm_format (b :: pre) sec -> exists v, sec = mk v /\ enc_sized whasm_format E pre v) ->
    (forall pre v, enc_sized whasm_format E pre v -> enc_section whasm_format (b :: pre) (mk v)) ->
    exact (v <- p_sized p ;; ret (mk v)) (fun pre sec => enc_section whasm_format (b :: pre) sec)).
  { intros A p E mk SP EX E1 E2. eapply exact_ext; [|apply exact_map, exact_sized; [exact SP|exact EX]].
    intros bs s'. cbn beta. split; [intros (v & H & ->); apply E2, H|]. intros H. apply E1 in H as (v & -> & H). eauto. }
  assert (DEC : forall pre sec, enc_section whasm_format (b :: pre) sec -> Byte.to_N b = section_id sec).
  { intros pre sec H. destruct sec; destruct H as (? & H & _); injection H as -> _; reflexivity. }
  destruct b; try (eapply exact_ext; [|apply exact_fail]; intros bs s'; split; [intros []|intros H; apply DEC in H; destruct s'; discriminate H]);
  cbn [q_contents]; eapply X;
  try (intros pre [] (b & E & H); try discriminate E; injection E as ->; eauto; fail);
  try (intros pre v H; exists pre; split; [reflexivity|exact H]);
  first [ apply suffixing_q_custom | apply exact_q_custom | apply suffixing_start | apply exact_exact_all, exact_start
    | apply suffixing_vec; first [apply suffixing_functy | apply suffixing_import | apply suffixing_u32 | apply suffixing_table | apply suffixing_mem | apply suffixing_global
        | apply suffixing_export | apply suffixing_elem | apply suffixing_sized, suffixing_q_func | apply suffixing_data ]
    | apply exact_exact_all, exact_vec; first [apply exact_functy | apply exact_import | apply exact_u32 | apply exact_table | apply exact_mem | apply exact_global
        | apply exact_export | apply exact_elem | apply exact_sized; [apply suffixing_q_func|apply exact_exact_all, exact_q_func] | apply exact_data ] | idtac ].
Qed.
Lemma section_exact bs s rest : g_section bs = (GOk s, rest) <-> exists pre, bs = pre ++ rest /\ enc_section whasm_format pre (section_of s).
Proof.
  pose proof (agree_section bs) as A. split.
  - intros H. unfold gbind in A. rewrite H in A. destruct bs as [|b bs]; [contradiction A|]. unfold bind in A. cbn [p_byte] in A.
    destruct (q_contents b bs) as [[sec| | |] r] eqn:Q; try contradiction A. destruct A as [-> ->]. apply exact_contents in Q as (pre & -> & E).
    exists (b :: pre). auto.
  - intros (pre & -> & E). destruct (section_first _ _ _ E) as (b & r & -> & _ & _).
    assert (Q : q_contents b (r ++ rest) = (Ok (section_of s), rest)) by (apply exact_contents; eauto).
    cbn [app] in *. unfold bind in A. cbn [p_byte] in A. rewrite Q in A. unfold gbind in A.
    destruct (g_section (b :: r ++ rest)) as [[s'| | |] r']; try contradiction A. destruct A as [A <-].
    apply (f_equal gsection_of) in A. rewrite !gsection_of_of in A. subst. reflexivity.
Qed.
Lemma until_exact fuel : forall bs, (List.length bs < fuel)%nat -> forall secs rest,
  g_until fuel g_section bs = (GOk secs, rest) <-> rest = [] /\ enc_list (enc_section whasm_format) bs (map section_of secs).
Proof.
  induction fuel as [|f IH]; intros bs L secs rest; [lia|]. destruct bs as [|b bs].
  - cbn [g_until]. split.
    + intros [= <- <-]. split; [reflexivity|]. exists []. split; [constructor|reflexivity].
    + intros (-> & ch & F & E). destruct secs as [|s secs]; [reflexivity|]. inversion F as [|c ? ch' ? H F']; subst.
      destruct (section_first _ _ _ H) as (b & r & -> & _). discriminate E.
  - cbn [g_until]. remember (b :: bs) as w eqn:EW. split.
    + intros H. unfold gbind in H. destruct (g_section w) as [[s| | |] r] eqn:S; try discriminate H. apply section_exact in S as (pre & EP & S).
      destruct (g_until f g_section r) as [[ss| | |] r'] eqn:U; try discriminate H. injection H as <- <-.
      destruct (section_first _ _ _ S) as (b0 & r0 & -> & _). rewrite EP in L. cbn [List.length app] in L. rewrite app_length in L.
      apply IH in U as (-> & ch & F & ->); [|lia]. split; [reflexivity|]. exists ((b0 :: r0) :: ch). split; [constructor; assumption|exact EP].
    + intros (-> & ch & F & E). destruct secs as [|s secs]; cbn [map] in F; inversion F as [|c ? ch' ? H F']; subst ch; [subst; discriminate|]. subst.
      cbn [concat] in E. assert (S : g_section (b :: bs) = (GOk s, concat ch')) by (apply section_exact; eauto).
      unfold gbind. rewrite S. destruct (section_first _ _ _ H) as (b0 & r0 & -> & _). cbn [app] in E. injection E as <- E.
      cbn [List.length] in L. rewrite E, app_length in L.
      assert (U : g_until f g_section (concat ch') = (GOk secs, [])) by (apply IH; [lia|split; [reflexivity|exists ch'; auto]]).
      rewrite U. reflexivity.
Qed.

Lemma safe_contents b : safe (q_contents b).
Proof.
  pose proof safe_q_custom. pose proof safe_q_func. pose proof suffixing_q_func.
  destruct b; cbn [q_contents]; try (apply safe_fail);
  (apply safe_bind; [apply safe_sized|intros ?; apply safe_ret]); try apply safe_vec;
  first [ assumption | apply safe_functy | apply safe_import | apply safe_u32 | apply safe_table | apply safe_mem | apply safe_global
    | apply safe_export | apply safe_start | apply safe_elem | apply safe_sized; assumption | apply safe_data ].
Qed.
Lemma section_total bs : (exists s r, g_section bs = (GOk s, r) /\ (List.length r < List.length bs)%nat) \/ exists e r, g_section bs = (GErr e, r).
Proof.
  pose proof (agree_section bs) as A. destruct (g_section bs) as [[s|e| |] r] eqn:S.
  - left. exists s, r. split; [reflexivity|]. apply section_exact in S as (pre & -> & E). destruct (section_first _ _ _ E) as (b & r0 & -> & _).
    rewrite app_length. cbn [List.length]. lia.
  - right. eauto.
  - exfalso. unfold gbind in A. rewrite S in A. destruct bs as [|b bs]; [exact A|]. unfold bind in A. cbn [p_byte] in A.
    pose proof (safe_contents b bs) as [P Q]. destruct (q_contents b bs) as [[| | |] ?]; try exact A. now apply P.
  - exfalso. unfold gbind in A. rewrite S in A. destruct bs as [|b bs]; [exact A|]. unfold bind in A. cbn [p_byte] in A.
    pose proof (safe_contents b bs) as [P Q]. destruct (q_contents b bs) as [[| | |] ?]; try exact A. now apply Q.
Qed.
Lemma until_total fuel : forall bs, (List.length bs < fuel)%nat ->
  (exists secs, g_until fuel g_section bs = (GOk secs, [])) \/ exists e r, g_until fuel g_section bs = (GErr e, r).
Proof.
  induction fuel as [|f IH]; intros bs L; [lia|]. destruct bs as [|b bs]; [left; exists []; reflexivity|].
  cbn [g_until]. unfold gbind. destruct (section_total (b :: bs)) as [(s & r & -> & L2)|(e & r & ->)]; [|right; eauto].
  destruct (IH r ltac:(lia)) as [(secs & ->)|(e & r' & ->)]; [left|right]; unfold gret; eauto.
Qed.

Lemma gbind_ok {A B} (p : gparser A) (f : A -> gparser B) bs b rest :
  (x <~ p ;; f x) bs = (GOk b, rest) <-> exists a r, p bs = (GOk a, r) /\ f a r = (GOk b, rest).
Proof.
  unfold gbind. destruct (p bs) as [[a| | |] r]; split; try discriminate; try (intros (? & ? & H & _); discriminate H).
  - eauto.
  - intros (? & ? & E & H). injection E as <- <-. exact H.
Qed.
Lemma times4_byte bs w r : g_times 4 g_byte bs = (GOk w, r) <-> List.length w = 4%nat /\ bs = w ++ r.
Proof.
  split.
  - do 4 (destruct bs as [|? bs]; [discriminate|]). intros [= <- <-]. auto.
  - intros [L ->]. do 4 (destruct w as [|? w]; [discriminate L|]). destruct w; [reflexivity|discriminate L].
Qed.
Lemma times4_total bs : (exists w r, g_times 4 g_byte bs = (GOk w, r)) \/ exists e r, g_times 4 g_byte bs = (GErr e, r).
Proof. do 4 (destruct bs as [|? bs]; [right; eexists _, _; reflexivity|]). left. eexists _, _. reflexivity. Qed.
Lemma matching_ok ok w0 (O : forall w, ok w = true <-> w = w0) (L : List.length w0 = 4%nat) bs w r :
  g_matching (g_times 4 g_byte) ok bs = (GOk w, r) <-> w = w0 /\ bs = w0 ++ r.
Proof.
  unfold g_matching. rewrite gbind_ok. split.
  - intros (w' & r' & H & H2). apply times4_byte in H as [_ ->]. destruct (ok w') eqn:E; [|discriminate H2]. apply O in E as ->.
    injection H2 as <- <-. auto.
  - intros [-> ->]. exists w0, r. rewrite (proj2 (O w0) eq_refl). split; [apply times4_byte; auto|reflexivity].
Qed.
Lemma matching_total ok bs : (exists w r, g_matching (g_times 4 g_byte) ok bs = (GOk w, r)) \/ exists e r, g_matching (g_times 4 g_byte) ok bs = (GErr e, r).
Proof.
  unfold g_matching, gbind. destruct (times4_total bs) as [(w & r & ->)|(e & r & ->)]; [|right; eauto].
  destruct (ok w); [left|right]; unfold gret, gfail; eauto.
Qed.

Lemma gmodule_exact bs secs rest : g_module bs = (GOk secs, rest) <->
  rest = [] /\ exists body, bs = preamble ++ body /\ enc_list (enc_section whasm_format) body (map section_of secs).
Proof.
  unfold g_module. rewrite gbind_ok. split.
  - intros (w & r & H & H2). apply (matching_ok _ _ magic_iff eq_refl) in H as [-> ->]. apply gbind_ok in H2 as (w & r2 & H & H2).
    apply (matching_ok _ _ version_iff eq_refl) in H as [-> ->]. unfold g_list in H2. apply until_exact in H2 as [-> H2]; [|lia].
    split; [reflexivity|]. exists r2. auto.
  - intros (-> & body & -> & H). exists [x00; x61; x73; x6d], ([x01; x00; x00; x00] ++ body). split; [apply (matching_ok _ _ magic_iff eq_refl); auto|].
    apply gbind_ok. exists [x01; x00; x00; x00], body. split; [apply (matching_ok _ _ version_iff eq_refl); auto|].
    unfold g_list. apply until_exact; [lia|auto].
Qed.
Lemma gmodule_total bs : (exists secs, g_module bs = (GOk secs, [])) \/ exists e r, g_module bs = (GErr e, r).
Proof.
  unfold g_module, gbind. destruct (matching_total (fun m => bytes_are m [0x00; 0x61; 0x73; 0x6D]) bs) as [(w & r & ->)|(e & r & ->)]; [|right; eauto].
  destruct (matching_total (fun v => bytes_are v [1; 0; 0; 0]) r) as [(w' & r' & ->)|(e & r' & ->)]; [|right; eauto].
  apply until_total. lia.
Qed.
Lemma gmodule_agree bs m : (exists rest, p_module bs = (Ok m, rest)) <->
  exists secs rest, g_module bs = (GOk secs, rest) /\ ordered (map section_of secs) /\ counts_match whasm_format (map section_of secs) /\ m = module_of (map section_of secs).
Proof.
  split.
  - intros (rest & H). apply module_exact in H as (-> & body & secs & E & H & O & C & M). exists (map gsection_of secs), [].
    assert (X : map section_of (map gsection_of secs) = secs) by (rewrite map_map; transitivity (map (fun s => s) secs); [apply map_ext, section_of_of|apply map_id]).
    rewrite X. repeat split; auto. apply gmodule_exact. rewrite X. eauto.
  - intros (secs & rest & H & O & C & M). apply gmodule_exact in H as (-> & body & E & H). exists []. apply module_exact. split; [reflexivity|].
    exists body, (map section_of secs). auto.
Qed.

(** ** Elements *)
Lemma agree_exact {A} (p : parser A) g E : agree p g -> exact p E -> gexact g E.
Proof.
  intros A0 X bs a rest. specialize (A0 bs). rewrite <- (X bs a rest). destruct (p bs) as [[x| | |] r], (g bs) as [[y| | |] r']; try contradiction A0; try (split; discriminate).
  destruct A0 as [-> ->]. split; intros [= -> ->]; reflexivity.
Qed.
Lemma agree_total {A} (p : parser A) g : agree p g -> safe p -> gtotal g.
Proof.
  intros A0 X bs. specialize (A0 bs). destruct (X bs) as [P F]. destruct (p bs) as [[x| | |] r], (g bs) as [[y| | |] r']; try contradiction A0; cbn in *; try congruence; eauto.
Qed.
Lemma gexact_section : gexact g_section (fun bs s => enc_section whasm_format bs (section_of s)).
Proof. intros bs s rest. apply section_exact. Qed.
Lemma gtotal_section : gtotal g_section.
Proof. intros bs. destruct (section_total bs) as [(s & r & H & _)|H]; eauto. Qed.
Lemma gtotal_module : gtotal g_module.
Proof. intros bs. destruct (gmodule_total bs) as [[s H]|H]; eauto. Qed.
Lemma elements_exact :
  gexact g_u32 (enc_u32 whasm_format) /\ gexact g_i32 (enc_s whasm_format 32) /\ gexact g_i64 (enc_s whasm_format 64) /\
  gexact g_f32 (enc_float 4) /\ gexact g_f64 (enc_float 8) /\ gexact g_string (enc_name whasm_format) /\
  gexact g_valtype enc_valty /\ gexact g_blocktype enc_blockty /\ gexact g_functype (enc_functy whasm_format) /\
  gexact g_limits (enc_limits whasm_format) /\ gexact g_memtype (enc_memty whasm_format) /\ gexact g_tabletype (enc_tablety whasm_format) /\
  gexact g_globaltype enc_globalty /\ gexact g_expression (enc_expr whasm_format) /\
  gexact g_import (enc_import whasm_format) /\ gexact g_export (enc_export whasm_format) /\ gexact g_table (enc_table whasm_format) /\
  gexact g_memory (enc_mem whasm_format) /\ gexact g_global (enc_global whasm_format) /\ gexact g_start (enc_start whasm_format) /\
  gexact g_element (enc_elem whasm_format) /\ gexact g_data (enc_data whasm_format) /\
  gexact g_section (fun bs s => enc_section whasm_format bs (section_of s)).
Proof.
  refine (conj (agree_exact _ _ _ agree_u32 exact_u32) (conj (agree_exact _ _ _ (agree_signed 32) exact_i32) (conj (agree_exact _ _ _ (agree_signed 64) exact_i64)
   (conj (agree_exact _ _ _ (agree_float 4) (exact_float 4)) (conj (agree_exact _ _ _ (agree_float 8) (exact_float 8)) (conj (agree_exact _ _ _ agree_string exact_string)
   (conj (agree_exact _ _ _ agree_valty exact_valty) (conj (agree_exact _ _ _ agree_retval exact_retval) (conj (agree_exact _ _ _ agree_functy exact_functy)
   (conj (agree_exact _ _ _ agree_limits exact_limits) (conj (agree_exact _ _ _ agree_memty exact_memty) (conj (agree_exact _ _ _ agree_tablety exact_tablety)
   (conj (agree_exact _ _ _ agree_globalty exact_globalty) (conj (agree_exact _ _ _ agree_expr exact_expr) (conj (agree_exact _ _ _ agree_import exact_import)
   (conj (agree_exact _ _ _ agree_export exact_export) (conj (agree_exact _ _ _ agree_table exact_table) (conj (agree_exact _ _ _ agree_mem exact_mem)
   (conj (agree_exact _ _ _ agree_global exact_global) (conj (agree_exact _ _ _ agree_start exact_start) (conj (agree_exact _ _ _ agree_elem exact_elem)
   (conj (agree_exact _ _ _ agree_data exact_data) gexact_section)))))))))))))))))))))).
Qed.
Lemma elements_total :
  gtotal g_u32 /\ gtotal g_i32 /\ gtotal g_i64 /\ gtotal g_f32 /\ gtotal g_f64 /\ gtotal g_string /\ gtotal g_functype /\
  gtotal g_globaltype /\ gtotal g_tabletype /\ gtotal g_memtype /\ gtotal g_expression /\ gtotal g_import /\ gtotal g_export /\
  gtotal g_global /\ gtotal g_element /\ gtotal g_data /\ gtotal g_section.
Proof.
  refine (conj (agree_total _ _ agree_u32 safe_u32) (conj (agree_total _ _ (agree_signed 32) _) (conj (agree_total _ _ (agree_signed 64) _)
   (conj (agree_total _ _ (agree_float 4) (safe_float _ _)) (conj (agree_total _ _ (agree_float 8) (safe_float _ _)) (conj (agree_total _ _ agree_string safe_string)
   (conj (agree_total _ _ agree_functy safe_functy) (conj (agree_total _ _ agree_globalty safe_globalty) (conj (agree_total _ _ agree_tablety safe_tablety)
   (conj (agree_total _ _ agree_memty safe_memty) (conj (agree_total _ _ agree_expr safe_expr) (conj (agree_total _ _ agree_import safe_import)
   (conj (agree_total _ _ agree_export safe_export) (conj (agree_total _ _ agree_global safe_global) (conj (agree_total _ _ agree_elem safe_elem)
   (conj (agree_total _ _ agree_data safe_data) gtotal_section)))))))))))))))); first [apply safe_i32 | apply safe_i64].
Qed.
Lemma core_agree :
  (forall size, agree (p_unsigned size) (g_unsigned size)) /\ (forall size, agree (p_signed size) (g_signed size)) /\
  agree p_string g_string /\ agree p_valty g_valtype /\ agree p_retval g_blocktype /\ agree p_functy g_functype /\ agree p_limits g_limits /\
  agree p_expr g_expression /\ (forall A (p : parser A) g, agree p g -> agree (p_vec p) (g_vec g) /\ agree (p_compact_vec p) (g_vecvec g) /\ agree (p_sized p) (g_sized g)).
Proof.
  repeat match goal with |- _ /\ _ => split end;
  [ exact agree_unsigned | exact agree_signed | exact agree_string | exact agree_valty | exact agree_retval | exact agree_functy | exact agree_limits
  | exact agree_expr | intros A p g H; repeat split; [apply agree_vec|apply agree_vecvec|apply agree_sized]; exact H ].
Qed.
Lemma widths_exact :
  gexact g_u8 (enc_u whasm_format 8) /\ gexact g_u16 (enc_u whasm_format 16) /\ gexact g_u64 (enc_u whasm_format 64) /\
  gexact g_i8 (enc_s whasm_format 8) /\ gexact g_i16 (enc_s whasm_format 16).
Proof.
  assert (U : forall n, 8 <= n -> gexact (g_unsigned n) (enc_u whasm_format n)) by
    (intros n L; apply (agree_exact _ _ _ (agree_unsigned n)); eapply exact_ext; [|apply exact_unsigned, L]; intros bs v; symmetry; apply enc_u_whasm).
  assert (S : forall n, 8 <= n -> gexact (g_signed n) (enc_s whasm_format n)) by
    (intros n L; apply (agree_exact _ _ _ (agree_signed n)); eapply exact_ext; [|apply exact_signed, L]; intros bs v; symmetry; apply enc_s_whasm).
  repeat match goal with |- _ /\ _ => split end; first [apply U|apply S]; lia.
Qed.
Lemma widths_total : gtotal g_u8 /\ gtotal g_u16 /\ gtotal g_u64 /\ gtotal g_i8 /\ gtotal g_i16.
Proof.
  assert (U : forall n, 8 <= n -> gtotal (g_unsigned n)) by (intros n L; apply (agree_total _ _ (agree_unsigned n)), safe_unsigned, L).
  assert (S : forall n, 8 <= n -> gtotal (g_signed n)) by (intros n L; apply (agree_total _ _ (agree_signed n)), safe_signed, L).
  repeat match goal with |- _ /\ _ => split end; first [apply U|apply S]; lia.
Qed.
