(** The failures of the parser of modules, exactly. *)
From Coq Require Import String Lia.
From Verif Require Import ParserModule SpecErrors SpecFormat.
Open Scope N_scope.

Definition ends_in {A} (p : parser A) : Prop := forall bs e r, p bs = (Err e, r) -> possible_error e.

Lemma ei_ret {A} (a : A) : ends_in (ret a). Proof. intros bs e r H. discriminate H. Qed.
Lemma ei_fail {A} e : possible_error e -> ends_in (@fail A e).
Proof. intros P bs e' r H. injection H as <- _. exact P. Qed.
Lemma ei_panic {A} : ends_in (@panic A). Proof. intros bs e r H. discriminate H. Qed.
Lemma ei_fuel {A} : ends_in (@out_of_fuel A). Proof. intros bs e r H. discriminate H. Qed.
Lemma ei_bind {A B} (p : parser A) (f : A -> parser B) : ends_in p -> (forall a, ends_in (f a)) -> ends_in (bind p f).
Proof.
  intros P F bs e r H. unfold bind in H. destruct (p bs) as [[a|e'| |] r'] eqn:E; try discriminate H.
  - eapply F; eassumption.
  - injection H as -> _. eapply P; eassumption.
Qed.
Lemma ei_byte : ends_in p_byte.
Proof. intros [|b bs] e r H; [injection H as <- _; exact I|discriminate H]. Qed.
Lemma ei_uleb size mask bs : forall result shift e r, uleb_loop size mask result shift bs = (Err e, r) -> possible_error e.
Proof.
  induction bs as [|b bs IH]; intros result shift e r H; cbn [uleb_loop] in H; [injection H as <- _; exact I|].
  repeat match type of H with
  | (let '(_, _) := (if ?c then _ else _) in _) = _ => destruct c
  | context [match ?c with _ => _ end] => lazymatch c with uleb_loop _ _ _ _ _ => fail | _ => destruct c end
  end; try discriminate H; try (eapply IH; eassumption); injection H as <- _; exact I.
Qed.
Lemma ei_sleb size mask bs : forall result shift pos e r, sleb_loop size mask result shift pos bs = (Err e, r) -> possible_error e.
Proof.
  induction bs as [|b bs IH]; intros result shift pos e r H; cbn [sleb_loop] in H; [injection H as <- _; exact I|].
  unfold sleb_finish in H.
  repeat match type of H with
  | (let '(_, _) := (if ?c then _ else _) in _) = _ => destruct c
  | context [match ?c with _ => _ end] => lazymatch c with sleb_loop _ _ _ _ _ _ => fail | _ => destruct c end
  end; try discriminate H; try (eapply IH; eassumption); injection H as <- _; exact I.
Qed.
Lemma ei_unsigned size : ends_in (p_unsigned size).
Proof. intros bs e r H. unfold p_unsigned in H. destruct (u_from_u8 size 127); [eapply ei_uleb; eassumption|discriminate H]. Qed.
Lemma ei_signed size : ends_in (p_signed size).
Proof. intros bs e r H. unfold p_signed in H. destruct (s_from_u8 size 127); [eapply ei_sleb; eassumption|discriminate H]. Qed.
Lemma ei_times {A} n (p : parser A) : ends_in p -> ends_in (p_times n p).
Proof.
  intros P. induction n as [|n IH]; cbn [p_times]; [apply ei_ret|].
  apply ei_bind; [exact P|intros a]. apply ei_bind; [exact IH|intros l; apply ei_ret].
Qed.
Lemma ei_vec {A} (p : parser A) : ends_in p -> ends_in (p_vec p).
Proof. intros P. apply ei_bind; [apply ei_unsigned|intros n; apply ei_times, P]. Qed.
Lemma ei_uvec {A B} (p : parser A) (u : A -> B) : ends_in p -> ends_in (p_unwrapping_vec p u).
Proof. intros P. apply ei_bind; [apply ei_unsigned|intros n; apply ei_times]. apply ei_bind; [exact P|intros a; apply ei_ret]. Qed.
Lemma ei_runs {A} k (p : parser A) : ends_in p -> forall acc, ends_in (p_runs k p acc).
Proof.
  intros P. induction k as [|k IH]; intros acc; cbn [p_runs]; [apply ei_ret|].
  apply ei_bind; [apply ei_unsigned|intros n]. apply ei_bind; [exact P|intros v; apply IH].
Qed.
Lemma ei_compact {A} (p : parser A) : ends_in p -> ends_in (p_compact_vec p).
Proof. intros P. apply ei_bind; [apply ei_unsigned|intros k; apply ei_runs, P]. Qed.
Lemma ei_sized {A} (p : parser A) : ends_in p -> ends_in (p_sized p).
Proof.
  intros P. apply ei_bind; [apply ei_unsigned|]. intros n bs e r H. cbv zeta in H.
  destruct (p (firstn (N.to_nat n) bs)) as [[a|e'| |] r'] eqn:E; try discriminate H.
  - destruct (negb _) in H; [injection H as <- _; exact I|discriminate H].
  - injection H as -> _. eapply P; eassumption.
Qed.
Lemma ei_consume : ends_in p_consume. Proof. intros bs e r H. discriminate H. Qed.
Lemma ei_float h n : ends_in (p_float h n).
Proof. apply ei_bind; [apply ei_times, ei_byte|intros a; apply ei_ret]. Qed.
Lemma ei_string : ends_in p_string.
Proof. apply ei_bind; [apply ei_uvec, ei_byte|]. intros l. destruct (utf8_valid l); [apply ei_ret|apply ei_fail; exact I]. Qed.

Lemma bad_instr b : reserved_opcode b -> possible_error (InvalidVariantId b "instr::Instr"). Proof. cbn. unfold unexpected_in. tauto. Qed.
Lemma bad_val b : (forall t, b <> valty_byte t) -> possible_error (InvalidVariantId b "ty::Val"). Proof. cbn. unfold unexpected_in. tauto. Qed.
Lemma bad_func b : b <> x60 -> possible_error (InvalidVariantId b "ty::Func"). Proof. cbn. unfold unexpected_in. tauto. Qed.
Lemma bad_limits b : 1 < Byte.to_N b -> possible_error (InvalidVariantId b "ty::Limits"). Proof. cbn. unfold unexpected_in. tauto. Qed.
Lemma bad_elem b : b <> x70 -> possible_error (InvalidVariantId b "ty::Elem"). Proof. cbn. unfold unexpected_in. tauto. Qed.
Lemma bad_mut b : 1 < Byte.to_N b -> possible_error (InvalidVariantId b "ty::Mut"). Proof. cbn. unfold unexpected_in. tauto. Qed.
Lemma bad_import b : 3 < Byte.to_N b -> possible_error (InvalidVariantId b "module::desc::Import"). Proof. cbn. unfold unexpected_in. tauto. Qed.
Lemma bad_export b : 3 < Byte.to_N b -> possible_error (InvalidVariantId b "module::desc::Export"). Proof. cbn. unfold unexpected_in. tauto. Qed.
Lemma ei_valty : ends_in p_valty.
Proof. apply ei_bind; [apply ei_byte|]. intros []; first [apply ei_ret|apply ei_fail; apply bad_val; intros []; discriminate]. Qed.
Lemma ei_limits : ends_in p_limits.
Proof.
  apply ei_bind; [apply ei_byte|]. intros []; try (apply ei_fail; apply bad_limits; reflexivity).
  - apply ei_bind; [apply ei_unsigned|intros; apply ei_ret].
  - apply ei_bind; [apply ei_unsigned|intros]. apply ei_bind; [apply ei_unsigned|intros; apply ei_ret].
Qed.
Lemma ei_elemty : ends_in p_elemty.
Proof. apply ei_bind; [apply ei_byte|]. intros []; first [apply ei_ret|apply ei_fail; apply bad_elem; discriminate]. Qed.
Lemma ei_mut : ends_in p_mut.
Proof. apply ei_bind; [apply ei_byte|]. intros []; first [apply ei_ret|apply ei_fail; apply bad_mut; reflexivity]. Qed.
Lemma ei_functy : ends_in p_functy.
Proof.
  apply ei_bind; [apply ei_byte|]. intros []; try (apply ei_fail; apply bad_func; discriminate).
  apply ei_bind; [apply ei_vec, ei_valty|intros]. apply ei_bind; [apply ei_vec, ei_valty|intros; apply ei_ret].
Qed.
Lemma ei_retval : ends_in p_retval.
Proof.
  apply ei_bind; [apply ei_byte|]. intros b bs e r H.
  assert (K : (let '(o, _) := p_valty [b] in match o with Ok t => Ok [t] | Err e => Err e | Panic => Panic | OutOfFuel => OutOfFuel end) = Err e
              -> possible_error e).
  { clear. destruct (p_valty [b]) as [[t|e'| |] r'] eqn:E; intros H; try discriminate H. injection H as ->. eapply ei_valty; eassumption. }
  destruct (Byte.eqb b x40) eqn:B; [apply Byte.byte_dec_bl in B; subst b; discriminate H|].
  apply K. clear K. revert H B. destruct b; intros H B; try discriminate B; exact (f_equal fst H).
Qed.
Lemma ei_tablety : ends_in p_tablety.
Proof. apply ei_bind; [apply ei_elemty|intros]. apply ei_bind; [apply ei_limits|intros; apply ei_ret]. Qed.
Lemma ei_memty : ends_in p_memty. Proof. apply ei_bind; [apply ei_limits|intros; apply ei_ret]. Qed.
Lemma ei_globalty : ends_in p_globalty.
Proof. apply ei_bind; [apply ei_valty|intros]. apply ei_bind; [apply ei_mut|intros; apply ei_ret]. Qed.

Ltac ei := repeat first
  [apply ei_ret|apply ei_unsigned|apply ei_signed|apply ei_float|apply ei_byte|apply ei_retval|apply ei_valty
  |apply ei_vec|apply ei_string|apply ei_tablety|apply ei_memty|apply ei_globalty|apply ei_limits|apply ei_functy|apply ei_consume|assumption
  |apply ei_bind; [|intros]].
Section Sub.
Variable sub : parser (list instr * instr).
Hypothesis HS : ends_in sub.
Lemma ei_expr_of : ends_in (p_expr_of sub).
Proof.
  apply ei_bind; [exact HS|]. intros [l i]. destruct i; first [apply ei_ret|apply ei_fail; first [left; reflexivity|right; reflexivity]].
Qed.
Lemma ei_if_of : ends_in (p_if_of sub).
Proof.
  apply ei_bind; [apply ei_retval|intros rv]. apply ei_bind; [exact HS|]. intros [b1 n1].
  apply ei_bind; [destruct (is_else n1); [exact HS|apply ei_ret]|]. intros [b2 n2].
  destruct (is_end n2); [apply ei_ret|apply ei_fail; right; reflexivity].
Qed.
Lemma ei_opcode b : ends_in (p_opcode sub b).
Proof.
  destruct b; cbn [p_opcode]; unfold p_labelidx, p_funcidx, p_typeidx, p_tableidx, p_localidx, p_globalidx, p_memidx, p_u32, p_i32, p_i64, p_f32, p_f64;
    first [apply ei_if_of|apply ei_fail, bad_instr; unfold reserved_opcode; cbn; lia
    |apply ei_bind; [apply ei_retval|intros]; apply ei_bind; [apply ei_expr_of|intros; apply ei_ret]|solve [ei]].
Qed.
End Sub.
Lemma ei_instr_sub fuel : ends_in (p_instr fuel) /\ forall acc, ends_in (p_subexpr fuel acc).
Proof.
  induction fuel as [|f [I1 I2]]; cbn [p_instr p_subexpr]; [split; intros; apply ei_fuel|].
  split.
  - apply ei_bind; [apply ei_byte|intros b; apply ei_opcode, I2].
  - intros acc. apply ei_bind; [exact I1|]. intros i. destruct i; first [apply I2|apply ei_ret].
Qed.
Lemma ei_expr : ends_in p_expr.
Proof. intros bs e r H. unfold p_expr in H. eapply ei_expr_of; [apply ei_instr_sub|eassumption]. Qed.
Lemma ei_importdesc : ends_in p_importdesc.
Proof.
  apply ei_bind; [apply ei_byte|]. intros []; unfold p_typeidx, p_u32; first [apply ei_fail; apply bad_import; reflexivity|solve [ei]].
Qed.
Lemma ei_exportdesc : ends_in p_exportdesc.
Proof.
  apply ei_bind; [apply ei_byte|]. intros []; unfold p_funcidx, p_tableidx, p_memidx, p_globalidx, p_u32; first [apply ei_fail; apply bad_export; reflexivity|solve [ei]].
Qed.
Lemma ei_func : ends_in p_func.
Proof. apply ei_bind; [apply ei_compact, ei_valty|intros]. apply ei_bind; [apply ei_expr|intros; apply ei_ret]. Qed.
Ltac ei' := repeat first
  [apply ei_ret|apply ei_unsigned|apply ei_byte|apply ei_valty|apply ei_uvec|apply ei_expr|apply ei_importdesc|apply ei_exportdesc
  |apply ei_vec|apply ei_string|apply ei_globalty|apply ei_bind; [|intros]].
Lemma ei_section id s : ends_in (p_section id s).
Proof.
  destruct id; cbn [p_section]; cbv zeta;
    try (apply ei_fail; cbn; lia);
    (apply ei_bind; [apply ei_sized|intros v]); try apply ei_ret.
  - unfold p_custom. ei.
  - ei.
  - apply ei_vec. unfold p_import. ei'.
  - unfold p_typeidx, p_u32. ei.
  - apply ei_vec. unfold p_table. ei.
  - apply ei_vec. unfold p_mem. ei.
  - apply ei_vec. unfold p_global. ei'.
  - apply ei_vec. unfold p_export. ei'.
  - unfold p_start, p_funcidx, p_u32. ei.
  - apply ei_vec. unfold p_elem, p_tableidx, p_funcidx, p_u32. ei'.
  - apply ei_uvec, ei_sized, ei_func.
  - destruct (negb _); [apply ei_fail; exact I|]. destruct (assign_types _ _ _); first [apply ei_ret|apply ei_panic].
  - apply ei_vec. unfold p_data, p_memidx, p_u32. ei'.
Qed.
(** a section that is read has an identifier up to eleven and leaves the last identifier alone *)
Lemma section_last id s bs s' r : p_section id s bs = (Ok s', r) -> ps_last_id s' = ps_last_id s /\ Byte.to_N id <= 11.
Proof.
  destruct id; cbn [p_section]; cbv zeta; intros H; try discriminate H; (split; [|cbn; lia]); unfold bind in H;
    match type of H with match ?c with _ => _ end = _ => destruct c as [[v|e| |] r'] end; try discriminate H;
    try (injection H as <- _; reflexivity).
  destruct (negb _) in H; [discriminate H|]. destruct (assign_types _ _ _) in H; try discriminate H. injection H as <- _. reflexivity.
Qed.
Lemma ei_sections fuel : forall s, ps_last_id s <= 11 -> ends_in (p_sections fuel s).
Proof.
  induction fuel as [|f IH]; intros s L bs e r H; cbn [p_sections] in H; [discriminate H|].
  destruct bs as [|b bs]; [discriminate H|].
  unfold bind in H at 1. cbn [p_byte] in H.
  destruct (negb (byte_is b 0) && (Byte.to_N b <=? ps_last_id s))%bool eqn:C.
  { injection H as <- _. unfold byte_is in C. cbn [possible_error]. apply Bool.andb_true_iff in C. destruct C as [C1 C2].
    apply Bool.negb_true_iff, N.eqb_neq in C1. apply N.leb_le in C2. lia. }
  clear C. cbv zeta in H. unfold bind in H at 1.
  destruct (p_section b (if byte_is b 0 then s else mkPstate (ps_result s) (ps_func_types s) (Byte.to_N b)) bs) as [[s2|e'| |] r'] eqn:E; try discriminate H.
  - apply section_last in E. destruct E as [E1 E2]. eapply IH; [|eassumption]. rewrite E1. destruct (byte_is b 0); assumption.
  - injection H as -> _. eapply ei_section; eassumption.
Qed.
Lemma module_errors : ends_in p_module.
Proof.
  apply ei_bind; [apply ei_times, ei_byte|intros magic]. destruct (negb _); [apply ei_fail; exact I|].
  apply ei_bind; [apply ei_times, ei_byte|intros version]. destruct (negb _); [apply ei_fail; exact I|].
  intros bs e r H. revert H. refine ((_ : ends_in _) bs e r). apply ei_bind; [apply ei_sections; cbn; lia|intros; apply ei_ret].
Qed.

(** every one of them occurs *)
Definition section (id : byte) (body : list byte) : list byte :=
  match Byte.of_N (N.of_nat (List.length body)) with Some n => id :: n :: body | None => [] end.
Definition witness (e : perror) : list byte :=
  match e with
  | UnexpectedEndOfFile => []
  | InvalidPreambleMagic => [x00; x61; x73; x6e]
  | InvalidPreambleVersion => [x00; x61; x73; x6d; x02; x00; x00; x00]
  | _ => preamble ++
    match e with
    | OutOfRangeSignedInteger => section x06 [x01; x7f; x00; x41; xff; xff; xff; xff; x3f; x0b]
    | OutOfRangeUnsignedInteger => [x01; xff; xff; xff; xff; x7f]
    | InvalidUtf8Encoding => section x00 [x01; xff]
    | SizeMissmatch => section x01 [x00; x00]
    | UnexpectedSectionId b => section x0b [x00] ++ [b]
    | InvalidSectionId b => [b]
    | UnexpectedOpcode i => section x06 ([x01; x7f; x00] ++ if String.eqb i "Else" then [x05] else [x04; x40; x05; x05])
    | InvalidVariantId b ty =>
      if String.eqb ty "instr::Instr" then section x06 [x01; x7f; x00; b]
      else if String.eqb ty "ty::Val" then section x06 [x01; b]
      else if String.eqb ty "ty::Func" then section x01 [x01; b]
      else if String.eqb ty "ty::Limits" then section x05 [x01; b]
      else if String.eqb ty "ty::Elem" then section x04 [x01; b]
      else if String.eqb ty "ty::Mut" then section x06 [x01; x7f; b]
      else if String.eqb ty "module::desc::Import" then section x02 [x01; x00; x00; b]
      else section x07 [x01; x00; b]
    | _ => []
    end
  end.
Lemma errors_occur e : possible_error e -> fst (p_module (witness e)) = Err e.
Proof.
  destruct e; cbn [possible_error]; intros P; try contradiction;
    lazymatch goal with |- fst (p_module (witness (_ _))) = _ => idtac | |- fst (p_module (witness (_ _ _))) = _ => idtac | _ => vm_compute; reflexivity end.
  - destruct P as [[-> P]|[[-> P]|[[-> P]|[[-> P]|[[-> P]|[[-> P]|[[-> P]|[-> P]]]]]]]].
    + unfold reserved_opcode in P. destruct id; first [vm_compute; reflexivity|exfalso; cbn in P; lia].
    + destruct id; first [vm_compute; reflexivity|exfalso; first [now apply (P T_I32)|now apply (P T_I64)|now apply (P T_F32)|now apply (P T_F64)]].
    + destruct id; first [vm_compute; reflexivity|now contradiction P].
    + destruct id; first [vm_compute; reflexivity|exfalso; cbn in P; lia].
    + destruct id; first [vm_compute; reflexivity|now contradiction P].
    + destruct id; first [vm_compute; reflexivity|exfalso; cbn in P; lia].
    + destruct id; first [vm_compute; reflexivity|exfalso; cbn in P; lia].
    + destruct id; first [vm_compute; reflexivity|exfalso; cbn in P; lia].
  - destruct P as [ -> | -> ]; vm_compute; reflexivity.
  - destruct id; first [vm_compute; reflexivity|exfalso; cbn in P; lia].
  - destruct id; first [vm_compute; reflexivity|exfalso; cbn in P; lia].
Qed.
Lemma possible_errors e : (exists bs r, p_module bs = (Err e, r)) <-> possible_error e.
Proof.
  split.
  - intros [bs [r H]]. eapply module_errors; eassumption.
  - intros P. apply errors_occur in P. exists (witness e). destruct (p_module (witness e)) as [o r]. exists r. cbn in P. now rewrite P.
Qed.
