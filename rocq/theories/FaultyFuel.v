(** An answer found with some fuel is the answer with any more, on iterators that may panic. *)
From Coq Require Import Lia ZifyN ZifyNat String.
From Verif Require Import ParserFaulty FaultyElements.
Open Scope N_scope.

(** ** The fuel does not matter *)
Definition jmono {A} (p : jp A) : Prop := forall f f' S (next : faulty S) s, (f <= f')%nat ->
  fst (p f S next s) <> OutOfFuel -> p f' S next s = p f S next s.
Lemma jmono_const {A} (o : outcome A) : jmono (j_outcome o). Proof. intros f f' S next s _ _. reflexivity. Qed.
Lemma jmono_ret {A} (a : A) : jmono (j_ret a). Proof. apply jmono_const. Qed.
Lemma jmono_fail {A} e : jmono (@j_fail A e). Proof. apply jmono_const. Qed.
Lemma jmono_panic {A} : jmono (@j_panic A). Proof. apply jmono_const. Qed.
Lemma jmono_byte : jmono j_byte. Proof. intros f f' S next s _ _. reflexivity. Qed.
(** two parsers of which the second has more fuel or rounds *)
Definition jmono2 {A} (p p' : jp A) : Prop := forall f f' S (next : faulty S) s, (f <= f')%nat ->
  fst (p f S next s) <> OutOfFuel -> p' f' S next s = p f S next s.
Lemma jmono2_bind {A B} (p p' : jp A) (g g' : A -> jp B) : jmono2 p p' -> (forall a, jmono2 (g a) (g' a)) -> jmono2 (j_bind p g) (j_bind p' g').
Proof.
  intros P G f f' S next s L H. unfold j_bind in *. rewrite (P f f' S next s L).
  - destruct (p f S next s) as [[a|e| |] s1]; try reflexivity. apply G; assumption.
  - intros X. destruct (p f S next s) as [[a|e| |] s1]; try discriminate X. apply H. reflexivity.
Qed.
Lemma jmono2_oof {A} (p : jp A) : jmono2 j_out_of_fuel p. Proof. intros f f' S next s _ H. destruct (H eq_refl). Qed.
Lemma jmono_bind {A B} (p : jp A) (g : A -> jp B) : jmono p -> (forall a, jmono (g a)) -> jmono (j_bind p g).
Proof. apply jmono2_bind. Qed.
Lemma jmono2_uleb r : forall r' size mask result shift, (r <= r')%nat -> jmono2 (j_uleb_loop r size mask result shift) (j_uleb_loop r' size mask result shift).
Proof.
  induction r as [|r IH]; intros r' size mask result shift L; [apply jmono2_oof|].
  destruct r' as [|r']; [lia|]. cbn [j_uleb_loop]. apply jmono2_bind; [apply jmono_byte|]. intros b.
  repeat (match goal with |- context [if ?c then _ else _] => destruct c
      | |- context [match ?c with Some _ => _ | None => _ end] => destruct c end);
  first [apply jmono_const | apply IH; lia].
Qed.
Lemma jmono2_sleb r : forall r' size mask result shift pos, (r <= r')%nat -> jmono2 (j_sleb_loop r size mask result shift pos) (j_sleb_loop r' size mask result shift pos).
Proof.
  induction r as [|r IH]; intros r' size mask result shift pos L; [apply jmono2_oof|].
  destruct r' as [|r']; [lia|]. cbn [j_sleb_loop]. apply jmono2_bind; [apply jmono_byte|]. intros b.
  repeat (match goal with |- context [if ?c then _ else _] => destruct c
      | |- context [match ?c with Some _ => _ | None => _ end] => destruct c end);
  first [apply jmono_const | apply IH; lia].
Qed.
Lemma jmono_unsigned size : jmono (j_unsigned size).
Proof.
  intros f f' S next s L H. unfold j_unsigned in *. destruct (u_from_u8 size 127); [|reflexivity].
  apply jmono2_uleb; assumption.
Qed.
Lemma jmono_signed size : jmono (j_signed size).
Proof.
  intros f f' S next s L H. unfold j_signed in *. destruct (s_from_u8 size 127); [|reflexivity].
  apply jmono2_sleb; assumption.
Qed.
Lemma jmono_u32 : jmono j_u32. Proof. apply jmono_unsigned. Qed.
Lemma jmono_times {A} n (p : jp A) : jmono p -> jmono (j_times n p).
Proof.
  intros P. induction n; cbn [j_times]; [apply jmono_ret|]. apply jmono_bind; [assumption|]. intros x. apply jmono_bind; [assumption|].
  intros; apply jmono_ret.
Qed.
Lemma jmono_vec {A} (p : jp A) : jmono p -> jmono (j_vec p).
Proof. intros P. apply jmono_bind; [apply jmono_u32|]. intros n. apply jmono_times, P. Qed.
Lemma jmono_unwrapping_vec {A B} (p : jp A) (u : A -> B) : jmono p -> jmono (j_unwrapping_vec p u).
Proof.
  intros P. apply jmono_bind; [apply jmono_u32|]. intros n. apply jmono_times. apply jmono_bind; [assumption|]. intros; apply jmono_ret.
Qed.
Lemma jmono_runs {A} k (p : jp A) : jmono p -> forall acc, jmono (j_runs k p acc).
Proof.
  intros P. induction k; intros acc; cbn [j_runs]; [apply jmono_ret|].
  apply jmono_bind; [apply jmono_u32|]. intros n. apply jmono_bind; [assumption|]. intros v. apply IHk.
Qed.
Lemma jmono_compact_vec {A} (p : jp A) : jmono p -> jmono (j_compact_vec p).
Proof. intros P. apply jmono_bind; [apply jmono_u32|]. intros n. apply jmono_runs, P. Qed.
Lemma jmono_float h n : jmono (j_float h n).
Proof. apply jmono_bind; [apply jmono_times, jmono_byte|]. intros; apply jmono_ret. Qed.
Lemma jmono_string : jmono j_string.
Proof.
  apply jmono_bind; [apply jmono_unwrapping_vec, jmono_byte|]. intros raw. destruct (utf8_valid raw); [apply jmono_ret|apply jmono_fail].
Qed.
Lemma jmono_sized {A} (p : jp A) : jmono p -> jmono (j_sized p).
Proof.
  intros P. apply jmono_bind; [apply jmono_u32|]. intros n f f' S next s L H.
  rewrite (P f f' _ (faulty_windowed next) (mkWindowed s n 0) L); [reflexivity|].
  intros X. destruct (p f (windowed S) (faulty_windowed next) (mkWindowed s n 0)) as [[a|e| |] w]; try discriminate X. apply H. reflexivity.
Qed.
Lemma jmono2_count r : forall r' n, (r <= r')%nat -> jmono2 (j_count r n) (j_count r' n).
Proof.
  induction r as [|r IH]; intros r' n L f f' S next s LF H; [destruct (H eq_refl)|].
  destruct r' as [|r']; [lia|]. cbn [j_count] in *. destruct (next s) as [[[b|] s1]|]; [|reflexivity..].
  apply IH; [lia|assumption..].
Qed.
Lemma jmono_consume : jmono j_consume.
Proof. intros f f' S next s L H. unfold j_consume in *. apply jmono2_count; assumption. Qed.
Lemma jmono_custom : jmono j_custom.
Proof.
  apply jmono_bind; [apply jmono_string|]. intros n. apply jmono_bind; [apply jmono_consume|]. intros; apply jmono_ret.
Qed.
Ltac m_jmono := repeat first
  [ apply jmono_ret | apply jmono_fail | apply jmono_byte | apply jmono_u32 | apply jmono_string
  | apply jmono_vec | apply jmono_compact_vec | apply jmono_unwrapping_vec
  | assumption | apply jmono_bind; [|intro] ].
Ltac b_jmono := apply jmono_bind; [apply jmono_byte|]; intros []; m_jmono.
Lemma jmono_limits : jmono j_limits. Proof. unfold j_limits. b_jmono. Qed.
Lemma jmono_valty : jmono j_valty. Proof. unfold j_valty. b_jmono. Qed.
Lemma jmono_elemty : jmono j_elemty. Proof. unfold j_elemty. b_jmono. Qed.
Lemma jmono_mut : jmono j_mut. Proof. unfold j_mut. b_jmono. Qed.
Lemma jmono_retval : jmono j_retval.
Proof.
  unfold j_retval. apply jmono_bind; [apply jmono_byte|]. intros b; destruct b; first [apply jmono_ret | apply jmono_const].
Qed.
Lemma jmono_functy : jmono j_functy. Proof. pose proof jmono_valty. unfold j_functy. b_jmono. Qed.
Lemma jmono_tablety : jmono j_tablety. Proof. pose proof jmono_elemty. pose proof jmono_limits. unfold j_tablety. m_jmono. Qed.
Lemma jmono_memty : jmono j_memty. Proof. pose proof jmono_limits. unfold j_memty. m_jmono. Qed.
Lemma jmono_globalty : jmono j_globalty. Proof. pose proof jmono_valty. pose proof jmono_mut. unfold j_globalty. m_jmono. Qed.
Lemma jmono2_expr_of sub sub' : jmono2 sub sub' -> jmono2 (j_expr_of sub) (j_expr_of sub').
Proof.
  intros S. unfold j_expr_of. apply jmono2_bind; [assumption|]. intros [e i]. destruct i; apply jmono_const.
Qed.
Lemma jmono2_if_of sub sub' : jmono2 sub sub' -> jmono2 (j_if_of sub) (j_if_of sub').
Proof.
  intros S. unfold j_if_of. apply jmono2_bind; [apply jmono_retval|]. intros rt. apply jmono2_bind; [assumption|].
  intros [b1 n1]. apply jmono2_bind.
  - destruct (is_else n1); [assumption|apply jmono_const].
  - intros [b2 n2]. destruct (is_end n2); apply jmono_const.
Qed.
Lemma jmono2_opcode sub sub' b : jmono2 sub sub' -> jmono2 (j_opcode sub b) (j_opcode sub' b).
Proof.
  intros S. pose proof (jmono2_expr_of _ _ S). pose proof (jmono2_if_of _ _ S).
  assert (jmono2 j_u32 j_u32) by apply jmono_u32. assert (jmono2 j_retval j_retval) by apply jmono_retval.
  assert (jmono2 (j_vec j_u32) (j_vec j_u32)) by apply jmono_vec, jmono_u32.
  assert (jmono2 j_i32 j_i32) by apply jmono_signed. assert (jmono2 j_i64 j_i64) by apply jmono_signed.
  assert (jmono2 j_f32 j_f32) by apply jmono_float. assert (jmono2 j_f64 j_f64) by apply jmono_float.
  destruct b; unfold j_opcode, j_labelidx, j_funcidx, j_typeidx, j_tableidx, j_localidx, j_globalidx, j_memidx;
  first [ apply jmono_const | assumption
        | apply jmono2_bind; [assumption|intros a]; first [apply jmono_const|apply jmono2_bind; [assumption|intros a']; apply jmono_const]].
Qed.
Lemma jmono2_instr_sub r : forall r', (r <= r')%nat -> jmono2 (j_instr r) (j_instr r') /\ forall acc, jmono2 (j_subexpr r acc) (j_subexpr r' acc).
Proof.
  induction r as [|r IH]; intros r' L; [split; intros; apply jmono2_oof|].
  destruct r' as [|r']; [lia|]. destruct (IH r' ltac:(lia)) as [IH1 IH2]. cbn [j_instr j_subexpr]. split.
  - apply jmono2_bind; [apply jmono_byte|]. intros b. apply jmono2_opcode, IH2.
  - intros acc. apply jmono2_bind; [assumption|]. intros i. destruct i; first [apply jmono_const | apply IH2].
Qed.
Lemma jmono_instr_top : jmono j_instr_top.
Proof. intros f f' S next s L. apply (proj1 (jmono2_instr_sub f f' L)), L. Qed.
Lemma jmono_expr : jmono j_expr.
Proof. intros f f' S next s L. apply (jmono2_expr_of _ _ (proj2 (jmono2_instr_sub f f' L) [])), L. Qed.
Ltac c_jmono := pose proof jmono_valty; pose proof jmono_limits; pose proof jmono_functy; pose proof jmono_tablety; pose proof jmono_memty;
  pose proof jmono_globalty; pose proof jmono_expr; pose proof jmono_u32.
Lemma jmono_func : jmono j_func. Proof. c_jmono. unfold j_func. m_jmono. Qed.
Lemma jmono_table : jmono j_table. Proof. c_jmono. unfold j_table. m_jmono. Qed.
Lemma jmono_mem : jmono j_mem. Proof. c_jmono. unfold j_mem. m_jmono. Qed.
Lemma jmono_global : jmono j_global. Proof. c_jmono. unfold j_global, j_constexpr. m_jmono. Qed.
Lemma jmono_elem : jmono j_elem. Proof. c_jmono. unfold j_elem, j_tableidx, j_funcidx, j_constexpr. m_jmono. Qed.
Lemma jmono_data : jmono j_data. Proof. c_jmono. unfold j_data, j_memidx, j_constexpr. m_jmono. Qed.
Lemma jmono_start : jmono j_start. Proof. c_jmono. unfold j_start, j_funcidx. m_jmono. Qed.
Lemma jmono_importdesc : jmono j_importdesc. Proof. c_jmono. unfold j_importdesc, j_typeidx. b_jmono. Qed.
Lemma jmono_exportdesc : jmono j_exportdesc.
Proof. c_jmono. unfold j_exportdesc, j_funcidx, j_tableidx, j_memidx, j_globalidx. b_jmono. Qed.
Lemma jmono_import : jmono j_import. Proof. pose proof jmono_importdesc. unfold j_import. m_jmono. Qed.
Lemma jmono_export : jmono j_export. Proof. pose proof jmono_exportdesc. unfold j_export. m_jmono. Qed.
Lemma jmono_section id s : jmono (j_section id s).
Proof.
  unfold j_section, j_typeidx.
  destruct id; try apply jmono_fail; (apply jmono_bind; [|intro]); try apply jmono_ret; try apply jmono_sized;
    try apply jmono_custom; try apply jmono_start;
    try (apply jmono_vec;
         first [apply jmono_functy|apply jmono_import|apply jmono_u32|apply jmono_table|apply jmono_mem|apply jmono_global|apply jmono_export|apply jmono_elem|apply jmono_data]).
  - apply jmono_unwrapping_vec, jmono_sized, jmono_func.
  - destruct (negb _); [apply jmono_fail|]. destruct (assign_types _ _ _); first [apply jmono_ret|apply jmono_panic].
Qed.
Lemma jmono_round s : jmono (j_round s).
Proof.
  unfold j_round. apply jmono_bind; [apply jmono_byte|]. intros id. destruct (negb _ && _); [apply jmono_fail|apply jmono_section].
Qed.
Lemma jmono_sections r : forall r' st f f' S (next : faulty S) p, (r <= r')%nat -> (f <= f')%nat ->
  fst (j_sections r st f S next p) <> OutOfFuel -> j_sections r' st f' S next p = j_sections r st f S next p.
Proof.
  induction r as [|r IH]; intros r' st f f' S next p L LF H; [destruct (H eq_refl)|].
  destruct r' as [|r']; [lia|]. cbn [j_sections] in *. destruct (faulty_peek next p) as [[[b|] p1]|]; [|reflexivity..].
  rewrite (jmono_round st f f' _ (faulty_peekable next) p1 LF).
  - destruct (j_round st f (peekable S) (faulty_peekable next) p1) as [[st2|e| |] p2]; try reflexivity. apply IH; [lia|assumption..].
  - intros X. destruct (j_round st f (peekable S) (faulty_peekable next) p1) as [[st2|e| |] p2]; try discriminate X. apply H. reflexivity.
Qed.
Lemma jmono_body : jmono j_body.
Proof.
  intros f f' S next s L H. unfold j_body in *. rewrite (jmono_sections f f' _ f f' S next _ L L); [reflexivity|].
  destruct (j_sections f _ f S next _) as [o p]. exact H.
Qed.
Lemma jmono_module : jmono j_module.
Proof.
  unfold j_module, j_array. apply jmono_bind; [apply jmono_times, jmono_byte|]. intros magic. destruct (negb _); [apply jmono_fail|].
  apply jmono_bind; [apply jmono_times, jmono_byte|]. intros version. destruct (negb _); [apply jmono_fail|].
  apply jmono_bind; [apply jmono_body|]. intros; apply jmono_ret.
Qed.
Lemma jmono_models A j p : faulty_models A j p -> jmono j.
Proof.
  induction 1; first [apply jmono_byte | apply jmono_unsigned | apply jmono_signed | apply jmono_float | apply jmono_string
    | apply jmono_limits | apply jmono_valty | apply jmono_elemty | apply jmono_retval | apply jmono_functy | apply jmono_tablety | apply jmono_memty
    | apply jmono_mut | apply jmono_globalty | apply jmono_instr_top | apply jmono_expr | apply jmono_func | apply jmono_table | apply jmono_mem | apply jmono_global
    | apply jmono_elem | apply jmono_data | apply jmono_start | apply jmono_importdesc | apply jmono_exportdesc | apply jmono_import | apply jmono_export
    | apply jmono_sized, jmono_custom | apply jmono_section | apply jmono_vec; assumption | apply jmono_unwrapping_vec; assumption
    | apply jmono_compact_vec; assumption | apply jmono_times; assumption | apply jmono_sized; assumption].
Qed.

