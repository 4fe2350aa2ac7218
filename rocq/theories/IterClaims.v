(** What parsing from an iterator does, and when it stops. *)
From Coq Require Import Lia ZifyN ZifyNat String.
From Verif Require Import ParserIter IterElements SpecParser SpecIter ElementSpec ParserMeta TypesProof InstrProof ModuleProof SectionsProof
  IterProof SpecFormat ModuleClaims.
Open Scope N_scope.

Lemma sim_instr_top : sim i_instr_top p_instr_top.
Proof.
  apply (sim_fueled failed i_instr p_instr fuel_for).
  - exact failed_fuel.
  - intros n. unfold fuel_for. lia.
  - intros f. apply sim_instr_sub.
  - intros f f' L. apply further_mono, L.
  - intros f bs L. apply (proj1 (bsafe_instr_sub f (length bs))); unfold fuel_for in L; lia.
Qed.
Lemma sim_models A i p : models A i p -> sim i p.
Proof.
  induction 1; first [apply sim_byte | apply sim_unsigned | apply sim_signed | apply sim_float | apply sim_string
    | apply sim_limits | apply sim_valty | apply sim_elemty | apply sim_retval | apply sim_functy | apply sim_tablety | apply sim_memty
    | apply sim_mut | apply sim_globalty | apply sim_instr_top | apply sim_expr | apply sim_func | apply sim_table | apply sim_mem | apply sim_global
    | apply sim_elem | apply sim_data | apply sim_start | apply sim_importdesc | apply sim_exportdesc | apply sim_import | apply sim_export
    | apply sim_sized, simw_custom | apply sim_section | apply sim_vec; assumption | apply sim_unwrapping_vec; assumption
    | apply sim_compact_vec; assumption | apply sim_times; assumption | apply sim_sized, sim_decided; assumption].
Qed.

(** ** What was read *)
Lemma elements_iter A i p : models A i p -> forall fuel S (next : iterator S) s o s', i fuel S next s = (o, s') -> o <> OutOfFuel ->
  (exists l, yields next s l s' /\ forall rest, p (l ++ rest) = (o, rest)) \/
  (exists l e, yields_then_ends next s l s' /\ p l = (o, []) /\ o = Err e).
Proof.
  intros M fuel S next s o s' H NF. destruct (proj2 (sim_models A i p M) _ _ _ _ _ _ H) as [l Y Q|l s1 Y N Q [e E]|l O Y L Q].
  - left. eauto.
  - right. exists l, e. unfold yields_then_ends. eauto.
  - contradiction.
Qed.
Lemma module_iter fuel S (next : iterator S) s o s' : i_module fuel S next s = (o, s') -> o <> OutOfFuel ->
  (exists l, yields next s l s' /\ forall rest, p_module (l ++ rest) = (o, rest)) \/
  (exists l, yields_then_ends next s l s' /\ p_module l = (o, [])).
Proof.
  intros H NF. destruct (proj2 sim_module _ _ _ _ _ _ H) as [l Y Q|l s1 Y N Q D|l O Y L Q].
  - left. eauto.
  - right. exists l. unfold yields_then_ends. eauto.
  - contradiction.
Qed.
Lemma module_ok_all bs m r : p_module bs = (Ok m, r) -> r = [].
Proof. intros H. apply module_exact in H. tauto. Qed.
Lemma module_iter_ok fuel S (next : iterator S) s m s' : i_module fuel S next s = (Ok m, s') ->
  exists l, yields_then_ends next s l s' /\ p_module l = (Ok m, []).
Proof.
  intros H. destruct (module_iter _ _ _ _ _ _ H) as [(l & Y & Q)|H2]; [discriminate| |assumption].
  pose proof (module_ok_all _ _ _ (Q [x00])). discriminate.
Qed.

(** ** Two readings of the same iterator agree *)
Lemma yields_compare {S} (next : iterator S) l1 : forall l2 s s1 s2, yields next s l1 s1 -> yields next s l2 s2 ->
  (exists y, l2 = l1 ++ y /\ yields next s1 y s2) \/ (exists y, l1 = l2 ++ y /\ yields next s2 y s1).
Proof.
  induction l1 as [|b l1 IH]; intros l2 s s1 s2 H1 H2.
  - cbn in H1. subst s1. left. exists l2. auto.
  - destruct l2 as [|c l2].
    + cbn in H2. subst s2. right. exists (b :: l1). auto.
    + destruct H1 as (t1 & N1 & H1), H2 as (t2 & N2 & H2). rewrite N1 in N2. injection N2 as <- <-.
      destruct (IH l2 t1 s1 s2 H1 H2) as [(y & -> & Y)|(y & -> & Y)]; [left|right]; exists y; auto.
Qed.
Lemma yields_before_end {S} (next : iterator S) l l' s s1 s' : yields_then_ends next s l s1 -> yields next s l' s' ->
  exists y, l = l' ++ y.
Proof.
  intros (s2 & Y & N) Y'. destruct (yields_compare next l l' s s2 s' Y Y') as [(y & -> & Z)|(y & -> & Z)]; [|eauto].
  destruct y as [|b y]; [exists []; rewrite !app_nil_r; reflexivity|]. destruct Z as (s3 & N3 & _). congruence.
Qed.
Lemma ends_unique {S} (next : iterator S) l l' s s1 s1' : yields_then_ends next s l s1 -> yields_then_ends next s l' s1' -> l = l' /\ s1 = s1'.
Proof.
  intros (t & Y & N) (t' & Y' & N'). destruct (yields_compare next l l' s t t' Y Y') as [(y & -> & Z)|(y & -> & Z)];
    (destruct y as [|b y]; [cbn in Z; subst; rewrite app_nil_r; split; [reflexivity|congruence]|destruct Z as (? & Z & _); congruence]).
Qed.
Lemma ending_sim {A} (E : outcome A -> Prop) i (p : parser A) : simw E i p -> forall fuel S (next : iterator S) s l s1, yields_then_ends next s l s1 ->
  (2 * length l + 2 < fuel)%nat -> fst (i fuel S next s) = fst (p l).
Proof.
  intros M fuel S next s l s1 Y L. destruct (i fuel S next s) as [o s'] eqn:H.
  destruct (proj2 M _ _ _ _ _ _ H) as [l' Y' Q|l' s2 Y' N Q D|l' -> Y' L' Q].
  - destruct (yields_before_end _ _ _ _ _ _ Y Y') as [y ->]. rewrite Q. reflexivity.
  - destruct (ends_unique next l l' s s1 s' Y) as [<- _]; [exists s2; auto|]. rewrite Q. reflexivity.
  - destruct (yields_before_end _ _ _ _ _ _ Y Y') as [y ->]. rewrite app_length in L. lia.
Qed.
Lemma ending_elements A i p : models A i p -> forall fuel S (next : iterator S) s l s1, yields_then_ends next s l s1 ->
  (2 * length l + 2 < fuel)%nat -> fst (i fuel S next s) = fst (p l).
Proof. intros M. apply (ending_sim failed i p), sim_models, M. Qed.
Lemma ending_module fuel S (next : iterator S) s l s1 : yields_then_ends next s l s1 ->
  (2 * length l + 2 < fuel)%nat -> fst (i_module fuel S next s) = fst (p_module l).
Proof. apply (ending_sim decided), sim_module. Qed.

(** ** The fuel does not matter *)
Definition mono {A} (p : ip A) : Prop := forall f f' S (next : iterator S) s, (f <= f')%nat ->
  fst (p f S next s) <> OutOfFuel -> p f' S next s = p f S next s.
Lemma mono_const {A} (o : outcome A) : mono (i_outcome o). Proof. intros f f' S next s _ _. reflexivity. Qed.
Lemma mono_ret {A} (a : A) : mono (i_ret a). Proof. apply mono_const. Qed.
Lemma mono_fail {A} e : mono (@i_fail A e). Proof. apply mono_const. Qed.
Lemma mono_panic {A} : mono (@i_panic A). Proof. apply mono_const. Qed.
Lemma mono_byte : mono i_byte. Proof. intros f f' S next s _ _. reflexivity. Qed.
(** two parsers of which the second has more fuel or rounds *)
Definition mono2 {A} (p p' : ip A) : Prop := forall f f' S (next : iterator S) s, (f <= f')%nat ->
  fst (p f S next s) <> OutOfFuel -> p' f' S next s = p f S next s.
Lemma mono2_bind {A B} (p p' : ip A) (g g' : A -> ip B) : mono2 p p' -> (forall a, mono2 (g a) (g' a)) -> mono2 (i_bind p g) (i_bind p' g').
Proof.
  intros P G f f' S next s L H. unfold i_bind in *. rewrite (P f f' S next s L).
  - destruct (p f S next s) as [[a|e| |] s1]; try reflexivity. apply G; assumption.
  - intros X. destruct (p f S next s) as [[a|e| |] s1]; try discriminate X. apply H. reflexivity.
Qed.
Lemma mono2_oof {A} (p : ip A) : mono2 i_out_of_fuel p. Proof. intros f f' S next s _ H. destruct (H eq_refl). Qed.
Lemma mono_bind {A B} (p : ip A) (g : A -> ip B) : mono p -> (forall a, mono (g a)) -> mono (i_bind p g).
Proof. apply mono2_bind. Qed.
Lemma mono2_uleb r : forall r' size mask result shift, (r <= r')%nat -> mono2 (i_uleb_loop r size mask result shift) (i_uleb_loop r' size mask result shift).
Proof.
  induction r as [|r IH]; intros r' size mask result shift L; [apply mono2_oof|].
  destruct r' as [|r']; [lia|]. cbn [i_uleb_loop]. apply mono2_bind; [apply mono_byte|]. intros b.
  repeat (match goal with |- context [if ?c then _ else _] => destruct c
      | |- context [match ?c with Some _ => _ | None => _ end] => destruct c end);
  first [apply mono_const | apply IH; lia].
Qed.
Lemma mono2_sleb r : forall r' size mask result shift pos, (r <= r')%nat -> mono2 (i_sleb_loop r size mask result shift pos) (i_sleb_loop r' size mask result shift pos).
Proof.
  induction r as [|r IH]; intros r' size mask result shift pos L; [apply mono2_oof|].
  destruct r' as [|r']; [lia|]. cbn [i_sleb_loop]. apply mono2_bind; [apply mono_byte|]. intros b.
  repeat (match goal with |- context [if ?c then _ else _] => destruct c
      | |- context [match ?c with Some _ => _ | None => _ end] => destruct c end);
  first [apply mono_const | apply IH; lia].
Qed.
Lemma mono_unsigned size : mono (i_unsigned size).
Proof.
  intros f f' S next s L H. unfold i_unsigned in *. destruct (u_from_u8 size 127); [|reflexivity].
  apply mono2_uleb; assumption.
Qed.
Lemma mono_signed size : mono (i_signed size).
Proof.
  intros f f' S next s L H. unfold i_signed in *. destruct (s_from_u8 size 127); [|reflexivity].
  apply mono2_sleb; assumption.
Qed.
Lemma mono_u32 : mono i_u32. Proof. apply mono_unsigned. Qed.
Lemma mono_times {A} n (p : ip A) : mono p -> mono (i_times n p).
Proof.
  intros P. induction n; cbn [i_times]; [apply mono_ret|]. apply mono_bind; [assumption|]. intros x. apply mono_bind; [assumption|].
  intros; apply mono_ret.
Qed.
Lemma mono_vec {A} (p : ip A) : mono p -> mono (i_vec p).
Proof. intros P. apply mono_bind; [apply mono_u32|]. intros n. apply mono_times, P. Qed.
Lemma mono_unwrapping_vec {A B} (p : ip A) (u : A -> B) : mono p -> mono (i_unwrapping_vec p u).
Proof.
  intros P. apply mono_bind; [apply mono_u32|]. intros n. apply mono_times. apply mono_bind; [assumption|]. intros; apply mono_ret.
Qed.
Lemma mono_runs {A} k (p : ip A) : mono p -> forall acc, mono (i_runs k p acc).
Proof.
  intros P. induction k; intros acc; cbn [i_runs]; [apply mono_ret|].
  apply mono_bind; [apply mono_u32|]. intros n. apply mono_bind; [assumption|]. intros v. apply IHk.
Qed.
Lemma mono_compact_vec {A} (p : ip A) : mono p -> mono (i_compact_vec p).
Proof. intros P. apply mono_bind; [apply mono_u32|]. intros n. apply mono_runs, P. Qed.
Lemma mono_float h n : mono (i_float h n).
Proof. apply mono_bind; [apply mono_times, mono_byte|]. intros; apply mono_ret. Qed.
Lemma mono_string : mono i_string.
Proof.
  apply mono_bind; [apply mono_unwrapping_vec, mono_byte|]. intros raw. destruct (utf8_valid raw); [apply mono_ret|apply mono_fail].
Qed.
Lemma mono_sized {A} (p : ip A) : mono p -> mono (i_sized p).
Proof.
  intros P. apply mono_bind; [apply mono_u32|]. intros n f f' S next s L H.
  rewrite (P f f' _ (windowed_next next) (mkWindowed s n 0) L); [reflexivity|].
  intros X. destruct (p f (windowed S) (windowed_next next) (mkWindowed s n 0)) as [[a|e| |] w]; try discriminate X. apply H. reflexivity.
Qed.
Lemma mono2_count r : forall r' n, (r <= r')%nat -> mono2 (i_count r n) (i_count r' n).
Proof.
  induction r as [|r IH]; intros r' n L f f' S next s LF H; [destruct (H eq_refl)|].
  destruct r' as [|r']; [lia|]. cbn [i_count] in *. destruct (next s) as [[b|] s1]; [|reflexivity].
  apply IH; [lia|assumption..].
Qed.
Lemma mono_consume : mono i_consume.
Proof. intros f f' S next s L H. unfold i_consume in *. apply mono2_count; assumption. Qed.
Lemma mono_custom : mono i_custom.
Proof.
  apply mono_bind; [apply mono_string|]. intros n. apply mono_bind; [apply mono_consume|]. intros; apply mono_ret.
Qed.
Ltac m_mono := repeat first
  [ apply mono_ret | apply mono_fail | apply mono_byte | apply mono_u32 | apply mono_string
  | apply mono_vec | apply mono_compact_vec | apply mono_unwrapping_vec
  | assumption | apply mono_bind; [|intro] ].
Ltac b_mono := apply mono_bind; [apply mono_byte|]; intros []; m_mono.
Lemma mono_limits : mono i_limits. Proof. unfold i_limits. b_mono. Qed.
Lemma mono_valty : mono i_valty. Proof. unfold i_valty. b_mono. Qed.
Lemma mono_elemty : mono i_elemty. Proof. unfold i_elemty. b_mono. Qed.
Lemma mono_mut : mono i_mut. Proof. unfold i_mut. b_mono. Qed.
Lemma mono_retval : mono i_retval.
Proof.
  unfold i_retval. apply mono_bind; [apply mono_byte|]. intros b; destruct b; first [apply mono_ret | apply mono_const].
Qed.
Lemma mono_functy : mono i_functy. Proof. pose proof mono_valty. unfold i_functy. b_mono. Qed.
Lemma mono_tablety : mono i_tablety. Proof. pose proof mono_elemty. pose proof mono_limits. unfold i_tablety. m_mono. Qed.
Lemma mono_memty : mono i_memty. Proof. pose proof mono_limits. unfold i_memty. m_mono. Qed.
Lemma mono_globalty : mono i_globalty. Proof. pose proof mono_valty. pose proof mono_mut. unfold i_globalty. m_mono. Qed.
Lemma mono2_expr_of sub sub' : mono2 sub sub' -> mono2 (i_expr_of sub) (i_expr_of sub').
Proof.
  intros S. unfold i_expr_of. apply mono2_bind; [assumption|]. intros [e i]. destruct i; apply mono_const.
Qed.
Lemma mono2_if_of sub sub' : mono2 sub sub' -> mono2 (i_if_of sub) (i_if_of sub').
Proof.
  intros S. unfold i_if_of. apply mono2_bind; [apply mono_retval|]. intros rt. apply mono2_bind; [assumption|].
  intros [b1 n1]. apply mono2_bind.
  - destruct (is_else n1); [assumption|apply mono_const].
  - intros [b2 n2]. destruct (is_end n2); apply mono_const.
Qed.
Lemma mono2_opcode sub sub' b : mono2 sub sub' -> mono2 (i_opcode sub b) (i_opcode sub' b).
Proof.
  intros S. pose proof (mono2_expr_of _ _ S). pose proof (mono2_if_of _ _ S).
  assert (mono2 i_u32 i_u32) by apply mono_u32. assert (mono2 i_retval i_retval) by apply mono_retval.
  assert (mono2 (i_vec i_u32) (i_vec i_u32)) by apply mono_vec, mono_u32.
  assert (mono2 i_i32 i_i32) by apply mono_signed. assert (mono2 i_i64 i_i64) by apply mono_signed.
  assert (mono2 i_f32 i_f32) by apply mono_float. assert (mono2 i_f64 i_f64) by apply mono_float.
  destruct b; unfold i_opcode, i_labelidx, i_funcidx, i_typeidx, i_tableidx, i_localidx, i_globalidx, i_memidx;
  first [ apply mono_const | assumption
        | apply mono2_bind; [assumption|intros a]; first [apply mono_const|apply mono2_bind; [assumption|intros a']; apply mono_const]].
Qed.
Lemma mono2_instr_sub r : forall r', (r <= r')%nat -> mono2 (i_instr r) (i_instr r') /\ forall acc, mono2 (i_subexpr r acc) (i_subexpr r' acc).
Proof.
  induction r as [|r IH]; intros r' L; [split; intros; apply mono2_oof|].
  destruct r' as [|r']; [lia|]. destruct (IH r' ltac:(lia)) as [IH1 IH2]. cbn [i_instr i_subexpr]. split.
  - apply mono2_bind; [apply mono_byte|]. intros b. apply mono2_opcode, IH2.
  - intros acc. apply mono2_bind; [assumption|]. intros i. destruct i; first [apply mono_const | apply IH2].
Qed.
Lemma mono_instr_top : mono i_instr_top.
Proof. intros f f' S next s L. apply (proj1 (mono2_instr_sub f f' L)), L. Qed.
Lemma mono_expr : mono i_expr.
Proof. intros f f' S next s L. apply (mono2_expr_of _ _ (proj2 (mono2_instr_sub f f' L) [])), L. Qed.
Ltac c_mono := pose proof mono_valty; pose proof mono_limits; pose proof mono_functy; pose proof mono_tablety; pose proof mono_memty;
  pose proof mono_globalty; pose proof mono_expr; pose proof mono_u32.
Lemma mono_func : mono i_func. Proof. c_mono. unfold i_func. m_mono. Qed.
Lemma mono_table : mono i_table. Proof. c_mono. unfold i_table. m_mono. Qed.
Lemma mono_mem : mono i_mem. Proof. c_mono. unfold i_mem. m_mono. Qed.
Lemma mono_global : mono i_global. Proof. c_mono. unfold i_global, i_constexpr. m_mono. Qed.
Lemma mono_elem : mono i_elem. Proof. c_mono. unfold i_elem, i_tableidx, i_funcidx, i_constexpr. m_mono. Qed.
Lemma mono_data : mono i_data. Proof. c_mono. unfold i_data, i_memidx, i_constexpr. m_mono. Qed.
Lemma mono_start : mono i_start. Proof. c_mono. unfold i_start, i_funcidx. m_mono. Qed.
Lemma mono_importdesc : mono i_importdesc. Proof. c_mono. unfold i_importdesc, i_typeidx. b_mono. Qed.
Lemma mono_exportdesc : mono i_exportdesc.
Proof. c_mono. unfold i_exportdesc, i_funcidx, i_tableidx, i_memidx, i_globalidx. b_mono. Qed.
Lemma mono_import : mono i_import. Proof. pose proof mono_importdesc. unfold i_import. m_mono. Qed.
Lemma mono_export : mono i_export. Proof. pose proof mono_exportdesc. unfold i_export. m_mono. Qed.
Lemma mono_section id s : mono (i_section id s).
Proof.
  unfold i_section, i_typeidx.
  destruct id; try apply mono_fail; (apply mono_bind; [|intro]); try apply mono_ret; try apply mono_sized;
    try apply mono_custom; try apply mono_start;
    try (apply mono_vec;
         first [apply mono_functy|apply mono_import|apply mono_u32|apply mono_table|apply mono_mem|apply mono_global|apply mono_export|apply mono_elem|apply mono_data]).
  - apply mono_unwrapping_vec, mono_sized, mono_func.
  - destruct (negb _); [apply mono_fail|]. destruct (assign_types _ _ _); first [apply mono_ret|apply mono_panic].
Qed.
Lemma mono_round s : mono (i_round s).
Proof.
  unfold i_round. apply mono_bind; [apply mono_byte|]. intros id. destruct (negb _ && _); [apply mono_fail|apply mono_section].
Qed.
Lemma mono_sections r : forall r' st f f' S (next : iterator S) p, (r <= r')%nat -> (f <= f')%nat ->
  fst (i_sections r st f S next p) <> OutOfFuel -> i_sections r' st f' S next p = i_sections r st f S next p.
Proof.
  induction r as [|r IH]; intros r' st f f' S next p L LF H; [destruct (H eq_refl)|].
  destruct r' as [|r']; [lia|]. cbn [i_sections] in *. destruct (peek next p) as [[b|] p1]; [|reflexivity].
  rewrite (mono_round st f f' _ (peekable_next next) p1 LF).
  - destruct (i_round st f (peekable S) (peekable_next next) p1) as [[st2|e| |] p2]; try reflexivity. apply IH; [lia|assumption..].
  - intros X. destruct (i_round st f (peekable S) (peekable_next next) p1) as [[st2|e| |] p2]; try discriminate X. apply H. reflexivity.
Qed.
Lemma mono_body : mono i_body.
Proof.
  intros f f' S next s L H. unfold i_body in *. rewrite (mono_sections f f' _ f f' S next _ L L); [reflexivity|].
  destruct (i_sections f _ f S next _) as [o p]. exact H.
Qed.
Lemma mono_module : mono i_module.
Proof.
  unfold i_module, i_array. apply mono_bind; [apply mono_times, mono_byte|]. intros magic. destruct (negb _); [apply mono_fail|].
  apply mono_bind; [apply mono_times, mono_byte|]. intros version. destruct (negb _); [apply mono_fail|].
  apply mono_bind; [apply mono_body|]. intros; apply mono_ret.
Qed.
Lemma mono_models A i p : models A i p -> mono i.
Proof.
  induction 1; first [apply mono_byte | apply mono_unsigned | apply mono_signed | apply mono_float | apply mono_string
    | apply mono_limits | apply mono_valty | apply mono_elemty | apply mono_retval | apply mono_functy | apply mono_tablety | apply mono_memty
    | apply mono_mut | apply mono_globalty | apply mono_instr_top | apply mono_expr | apply mono_func | apply mono_table | apply mono_mem | apply mono_global
    | apply mono_elem | apply mono_data | apply mono_start | apply mono_importdesc | apply mono_exportdesc | apply mono_import | apply mono_export
    | apply mono_sized, mono_custom | apply mono_section | apply mono_vec; assumption | apply mono_unwrapping_vec; assumption
    | apply mono_compact_vec; assumption | apply mono_times; assumption | apply mono_sized; assumption].
Qed.

(** ** When parsing stops *)
Lemma endless_rejects S (next : iterator S) s fuel m : endless next s -> fst (i_module fuel S next s) <> Ok m.
Proof.
  intros E H. destruct (i_module fuel S next s) as [o s'] eqn:R. cbn [fst] in H. subst o.
  destruct (module_iter_ok _ _ _ _ _ _ R) as (l & (s1 & Y & N) & _). destruct (E l s1 Y) as (b & s2 & N2). congruence.
Qed.
Lemma stops_iff S (next : iterator S) s e : endless next s ->
  (exists fuel, fst (i_module fuel S next s) = Err e) <->
  (exists l s1, yields next s l s1 /\ forall rest, p_module (l ++ rest) = (Err e, rest)).
Proof.
  intros E. split.
  - intros (fuel & H). destruct (i_module fuel S next s) as [o s'] eqn:R. cbn [fst] in H. subst o.
    destruct (module_iter _ _ _ _ _ _ R) as [(l & Y & Q)|(l & (s1 & Y & N) & Q)]; [discriminate|eauto|].
    destruct (E l s1 Y) as (b & s2 & N2). congruence.
  - intros (l & s1 & Y & Q). set (F := (2 * length l + 3)%nat). exists F. destruct (i_module F S next s) as [o s'] eqn:R. cbn [fst].
    destruct (proj2 sim_module _ _ _ _ _ _ R) as [l' Y' Q'|l' s2 Y' N Q' D|l' -> Y' L' Q'].
    + destruct (yields_compare next l l' s s1 s' Y Y') as [(y & -> & _)|(y & -> & _)].
      * pose proof (Q y) as Q1. pose proof (Q' []) as Q2. rewrite app_nil_r in Q2. congruence.
      * pose proof (Q []) as Q1. pose proof (Q' y) as Q2. rewrite app_nil_r in Q1. congruence.
    + destruct (E l' s2 Y') as (b & s3 & N2). congruence.
    + unfold F in L'. destruct (yields_compare next l l' s s1 s' Y Y') as [(y & -> & _)|(y & -> & _)].
      * destruct y as [|b y]; [rewrite app_nil_r in L'; lia|]. rewrite Q in Q'. discriminate.
      * rewrite app_length in L'. lia.
Qed.
(** the padding of a number need not end *)
Lemma padding_loop r : forall shift F S (next : iterator S) s, next s = (Some x80, s) ->
  i_uleb_loop r 32 127 0 shift F S next s = (OutOfFuel, s).
Proof.
  induction r as [|r IH]; intros shift F S next s N; [reflexivity|].
  cbn [i_uleb_loop]. unfold i_bind, i_byte. rewrite N.
  change (u_from_u8 32 (N.land (Byte.to_N x80) 127)) with (Some 0).
  change (negb (N.land (Byte.to_N x80) 127 =? 0)) with false. change (N.land (Byte.to_N x80) 128 =? 0) with false. cbv iota beta zeta.
  destruct (N.leb_spec 32 shift) as [L|L]; [apply IH, N|].
  unfold u_shl, u_shr. destruct (N.ltb_spec shift 32); [|lia].
  rewrite N.shiftl_0_l, N.mod_0_l by (vm_compute; discriminate). rewrite N.shiftr_0_l. rewrite N.land_0_l. change (negb (0 =? 0)) with false.
  cbv iota. apply IH, N.
Qed.
Lemma number_endless : exists S (next : iterator S) s, endless next s /\ forall fuel, fst (i_u32 fuel S next s) = OutOfFuel.
Proof.
  exists unit, (fun s => (Some x80, s)), tt. split; [intros l s1 _; eauto|]. intros fuel. unfold i_u32, i_unsigned.
  change (u_from_u8 32 127) with (Some 127). cbv iota. rewrite padding_loop by reflexivity. reflexivity.
Qed.
(** after the bytes of [bs], [x80] forever *)
Definition then_padding : iterator (list byte) := fun bs =>
  match bs with
  | b :: r => (Some b, r)
  | [] => (Some x80, [])
  end.
Lemma module_endless : exists S (next : iterator S) s, endless next s /\ forall fuel, fst (i_module fuel S next s) = OutOfFuel.
Proof.
  exists (list byte), then_padding, [x00; x61; x73; x6d; x01; x00; x00; x00; x00].
  split; [intros l [|b s1] _; cbn; eauto|]. intros fuel. destruct fuel as [|f]; [reflexivity|].
  assert (B : i_body (S f) (list byte) then_padding [x00] = (OutOfFuel, [])).
  { unfold i_body. cbn [i_sections]. unfold peek. cbn [pk_peeked pk_inner then_padding]. unfold i_round.
    unfold i_bind at 1. unfold i_byte at 1. unfold peekable_next at 1. cbn [pk_peeked pk_inner].
    change (negb (byte_is x00 0) && _) with false. cbv iota beta. change (byte_is x00 0) with true. cbv iota beta.
    unfold i_section, i_sized, i_bind, i_u32, i_unsigned. change (u_from_u8 32 127) with (Some 127). cbv iota beta.
    rewrite padding_loop by reflexivity. reflexivity. }
  unfold i_module. unfold i_bind at 1.
  change (i_array 4 i_byte (S f) (list byte) then_padding [x00; x61; x73; x6d; x01; x00; x00; x00; x00])
    with (Ok [x00; x61; x73; x6d], [x01; x00; x00; x00; x00]). cbv iota beta.
  change (negb (bytes_are [x00; x61; x73; x6d] [0; 97; 115; 109])) with false. cbv iota beta. unfold i_bind at 1.
  change (i_array 4 i_byte (S f) (list byte) then_padding [x01; x00; x00; x00; x00])
    with (Ok [x01; x00; x00; x00], [x00]). cbv iota beta.
  change (negb (bytes_are [x01; x00; x00; x00] [1; 0; 0; 0])) with false. cbv iota beta. unfold i_bind. rewrite B. reflexivity.
Qed.
(** nor do valid beginnings without end *)
Lemma viable_endless S (next : iterator S) s : endless next s ->
  (forall l s1, yields next s l s1 -> exists rest m, fst (p_module (l ++ rest)) = Ok m) ->
  forall fuel, fst (i_module fuel S next s) = OutOfFuel.
Proof.
  intros E V fuel. destruct (i_module fuel S next s) as [o s'] eqn:R. cbn [fst]. destruct o as [m|e| |]; [| | |reflexivity]; exfalso.
  - apply (endless_rejects S next s fuel m E). rewrite R. reflexivity.
  - destruct (proj1 (stops_iff S next s e E) (ex_intro _ fuel (f_equal fst R))) as (l & s1 & Y & Q).
    destruct (V l s1 Y) as (rest & m & H). rewrite Q in H. discriminate H.
  - destruct (module_iter _ _ _ _ _ _ R) as [(l & Y & Q)|(l & (s1 & Y & N) & Q)]; [discriminate| |].
    + destruct (V l s' Y) as (rest & m & H). rewrite Q in H. discriminate H.
    + destruct (E l s1 Y) as (b & s2 & N2). congruence.
Qed.
(** after the bytes of [bs], empty custom sections forever *)
Definition then_customs : iterator (list byte) := fun bs => match bs with b :: r => (Some b, r) | [] => (Some x00, [x01; x00]) end.
Lemma customs_yield l : forall s s1, yields then_customs s l s1 -> exists k, l ++ s1 = s ++ concat (repeat [x00; x01; x00] k).
Proof.
  induction l as [|b l IH]; intros s s1; cbn [yields].
  - intros <-. exists O. symmetry. apply app_nil_r.
  - intros (s2 & N & Y). destruct (IH s2 s1 Y) as [k K]. destruct s as [|c s]; cbn [then_customs] in N; injection N as <- <-.
    + exists (S k). cbn [app concat repeat]. f_equal. exact K.
    + exists k. cbn [app]. f_equal. exact K.
Qed.
Lemma customs_endless : exists S (next : iterator S) s, endless next s /\
  (forall l s1, yields next s l s1 -> exists rest m, fst (p_module (l ++ rest)) = Ok m) /\ forall fuel, fst (i_module fuel S next s) = OutOfFuel.
Proof.
  exists (list byte), then_customs, preamble.
  assert (E : endless then_customs preamble) by (intros l [|b s1] _; cbn; eauto).
  assert (V : forall l s1, yields then_customs preamble l s1 -> exists rest m, fst (p_module (l ++ rest)) = Ok m).
  { intros l s1 Y. destruct (customs_yield l _ _ Y) as [k K]. exists s1. rewrite K. exists default_module.
    pose proof (custom_transparent [] [] (concat (repeat [x00; x01; x00] k)) (repeat ([], []) k) []) as T. rewrite app_nil_r in T.
    cbn [app] in T. rewrite T.
    - vm_compute. reflexivity.
    - exists []. split; constructor.
    - exists (repeat [x00; x01; x00] k). split; [|reflexivity]. clear. induction k as [|k IH]; cbn [repeat map]; constructor; [|exact IH]. 
      exists [x01; x00]. split; [reflexivity|]. exists [x01], [x00]. split; [reflexivity|]. split.
      + destruct (proj1 (exact_u32 [x01] 1%N []) eq_refl) as (p & E1 & H). rewrite app_nil_r in E1. subst p. exact H.
      + exists [x00]. split; [reflexivity|].
        destruct (proj1 (exact_string [x00] [] []) eq_refl) as (p & E1 & H). rewrite app_nil_r in E1. subst p. exact H. }
  split; [exact E|]. split; [exact V|]. apply viable_endless; assumption.
Qed.
