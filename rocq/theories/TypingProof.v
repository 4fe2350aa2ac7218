(** The validation algorithm for instructions decides the declarative type system. *)
From Coq Require Import Lia.
From Verif Require Import Validator SpecTyping EncodeProof.

(** ** Basic facts *)
Lemma valty_eqb_eq a b : valty_eqb a b = true <-> a = b.
Proof. destruct a, b; cbn; split; congruence. Qed.
Lemma valtys_eqb_eq a b : valtys_eqb a b = true <-> a = b.
Proof.
  revert b. induction a as [|x a IH]; intros [|y b]; cbn; try (split; congruence).
  rewrite andb_true_iff, valty_eqb_eq, IH. split; [intros [-> ->]; reflexivity|intros [= -> ->]; auto].
Qed.

Lemma vbind_ok {A B} (r : vres A) (f : A -> vres B) b :
  vbind r f = VOk b -> exists a, r = VOk a /\ f a = VOk b.
Proof. destruct r; cbn; try discriminate. eauto. Qed.

Lemma v_lookup_ok {A} (xs : list A) i x : v_lookup xs i = VOk x <-> at_index xs i x.
Proof.
  unfold v_lookup, at_index. destruct (N.leb_spec (N.of_nat (length xs)) i) as [L|L].
  - split; [discriminate|]. intros H. assert (nth_error xs (N.to_nat i) <> None) as Q by congruence.
    apply nth_error_Some in Q. lia.
  - destruct (nth_error xs (N.to_nat i)) eqn:E; split; congruence.
Qed.
Lemma v_lookup_no_panic {A} (xs : list A) i : v_lookup xs i <> VPanic.
Proof.
  unfold v_lookup. destruct (N.leb_spec (N.of_nat (length xs)) i) as [L|L]; [discriminate|].
  destruct (nth_error xs (N.to_nat i)) eqn:E; [discriminate|]. apply nth_error_None in E. lia.
Qed.

(** ** The environment seen by code: the bottom frame is not a branch target *)
Definition env (c : context) (frs : list frame) : tenv :=
  mkTenv (c_types c) (c_funcs c) (c_tables c) (c_mems c) (c_globals c) (c_locals c)
         (removelast (map f_label frs)) (c_ret c).

Lemma removelast_nth {A} (l : list A) n :
  nth_error (removelast l) n = if Nat.ltb (S n) (length l) then nth_error l n else None.
Proof.
  revert n. induction l as [|x l IH]; intros n.
  - destruct n; reflexivity.
  - destruct l as [|y l].
    + destruct n; reflexivity.
    + destruct n as [|n]; [reflexivity|]. change (removelast (x :: y :: l)) with (x :: removelast (y :: l)).
      cbn [nth_error]. rewrite IH. cbn [length]. reflexivity.
Qed.

Lemma rev_nth_error {A} (l : list A) n : (n < length l)%nat -> nth_error (rev l) (length l - S n) = nth_error l n.
Proof.
  intros L. assert (exists d : A, True) as [d _] by (destruct l; [cbn in L; lia|eauto]).
  rewrite (nth_error_nth' (rev l) d) by (rewrite rev_length; lia).
  rewrite (nth_error_nth' l d) by assumption. f_equal.
  rewrite rev_nth by lia. f_equal. lia.
Qed.

Lemma v_labelidx_ok s i fr : v_labelidx s i = VOk fr ->
  nth_error (frames s) (N.to_nat i) = Some fr /\ (S (N.to_nat i) < length (frames s))%nat.
Proof.
  unfold v_labelidx. destruct (N.ltb_spec (i + 1) (N.of_nat (length (frames s)))) as [L|L]; cbn; [|discriminate].
  replace (N.to_nat (N.of_nat (length (frames s)) - i - 1)) with (length (frames s) - S (N.to_nat i))%nat by lia.
  rewrite rev_nth_error by lia. intros H. split; [|lia].
  destruct (nth_error (frames s) (N.to_nat i)); congruence.
Qed.
Lemma v_labelidx_intro s i fr : nth_error (frames s) (N.to_nat i) = Some fr -> (S (N.to_nat i) < length (frames s))%nat ->
  v_labelidx s i = VOk fr.
Proof.
  intros H L. unfold v_labelidx. destruct (N.ltb_spec (i + 1) (N.of_nat (length (frames s)))) as [_|L']; [|lia]. cbn.
  replace (N.to_nat (N.of_nat (length (frames s)) - i - 1)) with (length (frames s) - S (N.to_nat i))%nat by lia.
  rewrite rev_nth_error by lia. rewrite H. reflexivity.
Qed.
Lemma v_labelidx_no_panic s i : v_labelidx s i <> VPanic.
Proof.
  unfold v_labelidx. destruct (N.ltb_spec (i + 1) (N.of_nat (length (frames s)))) as [L|L]; cbn; [|discriminate].
  replace (N.to_nat (N.of_nat (length (frames s)) - i - 1)) with (length (frames s) - S (N.to_nat i))%nat by lia.
  rewrite rev_nth_error by lia. destruct (nth_error (frames s) (N.to_nat i)) eqn:E; [discriminate|].
  apply nth_error_None in E. lia.
Qed.

Lemma label_sound c s i fr : v_labelidx s i = VOk fr -> at_index (te_labels (env c (frames s))) i (f_label fr).
Proof.
  intros H. apply v_labelidx_ok in H as [H L]. unfold at_index. cbn [te_labels env].
  rewrite removelast_nth, map_length. destruct (Nat.ltb_spec (S (N.to_nat i)) (length (frames s))); [|lia].
  rewrite nth_error_map, H. reflexivity.
Qed.
Lemma label_complete c s i ts : at_index (te_labels (env c (frames s))) i ts ->
  exists fr, v_labelidx s i = VOk fr /\ f_label fr = ts.
Proof.
  unfold at_index. cbn [te_labels env].
  rewrite removelast_nth, map_length. destruct (Nat.ltb_spec (S (N.to_nat i)) (length (frames s))) as [L|L]; [|discriminate].
  rewrite nth_error_map. destruct (nth_error (frames s) (N.to_nat i)) as [fr|] eqn:E; cbn; [|discriminate].
  intros [= <-]. exists fr. split; [|reflexivity]. apply v_labelidx_intro; assumption.
Qed.

(** ** Instances of an abstract operand stack: top first *)
Definition opm (v : operand) (t : valty) : Prop := match v with Unknown => True | Val t' => t = t' end.
Fixpoint inst (seg : list operand) (u : bool) (r : list valty) : Prop :=
  match seg with
  | [] => u = true \/ r = []
  | v :: seg' => match r with [] => False | t :: r' => opm v t /\ inst seg' u r' end
  end.

Lemma inst_any seg u : exists r, inst seg u r.
Proof.
  induction seg as [|v seg [r IH]].
  - exists []. right. reflexivity.
  - destruct v as [|t]; [exists (T_I32 :: r)|exists (t :: r)]; cbn; auto.
Qed.
Lemma inst_vals ts seg u r : inst (map Val ts ++ seg) u r <-> exists r', r = ts ++ r' /\ inst seg u r'.
Proof.
  revert r. induction ts as [|t ts IH]; intros r; cbn.
  - split; [eauto|intros (? & -> & ?); assumption].
  - destruct r as [|t' r]; [split; [contradiction|intros (? & [=] & _)]|].
    rewrite IH. split.
    + intros [-> (r' & -> & I)]. exists r'. auto.
    + intros (r' & [= -> ->] & I). eauto.
Qed.

Definition set_unr (fr : frame) (u : bool) : frame := mkFrame (f_label fr) (f_out fr) (f_height fr) u.
Lemma set_unr_self fr : set_unr fr (f_unreachable fr) = fr.
Proof. destruct fr. reflexivity. Qed.

Section Frame.
Context (base : list operand) (fr : frame) (frs : list frame) (HB : length base = f_height fr).
Local Notation u := (f_unreachable fr).
Definition st (seg : list operand) : stacks := mkStacks (seg ++ base) (fr :: frs).

Lemma pop_sound op seg op' s' : pop_operand op (st seg) = VOk (op', s') ->
  exists seg', s' = st seg' /\ forall t r, opm op' t -> inst seg' u r -> opm op t /\ inst seg u (t :: r).
Proof.
  unfold pop_operand, st. cbn [frames operands]. rewrite app_length.
  destruct seg as [|v seg]; cbn [length app].
  - rewrite Nat.add_0_l. rewrite (proj2 (Nat.eqb_eq _ _) HB).
    destruct (f_unreachable fr) eqn:U; cbn; [|discriminate].
    intros [= <- <-]. exists []. split; [reflexivity|]. intros t r M I. split; [assumption|]. left. reflexivity.
  - replace (Nat.eqb (S (length seg) + length base) (f_height fr)) with false
      by (symmetry; apply Nat.eqb_neq; lia). cbn [andb].
    destruct v as [|tv]; [|destruct op as [|to]].
    + intros [= <- <-]. exists seg. split; [reflexivity|]. intros t r M I. cbn. auto.
    + intros [= <- <-]. exists seg. split; [reflexivity|]. intros t r M I. cbn. auto.
    + cbn [operand_eqb]. destruct (valty_eqb tv to) eqn:E; [|discriminate]. apply valty_eqb_eq in E as ->.
      intros [= <- <-]. exists seg. split; [reflexivity|]. intros t r M I. cbn in *. auto.
Qed.
Lemma pop_complete op seg t r : opm op t -> inst seg u (t :: r) ->
  exists op' seg', pop_operand op (st seg) = VOk (op', st seg') /\ opm op' t /\ inst seg' u r.
Proof.
  intros M I. unfold pop_operand, st. cbn [frames operands]. rewrite app_length.
  destruct seg as [|v seg]; cbn [length app].
  - rewrite Nat.add_0_l. rewrite (proj2 (Nat.eqb_eq _ _) HB).
    destruct I as [U|[=]]. rewrite U. cbn. exists op, []. split; [reflexivity|]. split; [assumption|]. left. reflexivity.
  - replace (Nat.eqb (S (length seg) + length base) (f_height fr)) with false
      by (symmetry; apply Nat.eqb_neq; lia). cbn [andb].
    destruct I as [V I]. destruct v as [|tv]; [|destruct op as [|to]].
    + exists op, seg. auto.
    + exists (Val tv), seg. auto.
    + cbn in V, M. rewrite <- V, <- M. cbn [operand_eqb]. rewrite (proj2 (valty_eqb_eq t t) eq_refl). exists (Val t), seg. cbn. auto.
Qed.

Lemma pop_all_sound ts seg s' : pop_all ts (st seg) = VOk s' ->
  exists seg', s' = st seg' /\ forall r, inst seg' u r -> inst seg u (ts ++ r).
Proof.
  revert seg. induction ts as [|t ts IH]; intros seg; cbn [pop_all].
  - intros [= <-]. exists seg. auto.
  - intros H. apply vbind_ok in H as ([op' s1] & H1 & H2). apply pop_sound in H1 as (seg1 & -> & K). cbn [snd] in H2.
    apply IH in H2 as (seg' & -> & K'). exists seg'. split; [reflexivity|]. intros r I.
    specialize (K' _ I). destruct op' as [|t'].
    + apply (K t); [exact Logic.I|assumption].
    + destruct (K t' (ts ++ r)) as [M J]; [reflexivity|assumption|]. cbn in M. subst. assumption.
Qed.
Lemma pop_all_complete ts seg r : inst seg u (ts ++ r) ->
  exists seg', pop_all ts (st seg) = VOk (st seg') /\ inst seg' u r.
Proof.
  revert seg. induction ts as [|t ts IH]; intros seg I; cbn [pop_all].
  - exists seg. auto.
  - cbn [app] in I. destruct (pop_complete (Val t) seg t (ts ++ r)) as (op' & seg1 & E & _ & I1); [reflexivity|assumption|].
    rewrite E. cbn [vbind snd]. apply IH. assumption.
Qed.

Lemma push_operands_st ts seg : push_operands ts (st seg) = st (map Val (rev ts) ++ seg).
Proof.
  revert seg. induction ts as [|t ts IH]; intros seg; [reflexivity|].
  cbn [push_operands fold_left]. change (push_operand (Val t) (st seg)) with (st (Val t :: seg)).
  change (fold_left _ ts ?s) with (push_operands ts s). rewrite IH. cbn [rev]. rewrite map_app, <- app_assoc. reflexivity.
Qed.

Lemma unreachable_st seg : s_unreachable (st seg) = VOk (mkStacks base (set_unr fr true :: frs)).
Proof.
  unfold s_unreachable, st. cbn [frames operands]. unfold truncate. rewrite app_length, HB.
  rewrite skipn_app. replace (length seg + f_height fr - f_height fr - length seg)%nat with O by lia.
  replace (length seg + f_height fr - f_height fr)%nat with (length seg) by lia. rewrite skipn_all. reflexivity.
Qed.

Lemma pop_frame_sound seg rs : pop_frame (st seg) = VOk rs ->
  rs = (f_out fr, mkStacks base frs) /\ inst seg u (rev (f_out fr)).
Proof.
  unfold pop_frame. cbn [frames st]. intros H. apply vbind_ok in H as (s1 & H1 & H2).
  apply pop_all_sound in H1 as (seg' & -> & K). cbn [operands frames st] in H2.
  rewrite app_length in H2. destruct (Nat.eqb_spec (length seg' + length base) (f_height fr)) as [E|E]; cbn in H2; [|discriminate].
  assert (seg' = []) as -> by (destruct seg'; [reflexivity|cbn in E; lia]). injection H2 as <-. split; [reflexivity|].
  rewrite <- (app_nil_r (rev _)). apply K. right. reflexivity.
Qed.
Lemma pop_frame_complete seg : inst seg u (rev (f_out fr)) -> pop_frame (st seg) = VOk (f_out fr, mkStacks base frs).
Proof.
  intros I. unfold pop_frame. cbn [frames st].
  rewrite <- (app_nil_r (rev _)) in I. apply pop_all_complete in I as (seg' & E & I').
  fold (st seg). unfold pop_operands. rewrite E. cbn [vbind operands frames st].
  assert (seg' = []) as -> by (destruct seg'; [reflexivity|contradiction]).
  cbn [app]. rewrite HB, Nat.eqb_refl. reflexivity.
Qed.
End Frame.

(** ** Derived rules of the type system *)
Lemma seq_app al C a b t1 t2 t3 : seq_type al C a t1 t2 -> seq_type al C b t2 t3 -> seq_type al C (a ++ b) t1 t3.
Proof.
  intros A B. induction B as [C ts|C is i ts1 ts0 ts ts3 S IH I].
  - rewrite app_nil_r. assumption.
  - rewrite app_assoc. econstructor; eauto.
Qed.
Lemma seq_one al C i t0 t t' : instr_type al C i t t' -> seq_type al C [i] (t0 ++ t) (t0 ++ t').
Proof. intros H. apply (S_snoc al C [] i (t0 ++ t) t0 t t'); [constructor|assumption]. Qed.
Lemma seq_cons al C i is t0 t t' t2 : instr_type al C i t t' -> seq_type al C is (t0 ++ t') t2 ->
  seq_type al C (i :: is) (t0 ++ t) t2.
Proof. intros H K. apply (seq_app al C [i] is _ (t0 ++ t')); [apply seq_one|]; assumption. Qed.
Lemma seq_nil_inv al C t1 t2 : seq_type al C [] t1 t2 -> t1 = t2.
Proof.
  intros H. inversion H as [|? is i]; subst; [reflexivity|]. destruct is; discriminate.
Qed.
Lemma seq_cons_inv al C i is t1 t2 : seq_type al C (i :: is) t1 t2 ->
  exists t0 t t', t1 = t0 ++ t /\ instr_type al C i t t' /\ seq_type al C is (t0 ++ t') t2.
Proof.
  remember (i :: is) as e eqn:E. intros H. revert i is E.
  induction H as [C ts|C is' i' ts1 ts0 ts ts3 S IH I]; intros i is E; [discriminate|].
  destruct is' as [|j is'].
  - injection E as -> <-. apply seq_nil_inv in S as ->. exists ts0, ts, ts3. repeat split; [assumption|constructor].
  - injection E as -> <-. destruct (IH i is' eq_refl) as (t0 & t & t' & -> & J & K).
    exists t0, t, t'. repeat split; [assumption|]. econstructor; eauto.
Qed.

(** Induction over both judgements *)
Scheme instr_type_mut := Induction for instr_type Sort Prop
  with seq_type_mut := Induction for seq_type Sort Prop.
Combined Scheme typing_mut from instr_type_mut, seq_type_mut.

(** ** Instruction classes *)
Lemma v_plain c i s ts1 ts2 : plain_type i = Some (ts1, ts2) ->
  v_instr c i s = (s <-- pop_operands ts1 s ;; VOk (push_operands ts2 s)).
Proof. destruct i; intros [=]; subst; reflexivity. Qed.
Lemma v_load_instr c i s a n t : load_type i = Some (a, n, t) ->
  v_instr c i s = (_ <-- v_memidx c 0 ;; s <-- pop_operands [T_I32] s ;; VOk (push_operands [t] s)).
Proof. destruct i; intros [=]; subst; reflexivity. Qed.
Lemma v_store_instr c i s a n t : store_type i = Some (a, n, t) ->
  v_instr c i s = (_ <-- v_memidx c 0 ;; pop_operands [T_I32; t] s).
Proof. destruct i; intros [=]; subst; reflexivity. Qed.

(** every load/store/plain instruction has no alignment premise when [align = false] *)

(** ** Soundness *)
Definition step c frs i (r r' : list valty) : Prop :=
  exists t0 t t', r = rev (t0 ++ t) /\ r' = rev (t0 ++ t') /\ instr_type false (env c frs) i t t'.
Definition steps c frs is (r r' : list valty) : Prop := seq_type false (env c frs) is (rev r) (rev r').

(** result [s'] of running something from segment [seg]: same base and frames, and instances of the
    result come from instances of the start *)
Definition sound_res (R : list valty -> list valty -> Prop) base fr frs seg (s' : stacks) : Prop :=
  exists seg' u', s' = mkStacks (seg' ++ base) (set_unr fr u' :: frs) /\
  forall r', inst seg' u' r' -> exists r, inst seg (f_unreachable fr) r /\ R r r'.
Definition sound_instr (i : instr) : Prop := forall c base fr frs seg s',
  length base = f_height fr -> no_pseudo [i] ->
  v_instr c i (st base fr frs seg) = VOk s' ->
  sound_res (step c (fr :: frs) i) base fr frs seg s'.
Definition sound_seq (is : list instr) : Prop := forall c base fr frs seg s',
  length base = f_height fr -> no_pseudo is ->
  v_seq (v_instr c) is (st base fr frs seg) = VOk s' ->
  sound_res (steps c (fr :: frs) is) base fr frs seg s'.

Lemma no_pseudo_cons i is : no_pseudo (i :: is) -> no_pseudo [i] /\ no_pseudo is.
Proof.
  intros [A B]. assert (K : forall j, occurs j [i] \/ occurs j is -> occurs j (i :: is)).
  { intros j [O|O].
    - inversion O as [? I|x sub ? I C O']; subst; destruct I as [->|[]]; [apply occurs_here; left; reflexivity|].
      eapply occurs_inside; [left; reflexivity| |]; eassumption.
    - inversion O as [? I|x sub ? I C O']; subst; [apply occurs_here; right; assumption|].
      eapply occurs_inside; [right| |]; eassumption. }
  repeat split; intros O; [apply A|apply B|apply A|apply B]; apply K; auto.
Qed.
Lemma no_pseudo_sub i sub : In sub (children i) -> no_pseudo [i] -> no_pseudo sub.
Proof.
  intros I [A B]. split; intros O; [apply A|apply B]; eapply occurs_inside; try eassumption; left; reflexivity.
Qed.

Lemma step_seq c frs i is r r1 r' : step c frs i r r1 -> steps c frs is r1 r' -> steps c frs (i :: is) r r'.
Proof.
  intros (t0 & t & t' & -> & -> & I) S. unfold steps in *. rewrite rev_involutive in *. eapply seq_cons; eassumption.
Qed.

Lemma sound_seq_of is : Forall sound_instr is -> sound_seq is.
Proof.
  induction 1 as [|i is Hi His IH]; intros c base fr frs seg s' HB NP; cbn [v_seq].
  - intros [= <-]. exists seg, (f_unreachable fr). rewrite set_unr_self. split; [reflexivity|].
    intros r' I. exists r'. split; [assumption|]. constructor.
  - apply no_pseudo_cons in NP as [N1 N2]. intros H. apply vbind_ok in H as (s1 & H1 & H2).
    apply Hi in H1 as (seg1 & u1 & -> & K1); try assumption.
    apply (IH c base (set_unr fr u1) frs seg1) in H2 as (seg' & u' & -> & K2); try assumption.
    exists seg', u'. split; [reflexivity|]. intros r' I. apply K2 in I as (r1 & I1 & S1). cbn [f_unreachable set_unr] in I1.
    apply K1 in I1 as (r & I0 & S0). exists r. split; [assumption|]. eapply step_seq; eassumption.
Qed.

Lemma sound_simple c base fr frs seg s' i ts1 ts2 : length base = f_height fr ->
  (s <-- pop_operands ts1 (st base fr frs seg) ;; VOk (push_operands ts2 s)) = VOk s' ->
  instr_type false (env c (fr :: frs)) i ts1 ts2 ->
  sound_res (step c (fr :: frs) i) base fr frs seg s'.
Proof.
  intros HB H T. apply vbind_ok in H as (s1 & H1 & H2). apply pop_all_sound in H1 as (seg1 & -> & K); [|assumption].
  rewrite push_operands_st in H2. injection H2 as <-.
  exists (map Val (rev ts2) ++ seg1), (f_unreachable fr). rewrite set_unr_self. split; [reflexivity|].
  intros r' I. apply inst_vals in I as (r & -> & I). apply K in I. exists (rev ts1 ++ r). split; [assumption|].
  exists (rev r), ts1, ts2. rewrite !rev_app_distr, rev_involutive. auto.
Qed.
Lemma sound_simple_pop c base fr frs seg s' i ts1 : length base = f_height fr ->
  pop_operands ts1 (st base fr frs seg) = VOk s' ->
  instr_type false (env c (fr :: frs)) i ts1 [] ->
  sound_res (step c (fr :: frs) i) base fr frs seg s'.
Proof.
  intros HB H T. eapply (sound_simple _ _ _ _ _ _ _ ts1 []); [assumption| |eassumption]. rewrite H. reflexivity.
Qed.
Lemma sound_simple_push c base fr frs seg s' i ts2 : length base = f_height fr ->
  VOk (push_operands ts2 (st base fr frs seg)) = VOk s' ->
  instr_type false (env c (fr :: frs)) i [] ts2 ->
  sound_res (step c (fr :: frs) i) base fr frs seg s'.
Proof.
  intros HB H T. eapply (sound_simple _ _ _ _ _ _ _ [] ts2); [assumption| |eassumption]. exact H.
Qed.
(** pop, then unreachable: stack-polymorphic instructions *)
Lemma sound_jump c base fr frs seg s' i ts : length base = f_height fr ->
  (s <-- pop_operands ts (st base fr frs seg) ;; s_unreachable s) = VOk s' ->
  (forall ts1 ts2, instr_type false (env c (fr :: frs)) i (ts1 ++ ts) ts2) ->
  sound_res (step c (fr :: frs) i) base fr frs seg s'.
Proof.
  intros HB H T. apply vbind_ok in H as (s1 & H1 & H2). apply pop_all_sound in H1 as (seg1 & -> & K); [|assumption].
  rewrite unreachable_st in H2 by assumption. injection H2 as <-.
  exists [], true. split; [reflexivity|]. intros r' _. destruct (inst_any seg1 (f_unreachable fr)) as [r I].
  exists (rev ts ++ r). split; [apply K; assumption|].
  exists [], (rev r ++ ts), (rev r'). cbn [app]. rewrite rev_app_distr, !rev_involutive. auto.
Qed.

(** two pops in a row are one pop *)
Lemma pop_all_app ts1 ts2 s : pop_all (ts1 ++ ts2) s = (s <-- pop_all ts1 s ;; pop_all ts2 s).
Proof.
  revert s. induction ts1 as [|t ts1 IH]; intros s; [reflexivity|]. cbn [app pop_all].
  destruct (pop_operand (Val t) s) as [[op s']| |]; cbn [vbind snd]; [apply IH|reflexivity|reflexivity].
Qed.
Lemma pop_operands_app ts1 ts2 s : pop_operands (ts1 ++ ts2) s = (s <-- pop_operands ts2 s ;; pop_operands ts1 s).
Proof. unfold pop_operands. rewrite rev_app_distr. apply pop_all_app. Qed.
Lemma vbind_assoc {A B D} (r : vres A) (f : A -> vres B) (g : B -> vres D) :
  vbind (vbind r f) g = vbind r (fun x => vbind (f x) g).
Proof. destruct r; reflexivity. Qed.

Lemma br_table_sound c s fr ls : v_br_table_labels s fr ls = VOk tt ->
  Forall (fun l => at_index (te_labels (env c (frames s))) l (f_label fr)) ls.
Proof.
  induction ls as [|l ls IH]; cbn [v_br_table_labels]; intros H; constructor.
  - apply vbind_ok in H as (fr' & H1 & H2). destruct (valtys_eqb (f_label fr) (f_label fr')) eqn:E; cbn in H2; [|discriminate].
    apply valtys_eqb_eq in E as ->. apply label_sound. assumption.
  - apply vbind_ok in H as (fr' & H1 & H2). destruct (valtys_eqb (f_label fr) (f_label fr')) eqn:E; cbn in H2; [|discriminate].
    apply IH. assumption.
Qed.
Lemma br_table_complete c s fr ls :
  Forall (fun l => at_index (te_labels (env c (frames s))) l (f_label fr)) ls -> v_br_table_labels s fr ls = VOk tt.
Proof.
  induction 1 as [|l ls H _ IH]; [reflexivity|]. cbn [v_br_table_labels].
  apply label_complete in H as (fr' & -> & E). cbn [vbind]. rewrite E, (proj2 (valtys_eqb_eq _ _) eq_refl). exact IH.
Qed.

(** running a block body in a fresh frame *)
Lemma v_end_sound base fr frs seg s' : length base = f_height fr ->
  v_end (st base fr frs seg) = VOk s' ->
  s' = push_operands (f_out fr) (mkStacks base frs) /\ inst seg (f_unreachable fr) (rev (f_out fr)).
Proof.
  intros HB H. unfold v_end in H. apply vbind_ok in H as (rs & H1 & H2). apply pop_frame_sound in H1 as [-> I]; [|assumption].
  cbn [fst snd] in H2. injection H2 as <-. auto.
Qed.
Lemma v_end_complete base fr frs seg : length base = f_height fr -> inst seg (f_unreachable fr) (rev (f_out fr)) ->
  v_end (st base fr frs seg) = VOk (push_operands (f_out fr) (mkStacks base frs)).
Proof. intros HB I. unfold v_end. rewrite pop_frame_complete by assumption. reflexivity. Qed.

Lemma env_push c lab out h u frs fr : env c (mkFrame lab out h u :: fr :: frs) = add_label lab (env c (fr :: frs)).
Proof. reflexivity. Qed.

Lemma body_sound c b lab out base fr frs seg s1 : sound_seq b -> no_pseudo b ->
  v_seq (v_instr c) b (push_frame lab out (st base fr frs seg)) = VOk s1 ->
  exists seg' u', s1 = st (seg ++ base) (mkFrame lab out (length (seg ++ base)) u') (fr :: frs) seg' /\
  (inst seg' u' (rev out) -> seq_type false (add_label lab (env c (fr :: frs))) b [] out).
Proof.
  intros SB NP H.
  apply (SB c (seg ++ base) (mkFrame lab out (length (seg ++ base)) false) (fr :: frs) []) in H
    as (seg' & u' & -> & K); [|reflexivity|assumption].
  exists seg', u'. split; [reflexivity|]. intros I. apply K in I as (r & [Q| ->] & S); [discriminate Q|].
  unfold steps in S. rewrite rev_involutive in S. exact S.
Qed.

Theorem v_instr_sound i : sound_instr i.
Proof.
  induction i as [i IH] using instr_children_ind. intros c base fr frs seg s' HB NP.
  assert (PL : forall ts1 ts2, plain_type i = Some (ts1, ts2) -> v_instr c i (st base fr frs seg) = VOk s' ->
    sound_res (step c (fr :: frs) i) base fr frs seg s').
  { intros ts1 ts2 P. rewrite (v_plain _ _ _ _ _ P). intros H. eapply sound_simple; [assumption|eassumption|]. apply T_plain. assumption. }
  assert (LD : forall a n t, load_type i = Some (a, n, t) -> v_instr c i (st base fr frs seg) = VOk s' ->
    sound_res (step c (fr :: frs) i) base fr frs seg s').
  { intros a n t P. rewrite (v_load_instr _ _ _ _ _ _ P). intros H. apply vbind_ok in H as (m & Hm & H).
    eapply sound_simple; [assumption|eassumption|]. eapply T_load; [eassumption|apply v_lookup_ok; eassumption|discriminate]. }
  assert (ST : forall a n t, store_type i = Some (a, n, t) -> v_instr c i (st base fr frs seg) = VOk s' ->
    sound_res (step c (fr :: frs) i) base fr frs seg s').
  { intros a n t P. rewrite (v_store_instr _ _ _ _ _ _ P). intros H. apply vbind_ok in H as (m & Hm & H).
    eapply sound_simple_pop; [assumption|eassumption|]. eapply T_store; [eassumption|apply v_lookup_ok; eassumption|discriminate]. }
  assert (SUB : forall sub, In sub (children i) -> sound_seq sub /\ no_pseudo sub).
  { intros sub I. split; [apply sound_seq_of; apply IH; assumption|eapply no_pseudo_sub; eassumption]. }
  destruct i;
  try (eapply PL; reflexivity);
  try (eapply LD; reflexivity);
  try (eapply ST; reflexivity);
  clear PL LD ST; cbn [v_instr]; intros H.
  - (* unreachable *)
    eapply (sound_jump _ _ _ _ _ _ _ []); [assumption|exact H|]. intros. apply T_unreachable.
  - (* nop *)
    eapply (sound_simple_push _ _ _ _ _ _ _ []); [assumption|exact H|]. apply T_nop.
  - (* block *)
    destruct (SUB b) as [SB NB]; [left; reflexivity|]. apply vbind_ok in H as (s1 & H1 & H2).
    apply body_sound in H1 as (seg' & u' & -> & K); [|assumption..]. apply v_end_sound in H2 as [-> I]; [|reflexivity].
    eapply (sound_simple_push _ _ _ _ _ _ _ a); [assumption|reflexivity|]. apply T_block. auto.
  - (* loop *)
    destruct (SUB b) as [SB NB]; [left; reflexivity|]. apply vbind_ok in H as (s1 & H1 & H2).
    apply body_sound in H1 as (seg' & u' & -> & K); [|assumption..]. apply v_end_sound in H2 as [-> I]; [|reflexivity].
    eapply (sound_simple_push _ _ _ _ _ _ _ a); [assumption|reflexivity|]. apply T_loop. auto.
  - (* if *)
    destruct (SUB b) as [SB NB]; [left; reflexivity|]. destruct (SUB c0) as [SC NC]; [right; left; reflexivity|].
    apply vbind_ok in H as (s0 & H0 & H). pose proof H0 as HP. apply pop_all_sound in H0 as (seg0 & -> & K0); [|assumption].
    apply vbind_ok in H as (s1 & H1 & H). apply body_sound in H1 as (seg1 & u1 & -> & K1); [|assumption..].
    apply vbind_ok in H as (s2 & H2 & H). unfold v_else in H2. apply vbind_ok in H2 as (rs & H2 & H2').
    apply pop_frame_sound in H2 as [-> I1]; [|reflexivity]. cbn [fst snd f_out] in H2', I1. injection H2' as <-.
    apply vbind_ok in H as (s3 & H3 & H). apply (body_sound c c0 a a base fr frs seg0) in H3 as (seg3 & u3 & -> & K3); [|assumption..].
    apply v_end_sound in H as [-> I3]; [|reflexivity].
    eapply (sound_simple _ _ _ _ _ _ _ [T_I32] a); [assumption|rewrite HP; reflexivity|]. apply T_if; auto.
  - (* else *) exfalso. apply (proj2 NP). apply occurs_here. left. reflexivity.
  - (* end *) exfalso. apply (proj1 NP). apply occurs_here. left. reflexivity.
  - (* br *)
    apply vbind_ok in H as (f & Hf & H). eapply sound_jump; [assumption|exact H|]. intros. apply T_br.
    apply (label_sound c) in Hf. exact Hf.
  - (* br_if *)
    apply vbind_ok in H as (f & Hf & H). apply (label_sound c) in Hf.
    rewrite <- vbind_assoc, <- pop_operands_app in H. eapply sound_simple; [assumption|exact H|]. apply T_br_if. exact Hf.
  - (* br_table *)
    apply vbind_ok in H as (f & Hf & H). apply vbind_ok in H as ([] & Hl & H). apply (label_sound c) in Hf.
    apply (br_table_sound c) in Hl.
    rewrite <- vbind_assoc, <- pop_operands_app in H. eapply sound_jump; [assumption|exact H|]. intros. apply T_br_table; [exact Hl|exact Hf].
  - (* return *)
    apply vbind_ok in H as (r & Hr & H). eapply sound_jump; [assumption|exact H|]. intros. apply T_return. cbn.
    destruct (c_ret c); [congruence|discriminate].
  - (* call *)
    apply vbind_ok in H as (ft & Hf & H). eapply sound_simple; [assumption|exact H|]. apply T_call. apply v_lookup_ok. exact Hf.
  - (* call_indirect *)
    apply vbind_ok in H as (tb & Ht & H). apply vbind_ok in H as (ft & Hf & H).
    destruct (elemty_eqb (tt_elem tb) FuncRef) eqn:E; cbn [negb] in H; [|discriminate].
    rewrite <- vbind_assoc, <- pop_operands_app in H. eapply sound_simple; [assumption|exact H|].
    eapply T_call_indirect; [apply v_lookup_ok; exact Ht|destruct (tt_elem tb); reflexivity|apply v_lookup_ok; exact Hf].
  - (* drop *)
    apply vbind_ok in H as ([op s1] & H1 & H). apply pop_sound in H1 as (seg' & -> & K); [|assumption]. injection H as <-.
    exists seg', (f_unreachable fr). rewrite set_unr_self. split; [reflexivity|]. intros r' I.
    assert (exists t, opm op t) as [t M] by (destruct op as [|t]; [exists T_I32|exists t]; cbn; auto).
    exists (t :: r'). split; [apply (K t r'); assumption|].
    exists (rev r'), [t], []. rewrite app_nil_r, rev_unit, rev_involutive. repeat split. apply T_drop.
  - (* select *)
    apply vbind_ok in H as (s0 & H0 & H). apply pop_all_sound in H0 as (seg0 & -> & K0); [|assumption].
    apply vbind_ok in H as ([op1 s1] & H1 & H). cbn [fst snd] in H. apply pop_sound in H1 as (seg1 & -> & K1); [|assumption].
    apply vbind_ok in H as ([op2 s2] & H2 & H). cbn [fst snd] in H. apply pop_sound in H2 as (seg2 & -> & K2); [|assumption].
    injection H as <-. exists (op2 :: seg2), (f_unreachable fr). rewrite set_unr_self. split; [reflexivity|].
    intros [|t r'] I; [contradiction|]. destruct I as [M I]. destruct (K2 t r' M I) as [M1 I1].
    destruct (K1 t (t :: r') M1 I1) as [_ I0]. apply K0 in I0. exists ([T_I32] ++ t :: t :: r'). split; [exact I0|].
    exists (rev r'), [t; t; T_I32], [t]. rewrite !rev_app_distr, rev_involutive. repeat split. apply T_select.
  - (* local.get *)
    apply vbind_ok in H as (t & Ht & H). eapply sound_simple_push; [assumption|exact H|]. apply T_local_get. apply v_lookup_ok. exact Ht.
  - apply vbind_ok in H as (t & Ht & H). eapply sound_simple_pop; [assumption|exact H|]. apply T_local_set. apply v_lookup_ok. exact Ht.
  - apply vbind_ok in H as (t & Ht & H). eapply sound_simple; [assumption|exact H|]. apply T_local_tee. apply v_lookup_ok. exact Ht.
  - apply vbind_ok in H as (t & Ht & H). eapply sound_simple_push; [assumption|exact H|]. apply T_global_get. apply v_lookup_ok. exact Ht.
  - apply vbind_ok in H as (t & Ht & H). destruct (gt_mut t) eqn:E; cbn [mut_eqb negb] in H; [discriminate|].
    eapply sound_simple_pop; [assumption|exact H|]. apply T_global_set; [apply v_lookup_ok; exact Ht|exact E].
  - apply vbind_ok in H as (t & Ht & H). eapply sound_simple_push; [assumption|exact H|]. eapply T_mem_size. apply v_lookup_ok. exact Ht.
  - apply vbind_ok in H as (t & Ht & H). eapply sound_simple; [assumption|exact H|]. eapply T_mem_grow. apply v_lookup_ok. exact Ht.
Qed.
Theorem v_seq_sound is : sound_seq is.
Proof. apply sound_seq_of. apply Forall_forall. intros i _. apply v_instr_sound. Qed.

(** ** Completeness *)
Definition complete_res base fr frs (res : vres stacks) (r' : list valty) : Prop :=
  exists seg' u', res = VOk (mkStacks (seg' ++ base) (set_unr fr u' :: frs)) /\ inst seg' u' r'.
Definition complete_instr (i : instr) : Prop := forall c base fr frs seg t0 t t',
  length base = f_height fr -> instr_type false (env c (fr :: frs)) i t t' ->
  inst seg (f_unreachable fr) (rev (t0 ++ t)) ->
  complete_res base fr frs (v_instr c i (st base fr frs seg)) (rev (t0 ++ t')).
Definition complete_seq (is : list instr) : Prop := forall c base fr frs seg t t',
  length base = f_height fr -> seq_type false (env c (fr :: frs)) is t t' ->
  inst seg (f_unreachable fr) (rev t) ->
  complete_res base fr frs (v_seq (v_instr c) is (st base fr frs seg)) (rev t').

Lemma complete_seq_of is : Forall complete_instr is -> complete_seq is.
Proof.
  induction 1 as [|i is Hi His IH]; intros c base fr frs seg t t' HB T I; cbn [v_seq].
  - apply seq_nil_inv in T as ->. exists seg, (f_unreachable fr). rewrite set_unr_self. auto.
  - apply seq_cons_inv in T as (t0 & t1 & t2 & -> & T1 & T2).
    destruct (Hi c base fr frs seg t0 t1 t2 HB T1 I) as (seg1 & u1 & -> & I1). cbn [vbind].
    apply (IH c base (set_unr fr u1) frs seg1 (t0 ++ t2) t'); assumption.
Qed.

Lemma complete_simple base fr frs seg t0 ts1 ts2 : length base = f_height fr ->
  inst seg (f_unreachable fr) (rev (t0 ++ ts1)) ->
  complete_res base fr frs (s <-- pop_operands ts1 (st base fr frs seg) ;; VOk (push_operands ts2 s)) (rev (t0 ++ ts2)).
Proof.
  intros HB I. rewrite rev_app_distr in I. apply pop_all_complete with (frs := frs) (base := base) in I as (seg1 & E & I1); [|assumption].
  unfold pop_operands. rewrite E. cbn [vbind]. rewrite push_operands_st.
  exists (map Val (rev ts2) ++ seg1), (f_unreachable fr). rewrite set_unr_self. split; [reflexivity|].
  apply inst_vals. exists (rev t0). rewrite rev_app_distr. auto.
Qed.
Lemma complete_simple_pop base fr frs seg t0 ts1 : length base = f_height fr ->
  inst seg (f_unreachable fr) (rev (t0 ++ ts1)) ->
  complete_res base fr frs (pop_operands ts1 (st base fr frs seg)) (rev (t0 ++ [])).
Proof.
  intros HB I. pose proof (complete_simple base fr frs seg t0 ts1 [] HB I) as K.
  destruct (pop_operands ts1 (st base fr frs seg)); exact K.
Qed.
Lemma complete_simple_push base fr frs seg t0 ts2 : length base = f_height fr ->
  inst seg (f_unreachable fr) (rev (t0 ++ [])) ->
  complete_res base fr frs (VOk (push_operands ts2 (st base fr frs seg))) (rev (t0 ++ ts2)).
Proof. intros HB I. exact (complete_simple base fr frs seg t0 [] ts2 HB I). Qed.
Lemma complete_jump base fr frs seg t0 ts1 ts r' : length base = f_height fr ->
  inst seg (f_unreachable fr) (rev (t0 ++ ts1 ++ ts)) ->
  complete_res base fr frs (s <-- pop_operands ts (st base fr frs seg) ;; s_unreachable s) r'.
Proof.
  intros HB I. rewrite app_assoc, rev_app_distr in I.
  apply pop_all_complete with (frs := frs) (base := base) in I as (seg1 & E & I1); [|assumption].
  unfold pop_operands. rewrite E. cbn [vbind]. rewrite unreachable_st by assumption.
  exists [], true. split; [reflexivity|left; reflexivity].
Qed.
Lemma body_complete c b lab out base fr frs seg : complete_seq b ->
  seq_type false (add_label lab (env c (fr :: frs))) b [] out ->
  exists seg' u', v_seq (v_instr c) b (push_frame lab out (st base fr frs seg))
    = VOk (st (seg ++ base) (mkFrame lab out (length (seg ++ base)) u') (fr :: frs) seg') /\ inst seg' u' (rev out).
Proof.
  intros CB T.
  apply (CB c (seg ++ base) (mkFrame lab out (length (seg ++ base)) false) (fr :: frs) [] [] out);
    [reflexivity|exact T|right; reflexivity].
Qed.

Ltac lk H := apply v_lookup_ok in H; cbn [env te_types te_funcs te_tables te_mems te_globals te_locals] in H; rewrite H.
Theorem v_instr_complete i : complete_instr i.
Proof.
  induction i as [i IH] using instr_children_ind. intros c base fr frs seg t0 t t' HB T I.
  assert (SUB : forall sub, In sub (children i) -> complete_seq sub).
  { intros sub J. apply complete_seq_of. apply IH. assumption. }
  clear IH. inversion T; subst.
  - erewrite v_plain by eassumption. apply complete_simple; assumption.
  - (* drop *)
    cbn [v_instr]. rewrite rev_unit in I. destruct (pop_complete base fr frs HB Unknown seg t1 (rev t0)) as (op & seg' & E & M & J);
      [exact Logic.I|exact I|]. rewrite E. cbn [vbind snd]. exists seg', (f_unreachable fr). rewrite set_unr_self, app_nil_r. auto.
  - (* select *)
    rename t1 into t. cbn [v_instr]. replace (rev (t0 ++ [t; t; T_I32])) with ([T_I32] ++ t :: t :: rev t0) in I
      by (rewrite rev_app_distr; reflexivity).
    apply pop_all_complete with (frs := frs) (base := base) in I as (seg0 & E0 & I0); [|assumption].
    unfold pop_operands. change (rev [T_I32]) with [T_I32]. rewrite E0. cbn [vbind].
    destruct (pop_complete base fr frs HB Unknown seg0 t (t :: rev t0)) as (op1 & seg1 & E1 & M1 & I1); [exact Logic.I|exact I0|].
    rewrite E1. cbn [vbind fst snd].
    destruct (pop_complete base fr frs HB op1 seg1 t (rev t0)) as (op2 & seg2 & E2 & M2 & I2); [assumption..|].
    rewrite E2. cbn [vbind fst snd]. exists (op2 :: seg2), (f_unreachable fr). rewrite set_unr_self, rev_unit.
    split; [reflexivity|]. split; assumption.
  - cbn [v_instr]. unfold v_localidx. lk H. cbn [vbind]. apply complete_simple_push; assumption.
  - cbn [v_instr]. unfold v_localidx. lk H. cbn [vbind]. apply complete_simple_pop; assumption.
  - cbn [v_instr]. unfold v_localidx. lk H. cbn [vbind]. apply complete_simple; assumption.
  - cbn [v_instr]. unfold v_globalidx. lk H. cbn [vbind]. apply complete_simple_push; assumption.
  - cbn [v_instr]. unfold v_globalidx. lk H. cbn [vbind]. rewrite H0. apply complete_simple_pop; assumption.
  - erewrite v_load_instr by eassumption. unfold v_memidx. lk H0. cbn [vbind]. apply complete_simple; assumption.
  - erewrite v_store_instr by eassumption. unfold v_memidx. lk H0. cbn [vbind]. apply complete_simple_pop; assumption.
  - cbn [v_instr]. unfold v_memidx. lk H. cbn [vbind]. apply complete_simple_push; assumption.
  - cbn [v_instr]. unfold v_memidx. lk H. cbn [vbind]. apply complete_simple; assumption.
  - (* nop *) cbn [v_instr]. apply (complete_simple_push _ _ _ _ _ []); assumption.
  - (* unreachable *) cbn [v_instr]. apply (complete_jump base fr frs seg t0 t []); [assumption|]. rewrite app_nil_r. assumption.
  - (* block *)
    cbn [v_instr]. destruct (body_complete c b t' t' base fr frs seg) as (seg' & u' & E & J); [apply SUB; left; reflexivity|assumption|].
    rewrite E. cbn [vbind]. rewrite v_end_complete by (assumption || reflexivity). apply complete_simple_push; assumption.
  - (* loop *)
    cbn [v_instr]. destruct (body_complete c b [] t' base fr frs seg) as (seg' & u' & E & J); [apply SUB; left; reflexivity|assumption|].
    rewrite E. cbn [vbind]. rewrite v_end_complete by (assumption || reflexivity). apply complete_simple_push; assumption.
  - (* if *)
    cbn [v_instr]. pose proof (complete_simple base fr frs seg t0 [T_I32] t' HB I) as CS.
    rewrite rev_app_distr in I. apply pop_all_complete with (frs := frs) (base := base) in I as (seg0 & E0 & I0); [|assumption].
    unfold pop_operands in *. rewrite E0 in *. cbn [vbind] in *.
    destruct (body_complete c b1 t' t' base fr frs seg0) as (seg1 & u1 & E1 & J1); [apply SUB; left; reflexivity|assumption|].
    rewrite E1. cbn [vbind]. unfold v_else. rewrite pop_frame_complete by (assumption || reflexivity). cbn [vbind fst snd f_out].
    destruct (body_complete c b2 t' t' base fr frs seg0) as (seg2 & u2 & E2 & J2); [apply SUB; right; left; reflexivity|assumption|].
    change (mkStacks (seg0 ++ base) (fr :: frs)) with (st base fr frs seg0).
    rewrite E2. cbn [vbind]. rewrite v_end_complete by (assumption || reflexivity). exact CS.
  - (* br *)
    cbn [v_instr]. apply (label_complete c (st base fr frs seg)) in H as (f & E & <-). rewrite E. cbn [vbind]. eapply complete_jump; eassumption.
  - (* br_if *)
    cbn [v_instr]. apply (label_complete c (st base fr frs seg)) in H as (f & E & <-). rewrite E. cbn [vbind].
    rewrite <- vbind_assoc, <- pop_operands_app. apply complete_simple; assumption.
  - (* br_table *)
    cbn [v_instr]. apply (label_complete c (st base fr frs seg)) in H0 as (f & E & <-). rewrite E. cbn [vbind].
    rewrite (br_table_complete c) by exact H. cbn [vbind].
    rewrite <- vbind_assoc, <- pop_operands_app. eapply complete_jump; eassumption.
  - (* return *)
    cbn [v_instr]. cbn in H. rewrite H. cbn [vbind]. eapply complete_jump; eassumption.
  - (* call *)
    cbn [v_instr]. unfold v_funcidx. lk H. cbn [vbind]. apply complete_simple; assumption.
  - (* call_indirect *)
    cbn [v_instr]. unfold v_tableidx, v_typeidx. lk H. lk H1. cbn [vbind].
    rewrite H0. cbn [elemty_eqb negb]. rewrite <- vbind_assoc, <- pop_operands_app. apply complete_simple; assumption.
Qed.
Theorem v_seq_complete is : complete_seq is.
Proof. apply complete_seq_of. apply Forall_forall. intros i _. apply v_instr_complete. Qed.

(** ** Bodies: run in a frame of their own on empty stacks *)
Lemma body_iff c e ts : no_pseudo e ->
  (exists s rs, v_expr c e (push_frame ts ts empty_stacks) = VOk s /\ pop_frame s = VOk rs) <->
  seq_type false (env c [mkFrame ts ts 0 false]) e [] ts.
Proof.
  intros NP. change (push_frame ts ts empty_stacks) with (st [] (mkFrame ts ts 0 false) [] []). split.
  - intros (s & rs & H & P). apply v_seq_sound in H as (seg' & u' & -> & K); [|reflexivity|assumption].
    apply (pop_frame_sound [] (mkFrame ts ts 0 u') [] eq_refl seg') in P as [_ I]. cbn [f_out] in I.
    apply K in I as (r & [Q| ->] & S); [discriminate Q|]. unfold steps in S. rewrite rev_involutive in S. exact S.
  - intros T. destruct (v_seq_complete e c [] (mkFrame ts ts 0 false) [] [] [] ts eq_refl T (or_intror eq_refl)) as (seg' & u' & E & I).
    eexists _, _. split; [exact E|]. apply (pop_frame_complete [] (mkFrame ts ts 0 u') [] eq_refl seg'). exact I.
Qed.
Lemma body_stacks c e ts s rs : no_pseudo e ->
  v_expr c e (push_frame ts ts empty_stacks) = VOk s -> pop_frame s = VOk rs -> snd rs = empty_stacks.
Proof.
  intros NP H P. change (push_frame ts ts empty_stacks) with (st [] (mkFrame ts ts 0 false) [] []) in H.
  apply v_seq_sound in H as (seg' & u' & -> & K); [|reflexivity|assumption].
  apply (pop_frame_sound [] (mkFrame ts ts 0 u') [] eq_refl seg') in P as [-> _]. reflexivity.
Qed.
