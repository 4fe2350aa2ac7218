(** How the type system of the code relates to the official one: alignment, the label of function bodies. *)
From Coq Require Import Lia.
From Verif Require Import SpecRefs EncodeProof TypingProof.

(** ** Facts about occurrences *)
Lemma occurs_app j a b : occurs j (a ++ b) <-> occurs j a \/ occurs j b.
Proof.
  split.
  - intros O. inversion O as [? I|i sub ? I S O']; subst; apply in_app_or in I as [I|I].
    + left. apply occurs_here. assumption.
    + right. apply occurs_here. assumption.
    + left. eapply occurs_inside; eassumption.
    + right. eapply occurs_inside; eassumption.
  - intros [O|O]; inversion O as [? I|i sub ? I S O']; subst.
    + apply occurs_here. apply in_or_app. auto.
    + eapply occurs_inside; [apply in_or_app; left|  |]; eassumption.
    + apply occurs_here. apply in_or_app. auto.
    + eapply occurs_inside; [apply in_or_app; right|  |]; eassumption.
Qed.
Lemma occurs_nil j : ~ occurs j [].
Proof. intros O. inversion O as [? I|? ? ? I]; subst; contradiction. Qed.
Lemma occurs_one j i : occurs j [i] <-> j = i \/ exists sub, In sub (children i) /\ occurs j sub.
Proof.
  split.
  - intros O. inversion O as [? I|x sub ? I S O']; subst; destruct I as [->|[]]; eauto.
  - intros [->|(sub & S & O)]; [apply occurs_here; left; reflexivity|]. eapply occurs_inside; [left; reflexivity|eassumption|assumption].
Qed.
Lemma jump_app d l a b : jump d l (a ++ b) <-> jump d l a \/ jump d l b.
Proof.
  split.
  - intros J. inversion J as [i ? ? I L|? i sub ? ? I S J']; subst; apply in_app_or in I as [I|I].
    + left. eapply jump_here; eassumption.
    + right. eapply jump_here; eassumption.
    + left. eapply jump_inside; eassumption.
    + right. eapply jump_inside; eassumption.
  - intros [J|J]; inversion J as [i ? ? I L|? i sub ? ? I S J']; subst.
    + eapply jump_here; [apply in_or_app; left; eassumption|assumption].
    + eapply jump_inside; [apply in_or_app; left; eassumption|eassumption|assumption].
    + eapply jump_here; [apply in_or_app; right; eassumption|assumption].
    + eapply jump_inside; [apply in_or_app; right; eassumption|eassumption|assumption].
Qed.
Lemma jump_nil d l : ~ jump d l [].
Proof. intros J. inversion J as [i ? ? I|? i sub ? ? I]; subst; contradiction. Qed.
Lemma jump_one d l i : jump d l [i] <->
  (d = O /\ In l (branch_targets i)) \/ exists d' sub, d = S d' /\ In sub (children i) /\ jump d' l sub.
Proof.
  split.
  - intros J. inversion J as [x ? ? I L|d' x sub ? ? I C J']; subst; destruct I as [->|[]]; [left; auto|right; eauto 6].
  - intros [[-> L]|(d' & sub & -> & C & J)]; [eapply jump_here; [left; reflexivity|assumption]|].
    eapply jump_inside; [left; reflexivity|eassumption|assumption].
Qed.

(** ** Alignment: the official rules are the relaxed ones plus natural alignment *)
Lemma aligned_mut :
  (forall C i t1 t2, instr_type true C i t1 t2 -> instr_type false C i t1 t2 /\ natural_alignment [i]) /\
  (forall C e t1 t2, seq_type true C e t1 t2 -> seq_type false C e t1 t2 /\ natural_alignment e).
Proof.
  assert (LEAF : forall i, children i = [] ->
    (forall a n t, load_type i = Some (a, n, t) \/ store_type i = Some (a, n, t) -> alignment_ok a n) -> natural_alignment [i]).
  { intros i L H j a n t O E. apply occurs_one in O as [->|(sub & S & _)]; [eapply H; exact E|rewrite L in S; contradiction]. }
  assert (BLK : forall i, load_type i = None -> store_type i = None ->
    (forall sub, In sub (children i) -> natural_alignment sub) -> natural_alignment [i]).
  { intros i L S H j a n t O E. apply occurs_one in O as [->|(sub & I & O)]; [destruct E; congruence|]. eapply H; eassumption. }
  apply (typing_mut true (fun C i t1 t2 _ => instr_type false C i t1 t2 /\ natural_alignment [i])
    (fun C e t1 t2 _ => seq_type false C e t1 t2 /\ natural_alignment e)).
  - intros C i t1 t2 P. split; [apply T_plain; assumption|]. apply LEAF; destruct i; try discriminate P; try reflexivity; intros a' n' t' [Q|Q]; discriminate Q.
  - intros; split; [constructor; fail|apply LEAF; [reflexivity|intros ? ? ? [Q|Q]; discriminate Q]].
  - intros; split; [constructor; fail|apply LEAF; [reflexivity|intros ? ? ? [Q|Q]; discriminate Q]].
  - intros; split; [econstructor; eassumption|apply LEAF; [reflexivity|intros ? ? ? [Q|Q]; discriminate Q]].
  - intros; split; [econstructor; eassumption|apply LEAF; [reflexivity|intros ? ? ? [Q|Q]; discriminate Q]].
  - intros; split; [econstructor; eassumption|apply LEAF; [reflexivity|intros ? ? ? [Q|Q]; discriminate Q]].
  - intros; split; [econstructor; eassumption|apply LEAF; [reflexivity|intros ? ? ? [Q|Q]; discriminate Q]].
  - intros; split; [econstructor; eassumption|apply LEAF; [reflexivity|intros ? ? ? [Q|Q]; discriminate Q]].
  - intros C i a n t m L M A. split; [eapply T_load; eauto|]. apply LEAF; [destruct i; try discriminate L; reflexivity|].
    intros a' n' t' [Q|Q]; [|destruct i; discriminate]. assert (Some (a, n, t) = Some (a', n', t')) as E by congruence. injection E as <- <- <-. auto.
  - intros C i a n t m L M A. split; [eapply T_store; eauto|]. apply LEAF; [destruct i; try discriminate L; reflexivity|].
    intros a' n' t' [Q|Q]; [destruct i; discriminate|]. assert (Some (a, n, t) = Some (a', n', t')) as E by congruence. injection E as <- <- <-. auto.
  - intros; split; [eapply T_mem_size; eassumption|apply LEAF; [reflexivity|intros ? ? ? [Q|Q]; discriminate Q]].
  - intros; split; [eapply T_mem_grow; eassumption|apply LEAF; [reflexivity|intros ? ? ? [Q|Q]; discriminate Q]].
  - intros; split; [apply T_nop|apply LEAF; [reflexivity|intros ? ? ? [Q|Q]; discriminate Q]].
  - intros; split; [apply T_unreachable|apply LEAF; [reflexivity|intros ? ? ? [Q|Q]; discriminate Q]].
  - intros C rt b _ [A B]. split; [apply T_block; assumption|]. apply BLK; try reflexivity. intros sub [<-|[]]. assumption.
  - intros C rt b _ [A B]. split; [apply T_loop; assumption|]. apply BLK; try reflexivity. intros sub [<-|[]]. assumption.
  - intros C rt b1 b2 _ [A B] _ [A2 B2]. split; [apply T_if; assumption|]. apply BLK; try reflexivity. intros sub [<-|[<-|[]]]; assumption.
  - intros; split; [apply T_br; assumption|apply LEAF; [reflexivity|intros ? ? ? [Q|Q]; discriminate Q]].
  - intros; split; [apply T_br_if; assumption|apply LEAF; [reflexivity|intros ? ? ? [Q|Q]; discriminate Q]].
  - intros; split; [apply T_br_table; assumption|apply LEAF; [reflexivity|intros ? ? ? [Q|Q]; discriminate Q]].
  - intros; split; [apply T_return; assumption|apply LEAF; [reflexivity|intros ? ? ? [Q|Q]; discriminate Q]].
  - intros; split; [apply T_call; assumption|apply LEAF; [reflexivity|intros ? ? ? [Q|Q]; discriminate Q]].
  - intros; split; [eapply T_call_indirect; eassumption|apply LEAF; [reflexivity|intros ? ? ? [Q|Q]; discriminate Q]].
  - intros; split; [constructor|]. intros j a n t O. exfalso. eapply occurs_nil; exact O.
  - intros C is i t1 t0 t t3 _ [A B] _ [A2 B2]. split; [econstructor; eassumption|].
    intros j a n u O. apply occurs_app in O as [O|O]; [eapply B|eapply B2]; exact O.
Qed.
Lemma aligned_of_natural :
  (forall C i t1 t2, instr_type false C i t1 t2 -> natural_alignment [i] -> instr_type true C i t1 t2) /\
  (forall C e t1 t2, seq_type false C e t1 t2 -> natural_alignment e -> seq_type true C e t1 t2).
Proof.
  assert (SUB : forall i sub, In sub (children i) -> natural_alignment [i] -> natural_alignment sub).
  { intros i sub S N j a n t O E. eapply N; [|exact E]. apply occurs_one. right. eauto. }
  apply (typing_mut false (fun C i t1 t2 _ => natural_alignment [i] -> instr_type true C i t1 t2)
    (fun C e t1 t2 _ => natural_alignment e -> seq_type true C e t1 t2)).
  1: { intros; apply T_plain; assumption. }
  1-7: intros; econstructor; eassumption.
  - intros C i a n t m L M _ N. eapply T_load; [eassumption..|]. intros _. eapply N; [apply occurs_here; left; reflexivity|left; exact L].
  - intros C i a n t m L M _ N. eapply T_store; [eassumption..|]. intros _. eapply N; [apply occurs_here; left; reflexivity|right; exact L].
  - intros; eapply T_mem_size; eassumption.
  - intros; eapply T_mem_grow; eassumption.
  - intros; apply T_nop.
  - intros; apply T_unreachable.
  - intros C rt b _ IH N. apply T_block. apply IH. eapply SUB; [|exact N]. left. reflexivity.
  - intros C rt b _ IH N. apply T_loop. apply IH. eapply SUB; [|exact N]. left. reflexivity.
  - intros C rt b1 b2 _ IH _ IH2 N. apply T_if; [apply IH|apply IH2]; (eapply SUB; [|exact N]); [left|right; left]; reflexivity.
  - intros; apply T_br; assumption.
  - intros; apply T_br_if; assumption.
  - intros; apply T_br_table; assumption.
  - intros; apply T_return; assumption.
  - intros; apply T_call; assumption.
  - intros; eapply T_call_indirect; eassumption.
  - intros; constructor.
  - intros C is i t1 t0 t t3 _ IH _ IH2 N. econstructor; [apply IH|apply IH2]; intros j a n u O; eapply N; apply occurs_app; eauto.
Qed.
Theorem alignment_iff C e t1 t2 : seq_type true C e t1 t2 <-> seq_type false C e t1 t2 /\ natural_alignment e.
Proof.
  split; [apply aligned_mut|]. intros [A B]. apply aligned_of_natural; assumption.
Qed.

(** ** The label of the function body *)
Definition set_labels (ls : list (list valty)) (C : tenv) : tenv :=
  mkTenv (te_types C) (te_funcs C) (te_tables C) (te_mems C) (te_globals C) (te_locals C) ls (te_return C).
Lemma at_index_app {A} (xs ys : list A) i x : at_index xs i x -> at_index (xs ++ ys) i x.
Proof. unfold at_index. intros H. rewrite nth_error_app1; [assumption|]. apply nth_error_Some. congruence. Qed.
Lemma at_index_last {A} (xs : list A) y i x : at_index (xs ++ [y]) i x -> i <> N.of_nat (length xs) -> at_index xs i x.
Proof.
  unfold at_index. intros H NE. destruct (Nat.lt_ge_cases (N.to_nat i) (length xs)) as [L|L]; [rewrite nth_error_app1 in H by assumption; exact H|].
  rewrite nth_error_app2 in H by assumption. destruct (N.to_nat i - length xs)%nat as [|k] eqn:E; [lia|]. destruct k; discriminate H.
Qed.
Lemma labels_weaken al :
  (forall C i t1 t2, instr_type al C i t1 t2 -> forall more, instr_type al (set_labels (te_labels C ++ more) C) i t1 t2) /\
  (forall C e t1 t2, seq_type al C e t1 t2 -> forall more, seq_type al (set_labels (te_labels C ++ more) C) e t1 t2).
Proof.
  apply (typing_mut al (fun C i t1 t2 _ => forall more, instr_type al (set_labels (te_labels C ++ more) C) i t1 t2)
    (fun C e t1 t2 _ => forall more, seq_type al (set_labels (te_labels C ++ more) C) e t1 t2)).
  1: { intros; apply T_plain; assumption. }
  1-7: intros; econstructor; eassumption.
  1: intros; eapply T_load; eassumption.
  1: intros; eapply T_store; eassumption.
  1: intros; eapply T_mem_size; eassumption.
  1: intros; eapply T_mem_grow; eassumption.
  1: intros; apply T_nop.
  1: intros; apply T_unreachable.
  - intros C rt b _ IH more. apply T_block. exact (IH more).
  - intros C rt b _ IH more. apply T_loop. exact (IH more).
  - intros C rt b1 b2 _ IH _ IH2 more. apply T_if; [exact (IH more)|exact (IH2 more)].
  - intros C l ts ts1 ts2 A more. apply T_br. apply at_index_app. assumption.
  - intros C l ts A more. apply T_br_if. apply at_index_app. assumption.
  - intros C ls ld ts ts1 ts2 F A more. apply T_br_table; [|apply at_index_app; assumption].
    eapply Forall_impl; [|exact F]. intros l. apply at_index_app.
  - intros; apply T_return; assumption.
  - intros; apply T_call; assumption.
  - intros; eapply T_call_indirect; eassumption.
  - intros; constructor.
  - intros; econstructor; eauto.
Qed.
Definition avoids (ls : list (list valty)) (e : list instr) : Prop := forall d, ~ jump d (N.of_nat (d + length ls)) e.
Lemma labels_strengthen al :
  (forall C i t1 t2, instr_type al C i t1 t2 -> forall ls rt, te_labels C = ls ++ [rt] -> avoids ls [i] ->
     instr_type al (set_labels ls C) i t1 t2) /\
  (forall C e t1 t2, seq_type al C e t1 t2 -> forall ls rt, te_labels C = ls ++ [rt] -> avoids ls e ->
     seq_type al (set_labels ls C) e t1 t2).
Proof.
  assert (SUB : forall i sub x ls, In sub (children i) -> avoids ls [i] -> avoids (x :: ls) sub).
  { intros i sub x ls S A d J. apply (A (Datatypes.S d)). apply jump_one. right. exists d, sub.
    replace (N.of_nat (Datatypes.S d + length ls)) with (N.of_nat (d + length (x :: ls))) by (cbn [length]; lia). auto. }
  assert (HERE : forall i l ls, In l (branch_targets i) -> avoids ls [i] -> l <> N.of_nat (length ls)).
  { intros i l ls I A ->. apply (A O). apply jump_one. left. auto. }
  apply (typing_mut al (fun C i t1 t2 _ => forall ls rt, te_labels C = ls ++ [rt] -> avoids ls [i] -> instr_type al (set_labels ls C) i t1 t2)
    (fun C e t1 t2 _ => forall ls rt, te_labels C = ls ++ [rt] -> avoids ls e -> seq_type al (set_labels ls C) e t1 t2)).
  1: { intros; apply T_plain; assumption. }
  1-7: intros; econstructor; eassumption.
  1: intros; eapply T_load; eassumption.
  1: intros; eapply T_store; eassumption.
  1: intros; eapply T_mem_size; eassumption.
  1: intros; eapply T_mem_grow; eassumption.
  1: intros; apply T_nop.
  1: intros; apply T_unreachable.
  - intros C rt b _ IH ls r E A. apply T_block. apply (IH (rt :: ls) r); [cbn; rewrite E; reflexivity|]. eapply SUB; [|exact A]. left. reflexivity.
  - intros C rt b _ IH ls r E A. apply T_loop. apply (IH ([] :: ls) r); [cbn; rewrite E; reflexivity|]. eapply SUB; [|exact A]. left. reflexivity.
  - intros C rt b1 b2 _ IH _ IH2 ls r E A. apply T_if.
    + apply (IH (rt :: ls) r); [cbn; rewrite E; reflexivity|]. eapply SUB; [|exact A]. left. reflexivity.
    + apply (IH2 (rt :: ls) r); [cbn; rewrite E; reflexivity|]. eapply SUB; [|exact A]. right. left. reflexivity.
  - intros C l ts ts1 ts2 A ls rt E AV. apply T_br. cbn. rewrite E in A. eapply at_index_last; [exact A|]. eapply HERE; [|exact AV]. left. reflexivity.
  - intros C l ts A ls rt E AV. apply T_br_if. cbn. rewrite E in A. eapply at_index_last; [exact A|]. eapply HERE; [|exact AV]. left. reflexivity.
  - intros C lx ld ts ts1 ts2 F A ls rt E AV. apply T_br_table; cbn; rewrite E in *.
    + rewrite Forall_forall in *. intros l I. eapply at_index_last; [apply F; assumption|]. eapply HERE; [|exact AV]. cbn. apply in_or_app. auto.
    + eapply at_index_last; [exact A|]. eapply HERE; [|exact AV]. cbn. apply in_or_app. right. left. reflexivity.
  - intros; apply T_return; assumption.
  - intros; apply T_call; assumption.
  - intros; eapply T_call_indirect; eassumption.
  - intros; constructor.
  - intros C is i t1 t0 t t3 _ IH _ IH2 ls rt E A. econstructor; [eapply IH|eapply IH2]; try eassumption; intros d J; eapply A; apply jump_app; eauto.
Qed.
(** branches of well typed code stay inside the labels *)
Lemma labels_bound al :
  (forall C i t1 t2, instr_type al C i t1 t2 -> forall d l, jump d l [i] -> (l < N.of_nat (d + length (te_labels C)))%N) /\
  (forall C e t1 t2, seq_type al C e t1 t2 -> forall d l, jump d l e -> (l < N.of_nat (d + length (te_labels C)))%N).
Proof.
  assert (LT : forall A (xs : list A) i x d, at_index xs i x -> (i < N.of_nat (d + length xs))%N).
  { intros A xs i x d H. unfold at_index in H. assert (nth_error xs (N.to_nat i) <> None) as Q by congruence. apply nth_error_Some in Q. lia. }
  assert (LEAF : forall i (P : nat -> N -> Prop), children i = [] -> (forall l, In l (branch_targets i) -> P O l) -> forall d l, jump d l [i] -> P d l).
  { intros i P C H d l J. apply jump_one in J as [[-> I]|(d' & sub & _ & S & _)]; [auto|]. rewrite C in S. contradiction. }
  assert (BLK : forall i n, branch_targets i = [] -> (forall sub, In sub (children i) -> forall d l, jump d l sub -> (l < N.of_nat (d + S n))%N) ->
    forall d l, jump d l [i] -> (l < N.of_nat (d + n))%N).
  { intros i n B H d l J. apply jump_one in J as [[-> I]|(d' & sub & -> & S & J)]; [rewrite B in I; contradiction|].
    apply H in J; [|assumption]. lia. }
  apply (typing_mut al (fun C i t1 t2 _ => forall d l, jump d l [i] -> (l < N.of_nat (d + length (te_labels C)))%N)
    (fun C e t1 t2 _ => forall d l, jump d l e -> (l < N.of_nat (d + length (te_labels C)))%N)).
  1: { intros C i ts1 ts2 P. apply (LEAF i (fun d l => (l < N.of_nat (d + length (te_labels C)))%N));
       destruct i; try discriminate P; try reflexivity; intros l []. }
  1-7: intros C; intros; eapply (LEAF _ (fun d l => (l < N.of_nat (d + length (te_labels C)))%N));
       [| |eassumption]; [reflexivity|intros ? []].
  - intros C i a n t m L _ _. apply (LEAF i (fun d l => (l < N.of_nat (d + length (te_labels C)))%N)); destruct i; try discriminate L; try reflexivity; intros l [].
  - intros C i a n t m L _ _. apply (LEAF i (fun d l => (l < N.of_nat (d + length (te_labels C)))%N)); destruct i; try discriminate L; try reflexivity; intros l [].
  - intros C x m _. apply (LEAF _ (fun d l => (l < N.of_nat (d + length (te_labels C)))%N)); [reflexivity|intros l []].
  - intros C x m _. apply (LEAF _ (fun d l => (l < N.of_nat (d + length (te_labels C)))%N)); [reflexivity|intros l []].
  - intros C. apply (LEAF _ (fun d l => (l < N.of_nat (d + length (te_labels C)))%N)); [reflexivity|intros l []].
  - intros C t1 t2. apply (LEAF _ (fun d l => (l < N.of_nat (d + length (te_labels C)))%N)); [reflexivity|intros l []].
  - intros C rt b _ IH. apply BLK; [reflexivity|]. intros sub [<-|[]]. exact IH.
  - intros C rt b _ IH. apply BLK; [reflexivity|]. intros sub [<-|[]]. exact IH.
  - intros C rt b1 b2 _ IH _ IH2. apply BLK; [reflexivity|]. intros sub [<-|[<-|[]]]; assumption.
  - intros C l ts ts1 ts2 A. apply (LEAF _ (fun d l => (l < N.of_nat (d + length (te_labels C)))%N)); [reflexivity|]. intros l' [<-|[]]. eapply LT; exact A.
  - intros C l ts A. apply (LEAF _ (fun d l => (l < N.of_nat (d + length (te_labels C)))%N)); [reflexivity|]. intros l' [<-|[]]. eapply LT; exact A.
  - intros C ls ld ts ts1 ts2 F A. apply (LEAF _ (fun d l => (l < N.of_nat (d + length (te_labels C)))%N)); [reflexivity|].
    intros l I. cbn in I. apply in_app_or in I as [I|[<-|[]]]; [|eapply LT; exact A]. rewrite Forall_forall in F. apply F in I. eapply LT; exact I.
  - intros C ts t1 t2 _. apply (LEAF _ (fun d l => (l < N.of_nat (d + length (te_labels C)))%N)); [reflexivity|intros l []].
  - intros C x ft _. apply (LEAF _ (fun d l => (l < N.of_nat (d + length (te_labels C)))%N)); [reflexivity|intros l []].
  - intros C x y tb ft _ _ _. apply (LEAF _ (fun d l => (l < N.of_nat (d + length (te_labels C)))%N)); [reflexivity|intros l []].
  - intros C ts d l J. exfalso. eapply jump_nil; exact J.
  - intros C is i t1 t0 t t3 _ IH _ IH2 d l J. apply jump_app in J as [J|J]; auto.
Qed.

Theorem own_label_iff al C f ft :
  func_type al false C f ft <-> func_type al true C f ft /\ no_own_jump (fn_body f).
Proof.
  unfold func_type, expr_type. set (C0 := func_env false C ft (fn_locals f)). set (C1 := func_env true C ft (fn_locals f)). split.
  - intros [A B]. split; [split; [assumption|]|].
    + apply (proj2 (labels_weaken al) _ _ _ _ B [ft_results ft]).
    + intros d J. apply (proj2 (labels_bound al) _ _ _ _ B) in J. cbn in J. lia.
  - intros [[A B] NJ]. split; [assumption|].
    apply (proj2 (labels_strengthen al) _ _ _ _ B [] (ft_results ft)); [reflexivity|].
    intros d J. apply (NJ d). cbn [length] in J. rewrite Nat.add_0_r in J. exact J.
Qed.
Theorem function_dialects C f ft :
  (func_type false false C f ft /\ natural_alignment (fn_body f)) <->
  (func_type true true C f ft /\ no_own_jump (fn_body f)).
Proof.
  rewrite !own_label_iff. unfold func_type, expr_type. rewrite !alignment_iff. tauto.
Qed.
