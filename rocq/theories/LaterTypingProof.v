(** Code of 1.0 typed by the rules of 1.0 and of 2.0 (C79). *)
From Coq Require Import Lia.
From Verif Require Import SpecLaterValid TypingProof.
Open Scope N_scope.
Open Scope list_scope.

Definition later_env (C : tenv) (R : u32 -> Prop) : env2 :=
  mkEnv2 (map later_functy (te_types C)) (map later_functy (te_funcs C)) (map later_tablety (te_tables C)) (te_mems C)
    (map later_globalty (te_globals C)) (map W_num (te_locals C)) (map (map W_num) (te_labels C)) (option_map (map W_num) (te_return C)) R.
Lemma later_add_label rt C R : later_env (add_label rt C) R = add_label2 (map W_num rt) (later_env C R).
Proof. reflexivity. Qed.
Lemma nums_opds ts : nums ts = opds (map W_num ts).
Proof. unfold nums, opds. rewrite map_map. reflexivity. Qed.
Lemma nums_app a b : nums (a ++ b) = nums a ++ nums b.
Proof. apply map_app. Qed.
Lemma at_map {A B} (f : A -> B) l x y : at_index (map f l) x y <-> exists z, y = f z /\ at_index l x z.
Proof.
  unfold at_index. rewrite nth_error_map. destruct (nth_error l (N.to_nat x)) as [z|]; cbn.
  - split; [intros [= <-]; eauto|]. intros (z' & -> & [= ->]). reflexivity.
  - split; [discriminate|]. intros (z' & _ & [=]).
Qed.
Lemma at_later {A B} (f : A -> B) l x z : at_index l x z -> at_index (map f l) x (f z).
Proof. intros H. apply at_map. eauto. Qed.
Lemma at_index_fun {A} (l : list A) x a b : at_index l x a -> at_index l x b -> a = b.
Proof. unfold at_index. congruence. Qed.

(** ** Side conditions on code *)
Definition short (e : list instr) : Prop := forall j rt, occurs j e -> block_type j = Some rt -> (length rt <= 1)%nat.
Lemma short_sub i sub : In sub (children i) -> short [i] -> short sub.
Proof. intros I S j rt O. apply S. eapply occurs_inside; [left; reflexivity|exact I|exact O]. Qed.
Lemma short_app a b : short (a ++ b) -> short a /\ short b.
Proof.
  intros S. split; intros j rt O; apply S.
  - inversion O as [? I|x sub ? I C O']; subst; [apply occurs_here|eapply occurs_inside; [|exact C|exact O']]; apply in_or_app; auto.
  - inversion O as [? I|x sub ? I C O']; subst; [apply occurs_here|eapply occurs_inside; [|exact C|exact O']]; apply in_or_app; auto.
Qed.
Lemma short_here i rt : block_type i = Some rt -> short [i] -> (length rt <= 1)%nat.
Proof. intros E S. eapply S; [|exact E]. apply occurs_here. left. reflexivity. Qed.
Lemma later_blockty_type C R rt : (length rt <= 1)%nat -> blockty2_type (later_env C R) (later_blockty rt) [] (map W_num rt).
Proof. destruct rt as [|t [|? ?]]; cbn; intros L; try lia; auto. Qed.
Lemma later_blockty_inv C2 rt ts1 ts2 : (length rt <= 1)%nat -> blockty2_type C2 (later_blockty rt) ts1 ts2 -> ts1 = [] /\ ts2 = map W_num rt.
Proof. destruct rt as [|t [|? ?]]; cbn; intros L; try lia; auto. Qed.
Lemma agree_block ls rt b : tables_agree ls (I_Block rt b) <-> Forall (tables_agree (rt :: ls)) b.
Proof.
  cbn. induction b as [|i b IH]; [split; constructor|]. rewrite Forall_cons_iff, IH. reflexivity.
Qed.
Lemma agree_loop ls rt b : tables_agree ls (I_Loop rt b) <-> Forall (tables_agree ([] :: ls)) b.
Proof.
  cbn. induction b as [|i b IH]; [split; constructor|]. rewrite Forall_cons_iff, IH. reflexivity.
Qed.
Lemma agree_if ls rt b c : tables_agree ls (I_If rt b c) <-> Forall (tables_agree (rt :: ls)) b /\ Forall (tables_agree (rt :: ls)) c.
Proof. rewrite <- !agree_block. reflexivity. Qed.

Section Prefixed.
Variable P : env2 -> byte -> list byte -> list opd -> list opd -> Prop.

(** ** From 1.0 to 2.0 *)
Lemma opds_le_refl ts : opds_le ts ts.
Proof. induction ts; constructor; auto. right. reflexivity. Qed.
Lemma later_old i : structured i = false -> later_instr i = J_old i.
Proof. destruct i; try reflexivity; discriminate. Qed.
Lemma plain_old i x : plain_type i = Some x -> structured i = false.
Proof. destruct i; try reflexivity; discriminate. Qed.
Lemma load_old i x : load_type i = Some x -> structured i = false.
Proof. destruct i; try reflexivity; discriminate. Qed.
Lemma store_old i x : store_type i = Some x -> structured i = false.
Proof. destruct i; try reflexivity; discriminate. Qed.
Lemma typed_later :
  (forall C i ts1 ts2, instr_type true C i ts1 ts2 -> forall R, short [i] -> instr2_type P (later_env C R) (later_instr i) (nums ts1) (nums ts2)) /\
  (forall C e ts1 ts2, seq_type true C e ts1 ts2 -> forall R, short e -> seq2_type P (later_env C R) (map later_instr e) (nums ts1) (nums ts2)).
Proof.
  apply (typing_mut true (fun C i ts1 ts2 _ => forall R, short [i] -> instr2_type P (later_env C R) (later_instr i) (nums ts1) (nums ts2))
    (fun C e ts1 ts2 _ => forall R, short e -> seq2_type P (later_env C R) (map later_instr e) (nums ts1) (nums ts2))).
  - intros C i ts1 ts2 E R S. rewrite (later_old _ (plain_old _ _ E)). apply T2_plain. exact E.
  - intros. apply T2_drop.
  - intros. apply T2_select. intros u [= <-] [r [=]].
  - intros C x t A R S. apply T2_local_get. apply at_later. exact A.
  - intros C x t A R S. apply T2_local_set. apply at_later. exact A.
  - intros C x t A R S. apply T2_local_tee. apply at_later. exact A.
  - intros C x g A R S. apply (T2_global_get P _ x (later_globalty g)). apply at_later. exact A.
  - intros C x g A M R S. apply (T2_global_set P _ x (later_globalty g)); [|exact M]. apply at_later. exact A.
  - intros C i a n t m E M AL R S. rewrite (later_old _ (load_old _ _ E)). eapply T2_load; [exact E|exact M|]. apply AL. reflexivity.
  - intros C i a n t m E M AL R S. rewrite (later_old _ (store_old _ _ E)). eapply T2_store; [exact E|exact M|]. apply AL. reflexivity.
  - intros C x m A R S. eapply T2_mem_size. exact A.
  - intros C x m A R S. eapply T2_mem_grow. exact A.
  - intros. apply T2_nop.
  - intros. apply T2_unreachable.
  - intros C rt b _ IH R S. rewrite (nums_opds rt). change (nums []) with (opds []). apply T2_block; [apply later_blockty_type; eapply short_here; [|exact S]; reflexivity|].
    rewrite <- later_add_label, <- (nums_opds rt). apply IH. eapply short_sub; [|exact S]. left. reflexivity.
  - intros C rt b _ IH R S. rewrite (nums_opds rt). change (nums []) with (opds []). apply T2_loop; [apply later_blockty_type; eapply short_here; [|exact S]; reflexivity|].
    rewrite <- (nums_opds rt). change (add_label2 [] (later_env C R)) with (later_env (add_label [] C) R). apply IH. eapply short_sub; [|exact S]. left. reflexivity.
  - intros C rt b c _ IH _ IH' R S. rewrite (nums_opds rt). change (nums [T_I32]) with (opds [] ++ nums [T_I32]).
    apply T2_if; [apply later_blockty_type; eapply short_here; [|exact S]; reflexivity|..]; rewrite <- later_add_label, <- (nums_opds rt).
    + apply IH. eapply short_sub; [|exact S]. left. reflexivity.
    + apply IH'. eapply short_sub; [|exact S]. right. left. reflexivity.
  - intros C l ts ts1 ts2 A R S. rewrite nums_app, (nums_opds ts). apply T2_br. apply at_later. exact A.
  - intros C l ts A R S. rewrite nums_app, (nums_opds ts). apply T2_br_if. apply at_later. exact A.
  - intros C ls ld ts ts1 ts2 F A R S. rewrite !nums_app. apply T2_br_table. apply Forall_app. split.
    + rewrite Forall_forall in *. intros l I. exists (map W_num ts). split; [apply at_later; apply F; exact I|]. rewrite <- nums_opds. apply opds_le_refl.
    + constructor; [|constructor]. exists (map W_num ts). split; [apply at_later; exact A|]. rewrite <- nums_opds. apply opds_le_refl.
  - intros C ts ts1 ts2 A R S. rewrite nums_app, (nums_opds ts). apply T2_return. cbn. rewrite A. reflexivity.
  - intros C x ft A R S. rewrite !nums_opds. apply (T2_call P _ x (later_functy ft)). apply at_later. exact A.
  - intros C x y tb ft A E B R S. rewrite nums_app, !nums_opds. apply (T2_call_indirect P _ x y (later_tablety tb) (later_functy ft)); [apply at_later; exact A|reflexivity|].
    apply at_later. exact B.
  - intros. apply S2_nil.
  - intros C is i ts1 ts0 ts ts3 _ IH _ IH' R S. apply short_app in S as [S S']. rewrite nums_app, map_app. eapply S2_snoc; [|apply opds_le_refl|apply IH'; exact S'].
    rewrite <- nums_app. apply IH. exact S.
Qed.
(** typed by 1.0, the labels of a [br_table] have one type *)
Lemma typed_agree al :
  (forall C i ts1 ts2, instr_type al C i ts1 ts2 -> tables_agree (te_labels C) i) /\
  (forall C e ts1 ts2, seq_type al C e ts1 ts2 -> Forall (tables_agree (te_labels C)) e).
Proof.
  apply (typing_mut al (fun C i ts1 ts2 _ => tables_agree (te_labels C) i) (fun C e ts1 ts2 _ => Forall (tables_agree (te_labels C)) e)); try (intros; exact I).
  - intros C i ts1 ts2 E. destruct i; try discriminate E; exact I.
  - intros C i a n t m E. destruct i; try discriminate E; intros; exact I.
  - intros C i a n t m E. destruct i; try discriminate E; intros; exact I.
  - intros C rt b _ IH. apply agree_block. exact IH.
  - intros C rt b _ IH. apply agree_loop. exact IH.
  - intros C rt b c _ IH _ IH'. apply agree_if. split; assumption.
  - intros C ls ld ts ts1 ts2 F A l' t t' I T T'. rewrite Forall_forall in F. specialize (F l' I). cbv beta in F.
    rewrite (at_index_fun _ _ _ _ T A), (at_index_fun _ _ _ _ T' F). reflexivity.
  - constructor.
  - intros C is i ts1 ts0 ts ts3 _ IH _ IH'. apply Forall_app. split; [exact IH|]. constructor; [exact IH'|constructor].
Qed.

(** ** From 2.0 to 1.0: what [Bot], vectors and references stand for may be chosen *)
Scheme instr2_type_mut := Induction for instr2_type Sort Prop
  with seq2_type_mut := Induction for seq2_type Sort Prop.
Combined Scheme typing2_mut from instr2_type_mut, seq2_type_mut.

Definition is_a (o : opd) (v : valty) : Prop := forall t, o = Opd (W_num t) -> v = t.
Definition are := Forall2 is_a.
Lemma are_nums ts us : are (nums ts) us -> us = ts.
Proof.
  revert us. induction ts as [|t ts IH]; intros us H; inversion H as [|? u ? us' K L]; subst; [reflexivity|]. f_equal; [apply K; reflexivity|apply IH; exact L].
Qed.
Lemma are_opds ts us : are (opds (map W_num ts)) us -> us = ts.
Proof. rewrite <- nums_opds. apply are_nums. Qed.
Lemma nums_are ts : are (nums ts) ts.
Proof. induction ts; constructor; auto. intros t [= ->]. reflexivity. Qed.
Lemma opds_are ts : are (opds (map W_num ts)) ts.
Proof. rewrite <- nums_opds. apply nums_are. Qed.
Lemma some_are os : exists us, are os us.
Proof.
  induction os as [|o os [us IH]]; [exists []; constructor|]. destruct o as [|[t| |r]]; [exists (T_I32 :: us)|exists (t :: us)|exists (T_I32 :: us)|exists (T_I32 :: us)]; constructor; try assumption; intros t' E; congruence.
Qed.
Lemma le_are s t us : opds_le s t -> are t us -> are s us.
Proof.
  intros L. revert us. induction L as [|a b s t E L IH]; intros us H; inversion H as [|? u ? us' K M]; subst; constructor; [|apply IH; exact M].
  destruct E as [->| ->]; [intros x [=]|exact K].
Qed.
Lemma are_app a b us vs : are a us -> are b vs -> are (a ++ b) (us ++ vs).
Proof. apply Forall2_app. Qed.
Lemma are_split a b us : are (a ++ b) us -> exists u v, us = u ++ v /\ are a u /\ are b v.
Proof. intros H. apply Forall2_app_inv_l in H as (u & v & A & B & ->). eauto. Qed.

Lemma later_inv i i' : later_instr i = J_old i' -> i = i'.
Proof. destruct i; intros H; try discriminate H; injection H as <-; reflexivity. Qed.
Ltac old E := match type of E with J_old _ = later_instr _ => symmetry in E; apply later_inv in E; subst end.

Lemma later_typed :
  (forall C2 j t1 t2, instr2_type P C2 j t1 t2 -> forall C R i, C2 = later_env C R -> j = later_instr i -> short [i] -> tables_agree (te_labels C) i ->
     forall u2, are t2 u2 -> exists u1, are t1 u1 /\ instr_type true C i u1 u2) /\
  (forall C2 js t1 t2, seq2_type P C2 js t1 t2 -> forall C R is, C2 = later_env C R -> js = map later_instr is -> short is -> Forall (tables_agree (te_labels C)) is ->
     forall u2, are t2 u2 -> exists u1, are t1 u1 /\ seq_type true C is u1 u2).
Proof.
  apply (typing2_mut P
    (fun C2 j t1 t2 _ => forall C R i, C2 = later_env C R -> j = later_instr i -> short [i] -> tables_agree (te_labels C) i ->
     forall u2, are t2 u2 -> exists u1, are t1 u1 /\ instr_type true C i u1 u2)
    (fun C2 js t1 t2 _ => forall C R is, C2 = later_env C R -> js = map later_instr is -> short is -> Forall (tables_agree (te_labels C)) is ->
     forall u2, are t2 u2 -> exists u1, are t1 u1 /\ seq_type true C is u1 u2)).
  - intros C2 i ts1 ts2 T C R i' -> E _ _ u2 A. old E. apply are_nums in A as ->. exists ts1. split; [apply nums_are|]. apply T_plain. exact T.
  - intros C2 op O C R i _ E. destruct i; discriminate E.
  - intros C2 op imm ts1 ts2 O C R i _ E. destruct i; discriminate E.
  - intros C2 t C R i _ E. destruct i; discriminate E.
  - intros C2 t O C R i _ E. destruct i; discriminate E.
  - intros C2 x ft O Q C R i _ E. destruct i; discriminate E.
  - intros C2 t C R i -> E _ _ u2 A. old E. inversion A; subst. destruct (some_are [t]) as [us U]. exists us. split; [exact U|].
    inversion U as [|? u ? us' K L]; subst. inversion L; subst. apply T_drop.
  - intros C2 t N C R i -> E _ _ u2 A. old E. inversion A as [|? u ? us' K L]; subst. inversion L; subst. exists [u; u; T_I32]. split; [|apply T_select].
    repeat constructor; try exact K. intros x [= <-]. reflexivity.
  - intros C2 t C R i _ E. destruct i; discriminate E.
  - intros C2 x t Q C R i -> E _ _ u2 A. old E. apply at_map in Q as (z & -> & Q). apply (are_opds [z]) in A as ->. exists []. split; [constructor|]. apply T_local_get. exact Q.
  - intros C2 x t Q C R i -> E _ _ u2 A. old E. apply at_map in Q as (z & -> & Q). inversion A; subst. exists [z]. split; [apply (opds_are [z])|]. apply T_local_set. exact Q.
  - intros C2 x t Q C R i -> E _ _ u2 A. old E. apply at_map in Q as (z & -> & Q). apply (are_opds [z]) in A as ->. exists [z]. split; [apply (opds_are [z])|]. apply T_local_tee. exact Q.
  - intros C2 x g Q C R i -> E _ _ u2 A. old E. apply at_map in Q as (z & -> & Q). apply (are_opds [gt_val z]) in A as ->. exists []. split; [constructor|]. apply T_global_get. exact Q.
  - intros C2 x g Q M C R i -> E _ _ u2 A. old E. apply at_map in Q as (z & -> & Q). inversion A; subst. exists [gt_val z]. split; [apply (opds_are [gt_val z])|].
    apply T_global_set; [exact Q|exact M].
  - intros C2 x t Q C R i _ E. destruct i; discriminate E.
  - intros C2 x t Q C R i _ E. destruct i; discriminate E.
  - intros C2 i a n t m L M AL C R i' -> E _ _ u2 A. old E. apply are_nums in A as ->. exists [T_I32]. split; [apply nums_are|]. eapply T_load; [exact L|exact M|]. intros _. exact AL.
  - intros C2 i a n t m L M AL C R i' -> E _ _ u2 A. old E. inversion A; subst. exists [T_I32; t]. split; [apply nums_are|]. eapply T_store; [exact L|exact M|]. intros _. exact AL.
  - intros C2 x m M C R i -> E _ _ u2 A. old E. apply are_nums in A as ->. exists []. split; [constructor|]. eapply T_mem_size. exact M.
  - intros C2 x m M C R i -> E _ _ u2 A. old E. apply are_nums in A as ->. exists [T_I32]. split; [apply nums_are|]. eapply T_mem_grow. exact M.
  - intros C2 C R i -> E _ _ u2 A. old E. inversion A; subst. exists []. split; [constructor|]. apply T_nop.
  - intros C2 ts1 ts2 C R i -> E _ _ u2 A. old E. destruct (some_are ts1) as [us U]. exists us. split; [exact U|]. apply T_unreachable.
  - intros C2 bt b ts1 ts2 B _ IH C R i -> E S AG u2 A. destruct i; try discriminate E. injection E as -> ->.
    apply later_blockty_inv in B as [-> ->]; [|eapply short_here; [|exact S]; reflexivity]. rewrite <- later_add_label in IH.
    destruct (IH (add_label a C) R b0 eq_refl eq_refl) with (u2 := a) as (u1 & U & T).
    { eapply short_sub; [|exact S]. left. reflexivity. } { apply agree_block in AG. exact AG. } { apply opds_are. }
    inversion U; subst. apply are_opds in A as ->. exists []. split; [constructor|]. apply T_block. exact T.
  - intros C2 bt b ts1 ts2 B _ IH C R i -> E S AG u2 A. destruct i; try discriminate E. injection E as -> ->.
    apply later_blockty_inv in B as [-> ->]; [|eapply short_here; [|exact S]; reflexivity]. change (add_label2 [] (later_env C R)) with (later_env (add_label [] C) R) in IH.
    destruct (IH (add_label [] C) R b0 eq_refl eq_refl) with (u2 := a) as (u1 & U & T).
    { eapply short_sub; [|exact S]. left. reflexivity. } { apply agree_loop in AG. exact AG. } { apply opds_are. }
    inversion U; subst. apply are_opds in A as ->. exists []. split; [constructor|]. apply T_loop. exact T.
  - intros C2 bt b c ts1 ts2 B _ IH _ IH' C R i -> E S AG u2 A. destruct i; try discriminate E. injection E as -> -> ->.
    apply later_blockty_inv in B as [-> ->]; [|eapply short_here; [|exact S]; reflexivity]. rewrite <- later_add_label in IH, IH'. apply agree_if in AG as [AG AG'].
    destruct (IH (add_label a C) R b0 eq_refl eq_refl) with (u2 := a) as (u1 & U & T).
    { eapply short_sub; [|exact S]. left. reflexivity. } { exact AG. } { apply opds_are. }
    destruct (IH' (add_label a C) R c0 eq_refl eq_refl) with (u2 := a) as (u1' & U' & T').
    { eapply short_sub; [|exact S]. right. left. reflexivity. } { exact AG'. } { apply opds_are. }
    inversion U; subst. inversion U'; subst. apply are_opds in A as ->. exists [T_I32]. split; [apply (nums_are [T_I32])|]. apply T_if; assumption.
  - intros C2 l ts ts1 ts2 Q C R i -> E _ _ u2 A. old E. apply at_map in Q as (z & -> & Q). destruct (some_are ts1) as [us U]. exists (us ++ z). split; [apply are_app; [exact U|apply opds_are]|].
    apply T_br. exact Q.
  - intros C2 l ts Q C R i -> E _ _ u2 A. old E. apply at_map in Q as (z & -> & Q). apply are_opds in A as ->. exists (z ++ [T_I32]). split; [apply are_app; [apply opds_are|apply nums_are]|].
    apply T_br_if. exact Q.
  - intros C2 ls ld ts ts1 ts2 F C R i -> E _ AG u2 A. old E. apply Forall_app in F as [F D]. inversion D as [|? ? (us & Q & L) _]; subst.
    apply at_map in Q as (z & -> & Q). destruct (some_are ts1) as [us U]. exists (us ++ z ++ [T_I32]). split.
    + apply are_app; [exact U|]. apply are_app; [|apply nums_are]. eapply le_are; [exact L|]. apply opds_are.
    + apply T_br_table; [|exact Q]. rewrite Forall_forall in *. intros l I. destruct (F l I) as (us' & Q' & _). apply at_map in Q' as (z' & _ & Q').
      rewrite (AG l z z' I Q Q'). exact Q'.
  - intros C2 ts ts1 ts2 Q C R i -> E _ _ u2 A. old E. cbn in Q. destruct (te_return C) as [z|] eqn:RE; [|discriminate]. injection Q as <-.
    destruct (some_are ts1) as [us U]. exists (us ++ z). split; [apply are_app; [exact U|apply opds_are]|]. apply T_return. exact RE.
  - intros C2 x ft Q C R i -> E _ _ u2 A. old E. apply at_map in Q as (z & -> & Q). cbn in A. apply are_opds in A as ->. exists (ft_params z). split; [apply opds_are|].
    apply T_call. exact Q.
  - intros C2 x y tb ft Q F Q' C R i -> E _ _ u2 A. old E. apply at_map in Q as (z & -> & Q). apply at_map in Q' as (z' & -> & Q'). cbn in A. apply are_opds in A as ->.
    exists (ft_params z' ++ [T_I32]). split; [apply are_app; [apply opds_are|apply nums_are]|]. eapply T_call_indirect; [exact Q| |exact Q']. destruct (tt_elem z). reflexivity.
  - intros C2 ts C R is -> E _ _ u2 A. symmetry in E. apply map_eq_nil in E. subst. exists u2. split; [exact A|constructor].
  - intros C2 js j ts1 ts0 ts' ts ts3 _ IH L _ IH' C R is -> E S AG u2 A. symmetry in E. apply map_eq_app in E as (is1 & l & -> & <- & E).
    destruct l as [|i l]; [discriminate|]. injection E as <- E. apply map_eq_nil in E as ->. apply short_app in S as [S S']. apply Forall_app in AG as [AG AG']. inversion AG' as [|? ? AG1 _]; subst.
    apply are_split in A as (a & b & -> & A & B). destruct (IH' C R i eq_refl eq_refl S' AG1 b B) as (w & W1 & T).
    destruct (IH C R is1 eq_refl eq_refl S AG (a ++ w)) as (u1 & U & T'); [apply are_app; [exact A|]; eapply le_are; eassumption|].
    exists u1. split; [exact U|]. econstructor; eassumption.
Qed.

(** both for expressions *)
Theorem expr_later C R e ts : short e ->
  (expr_type true C e ts <-> expr2_type P (later_env C R) (later_expr e) (map W_num ts) /\ Forall (tables_agree (te_labels C)) e).
Proof.
  intros S. split.
  - intros T. split; [|eapply typed_agree; exact T]. exists (nums ts). split; [exact (proj2 typed_later _ _ _ _ T R S)|]. rewrite <- nums_opds. apply opds_le_refl.
  - intros [(us & T & L) AG]. destruct (proj2 later_typed _ _ _ _ T C R e eq_refl eq_refl S AG ts) as (u1 & U & T').
    + eapply le_are; [exact L|]. apply opds_are.
    + inversion U; subst. exact T'.
Qed.
End Prefixed.
