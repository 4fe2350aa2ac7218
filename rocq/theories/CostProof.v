(** The steps of validation. *)
From Coq Require Import Lia.
From Verif Require Import SpecTyping SpecCost ValidatorCost SafeProof EncodeProof StorageProof TypingProof ModuleValidProof.
Open Scope nat_scope.

(** ** The steps are not seen by the result *)
Lemma fk_bind {A B} (p : kv A) (f : A -> kv B) : fst (k_bind p f) = vbind (fst p) (fun a => fst (f a)).
Proof. destruct p as [[a| |] l]; reflexivity. Qed.
Lemma fk_pop_all ops : forall s, fst (k_pop_all ops s) = pop_all ops s.
Proof.
  induction ops as [|op ops IH]; intros s; cbn [k_pop_all pop_all]; [reflexivity|]. rewrite fk_bind. apply vbind_ext. intros a. apply IH.
Qed.
Lemma fk_pops ops s : fst (k_pop_operands ops s) = pop_operands ops s.
Proof. apply fk_pop_all. Qed.
Lemma fk_pop_frame s : fst (k_pop_frame s) = pop_frame s.
Proof.
  unfold k_pop_frame, pop_frame. rewrite fk_bind. cbn [k_step fst]. destruct (frames s) as [|fr frs]; cbn [vbind]; [reflexivity|].
  rewrite fk_bind, fk_pops. apply vbind_ext. intros s1. destruct (negb _); [reflexivity|]. destruct (frames s1); reflexivity.
Qed.
Lemma fk_end s : fst (k_end s) = v_end s.
Proof. unfold k_end, v_end. rewrite fk_bind, fk_pop_frame. reflexivity. Qed.
Lemma fk_else s : fst (k_else s) = v_else s.
Proof. unfold k_else, v_else. rewrite fk_bind, fk_pop_frame. reflexivity. Qed.
Lemma fk_labels s fr ls : fst (k_br_table_labels s fr ls) = v_br_table_labels s fr ls.
Proof.
  induction ls as [|l ls IH]; cbn [k_br_table_labels v_br_table_labels]; [reflexivity|]. rewrite fk_bind. apply vbind_ext. intros f.
  rewrite fk_bind. cbn [k_steps fst vbind]. destruct (negb _); [reflexivity|exact IH].
Qed.
Lemma fk_seq (v : instr -> stacks -> kv stacks) (h : instr -> stacks -> vres stacks) e :
  Forall (fun i => forall s, fst (v i s) = h i s) e -> forall s, fst (k_seq v e s) = v_seq h e s.
Proof.
  induction 1 as [|i e Hi _ IH]; intros s; cbn [k_seq v_seq]; [reflexivity|]. rewrite fk_bind. cbn [k_steps fst vbind].
  rewrite fk_bind, Hi. apply vbind_ext. exact IH.
Qed.
Lemma k_plain c i s ts1 ts2 : plain_type i = Some (ts1, ts2) ->
  k_instr c i s = k_bind (k_pop_operands ts1 s) (fun s => k_push_operands ts2 s).
Proof. destruct i; intros [=]; subst; reflexivity. Qed.
Lemma k_load_instr c i s a n t : load_type i = Some (a, n, t) ->
  k_instr c i s = (_ <-# k_step (v_memidx c 0%N) ;; s <-# k_pop_operands [T_I32] s ;; k_push_operands [t] s).
Proof. destruct i; intros [=]; subst; reflexivity. Qed.
Lemma k_store_instr c i s a n t : store_type i = Some (a, n, t) ->
  k_instr c i s = (_ <-# k_step (v_memidx c 0%N) ;; k_pop_operands [T_I32; t] s).
Proof. destruct i; intros [=]; subst; reflexivity. Qed.
Lemma fk_instr c i : forall s, fst (k_instr c i s) = v_instr c i s.
Proof.
  induction i as [i IH] using instr_children_ind. intros s.
  assert (SQ : forall sub, In sub (children i) -> forall s, fst (k_seq (k_instr c) sub s) = v_seq (v_instr c) sub s).
  { intros sub I. apply fk_seq. exact (IH sub I). }
  destruct (plain_type i) as [[ts1 ts2]|] eqn:P.
  { rewrite (k_plain _ _ _ _ _ P), (v_plain _ _ _ _ _ P), fk_bind, fk_pops. reflexivity. }
  destruct (load_type i) as [[[a n] t]|] eqn:L.
  { rewrite (k_load_instr _ _ _ _ _ _ L), (v_load_instr _ _ _ _ _ _ L), fk_bind. apply vbind_ext. intros u. rewrite fk_bind, fk_pops. reflexivity. }
  destruct (store_type i) as [[[a n] t]|] eqn:T.
  { rewrite (k_store_instr _ _ _ _ _ _ T), (v_store_instr _ _ _ _ _ _ T), fk_bind. apply vbind_ext. intros u. apply fk_pops. }
  destruct i; try discriminate P; try discriminate L; try discriminate T; cbn [k_instr v_instr children In] in *;
    repeat first [rewrite fk_bind | rewrite fk_pops | rewrite fk_labels | rewrite fk_end | rewrite fk_else
      | rewrite (SQ _ (or_introl eq_refl)) | rewrite (SQ _ (or_intror (or_introl eq_refl))) | reflexivity
      | apply vbind_ext; intros ? | progress cbn [k_push_frame k_step k_run fst vbind]
      | match goal with |- fst (if ?b then _ else _) = _ => destruct b end ].
Qed.
Lemma fk_expr c e s : fst (k_expr c e s) = v_expr c e s.
Proof. apply fk_seq. apply Forall_forall. intros i _. apply fk_instr. Qed.
Lemma fk_constexpr c e : forall s, fst (k_constexpr c e s) = v_constexpr c e s.
Proof.
  induction e as [|i e IH]; intros s; cbn [k_constexpr v_constexpr]; [reflexivity|]. rewrite fk_bind. cbn [k_steps fst vbind].
  rewrite fk_bind. apply vbind_ext. intros u. rewrite fk_bind, fk_instr. apply vbind_ext. exact IH.
Qed.
Lemma fk_imported_funcs ims : forall c, fst (k_imported_funcs ims c) = use_imported_funcs ims c.
Proof.
  induction ims as [|im ims IH]; intros c; cbn [k_imported_funcs use_imported_funcs]; [reflexivity|]. rewrite fk_bind. cbn [k_steps fst vbind].
  destruct (im_desc im); try apply IH. rewrite fk_bind. apply vbind_ext. intros t0. apply IH.
Qed.
Lemma fk_funcs fs : forall c, fst (k_funcs fs c) = use_funcs fs c.
Proof.
  induction fs as [|f fs IH]; intros c; cbn [k_funcs use_funcs]; [reflexivity|]. rewrite fk_bind. cbn [k_steps fst vbind].
  rewrite fk_bind. apply vbind_ext. intros t. apply IH.
Qed.
Ltac skim := rewrite fk_bind; cbn [k_steps fst vbind].
Lemma fk_context m : fst (k_context_from m) = context_from m.
Proof.
  unfold k_context_from, context_from. skim. skim. rewrite fk_imported_funcs. apply vbind_ext. intros c. do 3 skim. skim.
  rewrite fk_funcs. apply vbind_ext. intros c1. do 3 skim. reflexivity.
Qed.
Lemma fk_func f cs : fst (k_func f cs) = v_func f cs.
Proof.
  destruct cs as [c s]. unfold k_func, v_func. rewrite fk_bind. apply vbind_ext. intros t. skim. unfold k_push_frame. rewrite fk_bind. cbn [k_step fst vbind].
  rewrite fk_bind, fk_expr. apply vbind_ext. intros s1. rewrite fk_bind, fk_pop_frame. apply vbind_ext. intros rs. destruct (stacks_not_empty _); reflexivity.
Qed.
Lemma fk_const_body r e cs : fst (k_const_body r e cs) = v_const_body r e cs.
Proof.
  destruct cs as [c s]. unfold k_const_body, v_const_body. unfold k_push_frame. rewrite fk_bind. cbn [k_step fst vbind].
  rewrite fk_bind, fk_constexpr. apply vbind_ext. intros s1. rewrite fk_bind, fk_pop_frame. apply vbind_ext. intros rs. destruct (stacks_not_empty _); reflexivity.
Qed.
Lemma fk_global g cs : fst (k_global g cs) = v_global g cs.
Proof. unfold k_global, v_global. rewrite fk_bind. apply vbind_ext. intros u. rewrite fk_bind, fk_const_body. reflexivity. Qed.
Lemma fk_init c is : fst (k_elem_init c is) = v_elem_init c is.
Proof. induction is as [|i is IH]; cbn [k_elem_init v_elem_init]; [reflexivity|]. rewrite fk_bind. apply vbind_ext. intros u. exact IH. Qed.
Lemma fk_elem e cs : fst (k_elem e cs) = v_elem e cs.
Proof.
  unfold k_elem, v_elem. rewrite fk_bind. apply vbind_ext. intros t. destruct (negb _); [reflexivity|]. rewrite fk_bind, fk_const_body.
  apply vbind_ext. intros cs1. rewrite fk_bind, fk_init. reflexivity.
Qed.
Lemma fk_data d cs : fst (k_data d cs) = v_data d cs.
Proof. unfold k_data, v_data. rewrite fk_bind. apply vbind_ext. intros u. rewrite fk_bind, fk_const_body. reflexivity. Qed.
Lemma fk_each {A B} (w : A -> vctx -> kv (B * vctx)) (v : A -> vctx -> vres (B * vctx)) xs : (forall x cs, fst (w x cs) = v x cs) ->
  forall cs, fst (k_each w xs cs) = v_each v xs cs.
Proof.
  intros H. induction xs as [|x xs IH]; intros cs; cbn [k_each v_each]; [reflexivity|]. skim. rewrite fk_bind, H. apply vbind_ext. intros r.
  rewrite fk_bind, IH. reflexivity.
Qed.
Lemma fk_once {A B} (v : A -> vctx -> vres (B * vctx)) x cs : fst (k_once v x cs) = v x cs.
Proof. reflexivity. Qed.
Theorem steps_same m : fst (k_module m) = validate m.
Proof.
  unfold k_module, validate, v_module. rewrite fk_bind, fk_context. apply vbind_ext. intros c. skim.
  rewrite fk_bind, (fk_each _ _ _ (fk_once v_type_item)). apply vbind_ext. intros r1.
  rewrite fk_bind, (fk_each _ _ _ fk_func). apply vbind_ext. intros r2.
  rewrite fk_bind, (fk_each _ _ _ (fk_once v_table)). apply vbind_ext. intros r3.
  rewrite fk_bind, (fk_each _ _ _ (fk_once v_mem)). apply vbind_ext. intros r4.
  rewrite fk_bind, (fk_each _ _ _ fk_global). apply vbind_ext. intros r5.
  rewrite fk_bind, (fk_each _ _ _ fk_elem). apply vbind_ext. intros r6.
  rewrite fk_bind, (fk_each _ _ _ fk_data). apply vbind_ext. intros r7.
  rewrite fk_bind. match goal with |- vbind (fst ?p) _ = vbind ?q _ => assert (ST : fst p = q) end.
  { destruct (m_start m); [|reflexivity]. rewrite fk_bind. reflexivity. }
  rewrite ST. apply vbind_ext. intros cs8.
  rewrite fk_bind, (fk_each _ _ _ (fk_once v_import)). apply vbind_ext. intros r9.
  rewrite fk_bind, (fk_each _ _ _ (fk_once v_export)). apply vbind_ext. intros r10.
  destruct (negb _); [reflexivity|]. destruct (negb _); [reflexivity|]. skim. destruct (negb _); reflexivity.
Qed.

(** ** Counting: no more than [n] steps; exactly [n] if nothing is wrong *)
Definition costs {A} (n : nat) (Q : A -> Prop) (k : kv A) : Prop := snd k <= n /\ forall a, fst k = VOk a -> snd k = n /\ Q a.
Lemma costs_bind {A B} n1 n2 (Q : A -> Prop) (R : B -> Prop) p f :
  costs n1 Q p -> (forall a, Q a -> costs n2 R (f a)) -> costs (n1 + n2) R (k_bind p f).
Proof.
  intros [H1 H2] F. destruct p as [[a| |] n]; cbn [k_bind fst snd] in *.
  - destruct (H2 a eq_refl) as [-> X]. destruct (F a X) as [F1 F2]. split; [cbn [fst snd]; lia|]. intros b E. cbn [fst snd] in *.
    destruct (F2 b E) as [-> Y]. split; [reflexivity|exact Y].
  - split; [cbn; lia|discriminate].
  - split; [cbn; lia|discriminate].
Qed.
Lemma costs_ret {A} (Q : A -> Prop) a : Q a -> costs 0 Q (k_ret a).
Proof. intros H. split; [apply le_n|]. intros b [= <-]. auto. Qed.
Lemma costs_run {A} (Q : A -> Prop) r : (forall a, r = VOk a -> Q a) -> costs 0 Q (k_run r).
Proof. intros H. split; [apply le_n|]. intros b E. auto. Qed.
Lemma costs_step {A} (Q : A -> Prop) r : (forall a, r = VOk a -> Q a) -> costs 1 Q (k_step r).
Proof. intros H. split; [apply le_n|]. intros b E. auto. Qed.
Lemma costs_steps (Q : unit -> Prop) n : Q tt -> costs n Q (k_steps n).
Proof. intros H. split; [apply le_n|]. intros [] E. auto. Qed.
Lemma costs_fail {A} n (Q : A -> Prop) : costs n Q (k_run VErr).
Proof. split; [apply Nat.le_0_l|discriminate]. Qed.
Lemma costs_eq {A} n n' (Q Q' : A -> Prop) k : costs n Q k -> n = n' -> (forall a, Q a -> Q' a) -> costs n' Q' k.
Proof. intros [H1 H2] <- W. split; [exact H1|]. intros a E. destruct (H2 a E). auto. Qed.

Lemma costs_then {A B} n1 n2 (Q : A -> Prop) (R : B -> Prop) n p f :
  costs n1 Q p -> (forall a, Q a -> costs n2 R (f a)) -> n = n1 + n2 -> costs n R (k_bind p f).
Proof. intros H F ->. eapply costs_bind; eassumption. Qed.

Definition shape (s : stacks) : list (nat * list valty) := map (fun f => (length (f_label f), f_out f)) (frames s).
Definition kept (s s' : stacks) : Prop := shape s' = shape s.

Lemma shape_pop op s r : pop_operand op s = VOk r -> shape (snd r) = shape s.
Proof.
  unfold pop_operand, shape. destruct (frames s) as [|fr frs] eqn:F; [discriminate|]. intros H.
  destruct (_ && _)%bool; [injection H as <-; cbn [snd]; rewrite F; reflexivity|]. destruct (Nat.eqb _ _); [discriminate|].
  destruct (operands s); [discriminate|]. destruct o, op; try (destruct (operand_eqb _ _)); try discriminate; injection H as <-; cbn [snd frames]; rewrite ?F; reflexivity.
Qed.
Lemma costs_pop_all ops : forall s, costs (length ops) (kept s) (k_pop_all ops s).
Proof.
  induction ops as [|op ops IH]; intros s; cbn [k_pop_all]; [apply costs_ret; reflexivity|].
  eapply (costs_bind 1 (length ops)); [apply costs_step; intros a H; exact (shape_pop _ _ _ H)|]. cbn beta. intros a H.
  eapply costs_eq; [apply IH|reflexivity|]. unfold kept. intros x ->. exact H.
Qed.
Lemma costs_pops ops s : costs (length ops) (kept s) (k_pop_operands ops s).
Proof. unfold k_pop_operands. rewrite <- rev_length. apply costs_pop_all. Qed.
Lemma shape_pushes ts : forall s, shape (push_operands ts s) = shape s.
Proof. unfold push_operands. induction ts as [|t ts IH]; intros s; cbn [fold_left]; [reflexivity|]. rewrite IH. reflexivity. Qed.
Lemma costs_push ts s : costs (length ts) (kept s) (k_push_operands ts s).
Proof. split; [apply le_n|]. intros a [= <-]. split; [reflexivity|apply shape_pushes]. Qed.
Lemma costs_pop_push t1 t2 s : costs (length t1 + length t2) (kept s) (k_bind (k_pop_operands t1 s) (k_push_operands t2)).
Proof.
  eapply costs_bind; [apply costs_pops|]. intros a H. eapply costs_eq; [apply costs_push|reflexivity|]. unfold kept in *. intros x ->. exact H.
Qed.
Lemma costs_frame l o s : costs 1 (fun s' => shape s' = (length l, o) :: shape s) (k_push_frame l o s).
Proof. apply costs_step. intros a [= <-]. reflexivity. Qed.
Lemma costs_pop_frame s l o sh : shape s = (l, o) :: sh -> costs (1 + length o) (fun rs => fst rs = o /\ shape (snd rs) = sh) (k_pop_frame s).
Proof.
  intros S. unfold k_pop_frame.
  eapply (costs_bind 1 (length o) (fun fr => f_out fr = o)).
  { apply costs_step. unfold shape in S. destruct (frames s); [discriminate|]. injection S as _ S _. intros a [= <-]. exact S. }
  intros fr ->. rewrite <- (Nat.add_0_r (length o)). eapply costs_bind; [apply costs_pops|]. cbn beta. intros s1 H. unfold kept in H.
  destruct (negb _); [apply costs_fail|]. unfold shape in *. destruct (frames s1) as [|f1 frs]; [apply costs_fail|].
  apply costs_ret. cbn [fst snd frames]. split; [reflexivity|]. rewrite S in H. injection H as _ _ H. exact H.
Qed.
Lemma costs_end s l o sh : shape s = (l, o) :: sh -> costs (1 + 2 * length o) (fun s' => shape s' = sh) (k_end s).
Proof.
  intros S. unfold k_end. eapply costs_then; [eapply costs_pop_frame; exact S| |].
  - cbn beta. intros rs [-> H]. eapply costs_eq; [apply costs_push|reflexivity|]. unfold kept. intros x ->. exact H.
  - lia.
Qed.
Lemma costs_else s l o sh : shape s = (l, o) :: sh -> costs (2 + length o) (fun s' => shape s' = (length o, o) :: sh) (k_else s).
Proof.
  intros S. unfold k_else. eapply costs_then; [eapply costs_pop_frame; exact S| |].
  - cbn beta. intros rs [-> H]. eapply costs_eq; [apply costs_frame|reflexivity|]. cbn beta. intros x ->. rewrite H. reflexivity.
  - lia.
Qed.
Lemma costs_unreachable s : costs 1 (kept s) (k_step (s_unreachable s)).
Proof.
  apply costs_step. unfold s_unreachable, kept, shape. destruct (frames s) as [|fr frs]; [discriminate|]. intros a [= <-]. reflexivity.
Qed.
Lemma entry_eq {A} (f : A -> nat) xs x a : nth_error xs (N.to_nat x) = Some a -> entry (map f xs) x = f a.
Proof. intros H. unfold entry. apply nth_error_nth. apply map_nth_error. exact H. Qed.
Lemma lookup_nth {A} (xs : list A) x a : v_lookup xs x = VOk a -> nth_error xs (N.to_nat x) = Some a.
Proof. intros H. apply v_lookup_ok in H. exact H. Qed.
Lemma labelidx_nth s l fr : v_labelidx s l = VOk fr -> nth_error (frames s) (N.to_nat l) = Some fr.
Proof.
  unfold v_labelidx. destruct (N.ltb_spec (l + 1) (N.of_nat (length (frames s)))) as [L|]; [cbn [negb]|discriminate].
  destruct (nth_error (rev (frames s)) _) as [f|] eqn:E; [|discriminate]. intros [= <-].
  assert (B : N.to_nat l < length (frames s)) by lia.
  destruct (nth_error (frames s) (N.to_nat l)) as [g|] eqn:G; [|apply nth_error_None in G; lia].
  apply (nth_error_nth _ _ f) in E. apply (nth_error_nth _ _ f) in G.
  rewrite rev_nth in E by lia. rewrite <- E, <- G. f_equal. f_equal. lia.
Qed.
Lemma costs_label s l ls : map fst (shape s) = ls -> costs 1 (fun fr => length (f_label fr) = entry ls l) (k_step (v_labelidx s l)).
Proof.
  intros <-. apply costs_step. intros fr H. apply labelidx_nth in H. unfold shape. rewrite map_map. cbn [fst]. symmetry. exact (entry_eq _ _ _ _ H).
Qed.
Lemma costs_labels s fr ls : costs (length ls * (1 + length (f_label fr))) (fun _ => True) (k_br_table_labels s fr ls).
Proof.
  induction ls as [|l ls IH]; cbn [k_br_table_labels length]; [apply costs_ret; exact I|].
  eapply (costs_then 1 _ (fun _ => True)); [apply costs_step; auto| |].
  - intros f _. eapply (costs_bind _ _ (fun _ => True)); [apply costs_steps; exact I|]. intros _ _. destruct (negb _); [apply costs_fail|exact IH].
  - lia.
Qed.

(** ** Instructions *)
Definition widths_ok (ts fs : list nat) (r : nat) (c : context) : Prop :=
  map turnover (c_types c) = ts /\ map turnover (c_funcs c) = fs /\ forall x, c_ret c = Some x -> length x = r.
Lemma costs_seq ts fs r ls (v : instr -> stacks -> kv stacks) e :
  Forall (fun i => forall s, map fst (shape s) = ls -> costs (time ts fs r ls i - 1) (kept s) (v i s)) e ->
  forall s, map fst (shape s) = ls -> costs (total (time ts fs r ls) e) (kept s) (k_seq v e s).
Proof.
  unfold total. induction 1 as [|i e Hi _ IH]; intros s S; cbn [k_seq map list_sum fold_right]; [apply costs_ret; reflexivity|].
  eapply (costs_then 1 _ (fun _ => True)); [apply costs_steps; exact I| |].
  - intros _ _. eapply costs_bind; [exact (Hi s S)|]. intros s1 K. eapply costs_eq; [apply IH|reflexivity|]; unfold kept in *.
    + rewrite K. exact S.
    + intros x ->. exact K.
  - change (fold_right Nat.add 0 (map (time ts fs r ls) e)) with (list_sum (map (time ts fs r ls) e)). assert (1 <= time ts fs r ls i) by (destruct i; cbn; lia). lia.
Qed.
Lemma costs_from n s s1 k : costs n (kept s1) k -> kept s s1 -> costs n (kept s) k.
Proof. intros H K. eapply costs_eq; [exact H|reflexivity|]. unfold kept in *. intros x ->. exact K. Qed.
Lemma costs_lookup {A} (f : A -> nat) xs x : costs 1 (fun a => f a = entry (map f xs) x) (k_step (v_lookup xs x)).
Proof. apply costs_step. intros a H. symmetry. apply entry_eq. apply lookup_nth, H. Qed.
Lemma costs_any {A} (r : vres A) : costs 1 (fun _ => True) (k_step r).
Proof. apply costs_step. auto. Qed.
Lemma pseudo_sub i sub e : no_pseudo e -> In i e -> In sub (children i) -> no_pseudo sub.
Proof. intros [A B] I J. split; intros O; [apply A|apply B]; eapply occurs_inside; eassumption. Qed.
Lemma costs_pred {A} n (Q : A -> Prop) k : costs n Q k -> costs (1 + n - 1) Q k.
Proof. intros H. eapply costs_eq; [exact H|lia|auto]. Qed.
Lemma pseudo_in j e : no_pseudo e -> In j e -> no_pseudo [j].
Proof.
  assert (G : forall x, occurs x [j] -> In j e -> occurs x e).
  { intros x O J. remember [j] as l eqn:L. destruct O as [l I|i sub l I I2 O]; subst l; destruct I as [<-|[]].
    - apply occurs_here. exact J.
    - eapply occurs_inside; eassumption. }
  intros [A B] J. split; intros O; [apply A|apply B]; apply G; assumption.
Qed.
Lemma costs_instr ts fs r c i : widths_ok ts fs r c -> no_pseudo [i] ->
  forall ls s, map fst (shape s) = ls -> costs (time ts fs r ls i - 1) (kept s) (k_instr c i s).
Proof.
  intros W. induction i as [i IH] using instr_children_ind. intros NP ls s S.
  assert (SQ : forall sub, In sub (children i) -> forall ls s, map fst (shape s) = ls -> costs (total (time ts fs r ls) sub) (kept s) (k_seq (k_instr c) sub s)).
  { intros sub I ls' s' S'. apply costs_seq; [|exact S']. rewrite Forall_forall. intros j J s2 S2.
    pose proof (IH sub I) as IH'. rewrite Forall_forall in IH'. apply IH'; [exact J| |exact S2].
    exact (pseudo_in _ _ (pseudo_sub _ _ _ NP (or_introl eq_refl) I) J). }
  destruct W as (WT & WF & WR).
  destruct (plain_type i) as [[ts1 ts2]|] eqn:P.
  { rewrite (k_plain _ _ _ _ _ P). eapply costs_eq; [apply costs_pop_push| |auto]. destruct i; try discriminate P; cbn [time]; rewrite ?P; try lia;
    injection P as <- <-; cbn; reflexivity. }
  destruct (load_type i) as [[[a n] t]|] eqn:L.
  { rewrite (k_load_instr _ _ _ _ _ _ L). eapply costs_then; [apply costs_any|intros _ _; apply (costs_pop_push [T_I32] [t])|].
    destruct i; try discriminate L; reflexivity. }
  destruct (store_type i) as [[[a n] t]|] eqn:T.
  { rewrite (k_store_instr _ _ _ _ _ _ T). eapply costs_then; [apply costs_any|intros _ _; apply (costs_pops [T_I32; t])|].
    destruct i; try discriminate T; reflexivity. }
  destruct i; try discriminate P; try discriminate L; try discriminate T; clear P L T; cbn [k_instr time plain_type]; apply costs_pred.
  - apply costs_unreachable.
  - apply costs_ret. reflexivity.
  - (* block *)
    eapply costs_then; [apply costs_frame| |]. { cbn beta. intros s1 S1. eapply costs_then; [apply (SQ b); [left; reflexivity|]| |].
      - rewrite S1. cbn [map fst]. rewrite S. reflexivity.
      - intros s2 K. eapply costs_eq; [eapply costs_end|reflexivity|]. { unfold kept in K. rewrite K. exact S1. } auto.
      - reflexivity. } unfold total. lia.
  - (* loop *)
    eapply costs_then; [apply costs_frame| |]. { cbn beta. intros s1 S1. eapply costs_then; [apply (SQ b); [left; reflexivity|]| |].
      - rewrite S1. cbn [map fst]. rewrite S. reflexivity.
      - intros s2 K. eapply costs_eq; [eapply costs_end|reflexivity|]. { unfold kept in K. rewrite K. exact S1. } auto.
      - reflexivity. } unfold total. cbn [length]. lia.
  - (* if *)
    eapply costs_then; [apply (costs_pops [T_I32])| |]. { intros s0 K0. unfold kept in K0. eapply costs_then; [apply costs_frame| |].
    { cbn beta. intros s1 S1. eapply costs_then; [apply (SQ b); [left; reflexivity|]| |].
      - rewrite S1. cbn [map fst]. rewrite K0, S. reflexivity.
      - intros s2 K. unfold kept in K. rewrite S1 in K. eapply costs_then; [eapply costs_else; exact K| |].
        { cbn beta. intros s3 S3. eapply costs_then; [apply (SQ c0); [right; left; reflexivity|]| |].
          - rewrite S3. cbn [map fst]. rewrite K0, S. reflexivity.
          - intros s4 K4. unfold kept in K4. rewrite S3 in K4. eapply costs_eq; [eapply costs_end; exact K4|reflexivity|]. unfold kept. intros x ->. exact K0.
          - reflexivity. } reflexivity.
      - reflexivity. } reflexivity. } unfold total. cbn [length]. lia.
  - exfalso. destruct NP as [A B]. (apply A + apply B); apply occurs_here; left; reflexivity.
  - exfalso. destruct NP as [A B]. (apply A + apply B); apply occurs_here; left; reflexivity.
  - (* br *)
    eapply costs_then; [apply costs_label; exact S| |]. { cbn beta. intros fr F. eapply costs_then; [apply costs_pops| |].
      - intros s1 K. eapply costs_from; [apply costs_unreachable|exact K].
      - rewrite F. reflexivity. } lia.
  - (* br_if *)
    eapply costs_then; [apply costs_label; exact S| |]. { cbn beta. intros fr F. eapply costs_then; [apply (costs_pops [T_I32])| |].
      - intros s1 K. eapply costs_from; [apply costs_pop_push|exact K].
      - rewrite F. reflexivity. } cbn [length]. lia.
  - (* br_table *)
    eapply costs_then; [apply costs_label; exact S| |]. { cbn beta. intros fr F. eapply costs_then; [apply costs_labels| |].
      { intros u _. eapply costs_then; [apply (costs_pops [T_I32])| |].
        { intros s1 K. eapply costs_from; [|exact K]. eapply costs_then; [apply costs_pops| |].
          - intros s2 K2. eapply costs_from; [apply costs_unreachable|exact K2].
          - rewrite F. reflexivity. } reflexivity. } rewrite F. reflexivity. } cbn [length]. lia.
  - (* return *)
    eapply (costs_then 0 _ (fun x => length x = r)). { apply costs_run. destruct (c_ret c) as [x|]; [|discriminate]. intros a [= <-]. apply WR. reflexivity. }
    { intros x X. eapply costs_then; [apply costs_pops| |].
      - intros s1 K. eapply costs_from; [apply costs_unreachable|exact K].
      - rewrite X. reflexivity. } lia.
  - (* call *)
    eapply costs_then; [apply (costs_lookup turnover)| |]. { cbn beta. intros ft F. rewrite WF in F. eapply costs_eq; [apply costs_pop_push| |auto]. exact F. } reflexivity.
  - (* call_indirect *)
    eapply costs_then; [apply costs_any| |]. { intros t _. eapply costs_then; [apply (costs_lookup turnover)| |]. { cbn beta. intros ft F. rewrite WT in F.
      destruct (negb _); [apply costs_fail|]. eapply costs_then; [apply (costs_pops [T_I32])| |].
      - intros s1 K. eapply costs_from; [|exact K]. eapply costs_eq; [apply costs_pop_push| |auto]. exact F.
      - reflexivity. } reflexivity. } cbn [length]. lia.
  - (* drop *)
    eapply costs_then; [apply costs_step; intros a H; exact (shape_pop _ _ _ H)| |]. { cbn beta. intros a H. apply costs_ret. exact H. } reflexivity.
  - (* select *)
    eapply costs_then; [apply (costs_pops [T_I32])| |]. { intros s1 K. eapply costs_from; [|exact K].
      eapply costs_then; [apply costs_step; intros a H; exact (shape_pop _ _ _ H)| |]. { cbn beta. intros a H.
        eapply costs_then; [apply costs_step; intros a' H'; exact (shape_pop _ _ _ H')| |]. { cbn beta. intros a' H'.
          apply costs_step. intros x [= <-]. unfold kept, shape, push_operand in *. cbn [frames]. congruence. } reflexivity. } reflexivity. } reflexivity.
  - eapply (costs_then 1 1); [apply costs_any|intros t _; apply (costs_push [t])|reflexivity].
  - eapply (costs_then 1 1); [apply costs_any|intros t _; apply (costs_pops [t])|reflexivity].
  - eapply (costs_then 1 2); [apply costs_any|intros t _; apply (costs_pop_push [t] [t])|reflexivity].
  - eapply (costs_then 1 1); [apply costs_any|intros t _; apply (costs_push [gt_val t])|reflexivity].
  - eapply (costs_then 1 1); [apply costs_any| |]. { intros t _. destruct (negb _); [apply costs_fail|]. apply (costs_pops [gt_val t]). } reflexivity.
  - eapply (costs_then 1 1); [apply costs_any|intros t _; apply (costs_push [T_I32])|reflexivity].
  - eapply (costs_then 1 2); [apply costs_any|intros t _; apply (costs_pop_push [T_I32] [T_I32])|reflexivity].
Qed.
Lemma costs_expr ts fs r c e : widths_ok ts fs r c -> no_pseudo e ->
  forall ls s, map fst (shape s) = ls -> costs (total (time ts fs r ls) e) (kept s) (k_expr c e s).
Proof.
  intros W NP ls s S. apply costs_seq; [|exact S]. rewrite Forall_forall. intros i I s1 S1. apply costs_instr; try assumption. eapply pseudo_in; eassumption.
Qed.
Lemma costs_const_instr c i ts fs ls s u : v_const_check c i = VOk u -> costs (time ts fs 0 ls i - 1) (kept s) (k_instr c i s).
Proof.
  intros H. destruct i; try discriminate H.
  - apply (costs_then 1 1 (fun _ => True)); [apply costs_any|intros t _; apply (costs_push [gt_val t])|reflexivity].
  - apply (costs_push [T_I32]).
  - apply (costs_push [T_I64]).
  - apply (costs_push [T_F32]).
  - apply (costs_push [T_F64]).
Qed.
Lemma costs_constexpr c ts fs ls e : forall s, costs (total (fun i => 1 + time ts fs 0 ls i) e) (kept s) (k_constexpr c e s).
Proof.
  unfold total. induction e as [|i e IH]; intros s; cbn [k_constexpr map list_sum fold_right]; [apply costs_ret; reflexivity|].
  change (fold_right Nat.add 0) with list_sum.
  eapply (costs_then 1 _ (fun _ => True)); [apply costs_steps; exact I| |].
  { intros _ _. eapply (costs_then 1 _ (fun u => v_const_check c i = VOk u)); [apply costs_step; auto| |].
    { intros u H. eapply costs_then; [eapply (costs_const_instr c i ts fs ls); exact H| |].
      - intros s1 K. eapply costs_from; [apply IH|exact K].
      - reflexivity. } reflexivity. }
  assert (1 <= time ts fs 0 ls i) by (destruct i; cbn; lia). lia.
Qed.

(** ** Modules *)
Definition ready (m : module) (cs : vctx) : Prop :=
  c_types (fst cs) = m_types m /\ map turnover (c_funcs (fst cs)) = func_widths m /\ frames (snd cs) = [].
Lemma costs_func m f cs : ready m cs -> no_pseudo (fn_body f) -> costs (func_time m f) (fun r => ready m (snd r)) (k_func f cs).
Proof.
  destruct cs as [c s]. intros (RT & RF & RS) NP. cbn [fst snd] in *. unfold k_func, func_time.
  set (r := entry (map (fun t => length (ft_results t)) (m_types m)) (fn_ty f)). set (p := entry (map (fun t => length (ft_params t)) (m_types m)) (fn_ty f)).
  eapply (costs_then 1 _ (fun t => length (ft_results t) = r /\ length (ft_params t) = p)).
  { apply costs_step. intros t H. apply lookup_nth in H. rewrite RT in H. unfold r, p. split; symmetry; [exact (entry_eq (fun t => length (ft_results t)) _ _ _ H)|exact (entry_eq (fun t => length (ft_params t)) _ _ _ H)]. }
  { intros t [R P]. rewrite P. eapply (costs_then _ _ (fun _ => True)); [apply costs_steps; exact I| |].
    { intros u _. eapply costs_then; [apply costs_frame| |].
      { cbn beta. intros s1 S1. eapply costs_then; [apply (costs_expr (type_widths m) (func_widths m) r)| |].
        - split; [|split]; cbn [set_locals set_ret c_types c_funcs c_ret]; [rewrite RT; reflexivity|exact RF|]. intros x [= <-]. exact R.
        - exact NP.
        - rewrite S1. unfold shape. rewrite RS, R. cbn [map fst]. reflexivity.
        - intros s2 K. unfold kept in K. rewrite S1 in K. eapply (costs_then (1 + r)); [rewrite <- R; eapply costs_pop_frame; exact K| |].
          { cbn beta. intros rs [_ E]. destruct (stacks_not_empty _); [apply costs_fail|]. apply costs_ret. repeat split; cbn [fst snd set_locals set_ret c_types c_funcs].
            - exact RT.
            - exact RF.
            - unfold shape in E. rewrite RS in E. destruct (frames (snd rs)); [reflexivity|discriminate E]. }
          rewrite Nat.add_0_r. reflexivity.
        - reflexivity. } reflexivity. } reflexivity. }
  lia.
Qed.
Lemma costs_const_body t e cs ts fs : frames (snd cs) = [] ->
  costs (const_time ts fs e) (fun r => fst r = fst cs /\ frames (snd r) = []) (k_const_body [t] e cs).
Proof.
  destruct cs as [c s]. cbn [fst snd]. intros RS. unfold k_const_body, const_time.
  eapply costs_then; [apply costs_frame| |].
  { cbn beta. intros s1 S1. eapply costs_then; [apply (costs_constexpr c ts fs [1])| |].
    { intros s2 K. unfold kept in K. rewrite S1 in K. eapply (costs_then 2 0); [eapply (costs_pop_frame _ _ [t]); exact K| |].
      { cbn beta. intros rs [_ E]. destruct (stacks_not_empty _); [apply costs_fail|]. apply costs_ret. split; [reflexivity|].
        unfold shape in E. rewrite RS in E. cbn [snd]. destruct (frames (snd rs)); [reflexivity|discriminate E]. }
      reflexivity. } reflexivity. } lia.
Qed.
Lemma costs_init c is : costs (length is) (fun _ => True) (k_elem_init c is).
Proof.
  induction is as [|i is IH]; cbn [k_elem_init length]; [apply costs_ret; exact I|]. apply (costs_then 1 (length is) (fun _ => True)); [apply costs_any|intros _ _; exact IH|reflexivity].
Qed.
Lemma costs_global ts fs g cs : frames (snd cs) = [] -> costs (const_time ts fs (glob_init g)) (fun r => frames (snd (snd r)) = []) (k_global g cs).
Proof.
  intros R. unfold k_global. eapply (costs_then 0 _ (fun _ => True)); [apply costs_run; auto| |reflexivity]. intros u _.
  eapply costs_then; [apply (costs_const_body _ _ _ ts fs R)| |]. { cbn beta. intros r [_ H]. apply costs_ret. exact H. } symmetry. apply Nat.add_0_r.
Qed.
Lemma costs_elem m ts fs e cs : ready m cs -> costs (1 + const_time ts fs (el_offset e) + length (el_init e)) (fun r => ready m (snd r)) (k_elem e cs).
Proof.
  intros (R1 & R2 & R3). unfold k_elem. eapply costs_then; [apply costs_any| |]. { intros t _. destruct (negb _); [apply costs_fail|].
    eapply costs_then; [apply (costs_const_body _ _ _ ts fs R3)| |]. { cbn beta. intros r [E H]. eapply costs_then; [apply costs_init| |].
      { intros _ _. apply costs_ret. unfold ready. cbn [snd]. rewrite E. auto. } reflexivity. } reflexivity. } lia.
Qed.
Lemma costs_data m ts fs d cs : ready m cs -> costs (1 + const_time ts fs (da_offset d)) (fun r => ready m (snd r)) (k_data d cs).
Proof.
  intros (R1 & R2 & R3). unfold k_data. eapply costs_then; [apply costs_any| |]. { intros t _.
    eapply costs_then; [apply (costs_const_body _ _ _ ts fs R3)| |]. { cbn beta. intros r [E H]. apply costs_ret. unfold ready. cbn [snd]. rewrite E. auto. } reflexivity. } lia.
Qed.
Lemma costs_each {A B} (inv : vctx -> Prop) (w : A -> vctx -> kv (B * vctx)) n xs :
  (forall x cs, In x xs -> inv cs -> costs (n x) (fun r => inv (snd r)) (w x cs)) ->
  forall cs, inv cs -> costs (total (fun x => 1 + n x) xs) (fun r => inv (snd r)) (k_each w xs cs).
Proof.
  unfold total. induction xs as [|x xs IH]; intros H cs C; cbn [k_each map list_sum fold_right]; [apply costs_ret; exact C|].
  change (fold_right Nat.add 0) with list_sum.
  eapply (costs_then 1 _ (fun _ => True)); [apply costs_steps; exact I| |].
  { intros _ _. eapply costs_then; [apply H; [left; reflexivity|exact C]| |].
    { cbn beta. intros r R. eapply costs_then; [apply IH; [|exact R]| |].
      - intros y cs' Y. apply H. right. exact Y.
      - cbn beta. intros rs R'. apply costs_ret. exact R'.
      - reflexivity. } reflexivity. } lia.
Qed.
Lemma total_const {A} n (xs : list A) : total (fun _ => n) xs = n * length xs.
Proof. unfold total. induction xs as [|x xs IH]; cbn [map list_sum fold_right length]; [lia|]. change (fold_right Nat.add 0) with list_sum. rewrite IH. lia. Qed.
Lemma costs_items {A B} (inv : vctx -> Prop) (v : A -> vctx -> vres (B * vctx)) xs cs : (forall x cs r, inv cs -> v x cs = VOk r -> inv (snd r)) ->
  inv cs -> costs (2 * length xs) (fun r => inv (snd r)) (k_each (k_once v) xs cs).
Proof.
  intros H C. rewrite <- total_const. apply (costs_each inv (k_once v) (fun _ => 1)); [|exact C]. intros x cs' _ C'. apply costs_step. intros r. apply H. exact C'.
Qed.
Definition building_ok (m : module) (fs : list typeidx) (c : context) : Prop :=
  c_types c = m_types m /\ map turnover (c_funcs c) = map (entry (type_widths m)) fs.
Lemma built m fs c t x : building_ok m fs c -> v_typeidx c x = VOk t -> building_ok m (fs ++ [x]) (push_func c t).
Proof.
  intros [B1 B2] H. apply lookup_nth in H. rewrite B1 in H. split; cbn [push_func c_types c_funcs]; [exact B1|]. rewrite !map_app, B2. cbn [map].
  unfold type_widths. rewrite (entry_eq turnover _ _ _ H). reflexivity.
Qed.
Lemma costs_imported_funcs m ims : forall fs c, building_ok m fs c ->
  costs (length ims + length (flat_map imported_func ims)) (building_ok m (fs ++ flat_map imported_func ims)) (k_imported_funcs ims c).
Proof.
  induction ims as [|im ims IH]; intros fs c B; cbn [k_imported_funcs flat_map length]; [apply costs_ret; rewrite app_nil_r; exact B|].
  eapply (costs_then 1 (length ims + length (imported_func im ++ flat_map imported_func ims)) (fun _ => True)); [apply costs_steps; exact I|intros _ _|lia].
  unfold imported_func at 1 3. destruct (im_desc im) as [x| | |]; try (apply IH; exact B).
  eapply (costs_then 1 _ (fun t => building_ok m (fs ++ [x]) (push_func c t))).
  - apply costs_step. intros t. apply built. exact B.
  - intros t B1. eapply costs_eq; [apply IH; exact B1|reflexivity|]. rewrite <- app_assoc. auto.
  - cbn [app length]. lia.
Qed.
Lemma costs_funcs m l : forall fs c, building_ok m fs c -> costs (2 * length l) (building_ok m (fs ++ map fn_ty l)) (k_funcs l c).
Proof.
  induction l as [|f l IH]; intros fs c B; cbn [k_funcs map length]; [apply costs_ret; rewrite app_nil_r; exact B|].
  eapply (costs_then 1 _ (fun _ => True)); [apply costs_steps; exact I|intros _ _|].
  { eapply (costs_then 1 (2 * length l) (fun t => building_ok m (fs ++ [fn_ty f]) (push_func c t))).
    - apply costs_step. intros t. apply built. exact B.
    - intros t B1. eapply costs_eq; [apply IH; exact B1|reflexivity|]. rewrite <- app_assoc. auto.
    - reflexivity. } lia.
Qed.
Lemma costs_context m : costs (length (m_types m) + 4 * length (m_imports m) + length (flat_map imported_func (m_imports m)) + 2 * length (m_funcs m)
    + length (m_tables m) + length (m_mems m) + length (m_globals m))
  (fun c => c_types c = m_types m /\ map turnover (c_funcs c) = func_widths m) (k_context_from m).
Proof.
  unfold k_context_from.
  eapply (costs_then _ _ (fun _ => True)); [apply costs_steps; exact I|intros ? _|].
  { eapply costs_then; [apply (costs_imported_funcs m _ [])|intros c1 B1|].
    { rewrite use_types_eq. split; reflexivity. }
    { eapply (costs_then (length (m_imports m)) _ (fun _ => True)); [apply costs_steps; exact I|intros ? _|].
      { eapply (costs_then (length (m_imports m)) _ (fun _ => True)); [apply costs_steps; exact I|intros ? _|].
      { eapply (costs_then (length (m_imports m)) _ (fun _ => True)); [apply costs_steps; exact I|intros ? _|].
      { eapply costs_then; [apply costs_funcs|intros c2 B2|].
        { rewrite use_imported_globals_eq, use_imported_mems_eq, use_imported_tables_eq. exact B1. }
        { eapply (costs_then (length (m_tables m)) _ (fun _ => True)); [apply costs_steps; exact I|intros ? _|].
          { eapply (costs_then (length (m_mems m)) _ (fun _ => True)); [apply costs_steps; exact I|intros ? _|].
            { eapply (costs_then (length (m_globals m)) _ (fun _ => True)); [apply costs_steps; exact I|intros ? _|].
              { apply costs_ret. rewrite use_globals_eq, use_mems_eq, use_tables_eq. exact B2. }
              reflexivity. } reflexivity. } reflexivity. } reflexivity. }
      reflexivity. } reflexivity. } reflexivity. } reflexivity. } lia.
Qed.

Lemma kept_table m x cs r : ready m cs -> v_table x cs = VOk r -> ready m (snd r).
Proof. unfold v_table. intros R H. apply vbind_ok in H as (u & _ & [= <-]). exact R. Qed.
Lemma kept_mem m x cs r : ready m cs -> v_mem x cs = VOk r -> ready m (snd r).
Proof. unfold v_mem. intros R H. apply vbind_ok in H as (u & _ & [= <-]). exact R. Qed.
Lemma kept_type m x cs r : ready m cs -> v_type_item x cs = VOk r -> ready m (snd r).
Proof. unfold v_type_item. intros R H. apply vbind_ok in H as (u & _ & [= <-]). exact R. Qed.
Lemma total_ext {A} (f g : A -> nat) xs : (forall x, f x = g x) -> total f xs = total g xs.
Proof. intros H. unfold total. f_equal. apply map_ext. exact H. Qed.
Lemma total_add {A} n (f : A -> nat) xs : total (fun x => n + f x) xs = n * length xs + total f xs.
Proof. unfold total. induction xs as [|x xs IH]; cbn [map list_sum fold_right length]; [lia|]. change (fold_right Nat.add 0) with list_sum. rewrite IH. lia. Qed.
Theorem costs_module m : (forall x, In x (module_exprs m) -> no_pseudo x) -> costs (module_time m) (fun _ => True) (k_module m).
Proof.
  intros NP. unfold k_module. set (ts := type_widths m). set (fs := func_widths m).
  assert (NF : forall f, In f (m_funcs m) -> no_pseudo (fn_body f)) by (intros f F; apply NP; unfold module_exprs; apply in_or_app; left; apply in_map; exact F).
  eapply costs_then; [apply costs_context|intros c [C1 C2]|].
  { assert (RD : ready m (c, empty_stacks)) by (repeat split; assumption).
    eapply (costs_then _ _ (fun _ => True)); [apply costs_steps; exact I|intros ? _|].
    { eapply costs_then; [apply (costs_items (ready m)); [apply kept_type|exact RD]|cbn beta; intros r1 R1|].
      { eapply costs_then; [apply (costs_each (ready m) k_func (func_time m)); [intros f cs F RC; apply costs_func; auto|exact R1]|cbn beta; intros r2 R2|].
        { eapply costs_then; [apply (costs_items (ready m)); [apply kept_table|exact R2]|cbn beta; intros r3 R3|].
          { eapply costs_then; [apply (costs_items (ready m)); [apply kept_mem|exact R3]|cbn beta; intros r4 R4|].
            { eapply costs_then; [apply (costs_each (fun cs => frames (snd cs) = []) k_global (fun g => const_time ts fs (glob_init g)));
                  [intros g cs _ RC; apply costs_global; exact RC|reflexivity]|intros r5 _|].
              { eapply costs_then; [apply (costs_each (ready m) k_elem (fun e => 1 + const_time ts fs (el_offset e) + length (el_init e)));
                    [intros e cs _ RC; apply costs_elem; exact RC|exact R4]|cbn beta; intros r6 R6|].
                { eapply costs_then; [apply (costs_each (ready m) k_data (fun d => 1 + const_time ts fs (da_offset d)));
                      [intros d cs _ RC; apply costs_data; exact RC|exact R6]|intros r7 _|].
                  { eapply (costs_then match m_start m with Some _ => 1 | None => 0 end _ (fun _ => True)); [|intros cs8 _|].
                    { destruct (m_start m); [|apply costs_ret; exact I]. eapply (costs_then 1 0 (fun _ => True)); [apply costs_any|intros r _; apply costs_ret; exact I|reflexivity]. }
                    { eapply costs_then; [apply (costs_items (fun _ => True)); auto|intros r9 _|].
                      { eapply costs_then; [apply (costs_items (fun _ => True)); auto|intros r10 _|].
                        { destruct (negb _); [apply costs_fail|]. destruct (negb _); [apply costs_fail|].
                          eapply (costs_then (length (m_exports m)) 0 (fun _ => True)); [apply costs_steps; exact I|intros ? _|].
                          { destruct (negb _); [apply costs_fail|]. apply costs_ret. exact I. }
                          reflexivity. } reflexivity. } reflexivity. } reflexivity. } reflexivity. } reflexivity. } reflexivity. } reflexivity. } reflexivity. }
        reflexivity. } reflexivity. } reflexivity. }
  unfold module_time. fold ts fs. rewrite !total_add.
  rewrite (total_ext (fun e => 2 + const_time ts fs (el_offset e) + length (el_init e)) (fun e => 1 + (1 + const_time ts fs (el_offset e) + length (el_init e)))) by (intros; lia).
  rewrite !total_add. lia.
Qed.
Theorem steps_exact m : (forall x, In x (module_exprs m) -> no_pseudo x) -> forall mt, validate m = VOk mt -> validation_steps m = module_time m.
Proof. intros NP mt H. apply costs_module in NP as [_ C]. apply (C mt). rewrite steps_same. exact H. Qed.
Theorem steps_bound m : (forall x, In x (module_exprs m) -> no_pseudo x) -> validation_steps m <= module_time m.
Proof. intros NP. apply (costs_module m NP). Qed.
