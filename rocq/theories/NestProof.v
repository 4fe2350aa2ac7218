(** How deeply the parser nests its calls: exactly as deeply as the code that it reads (C68). *)
From Coq Require Import Lia.
From Verif Require Import ParserAlloc SpecAlloc SpecCode AllocProof.
Open Scope N_scope.

(** [upto d k l]: calls nested [d+1 .. d+k] deep *)
Definition upto (d k : nat) (l : list event) : Prop :=
  forall n, In (Nest n) l <-> N.of_nat d < n /\ n <= N.of_nat (d + k).
Lemma upto_nil d : upto d 0 [].
Proof. intros n. split; [intros []|lia]. Qed.
Lemma upto_app d a b l l' : upto d a l -> upto d b l' -> upto d (Nat.max a b) (l ++ l').
Proof. intros A B n. rewrite in_app_iff, (A n), (B n). lia. Qed.
Lemma upto_more d k l l' : (forall n, ~ In (Nest n) l) -> upto d k l' -> upto d k (l ++ l').
Proof. intros A B n. rewrite in_app_iff, (B n). specialize (A n). tauto. Qed.
Lemma upto_before d k l l' : upto d k l -> (forall n, ~ In (Nest n) l') -> upto d k (l ++ l').
Proof. intros A B n. rewrite in_app_iff, (A n). specialize (B n). tauto. Qed.
Lemma upto_nest d k l : upto (S d) k l -> upto d (S k) (Nest (N.of_nat (S d)) :: l).
Proof.
  intros A n. cbn [In]. rewrite (A n). split; [|intros H].
  - intros [E|H]; [injection E as <-|]; lia.
  - destruct (N.eq_dec n (N.of_nat (S d))) as [->|NE]; [left; reflexivity|right; lia].
Qed.
Lemma upto_0 d l : (forall n, ~ In (Nest n) l) -> upto d 0 l.
Proof. intros A n. specialize (A n). split; [tauto|lia]. Qed.

(** what reads no code *)
Definition plain {A} (a : ap A) : Prop := forall bs n, ~ In (Nest n) (snd (a bs)).
Lemma plain_run {A} (p : parser A) : plain (a_run p). Proof. intros bs n []. Qed.
Lemma plain_bind {A B} (a : ap A) (f : A -> ap B) : plain a -> (forall x, plain (f x)) -> plain (a_bind a f).
Proof.
  intros P F bs n. unfold a_bind. specialize (P bs n). destruct (a bs) as [[[x|e| |] r] l]; cbn [snd] in *; try assumption.
  specialize (F x r n). destruct (f x r) as [y l']. cbn [snd] in *. rewrite in_app_iff. tauto.
Qed.
Lemma plain_reserve k n : plain (a_note (Reserve k n)). Proof. intros bs m [E|[]]. discriminate. Qed.
Lemma plain_hold k n : plain (a_note (Hold k n)). Proof. intros bs m [E|[]]. discriminate. Qed.
Lemma plain_times {A} n (a : ap A) : plain a -> plain (a_times n a).
Proof.
  intros P. induction n; cbn [a_times]; [apply plain_run|]. apply plain_bind; [assumption|]. intros x.
  apply plain_bind; [assumption|]. intros xs. apply plain_run.
Qed.
Lemma plain_vec {A} k (a : ap A) : plain a -> plain (a_vec k a).
Proof. intros P. apply plain_bind; [apply plain_run|]. intros n. apply plain_bind; [apply plain_reserve|]. intros _. apply plain_times, P. Qed.
Lemma plain_unwrapping_vec {A B} k (a : ap A) (u : A -> B) : plain a -> plain (a_unwrapping_vec k a u).
Proof.
  intros P. apply plain_bind; [apply plain_run|]. intros n. apply plain_bind; [apply plain_reserve|]. intros _.
  apply plain_times, plain_bind; [assumption|]. intros x. apply plain_run.
Qed.
Lemma plain_runs {A} j k (a : ap A) : plain a -> forall acc, plain (a_runs j k a acc).
Proof.
  intros P. induction j as [|j IH]; intros acc; cbn [a_runs]; [apply plain_run|]. apply plain_bind; [apply plain_run|]. intros n.
  apply plain_bind; [assumption|]. intros v. apply plain_bind; [apply plain_hold|]. intros _. apply IH.
Qed.
Lemma plain_compact_vec {A} k (a : ap A) : plain a -> plain (a_compact_vec k a).
Proof. intros P. apply plain_bind; [apply plain_run|]. intros j. apply plain_runs, P. Qed.
Lemma plain_sized {A} (a : ap A) : plain a -> plain (a_sized a).
Proof.
  intros P. apply plain_bind; [apply plain_run|]. intros size bs n. cbv zeta. specialize (P (firstn (N.to_nat size) bs) n).
  destruct (a (firstn (N.to_nat size) bs)) as [[[x|e| |] r] l]; cbn [snd] in *; try assumption. destruct (negb _); assumption.
Qed.
Lemma plain_string : plain a_string.
Proof. apply plain_bind; [apply plain_unwrapping_vec, plain_run|]. intros raw. destruct (utf8_valid raw); apply plain_run. Qed.
Lemma plain_retval : plain a_retval.
Proof. apply plain_bind; [apply plain_run|]. intros []; [apply plain_run|]. apply plain_bind; [apply plain_hold|]. intros _. apply plain_run. Qed.
Lemma plain_functy : plain a_functy.
Proof.
  apply plain_bind; [apply plain_run|]. intros []; try apply plain_run.
  apply plain_bind; [apply plain_vec, plain_run|]. intros ps. apply plain_bind; [apply plain_vec, plain_run|]. intros rs. apply plain_run.
Qed.
Lemma plain_ok {A} (a : ap A) bs x r l : plain a -> a bs = ((Ok x, r), l) -> forall n, ~ In (Nest n) l.
Proof. intros P H n. specialize (P bs n). rewrite H in P. exact P. Qed.

(** code *)
Definition subs (f d : nat) : Prop := forall acc bs e t r l, a_subexpr f d acc bs = ((Ok (e, t), r), l) ->
  exists s, e = acc ++ s /\ upto d (depth_expr s) l.
Definition instrs (f d : nat) : Prop := forall bs i r l, a_instr f d bs = ((Ok i, r), l) -> upto d (depth i) l.
Definition yields {A} (P : A -> Prop) (p : parser A) : Prop := forall bs x r, p bs = (Ok x, r) -> P x.
Lemma yields_ret {A} (P : A -> Prop) x : P x -> yields P (ret x).
Proof. intros H bs y r E. injection E as <- _. exact H. Qed.
Lemma yields_fail {A} (P : A -> Prop) e : yields P (fail e).
Proof. intros bs y r E. discriminate. Qed.
Lemma yields_bind {A B} (P : B -> Prop) (p : parser A) (f : A -> parser B) : (forall x, yields P (f x)) -> yields P (bind p f).
Proof.
  intros F bs y r E. unfold bind in E. destruct (p bs) as [[x|e| |] r1]; [|discriminate..]. exact (F _ _ _ _ E).
Qed.
Lemma opcode_flat b : b <> x02 -> b <> x03 -> b <> x04 -> yields (fun i => depth i = O) (p_opcode out_of_fuel b).
Proof.
  intros N2 N3 N4. destruct b; try contradiction; clear N2 N3 N4; cbn [p_opcode];
  repeat first [apply yields_ret; reflexivity|apply yields_fail|apply yields_bind; intro].
Qed.
Lemma nest_sub f d bs e t r l : subs f (S d) ->
  (_ <=+ a_note (Nest (N.of_nat (S d))) ;; a_subexpr f (S d) []) bs = ((Ok (e, t), r), l) -> upto d (S (depth_expr e)) l.
Proof.
  intros IS H. apply a_bind_ok in H. destruct H as (u & r1 & l1 & l2 & H1 & H2 & ->). apply a_note_ok in H1. destruct H1 as [-> ->].
  apply IS in H2. destruct H2 as (s & -> & U). cbn [app]. apply upto_nest, U.
Qed.

Lemma expr_of_ok a bs e r l : a_expr_of a bs = ((Ok e, r), l) -> a bs = ((Ok (e, I_End), r), l).
Proof.
  intros H. apply a_bind_ok in H. destruct H as ([e' t] & r1 & l1 & l2 & H1 & H2 & ->).
  destruct t; try discriminate H2. apply a_run_ok in H2. destruct H2 as [H2 ->]. injection H2 as -> ->. rewrite app_nil_r. exact H1.
Qed.
Lemma block_ok f d (mk : retval -> expr -> instr) bs i r l : subs f (S d) -> (forall rt e, depth (mk rt e) = S (depth_expr e)) ->
  (a <=+ a_retval ;; b <=+ a_expr_of (_ <=+ a_note (Nest (N.of_nat (S d))) ;; a_subexpr f (S d) []) ;; a_ret (mk a b)) bs = ((Ok i, r), l) ->
  upto d (depth i) l.
Proof.
  intros IS M H. apply a_bind_ok in H. destruct H as (rt & r1 & l1 & l2 & H1 & H & ->). pose proof (plain_ok _ _ _ _ _ plain_retval H1) as P1.
  apply a_bind_ok in H. destruct H as (e & r2 & l3 & l4 & H2 & H3 & ->). apply a_run_ok in H3. destruct H3 as [H3 ->]. injection H3 as <- _.
  apply expr_of_ok in H2. apply (nest_sub _ _ _ _ _ _ _ IS) in H2. rewrite app_nil_r, M. apply upto_more; assumption.
Qed.
Lemma if_ok f d bs i r l : subs f (S d) ->
  a_if_of (_ <=+ a_note (Nest (N.of_nat (S d))) ;; a_subexpr f (S d) []) bs = ((Ok i, r), l) -> upto d (depth i) l.
Proof.
  intros IS H. apply a_bind_ok in H. destruct H as (rt & r1 & l1 & l2 & H1 & H & ->). pose proof (plain_ok _ _ _ _ _ plain_retval H1) as P1.
  apply a_bind_ok in H. destruct H as ([e t] & r2 & l3 & l4 & H2 & H & ->). apply (nest_sub _ _ _ _ _ _ _ IS) in H2.
  apply a_bind_ok in H. destruct H as ([e' t'] & r3 & l5 & l6 & H3 & H & ->).
  destruct (is_end t'); [|discriminate H]. apply a_run_ok in H. destruct H as [H ->]. injection H as <- _. rewrite app_nil_r.
  apply upto_more; [assumption|]. cbn [depth]. fold (depth_expr e). fold (depth_expr e').
  destruct (is_else t).
  - apply (nest_sub _ _ _ _ _ _ _ IS) in H3. rewrite Nat.succ_max_distr. apply upto_app; assumption.
  - apply a_run_ok in H3. destruct H3 as [H3 ->]. injection H3 as <- _. rewrite app_nil_r. change (depth_expr []) with O. rewrite Nat.max_0_r. assumption.
Qed.
Lemma code_ok f : forall d, instrs f d /\ subs f d.
Proof.
  induction f as [|f IH]; intros d; [split; [intros bs i r l H|intros acc bs e t r l H]; discriminate|]. split.
  - intros bs i r l H. cbn [a_instr] in H. apply a_bind_ok in H. destruct H as (b & r1 & l1 & l2 & H1 & H & ->).
    apply a_run_ok in H1. destruct H1 as [_ ->]. cbn [app]. pose proof (proj2 (IH (S d))) as IS.
    assert (C : b = x02 \/ b = x03 \/ b = x04 \/ b = x0e \/ b <> x02 /\ b <> x03 /\ b <> x04 /\ b <> x0e)
      by (destruct b; first [left; reflexivity|right; left; reflexivity|right; right; left; reflexivity|right; right; right; left; reflexivity|do 4 right; repeat split; discriminate]).
    destruct C as [-> | [-> | [-> | [-> | (C1 & C2 & C3 & C4)]]]].
    + exact (block_ok f d I_Block _ _ _ _ IS (fun _ _ => eq_refl) H).
    + exact (block_ok f d I_Loop _ _ _ _ IS (fun _ _ => eq_refl) H).
    + exact (if_ok f d _ _ _ _ IS H).
    + cbn [a_opcode] in H. apply a_bind_ok in H. destruct H as (ls & r2 & l3 & l4 & H1 & H & ->).
      pose proof (plain_ok _ _ _ _ _ (plain_vec _ _ (plain_run _)) H1) as P1. apply a_bind_ok in H. destruct H as (x & r3 & l5 & l6 & H2 & H & ->).
      apply a_run_ok in H2. destruct H2 as [_ ->]. apply a_run_ok in H. destruct H as [H ->]. injection H as <- _. cbn [app depth].
      apply upto_0. rewrite app_nil_r. exact P1.
    + assert (E : a_run (p_opcode out_of_fuel b) r1 = ((Ok i, r), l2)) by (destruct b; try contradiction; exact H).
      apply a_run_ok in E. destruct E as [E ->]. rewrite (opcode_flat _ C1 C2 C3 _ _ _ E). apply upto_nil.
  - intros acc bs e t r l H. cbn [a_subexpr] in H. apply a_bind_ok in H. destruct H as (i & r1 & l1 & l2 & H1 & H & ->).
    apply (proj1 (IH d)) in H1.
    assert (C : (i = I_End \/ i = I_Else) \/ (_ <=+ a_note (Hold V_Instr (N.of_nat (S (List.length acc)))) ;; a_subexpr f d (acc ++ [i])) r1 = ((Ok (e, t), r), l2))
      by (destruct i; first [left; left; reflexivity|left; right; reflexivity|right; exact H]).
    destruct C as [C|C].
    + assert (E : a_ret (acc, i) r1 = ((Ok (e, t), r), l2)) by (destruct C as [-> | ->]; exact H). apply a_run_ok in E. destruct E as [E ->].
      injection E as <- _ _. exists []. rewrite !app_nil_r. split; [reflexivity|]. destruct C as [-> | ->]; exact H1.
    + clear H. apply a_bind_ok in C. destruct C as (u & r2 & l3 & l4 & C1 & C2 & ->). apply a_note_ok in C1. destruct C1 as [-> ->].
      apply (proj2 (IH d)) in C2. destruct C2 as (s & -> & U). exists (i :: s). rewrite <- app_assoc. split; [reflexivity|].
      change (depth_expr (i :: s)) with (Nat.max (depth i) (depth_expr s)). apply upto_app; [assumption|].
      apply (upto_more d _ [_] l4); [intros n [E|[]]; discriminate|assumption].
Qed.
Lemma expr_ok bs e r l : a_expr bs = ((Ok e, r), l) -> upto 0 (depth_expr e) l.
Proof.
  intros H. unfold a_expr in H. apply expr_of_ok in H. apply (proj2 (code_ok _ 0)) in H. destruct H as (s & -> & U). exact U.
Qed.

(** modules *)
Definition deepest (es : list expr) : nat := list_max (map depth_expr es).
Lemma deepest_app es es' : deepest (es ++ es') = Nat.max (deepest es) (deepest es').
Proof. unfold deepest. rewrite map_app. apply list_max_app. Qed.
Lemma deepest_spec es n : (n <= deepest es)%nat <-> n = O \/ exists e, In e es /\ (n <= depth_expr e)%nat.
Proof.
  induction es as [|e es IH].
  - cbn. split; [intros H; left; lia|intros [->|(e & [] & _)]; lia].
  - change (deepest (e :: es)) with (Nat.max (depth_expr e) (deepest es)). split.
    + intros H. destruct (Nat.le_gt_cases n (depth_expr e)) as [L|G]; [right; exists e; split; [left; reflexivity|assumption]|].
      destruct (proj1 IH) as [->|(e' & I & L)]; [lia|left; reflexivity|]. right. exists e'. split; [right; assumption|assumption].
    + intros [->|(e' & [->|I] & L)]; [lia|lia|]. assert (n <= deepest es)%nat by (apply IH; right; exists e'; auto). lia.
Qed.
Definition reads {A} (es : A -> list expr) (a : ap A) : Prop :=
  forall bs x r l, a bs = ((Ok x, r), l) -> upto 0 (deepest (es x)) l.
Lemma reads_expr : reads (fun e => [e]) a_expr.
Proof. intros bs e r l H. apply expr_ok in H. change (deepest [e]) with (Nat.max (depth_expr e) 0). rewrite Nat.max_0_r. exact H. Qed.
Lemma reads_plain {A} (a : ap A) : plain a -> reads (fun _ => []) a.
Proof. intros P bs x r l H. exact (upto_0 0 l (plain_ok _ _ _ _ _ P H)). Qed.
Lemma reads_bind {A B} es es' (a : ap A) (f : A -> ap B) : reads es a -> (forall x, reads es' (f x)) ->
  forall bs y r l, a_bind a f bs = ((Ok y, r), l) -> exists x r1 l1 l2, a bs = ((Ok x, r1), l1) /\ f x r1 = ((Ok y, r), l2) /\
    upto 0 (Nat.max (deepest (es x)) (deepest (es' y))) l.
Proof.
  intros P F bs y r l H. apply a_bind_ok in H. destruct H as (x & r1 & l1 & l2 & H1 & H2 & ->). exists x, r1, l1, l2.
  split; [exact H1|]. split; [exact H2|]. apply upto_app; [exact (P _ _ _ _ H1)|exact (F _ _ _ _ _ H2)].
Qed.
Lemma reads_after {A B} es (a : ap A) (f : A -> ap B) : plain a -> (forall x, reads es (f x)) -> reads es (a_bind a f).
Proof.
  intros P F bs y r l H. apply a_bind_ok in H. destruct H as (x & r1 & l1 & l2 & H1 & H2 & ->).
  apply upto_more; [exact (plain_ok _ _ _ _ _ P H1)|exact (F _ _ _ _ _ H2)].
Qed.
Lemma reads_then {A B} es es' (a : ap A) (f : A -> ap B) : reads es a -> (forall x, plain (f x)) ->
  (forall x bs y r l, f x bs = ((Ok y, r), l) -> es' y = es x) -> reads es' (a_bind a f).
Proof.
  intros P F E bs y r l H. apply a_bind_ok in H. destruct H as (x & r1 & l1 & l2 & H1 & H2 & ->).
  rewrite (E _ _ _ _ _ H2). apply upto_before; [exact (P _ _ _ _ H1)|exact (plain_ok _ _ _ _ _ (F x) H2)].
Qed.
Lemma reads_times {A} es n (a : ap A) : reads es a -> reads (flat_map es) (a_times n a).
Proof.
  intros P. induction n as [|n IH]; intros bs x r l H; cbn [a_times] in H.
  - apply a_run_ok in H. destruct H as [H ->]. injection H as <- _. apply upto_nil.
  - apply a_bind_ok in H. destruct H as (y & r1 & l1 & l2 & H1 & H & ->).
    apply a_bind_ok in H. destruct H as (ys & r2 & l3 & l4 & H2 & H3 & ->). apply a_run_ok in H3. destruct H3 as [H3 ->]. injection H3 as <- _.
    rewrite app_nil_r. cbn [flat_map]. rewrite deepest_app. apply upto_app; [exact (P _ _ _ _ H1)|exact (IH _ _ _ _ H2)].
Qed.
Lemma reads_vec {A} es k (a : ap A) : reads es a -> reads (flat_map es) (a_vec k a).
Proof. intros P. apply reads_after; [apply plain_run|]. intros n. apply reads_after; [apply plain_reserve|]. intros _. apply reads_times, P. Qed.
Lemma reads_sized {A} es (a : ap A) : reads es a -> reads es (a_sized a).
Proof. intros P bs x r l H. apply a_sized_ok in H. destruct H as (w & rw & H). exact (P _ _ _ _ H). Qed.
Lemma reads_func : reads (fun f => [fn_body f]) a_func.
Proof.
  apply reads_after; [apply plain_compact_vec, plain_run|]. intros ls. apply (reads_then _ _ _ _ reads_expr); [intros e; apply plain_run|].
  intros e bs y r l H. apply a_run_ok in H. destruct H as [H _]. injection H as <- _. reflexivity.
Qed.
Lemma reads_global : reads (fun g => [glob_init g]) a_global.
Proof.
  apply reads_after; [apply plain_run|]. intros t. apply (reads_then _ _ _ _ reads_expr); [intros e; apply plain_run|].
  intros e bs y r l H. apply a_run_ok in H. destruct H as [H _]. injection H as <- _. reflexivity.
Qed.
Lemma reads_elem : reads (fun g => [el_offset g]) a_elem.
Proof.
  apply reads_after; [apply plain_run|]. intros t. apply (reads_then _ _ _ _ reads_expr).
  - intros e. apply plain_bind; [apply plain_vec, plain_run|]. intros i. apply plain_run.
  - intros e bs y r l H. apply a_bind_ok in H. destruct H as (i & r1 & l1 & l2 & _ & H & _).
    apply a_run_ok in H. destruct H as [H _]. injection H as <- _. reflexivity.
Qed.
Lemma reads_data : reads (fun g => [da_offset g]) a_data.
Proof.
  apply reads_after; [apply plain_run|]. intros t. apply (reads_then _ _ _ _ reads_expr).
  - intros e. apply plain_bind; [apply plain_unwrapping_vec, plain_run|]. intros i. apply plain_run.
  - intros e bs y r l H. apply a_bind_ok in H. destruct H as (i & r1 & l1 & l2 & _ & H & _).
    apply a_run_ok in H. destruct H as [H _]. injection H as <- _. reflexivity.
Qed.
Lemma flat_single {A B} (f : A -> B) l : flat_map (fun x => [f x]) l = map f l.
Proof. induction l; cbn [flat_map map app]; congruence. Qed.

(** the sequences of one section of a module *)
Definition dG (m : module) : nat := deepest (map glob_init (m_globals m)).
Definition dE (m : module) : nat := deepest (map el_offset (m_elem m)).
Definition dF (m : module) : nat := deepest (map fn_body (m_funcs m)).
Definition dD (m : module) : nat := deepest (map da_offset (m_data m)).
Definition step (id : byte) (m m' : module) (l : list event) : Prop :=
  upto 0 (match id with x06 => dG m' | x09 => dE m' | x0a => dF m' | x0b => dD m' | _ => O end) l /\
  (id <> x06 -> m_globals m' = m_globals m) /\ (id <> x09 -> m_elem m' = m_elem m) /\
  (id <> x0a -> m_funcs m' = m_funcs m) /\ (id <> x0b -> m_data m' = m_data m).
Lemma assign_types_bodies n : forall fs ts fs', assign_types n fs ts = Ok fs' -> map fn_body fs' = map fn_body fs.
Proof.
  induction n as [|n IH]; intros fs ts fs' H; cbn [assign_types] in H; [injection H as <-; reflexivity|].
  destruct fs as [|f fs]; [discriminate|]. destruct ts as [|t ts]; [discriminate|].
  destruct (assign_types n fs ts) as [r|e| |] eqn:E; [|discriminate..]. injection H as <-. apply IH in E. cbn [map set_fn_ty fn_body]. f_equal. assumption.
Qed.
Ltac m_plain := repeat first [ apply plain_run | apply plain_string | apply plain_vec | apply plain_unwrapping_vec
  | apply plain_sized | apply plain_functy | apply plain_bind; [|intro] ].
Lemma section_step id s bs s' r l : a_section id s bs = ((Ok s', r), l) ->
  ps_last_id s' = ps_last_id s /\ step id (ps_result s) (ps_result s') l.
Proof.
  intros H.
  assert (G : forall A es (a : ap A) (f : A -> pstate), reads es a ->
     (v <=+ a_sized a ;; a_ret (f v)) bs = ((Ok s', r), l) -> exists v, s' = f v /\ upto 0 (deepest (es v)) l).
  { intros A es a f R K. apply a_bind_ok in K. destruct K as (v & r1 & l1 & l2 & K1 & K2 & ->). apply a_run_ok in K2. destruct K2 as [K2 ->].
    injection K2 as <- _. exists v. split; [reflexivity|]. rewrite app_nil_r. exact (reads_sized _ _ R _ _ _ _ K1). }
  unfold a_section in H. destruct id; try discriminate H; cbv zeta in H.
  7: { (* globals *)
    destruct (G _ _ _ _ (reads_vec _ _ _ reads_global) H) as (v & -> & U). rewrite flat_single in U. split; [reflexivity|].
    split; [exact U|]. repeat split; intros C; contradiction C; reflexivity. }
  9: { (* elem *)
    destruct (G _ _ _ _ (reads_vec _ _ _ reads_elem) H) as (v & -> & U). rewrite flat_single in U. split; [reflexivity|].
    split; [exact U|]. repeat split; intros C; contradiction C; reflexivity. }
  10: { (* data *)
    destruct (G _ _ _ _ (reads_vec _ _ _ reads_data) H) as (v & -> & U). rewrite flat_single in U. split; [reflexivity|].
    split; [exact U|]. repeat split; intros C; contradiction C; reflexivity. }
  9: { (* code *)
    apply a_bind_ok in H. destruct H as (fs & r1 & l1 & l2 & H1 & H & ->).
    destruct (negb _); [discriminate|]. destruct (assign_types _ _ _) as [fs'|e| |] eqn:E; [|discriminate..].
    apply a_run_ok in H. destruct H as [H ->]. injection H as <- _. split; [reflexivity|]. rewrite app_nil_r.
    assert (U : upto 0 (deepest (flat_map (fun f => [fn_body f]) fs)) l1).
    { refine (reads_sized (flat_map (fun f => [fn_body f])) _ _ _ _ _ _ H1).
      apply reads_after; [apply plain_run|]. intros n. apply reads_after; [apply plain_reserve|]. intros _. apply reads_times.
      refine (reads_then _ _ _ _ (reads_sized _ _ reads_func) _ _); [intros x; apply plain_run|].
      intros x b y q k K. apply a_run_ok in K. destruct K as [K _]. injection K as <- _. reflexivity. }
    rewrite flat_single in U. split; [|repeat split; intros C; contradiction C; reflexivity].
    unfold dF. cbn [with_result set_funcs ps_result m_funcs]. rewrite (assign_types_bodies _ _ _ _ E). exact U. }
  all: match type of H with a_bind (a_sized ?a) _ _ = _ =>
    assert (P : plain a) by (unfold a_custom, a_import, a_export; m_plain) end;
    destruct (G _ (fun _ => []) _ _ (reads_plain _ P) H) as (v & -> & U); split; [reflexivity|]; split; [exact U|repeat split].
Qed.
Definition room (s : pstate) : Prop :=
  (ps_last_id s < 6 -> m_globals (ps_result s) = []) /\ (ps_last_id s < 9 -> m_elem (ps_result s) = []) /\
  (ps_last_id s < 10 -> m_funcs (ps_result s) = []) /\ (ps_last_id s < 11 -> m_data (ps_result s) = []).
Definition all (m : module) : nat := Nat.max (Nat.max (dG m) (dE m)) (Nat.max (dF m) (dD m)).
Lemma step_room id s s1 s2 l : room s -> ps_last_id s2 = ps_last_id s1 ->
  s1 = (if byte_is id 0x00 then s else mkPstate (ps_result s) (ps_func_types s) (Byte.to_N id)) ->
  negb (byte_is id 0x00) && (Byte.to_N id <=? ps_last_id s) = false ->
  step id (ps_result s) (ps_result s2) l ->
  room s2 /\ exists k, upto 0 k l /\ Nat.max (all (ps_result s)) k = all (ps_result s2).
Proof.
  intros (R1 & R2 & R3 & R4) L E C (U & S1 & S2 & S3 & S4).
  assert (CASE : byte_is id 0 = true /\ id = x00 \/ byte_is id 0 = false /\ id <> x00)
    by (destruct id; first [left; split; reflexivity|right; split; [reflexivity|discriminate]]).
  unfold room. rewrite L, E. clear L E. destruct CASE as [[B ->]|[B NZ]]; rewrite B in *.
  - rewrite S1, S2, S3, S4 by discriminate. split; [tauto|]. exists O. split; [exact U|]. unfold all, dG, dE, dF, dD.
    rewrite S1, S2, S3, S4 by discriminate. lia.
  - cbn [negb andb ps_last_id ps_result] in *. apply N.leb_gt in C.
    assert (D : id = x06 \/ id = x09 \/ id = x0a \/ id = x0b \/ (id <> x06 /\ id <> x09 /\ id <> x0a /\ id <> x0b))
      by (destruct id; first [left; reflexivity|right; left; reflexivity|do 2 right; left; reflexivity|do 3 right; left; reflexivity|do 4 right; repeat split; discriminate]).
    destruct D as [-> | [-> | [-> | [-> | (D1 & D2 & D3 & D4)]]]].
    + change (Byte.to_N x06) with 6 in *. rewrite S2, S3, S4 by discriminate. split.
      { repeat split; intros; try lia; first [apply R2|apply R3|apply R4]; lia. }
      exists (dG (ps_result s2)). split; [exact U|]. unfold all, dE, dF, dD. rewrite S2, S3, S4 by discriminate.
      unfold dG at 1. rewrite R1 by lia. change (deepest (map glob_init [])) with O. lia.
    + change (Byte.to_N x09) with 9 in *. rewrite S1, S3, S4 by discriminate. split.
      { repeat split; intros; try lia; first [apply R3|apply R4]; lia. }
      exists (dE (ps_result s2)). split; [exact U|]. unfold all, dG, dF, dD. rewrite S1, S3, S4 by discriminate.
      unfold dE at 1. rewrite R2 by lia. change (deepest (map el_offset [])) with O. lia.
    + change (Byte.to_N x0a) with 10 in *. rewrite S1, S2, S4 by discriminate. split.
      { repeat split; intros; try lia; apply R4; lia. }
      exists (dF (ps_result s2)). split; [exact U|]. unfold all, dG, dE, dD. rewrite S1, S2, S4 by discriminate.
      unfold dF at 1. rewrite R3 by lia. change (deepest (map fn_body [])) with O. lia.
    + change (Byte.to_N x0b) with 11 in *. rewrite S1, S2, S3 by discriminate. split.
      { repeat split; intros; lia. }
      exists (dD (ps_result s2)). split; [exact U|]. unfold all, dG, dE, dF. rewrite S1, S2, S3 by discriminate.
      unfold dD at 1. rewrite R4 by lia. change (deepest (map da_offset [])) with O. lia.
    + rewrite S1, S2, S3, S4 by assumption. split.
      { repeat split; intros; first [apply R1|apply R2|apply R3|apply R4]; lia. }
      exists O. split; [destruct id; try contradiction; exact U|]. unfold all, dG, dE, dF, dD. rewrite S1, S2, S3, S4 by assumption. lia.
Qed.
Lemma sections_nest fuel : forall s bs s' r l, a_sections fuel s bs = ((Ok s', r), l) -> room s ->
  exists k, upto 0 k l /\ Nat.max (all (ps_result s)) k = all (ps_result s').
Proof.
  induction fuel as [|f IH]; intros s bs s' r l H R; [discriminate|]. cbn [a_sections] in H. destruct bs as [|b bs].
  - injection H as <- _ <-. exists O. split; [apply upto_nil|lia].
  - apply a_bind_ok in H. destruct H as (id & r1 & l1 & l2 & H1 & H & ->). apply a_run_ok in H1. destruct H1 as [_ ->].
    destruct (negb (byte_is id 0) && (Byte.to_N id <=? ps_last_id s)) eqn:C; [discriminate|]. cbv zeta in H. apply a_bind_ok in H.
    destruct H as (s2 & r2 & l3 & l4 & H1 & H2 & ->). cbn [app]. apply section_step in H1. destruct H1 as [L1 H1].
    replace (ps_result (if byte_is id 0 then s else mkPstate (ps_result s) (ps_func_types s) (Byte.to_N id))) with (ps_result s) in H1
      by (destruct (byte_is id 0); reflexivity).
    destruct (step_room id s _ s2 l3 R L1 eq_refl C H1) as (R2 & k & U & K).
    destruct (IH _ _ _ _ _ H2 R2) as (k2 & U2 & K2). exists (Nat.max k k2). split; [apply upto_app; assumption|]. lia.
Qed.
Lemma all_exprs m : all m = deepest (module_exprs m).
Proof. unfold all, module_exprs, dG, dE, dF, dD. rewrite !deepest_app. lia. Qed.
Lemma module_nest bs m r : p_module bs = (Ok m, r) -> upto 0 (deepest (module_exprs m)) (requests bs).
Proof.
  intros H. pose proof (erases_module bs) as E. rewrite H in E. unfold requests. destruct (a_module bs) as [x l] eqn:F. cbn [fst snd] in *. subst x.
  apply a_bind_ok in F. destruct F as (mg & r1 & l1 & l2 & F1 & F & ->). apply a_run_ok in F1. destruct F1 as [_ ->].
  destruct (negb _); [discriminate|]. apply a_bind_ok in F. destruct F as (v & r2 & l3 & l4 & F1 & F & ->). apply a_run_ok in F1. destruct F1 as [_ ->].
  destruct (negb _); [discriminate|]. apply a_bind_ok in F. destruct F as (s & r3 & l5 & l6 & F1 & F & ->). apply a_run_ok in F. destruct F as [F ->].
  injection F as <- _. cbn [app]. rewrite app_nil_r. apply sections_nest in F1; [|repeat split; reflexivity].
  destruct F1 as (k & U & K). change (all (ps_result (mkPstate default_module [] 0))) with O in K. rewrite <- all_exprs. cbn [Nat.max] in K. rewrite <- K. exact U.
Qed.
Lemma nest_exact bs m r : p_module bs = (Ok m, r) -> forall n,
  In (Nest n) (requests bs) <-> 1 <= n /\ exists e, In e (module_exprs m) /\ n <= N.of_nat (depth_expr e).
Proof.
  intros H n. rewrite (module_nest _ _ _ H n). cbn [Nat.add]. split.
  - intros [A B]. split; [lia|]. assert (C : (N.to_nat n <= deepest (module_exprs m))%nat) by lia. apply deepest_spec in C.
    destruct C as [C|(e & I & L)]; [lia|]. exists e. split; [assumption|lia].
  - intros [A (e & I & L)]. split; [lia|]. assert (C : (N.to_nat n <= deepest (module_exprs m))%nat) by (apply deepest_spec; right; exists e; split; [assumption|lia]). lia.
Qed.
