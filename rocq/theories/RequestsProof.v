(** The memory that validation asks for, request by request (C82). *)
From Coq Require Import Lia.
From Verif Require Import SpecTyping SpecRefs SpecFormat ModuleProof CodeProof SectionsProof ModuleClaims2 EncodeProof TypingProof SafeProof ModuleValidProof ValidityClaims ValidatorAlloc HostProof StorageProof StorageExactProof CostProof SpecRequests.
Open Scope list_scope.
Open Scope nat_scope.

(** ** A logic: the requests are a beginning of [l]; they are [l] if nothing is wrong *)
Definition logs {A} (l : list event) (Q : A -> Prop) (w : vw A) : Prop :=
  (exists more, l = snd w ++ more) /\ forall a, fst w = VOk a -> snd w = l /\ Q a.
Lemma logs_bind {A B} l1 l2 (Q : A -> Prop) (R : B -> Prop) p f :
  logs l1 Q p -> (forall a, Q a -> logs l2 R (f a)) -> logs (l1 ++ l2) R (w_bind p f).
Proof.
  intros [[r H1] H2] F. destruct p as [[a| |] l]; cbn [w_bind fst snd] in *.
  - destruct (H2 a eq_refl) as [-> X]. destruct (F a X) as [[r' F1] F2]. destruct (f a) as [x l'] eqn:E. cbn [fst snd] in *. split.
    + exists r'. rewrite F1, app_assoc. reflexivity.
    + intros b Y. destruct (F2 b Y) as [-> Z]. auto.
  - split; [exists (r ++ l2); rewrite H1, <- app_assoc; reflexivity|discriminate].
  - split; [exists (r ++ l2); rewrite H1, <- app_assoc; reflexivity|discriminate].
Qed.
Lemma logs_run {A} (Q : A -> Prop) r : (forall a, r = VOk a -> Q a) -> logs [] Q (w_run r).
Proof. intros H. split; [exists []; reflexivity|]. intros a E. split; [reflexivity|exact (H a E)]. Qed.
Lemma logs_note (Q : unit -> Prop) e : Q tt -> logs [e] Q (w_note e).
Proof. intros H. split; [exists []; reflexivity|]. intros [] _. auto. Qed.
Lemma logs_fail {A} l (Q : A -> Prop) : logs l Q (w_run VErr).
Proof. split; [exists l; reflexivity|discriminate]. Qed.
Lemma logs_eq {A} l l' (Q Q' : A -> Prop) w : logs l Q w -> l = l' -> (forall a, Q a -> Q' a) -> logs l' Q' w.
Proof. intros [H1 H2] <- W. split; [exact H1|]. intros a E. destruct (H2 a E). auto. Qed.
Lemma logs_then {A B} l1 l2 (Q : A -> Prop) (R : B -> Prop) l p f :
  logs l1 Q p -> (forall a, Q a -> logs l2 R (f a)) -> l = l1 ++ l2 -> logs l R (w_bind p f).
Proof. intros H F ->. eapply logs_bind; eassumption. Qed.
Lemma logs_after {A B} l (Q : A -> Prop) (R : B -> Prop) r f :
  (forall a, r = VOk a -> Q a) -> (forall a, Q a -> logs l R (f a)) -> logs l R (w_bind (w_run r) f).
Proof. intros H F. eapply (logs_then []); [apply logs_run; exact H|exact F|reflexivity]. Qed.
Lemma logs_grown {A} (Q : A -> Prop) a n : Q a -> logs (grows V_Ref n) Q (w_grown a n).
Proof. intros H. split; [exists []; destruct n; reflexivity|]. intros b [= <-]. split; [destruct n; reflexivity|exact H]. Qed.

(** ** Stacks *)
Definition plan (s : stacks) : list (nat * list valty * nat) := map (fun f => (length (f_label f), f_out f, f_height f)) (frames s).
(** the frames are as [p] says, and there are [h] operands above the innermost, which is at height [base] *)
Definition state (p : list (nat * list valty * nat)) (base h : nat) (s : stacks) : Prop :=
  plan s = p /\ (exists l o sh, p = (l, o, base) :: sh) /\ length (operands s) = base + h.
Lemma state_pop p base h op s r : state p base h s -> pop_operand op s = VOk r -> state p base (h - 1) (snd r).
Proof.
  intros (P & (l & o & sh & E) & L). unfold pop_operand. pose proof P as P0. unfold plan in P. rewrite E in P. destruct (frames s) as [|fr frs] eqn:F; [discriminate|].
  cbn [map] in P. injection P as P1 P2 P3 P4. intros H.
  destruct (Nat.eqb_spec (length (operands s)) (f_height fr)) as [Z|NZ]; cbn [andb] in H.
  - destruct (f_unreachable fr); [|discriminate]. injection H as <-. cbn [snd]. split; [exact P0|]. split; [exists l, o, sh; exact E|]. lia.
  - destruct (operands s) as [|v ops] eqn:O; [discriminate|]. cbn [length] in *.
    assert (X : state p base (h - 1) (mkStacks ops (fr :: frs))).
    { split; [rewrite <- P0; unfold plan; rewrite F; reflexivity|]. split; [exists l, o, sh; exact E|]. cbn [operands]. lia. }
    destruct v, op; try (destruct (operand_eqb _ _)); try discriminate; injection H as <-; exact X.
Qed.
Lemma state_pop_all p base ops : forall h s s', state p base h s -> pop_all ops s = VOk s' -> state p base (h - length ops) s'.
Proof.
  induction ops as [|op ops IH]; intros h s s' S; cbn [pop_all length]; [intros [= <-]; rewrite Nat.sub_0_r; exact S|].
  intros H. apply vbind_ok in H as (r & H1 & H). pose proof (state_pop _ _ _ _ _ _ S H1) as S1. apply (IH _ _ _ S1) in H.
  replace (h - Datatypes.S (length ops)) with (h - 1 - length ops) by lia. exact H.
Qed.
Lemma state_pops p base ops h s s' : state p base h s -> pop_operands ops s = VOk s' -> state p base (h - length ops) s'.
Proof. intros S H. unfold pop_operands in H. rewrite <- rev_length. eapply state_pop_all; eassumption. Qed.
Lemma state_push p base ts h s : state p base h s -> state p base (h + length ts) (push_operands ts s).
Proof.
  intros (P & E & L). split; [unfold plan; rewrite push_operands_frames; exact P|]. split; [exact E|]. rewrite push_operands_length, L. lia.
Qed.
Lemma state_unreachable p base h s s' : state p base h s -> s_unreachable s = VOk s' -> state p base 0 s'.
Proof.
  intros (P & (l & o & sh & E) & L). unfold s_unreachable. pose proof P as P0. unfold plan in P. rewrite E in P. destruct (frames s) as [|fr frs] eqn:F; [discriminate|].
  cbn [map] in P. injection P as P1 P2 P3 P4. intros [= <-]. split; [rewrite <- P0; unfold plan; rewrite F; reflexivity|]. split; [exists l, o, sh; exact E|].
  cbn [operands]. unfold truncate. rewrite skipn_length. lia.
Qed.
Lemma state_pop_frame l o base sh h s rs : state ((l, o, base) :: sh) base h s -> pop_frame s = VOk rs ->
  fst rs = o /\ plan (snd rs) = sh /\ length (operands (snd rs)) = base.
Proof.
  intros S. unfold pop_frame. destruct S as (P & E & L). pose proof P as P0. unfold plan in P. destruct (frames s) as [|fr frs] eqn:F; [discriminate|].
  cbn [map] in P. injection P as P1 P2 P3 P4. intros H. apply vbind_ok in H as (s1 & H1 & H).
  assert (S : state ((l, o, base) :: sh) base h s) by (split; [exact P0|]; split; [exact E|exact L]). apply (state_pops _ _ _ _ _ _ S) in H1 as (P5 & _ & L5).
  destruct (Nat.eqb_spec (length (operands s1)) (f_height fr)) as [Z|]; [cbn [negb] in H|discriminate].
  unfold plan in P5. destruct (frames s1) as [|f1 frs1]; [discriminate|]. cbn [map] in P5. injection P5 as _ _ _ P5. injection H as <-. cbn [fst snd operands].
  split; [exact P2|]. split; [exact P5|]. rewrite Z, P3. reflexivity.
Qed.
Definition pushed (base h n : nat) : list event := match n with O => [] | S _ => [Hold V_Operand (N.of_nat (base + h + n))] end.
Lemma logs_push p base h ts s : state p base h s -> logs (pushed base h (length ts)) (state p base (h + length ts)) (w_push_operands ts s).
Proof.
  intros S. pose proof (state_push _ _ ts _ _ S) as X. destruct S as (_ & _ & L). split.
  - exists []. unfold w_push_operands, pushed. destruct ts; [reflexivity|]. cbn [w_bind w_note w_run snd app length]. unfold count. cbn [length]. do 2 f_equal. lia.
  - intros a E. rewrite fst_push in E. injection E as <-. split; [|exact X]. unfold w_push_operands, pushed. destruct ts; [reflexivity|].
    cbn [w_bind w_note w_run snd app length]. unfold count. cbn [length]. do 2 f_equal. lia.
Qed.
Definition framed (d : nat) : event := Hold V_Frame (N.of_nat (S d)).
Lemma logs_frame lab o s : logs [framed (length (frames s))]
  (state ((length lab, o, length (operands s)) :: plan s) (length (operands s)) 0) (w_push_frame lab o s).
Proof.
  eapply (logs_then [framed (length (frames s))] [] (fun _ => True)); [|intros [] _|reflexivity].
  - split; [exists []|intros [] _; split; [|exact I]]; cbn; unfold framed, count; rewrite N.add_comm; do 2 f_equal; lia.
  - apply logs_run. intros a [= <-]. split; [reflexivity|]. split; [do 3 eexists; reflexivity|]. cbn [push_frame operands]. lia.
Qed.
Lemma plan_length s : length (plan s) = length (frames s).
Proof. apply map_length. Qed.
Lemma logs_end p base h l o base' h' s : state ((l, o, base) :: p) base h' s -> base = base' + h -> (exists l o sh, p = (l, o, base') :: sh) ->
  logs (pushed base' h (length o)) (state p base' (h + length o)) (w_end s).
Proof.
  intros S -> E. unfold w_end. eapply logs_after; [intros rs H; exact (state_pop_frame _ _ _ _ _ _ _ S H)|]. cbn beta.
  intros rs (R1 & R2 & R3). rewrite R1. apply logs_push. split; [exact R2|]. split; [exact E|exact R3].
Qed.
Lemma logs_else p base h l o s : state ((l, o, base) :: p) base h s ->
  logs [framed (length p)] (state ((length o, o, base) :: p) base 0) (w_else s).
Proof.
  intros S. unfold w_else. eapply logs_after; [intros rs H; exact (state_pop_frame _ _ _ _ _ _ _ S H)|]. cbn beta.
  intros rs (R1 & R2 & R3). eapply logs_eq; [apply logs_frame| |].
  - rewrite <- R2, plan_length. reflexivity.
  - rewrite R1, R2, R3. auto.
Qed.

(** ** Labels *)
Lemma slot_any checks bits i len slot : (i < 2 ^ bits)%N -> label_slot checks bits i len = VOk slot -> (i < len)%N /\ slot = (len - i - 1)%N.
Proof.
  intros B. unfold label_slot. rewrite N.mod_small by exact B. unfold usize_add.
  destruct (N.ltb_spec (i + 1) (2 ^ bits)) as [A|A].
  - cbn [vbind]. destruct (N.ltb_spec (i + 1) len) as [L|]; [cbn [negb]|discriminate]. unfold usize_sub.
    destruct (N.leb_spec i len); [|lia]. cbn [vbind]. destruct (N.leb_spec 1 (len - i)); [|lia]. cbn [vbind].
    destruct (N.ltb_spec (len - i - 1) len); [|discriminate]. intros [= <-]. split; [lia|reflexivity].
  - destruct checks; [discriminate|]. cbn [vbind]. replace ((i + 1) mod 2 ^ bits)%N with 0%N.
    2: { replace (i + 1)%N with (2 ^ bits)%N by lia. rewrite N.mod_same; [reflexivity|]. lia. }
    destruct (N.ltb_spec 0 len) as [L|]; [cbn [negb]|discriminate]. unfold usize_sub. set (M := (2 ^ bits)%N) in *.
    destruct (N.leb_spec i len) as [X|X]; cbn [vbind].
    + destruct (N.leb_spec 1 (len - i)) as [Y|Y]; cbn [vbind].
      * destruct (N.ltb_spec (len - i - 1) len); [|discriminate]. intros [= <-]. split; [lia|reflexivity].
      * destruct (N.ltb_spec (len - i + M - 1) len); [lia|discriminate].
    + destruct (N.leb_spec 1 (len + M - i)) as [Y|Y]; cbn [vbind]; [|lia].
      destruct (N.ltb_spec (len + M - i - 1) len); [lia|discriminate].
Qed.
Lemma h_label_nth checks bits s l fr : (l < 2 ^ bits)%N -> h_labelidx checks bits s l = VOk fr -> nth_error (frames s) (N.to_nat l) = Some fr.
Proof.
  intros B H. unfold h_labelidx in H. apply vbind_ok in H as (slot & H1 & H). apply slot_any in H1 as [L ->]; [|exact B].
  destruct (nth_error (rev (frames s)) _) as [f|] eqn:E; [|discriminate]. injection H as <-.
  destruct (nth_error (frames s) (N.to_nat l)) as [g|] eqn:G; [|apply nth_error_None in G; lia].
  apply (nth_error_nth _ _ f) in E. apply (nth_error_nth _ _ f) in G. rewrite rev_nth in E by lia. rewrite <- E, <- G. f_equal. f_equal. lia.
Qed.

(** ** Instructions *)
Lemma inside_eq ts fs d e : forall ls base h,
  (fix go (ls : list nat) (base h : nat) (e : list instr) : list event :=
    match e with
    | [] => []
    | i :: e' => fst (asks ts fs ls (S d) base h i) ++ go ls base (snd (asks ts fs ls (S d) base h i)) e'
    end) ls base h e = asks_all ts fs ls (S d) base h e.
Proof. induction e as [|i e IH]; intros ls base h; [reflexivity|]. cbn [asks_all]. rewrite IH. reflexivity. Qed.
Lemma asks_block ts fs ls d base h a b : asks ts fs ls d base h (I_Block a b) =
  (framed d :: asks_all ts fs (length a :: ls) (S d) (base + h) 0 b ++ pushed base h (length a), h + length a).
Proof. cbn [asks]. rewrite inside_eq. reflexivity. Qed.
Lemma asks_loop ts fs ls d base h a b : asks ts fs ls d base h (I_Loop a b) =
  (framed d :: asks_all ts fs (0 :: ls) (S d) (base + h) 0 b ++ pushed base h (length a), h + length a).
Proof. cbn [asks]. rewrite inside_eq. reflexivity. Qed.
Lemma asks_if ts fs ls d base h a b c : asks ts fs ls d base h (I_If a b c) =
  (framed d :: asks_all ts fs (length a :: ls) (S d) (base + (h - 1)) 0 b ++
   framed d :: asks_all ts fs (length a :: ls) (S d) (base + (h - 1)) 0 c ++ pushed base (h - 1) (length a), h - 1 + length a).
Proof. cbn [asks]. rewrite !inside_eq. reflexivity. Qed.
Lemma asks_flat ts fs ls d base h i : match i with I_Block _ _ | I_Loop _ _ | I_If _ _ _ | I_Unreachable | I_Br _ | I_BrTable _ _ | I_Return => False | _ => True end ->
  asks ts fs ls d base h i = (pushed base (h - fst (exchanges ts fs ls i)) (snd (exchanges ts fs ls i)),
                              h - fst (exchanges ts fs ls i) + snd (exchanges ts fs ls i)).
Proof. unfold pushed. intros H. destruct i; try destruct H; cbn [asks]; destruct (exchanges _ _ _ _) as [t g]; reflexivity. Qed.
Definition branches_below (bits : N) (e : expr) : Prop := forall l, occurs (I_BrIf l) e -> (l < 2 ^ bits)%N.
Lemma branches_in bits j e : branches_below bits e -> In j e -> branches_below bits [j].
Proof.
  intros B J l O. apply B. remember [j] as x eqn:L. destruct O as [x I|i sub x I I2 O]; subst x; destruct I as [<-|[]].
  - apply occurs_here. exact J.
  - eapply occurs_inside; eassumption.
Qed.
Lemma branches_sub bits i sub e : branches_below bits e -> In i e -> In sub (children i) -> branches_below bits sub.
Proof. intros B I J l O. apply B. eapply occurs_inside; eassumption. Qed.
Definition widths (p : list (nat * list valty * nat)) : list nat := map (fun x => fst (fst x)) p.
Lemma logs_seq ts fs p base (v : instr -> stacks -> vw stacks) e :
  Forall (fun i => forall h s, state p base h s -> logs (fst (asks ts fs (widths p) (length p) base h i))
    (state p base (snd (asks ts fs (widths p) (length p) base h i))) (v i s)) e ->
  forall h s, state p base h s -> logs (asks_all ts fs (widths p) (length p) base h e) (fun s' => exists h', state p base h' s') (w_seq v e s).
Proof.
  induction 1 as [|i e Hi _ IH]; intros h s S; cbn [w_seq asks_all]; [apply logs_run; intros a [= <-]; exists h; exact S|].
  eapply logs_bind; [exact (Hi h s S)|]. cbn beta. intros s1 S1. exact (IH _ _ S1).
Qed.
Lemma logs_last p base h r : (forall s', r = VOk s' -> state p base (h + 1) s') ->
  logs (pushed base h 1) (state p base (h + 1)) (s <=~ w_run r ;; _ <=~ w_note (Hold V_Operand (count (operands s))) ;; w_run (VOk s)).
Proof.
  intros H. eapply logs_after; [exact H|]. cbn beta. intros s1 S1. pose proof S1 as (_ & _ & L).
  eapply (logs_then [Hold V_Operand (count (operands s1))] [] (fun _ => True)); [apply logs_note; exact I|intros _ _; apply logs_run; intros a [= <-]; exact S1|].
  unfold pushed, count. rewrite L, Nat.add_assoc. reflexivity.
Qed.
Lemma logs_quiet p base h r : (forall s', r = VOk s' -> state p base h s') -> logs [] (state p base h) (w_run r).
Proof. intros H. apply logs_run. exact H. Qed.
Lemma pop_push_state p base h t1 t2 s s' : state p base h s -> (s <-- pop_operands t1 s ;; VOk (push_operands t2 s)) = VOk s' -> state p base (h - length t1 + length t2) s'.
Proof. intros S H. apply vbind_ok in H as (s1 & H1 & [= <-]). apply state_push. eapply state_pops; eassumption. Qed.
Lemma jump_state p base h ts s s' : state p base h s -> (s <-- pop_operands ts s ;; s_unreachable s) = VOk s' -> state p base 0 s'.
Proof. intros S H. apply vbind_ok in H as (s1 & H1 & H). eapply state_unreachable; [eapply state_pops; eassumption|exact H]. Qed.
Lemma entry_nth {A B} (f : A -> B) d xs x a : nth_error xs (N.to_nat x) = Some a -> entry_of d (map f xs) x = f a.
Proof. intros H. unfold entry_of. apply nth_error_nth. apply map_nth_error. exact H. Qed.
Lemma pop_gives ts fs ls d base h i t1 t2 w p : exchanges ts fs ls i = (t1, t2) ->
  match i with I_Block _ _ | I_Loop _ _ | I_If _ _ _ | I_Unreachable | I_Br _ | I_BrTable _ _ | I_Return => False | _ => True end ->
  logs (pushed base (h - t1) t2) (state p base (h - t1 + t2)) w ->
  logs (fst (asks ts fs ls d base h i)) (state p base (snd (asks ts fs ls d base h i))) w.
Proof. intros E F H. rewrite (asks_flat _ _ _ _ _ _ _ F), E. exact H. Qed.
Lemma plain_gives ts fs ls i t1 t2 : plain_type i = Some (t1, t2) -> exchanges ts fs ls i = (length t1, length t2).
Proof. destruct i; intros [= <- <-]; reflexivity. Qed.
Lemma load_gives ts fs ls i x : load_type i = Some x -> exchanges ts fs ls i = (1, 1).
Proof. destruct i; intros [= <-]; reflexivity. Qed.
Lemma store_gives ts fs ls i x : store_type i = Some x -> exchanges ts fs ls i = (2, 0).
Proof. destruct i; intros [= <-]; reflexivity. Qed.
Lemma plain_last checks bits c i s t1 t2 : plain_type i = Some (t1, t2) -> w_instr checks bits c i s =
  (s <=~ w_run (v_instr c i s) ;; _ <=~ w_note (Hold V_Operand (count (operands s))) ;; w_run (VOk s)) /\ length t2 = 1.
Proof. destruct i; intros [= <- <-]; split; reflexivity. Qed.
Lemma load_last checks bits c i s x : load_type i = Some x -> w_instr checks bits c i s =
  (s <=~ w_run (v_instr c i s) ;; _ <=~ w_note (Hold V_Operand (count (operands s))) ;; w_run (VOk s)).
Proof. destruct i; intros [= <-]; reflexivity. Qed.
Lemma store_last checks bits c i s x : store_type i = Some x -> w_instr checks bits c i s = w_run (v_instr c i s).
Proof. destruct i; intros [= <-]; reflexivity. Qed.

Lemma logs_instr checks bits ts fs c i : map exchange_of (c_types c) = ts -> map exchange_of (c_funcs c) = fs -> no_pseudo [i] -> branches_below bits [i] ->
  forall p base h s, state p base h s ->
  logs (fst (asks ts fs (widths p) (length p) base h i)) (state p base (snd (asks ts fs (widths p) (length p) base h i))) (w_instr checks bits c i s).
Proof.
  intros WT WF. induction i as [i IH] using instr_children_ind. intros NP BR p base h s S.
  assert (SQ : forall sub, In sub (children i) -> forall p base h s, state p base h s ->
    logs (asks_all ts fs (widths p) (length p) base h sub) (fun s' => exists h', state p base h' s') (w_seq (w_instr checks bits c) sub s)).
  { intros sub I p' base' h' s' S'. apply logs_seq; [|exact S']. rewrite Forall_forall. intros j J h2 s2 S2.
    pose proof (IH sub I) as IH'. rewrite Forall_forall in IH'. apply IH'; [exact J| | |exact S2].
    - exact (pseudo_in _ _ (pseudo_sub _ _ _ NP (or_introl eq_refl) I) J).
    - exact (branches_in _ _ _ (branches_sub _ _ _ _ BR (or_introl eq_refl) I) J). }
  assert (TOP : exists l o sh, p = (l, o, base) :: sh) by (destruct S as (_ & E & _); exact E).
  destruct (plain_type i) as [[ts1 ts2]|] eqn:P.
  { destruct (plain_last checks bits c i s _ _ P) as [-> L2]. eapply pop_gives; [exact (plain_gives _ _ _ _ _ _ P)|destruct i; try exact I; discriminate P|].
    rewrite L2. apply logs_last. rewrite (v_plain _ _ _ _ _ P). rewrite <- L2. intros s'. apply pop_push_state. exact S. }
  destruct (load_type i) as [[[a n] t]|] eqn:L.
  { rewrite (load_last checks bits c i s _ L). eapply pop_gives; [exact (load_gives _ _ _ _ _ L)|destruct i; try exact I; discriminate L|].
    apply logs_last. rewrite (v_load_instr _ _ _ _ _ _ L). intros s' H. apply vbind_ok in H as (u & _ & H). exact (pop_push_state _ _ _ [T_I32] [t] _ _ S H). }
  destruct (store_type i) as [[[a n] t]|] eqn:T.
  { rewrite (store_last checks bits c i s _ T). eapply pop_gives; [exact (store_gives _ _ _ _ _ T)|destruct i; try exact I; discriminate T|].
    apply logs_quiet. rewrite (v_store_instr _ _ _ _ _ _ T), Nat.add_0_r. intros s' H. apply vbind_ok in H as (u & _ & H). exact (state_pops _ _ [T_I32; t] _ _ _ S H). }
  destruct i; try discriminate P; try discriminate L; try discriminate T; clear P L T.
  - (* unreachable *) apply logs_quiet. intros s'. apply state_unreachable with (1 := S).
  - (* nop *) cbn. apply logs_quiet. intros a [= <-]. rewrite Nat.sub_0_r, Nat.add_0_r. exact S.
  - (* block *)
    rewrite asks_block. cbn [fst snd w_instr]. pose proof S as (SP & _ & SL).
    eapply (logs_then [framed (length p)]); [rewrite <- SP at 1; rewrite plan_length; apply logs_frame| |reflexivity]. cbn beta. rewrite SL, SP. intros s1 S1.
    eapply logs_bind; [exact (SQ b (or_introl eq_refl) _ _ _ _ S1)|]. cbn beta. intros s2 [h2 S2]. eapply logs_end; [exact S2|reflexivity|exact TOP].
  - (* loop *)
    rewrite asks_loop. cbn [fst snd w_instr]. pose proof S as (SP & _ & SL).
    eapply (logs_then [framed (length p)]); [rewrite <- SP at 1; rewrite plan_length; apply logs_frame| |reflexivity]. cbn beta. rewrite SL, SP. intros s1 S1.
    eapply logs_bind; [exact (SQ b (or_introl eq_refl) _ _ _ _ S1)|]. cbn beta. intros s2 [h2 S2]. eapply logs_end; [exact S2|reflexivity|exact TOP].
  - (* if *)
    rewrite asks_if. cbn [fst snd w_instr]. eapply logs_after; [intros s0 H0; exact (state_pops _ _ _ _ _ _ S H0)|]. cbn beta. cbn [length]. intros s0 S0.
    pose proof S0 as (SP & _ & SL).
    eapply (logs_then [framed (length p)]); [rewrite <- SP at 1; rewrite plan_length; apply logs_frame| |reflexivity]. cbn beta. rewrite SL, SP. intros s1 S1.
    eapply logs_bind; [exact (SQ b (or_introl eq_refl) _ _ _ _ S1)|]. cbn beta. intros s2 [h2 S2].
    eapply (logs_then [framed (length p)]); [eapply logs_else; exact S2| |reflexivity]. cbn beta. intros s3 S3.
    eapply logs_bind; [exact (SQ c0 (or_intror (or_introl eq_refl)) _ _ _ _ S3)|]. cbn beta. intros s4 [h4 S4]. eapply logs_end; [exact S4|reflexivity|exact TOP].
  - exfalso. destruct NP as [A B]. (apply A + apply B); apply occurs_here; left; reflexivity.
  - exfalso. destruct NP as [A B]. (apply A + apply B); apply occurs_here; left; reflexivity.
  - (* br *)
    apply logs_quiet. cbn [h_instr]. intros s' H. apply vbind_ok in H as (fr & _ & H). exact (jump_state _ _ _ _ _ _ S H).
  - (* br_if *)
    eapply (logs_after _ (fun fr => length (f_label fr) = entry_of 0 (widths p) a)).
    { intros fr H. apply h_label_nth in H; [|apply BR; apply occurs_here; left; reflexivity]. destruct S as (<- & _). unfold widths, plan. rewrite map_map. cbn [fst].
      symmetry. exact (entry_nth (fun f => length (f_label f)) 0 _ _ _ H). }
    intros fr F. eapply logs_after; [intros s0 H0; exact (state_pops _ _ _ _ _ _ S H0)|]. cbn beta. intros s0 S0.
    eapply logs_after; [intros s1 H1; exact (state_pops _ _ _ _ _ _ S0 H1)|]. cbn beta. intros s1 S1.
    eapply pop_gives; [reflexivity|exact I|]. cbn [length] in S1. rewrite <- F. rewrite Nat.sub_add_distr. apply logs_push. exact S1.
  - (* br_table *)
    apply logs_quiet. cbn [h_instr]. intros s' H. apply vbind_ok in H as (fr & _ & H). apply vbind_ok in H as (u & _ & H). apply vbind_ok in H as (s0 & H0 & H).
    exact (jump_state _ _ _ _ _ _ (state_pops _ _ _ _ _ _ S H0) H).
  - (* return *)
    apply logs_quiet. cbn [h_instr]. intros s' H. apply vbind_ok in H as (r & _ & H). exact (jump_state _ _ _ _ _ _ S H).
  - (* call *)
    eapply (logs_after _ (fun ft => exchange_of ft = entry_of (0, 0) fs a)).
    { intros ft H. apply lookup_nth in H. symmetry. rewrite <- WF. exact (entry_nth _ _ _ _ _ H). }
    intros ft F. eapply logs_after; [intros s0 H0; exact (state_pops _ _ _ _ _ _ S H0)|]. cbn beta. intros s0 S0.
    eapply pop_gives; [cbn [exchanges]; symmetry; exact F|exact I|]. apply logs_push. exact S0.
  - (* call_indirect *)
    eapply (logs_after _ (fun _ => True)); [auto|intros tt _].
    eapply (logs_after _ (fun ft => exchange_of ft = entry_of (0, 0) ts a)).
    { intros ft H. apply lookup_nth in H. symmetry. rewrite <- WT. exact (entry_nth _ _ _ _ _ H). }
    intros ft F. destruct (negb _); [apply logs_fail|]. eapply logs_after; [intros s0 H0; exact (state_pops _ _ _ _ _ _ S H0)|]. cbn beta. intros s0 S0.
    eapply logs_after; [intros s1 H1; exact (state_pops _ _ _ _ _ _ S0 H1)|]. cbn beta. intros s1 S1.
    eapply pop_gives; [cbn [exchanges]; rewrite <- F; reflexivity|exact I|]. cbn [exchange_of fst snd]. rewrite Nat.sub_add_distr. apply logs_push. exact S1.
  - (* drop *)
    eapply pop_gives; [reflexivity|exact I|]. apply logs_quiet. rewrite Nat.add_0_r. cbn [h_instr v_instr]. intros s' H. apply vbind_ok in H as (r & H & [= <-]). exact (state_pop _ _ _ _ _ _ S H).
  - (* select *)
    eapply pop_gives; [reflexivity|exact I|]. apply logs_last. cbn [v_instr]. intros s' H. apply vbind_ok in H as (s0 & H0 & H). apply vbind_ok in H as (r1 & H1 & H). apply vbind_ok in H as (r2 & H2 & [= <-]).
    apply (state_pops _ _ _ _ _ _ S) in H0. apply (state_pop _ _ _ _ _ _ H0) in H1. apply (state_pop _ _ _ _ _ _ H1) in H2. cbn [length] in H2.
    destruct H2 as (A1 & A2 & A3). split; [exact A1|]. split; [exact A2|]. unfold push_operand. cbn [operands length]. rewrite A3. lia.
  - (* local.get *)
    eapply pop_gives; [reflexivity|exact I|]. apply logs_last. rewrite Nat.sub_0_r. cbn [v_instr]. intros s' H. apply vbind_ok in H as (t & _ & [= <-]). exact (state_push _ _ [t] _ _ S).
  - eapply pop_gives; [reflexivity|exact I|]. apply logs_quiet. rewrite Nat.add_0_r. cbn [h_instr v_instr]. intros s' H. apply vbind_ok in H as (t & _ & H). exact (state_pops _ _ [t] _ _ _ S H).
  - eapply pop_gives; [reflexivity|exact I|]. apply logs_last. cbn [v_instr]. intros s' H. apply vbind_ok in H as (t & _ & H). exact (pop_push_state _ _ _ [t] [t] _ _ S H).
  - eapply pop_gives; [reflexivity|exact I|]. apply logs_last. rewrite Nat.sub_0_r. cbn [v_instr]. intros s' H. apply vbind_ok in H as (t & _ & [= <-]). exact (state_push _ _ [gt_val t] _ _ S).
  - eapply pop_gives; [reflexivity|exact I|]. apply logs_quiet. rewrite Nat.add_0_r. cbn [h_instr v_instr]. intros s' H. apply vbind_ok in H as (t & _ & H). destruct (negb _); [discriminate|]. exact (state_pops _ _ [gt_val t] _ _ _ S H).
  - eapply pop_gives; [reflexivity|exact I|]. apply logs_last. rewrite Nat.sub_0_r. cbn [v_instr]. intros s' H. apply vbind_ok in H as (t & _ & [= <-]). exact (state_push _ _ [T_I32] _ _ S).
  - eapply pop_gives; [reflexivity|exact I|]. apply logs_last. cbn [v_instr]. intros s' H. apply vbind_ok in H as (t & _ & H). exact (pop_push_state _ _ _ [T_I32] [T_I32] _ _ S H).
Qed.

(** ** Modules *)
Lemma logs_expr checks bits ts fs c e : map exchange_of (c_types c) = ts -> map exchange_of (c_funcs c) = fs -> no_pseudo e -> branches_below bits e ->
  forall p base h s, state p base h s ->
  logs (asks_all ts fs (widths p) (length p) base h e) (fun s' => exists h', state p base h' s') (w_seq (w_instr checks bits c) e s).
Proof.
  intros WT WF NP BR p base h s S. apply logs_seq; [|exact S]. rewrite Forall_forall. intros i I h1 s1 S1. apply logs_instr; try assumption.
  - eapply pseudo_in; eassumption.
  - eapply branches_in; eassumption.
Qed.
Definition prepared (m : module) (cs : vctx) : Prop :=
  c_types (fst cs) = m_types m /\ map exchange_of (c_funcs (fst cs)) = func_exchanges m /\ snd cs = empty_stacks.
Lemma empty_eq s : stacks_not_empty s = false -> s = empty_stacks.
Proof. destruct s as [[|o ops] [|f fs]]; try discriminate; reflexivity. Qed.
Lemma logs_func checks bits m f cs : prepared m cs -> no_pseudo (fn_body f) -> branches_below bits (fn_body f) ->
  logs (func_asks m f) (fun r => prepared m (snd r)) (w_func checks bits f cs).
Proof.
  destruct cs as [c s]. intros (RT & RF & RS) NP BR. cbn [fst snd] in *. subst s. unfold w_func.
  eapply (logs_after _ (fun t => exchange_of t = entry_of (0, 0) (type_exchanges m) (fn_ty f))).
  { intros t H. apply lookup_nth in H. rewrite RT in H. symmetry. exact (entry_nth _ _ _ _ _ H). }
  intros t F. unfold func_asks. rewrite <- F. cbn [exchange_of].
  eapply (logs_then [_] _ (fun _ => True)); [apply logs_note; exact I|intros _ _|].
  2: { unfold count. cbn [app]. rewrite Nat2N.inj_add. reflexivity. }
  eapply logs_then; [apply logs_frame| |reflexivity]. cbn beta. intros s1 S1.
  eapply (logs_then _ []); [exact (logs_expr checks bits _ _ (set_locals (set_ret c (Some (ft_results t))) (ft_params t ++ fn_locals f)) _ (f_equal (map exchange_of) RT) RF NP BR _ _ _ _ S1)| |rewrite app_nil_r; reflexivity].
  cbn beta. intros s2 [h2 S2]. eapply (logs_after _ (fun _ => True)); [auto|intros rs _].
  destruct (stacks_not_empty (snd rs)) eqn:E; [apply logs_fail|]. apply logs_run. intros r [= <-]. split; [exact RT|]. split; [exact RF|]. exact (empty_eq _ E).
Qed.
Lemma const_gives c i u : v_const_check c i = VOk u -> forall p base h s, state p base h s ->
  forall checks bits, logs (pushed base h 1) (state p base (h + 1)) (w_instr checks bits c i s).
Proof.
  intros H p base h s S checks bits. destruct i; try discriminate H.
  - apply logs_last. cbn [v_instr]. intros s' E. apply vbind_ok in E as (t & _ & [= <-]). exact (state_push _ _ [gt_val t] _ _ S).
  - apply logs_last. intros s' [= <-]. exact (state_push _ _ [T_I32] _ _ S).
  - apply logs_last. intros s' [= <-]. exact (state_push _ _ [T_I64] _ _ S).
  - apply logs_last. intros s' [= <-]. exact (state_push _ _ [T_F32] _ _ S).
  - apply logs_last. intros s' [= <-]. exact (state_push _ _ [T_F64] _ _ S).
Qed.
Lemma logs_constexpr checks bits c e p : forall h s, state p 0 h s ->
  logs (grows_by_one V_Operand h (length e)) (fun s' => exists h', state p 0 h' s') (w_constexpr checks bits c e s).
Proof.
  unfold grows_by_one. induction e as [|i e IH]; intros h s S; cbn [w_constexpr length seq map]; [apply logs_run; intros a [= <-]; exists h; exact S|].
  eapply (logs_after _ (fun u => v_const_check c i = VOk u)); [auto|intros u H].
  eapply (logs_then (pushed 0 h 1)); [exact (const_gives _ _ _ H _ _ _ _ S checks bits)|cbn beta; intros s1 S1; exact (IH _ _ S1)|].
  unfold pushed. cbn [app]. rewrite !Nat.add_0_l, !Nat.add_1_r. reflexivity.
Qed.
Lemma logs_const_body checks bits t e cs : snd cs = empty_stacks ->
  logs (const_asks e) (fun r => fst r = fst cs /\ snd r = empty_stacks) (w_const_body checks bits [t] e cs).
Proof.
  destruct cs as [c s]. cbn [fst snd]. intros ->. unfold w_const_body, const_asks.
  eapply (logs_then [Hold V_Frame 1]); [exact (logs_frame [t] [t] empty_stacks)| |reflexivity]. cbn beta. intros s1 S1.
  eapply (logs_then _ []); [exact (logs_constexpr checks bits c e _ _ _ S1)| |rewrite app_nil_r; reflexivity].
  intros s2 _. eapply (logs_after _ (fun _ => True)); [auto|intros rs _].
  destruct (stacks_not_empty (snd rs)) eqn:E; [apply logs_fail|]. apply logs_run. intros r [= <-]. split; [reflexivity|]. exact (empty_eq _ E).
Qed.
Lemma logs_each {A B} (inv : vctx -> Prop) (w : A -> vctx -> vw (B * vctx)) l xs :
  (forall x cs, In x xs -> inv cs -> logs (l x) (fun r => inv (snd r)) (w x cs)) ->
  forall cs, inv cs -> logs (flat_map l xs) (fun r => inv (snd r)) (w_each w xs cs).
Proof.
  induction xs as [|x xs IH]; intros H cs C; cbn [w_each flat_map]; [apply logs_run; intros a [= <-]; exact C|].
  eapply logs_bind; [apply H; [left; reflexivity|exact C]|]. cbn beta. intros r R.
  eapply (logs_then _ []); [apply IH; [intros y cs' Y; apply H; right; exact Y|exact R]| |rewrite app_nil_r; reflexivity].
  cbn beta. intros rs R'. apply logs_run. intros a [= <-]. exact R'.
Qed.
Lemma logs_global checks bits g cs : snd cs = empty_stacks -> logs (const_asks (glob_init g)) (fun r => snd (snd r) = empty_stacks) (w_global checks bits g cs).
Proof.
  intros R. unfold w_global. eapply (logs_after _ (fun _ => True)); [auto|intros u _].
  eapply (logs_then _ []); [apply logs_const_body; exact R| |rewrite app_nil_r; reflexivity]. cbn beta. intros r [_ H]. apply logs_run. intros a [= <-]. exact H.
Qed.
Lemma logs_elem checks bits m e cs : prepared m cs -> logs (const_asks (el_offset e)) (fun r => prepared m (snd r)) (w_elem checks bits e cs).
Proof.
  intros (R1 & R2 & R3). unfold w_elem. eapply (logs_after _ (fun _ => True)); [auto|intros t _]. destruct (negb _); [apply logs_fail|].
  eapply (logs_then _ []); [apply logs_const_body; exact R3| |rewrite app_nil_r; reflexivity]. cbn beta. intros r [E H].
  eapply (logs_after _ (fun _ => True)); [auto|intros u _]. apply logs_run. intros a [= <-]. unfold prepared. cbn [snd]. rewrite E. auto.
Qed.
Lemma logs_data checks bits m d cs : prepared m cs -> logs (const_asks (da_offset d)) (fun r => prepared m (snd r)) (w_data checks bits d cs).
Proof.
  intros (R1 & R2 & R3). unfold w_data. eapply (logs_after _ (fun _ => True)); [auto|intros t _].
  eapply (logs_then _ []); [apply logs_const_body; exact R3| |rewrite app_nil_r; reflexivity]. cbn beta. intros r [E H].
  apply logs_run. intros a [= <-]. unfold prepared. cbn [snd]. rewrite E. auto.
Qed.

(** ** The context *)
Definition making (m : module) (fs : list typeidx) (tn mn gn : nat) (c : context) : Prop :=
  c_types c = m_types m /\ map exchange_of (c_funcs c) = map (entry_of (0, 0) (type_exchanges m)) fs /\
  length (c_tables c) = tn /\ length (c_mems c) = mn /\ length (c_globals c) = gn.
Lemma made m fs tn mn gn c t x : making m fs tn mn gn c -> v_typeidx c x = VOk t -> making m (fs ++ [x]) tn mn gn (push_func c t).
Proof.
  intros (B1 & B2 & B3) H. apply lookup_nth in H. rewrite B1 in H. split; [exact B1|]. split; [|exact B3]. cbn [push_func c_funcs]. rewrite !map_app, B2. cbn [map].
  unfold type_exchanges. rewrite (entry_nth exchange_of _ _ _ _ H). reflexivity.
Qed.
Lemma making_funcs m fs tn mn gn c : making m fs tn mn gn c -> length (c_funcs c) = length fs.
Proof. intros (_ & H & _). apply (f_equal (@length _)) in H. rewrite !map_length in H. exact H. Qed.
Definition funcs_in (ims : list import) : list typeidx := flat_map (fun im => match im_desc im with ID_Func x => [x] | _ => [] end) ims.
Lemma logs_push_func {A} m fs tn mn gn c x rest (Q : A -> Prop) k : making m fs tn mn gn c ->
  (forall c', making m (fs ++ [x]) tn mn gn c' -> logs rest Q (k c')) ->
  logs (Hold V_Ref (N.of_nat (S (length fs))) :: rest) Q
    (t <=~ w_run (v_typeidx c x) ;; _ <=~ w_note (Hold V_Ref (count (c_funcs c) + 1)) ;; k (push_func c t)).
Proof.
  intros B K. eapply (logs_after _ (fun t => making m (fs ++ [x]) tn mn gn (push_func c t))); [intros t; apply made; exact B|intros t B1].
  eapply (logs_then [_] _ (fun _ => True)); [apply logs_note; exact I|intros _ _; exact (K _ B1)|].
  unfold count. rewrite (making_funcs _ _ _ _ _ _ B). cbn [app]. do 2 f_equal. lia.
Qed.
Lemma logs_imported_funcs m tn mn gn ims : forall fs c, making m fs tn mn gn c ->
  logs (grows_by_one V_Ref (length fs) (length (funcs_in ims))) (making m (fs ++ funcs_in ims) tn mn gn) (w_imported_funcs ims c).
Proof.
  unfold grows_by_one. induction ims as [|im ims IH]; intros fs c B; cbn [w_imported_funcs funcs_in flat_map]; [apply logs_run; intros a [= <-]; cbn; rewrite app_nil_r; exact B|].
  fold (funcs_in ims). destruct (im_desc im) as [x| | |]; try (apply IH; exact B). cbn [app length seq map]. apply (logs_push_func m fs tn mn gn); [exact B|].
  intros c' B'. eapply logs_eq; [exact (IH _ _ B')| |].
  - rewrite app_length, Nat.add_1_r. reflexivity.
  - intros a. rewrite <- app_assoc. auto.
Qed.
Lemma logs_funcs m tn mn gn l : forall fs c, making m fs tn mn gn c ->
  logs (grows_by_one V_Ref (length fs) (length l)) (making m (fs ++ map fn_ty l) tn mn gn) (w_funcs l c).
Proof.
  unfold grows_by_one. induction l as [|f l IH]; intros fs c B; cbn [w_funcs map length seq]; [apply logs_run; intros a [= <-]; rewrite app_nil_r; exact B|].
  apply (logs_push_func m fs tn mn gn); [exact B|]. intros c' B'. eapply logs_eq; [exact (IH _ _ B')| |].
  - rewrite app_length, Nat.add_1_r. reflexivity.
  - intros a. rewrite <- app_assoc. auto.
Qed.
Lemma funcs_in_eq m : funcs_in (m_imports m) = func_imports m.
Proof. unfold funcs_in, func_imports, importing. apply flat_map_ext. intros im. destruct (im_desc im); reflexivity. Qed.
Lemma importing_tables m : length (imported_tables (m_imports m)) = table_imports m.
Proof. unfold imported_tables, table_imports, importing. f_equal. apply flat_map_ext. intros im. destruct (im_desc im); reflexivity. Qed.
Lemma importing_mems m : length (imported_mems (m_imports m)) = mem_imports m.
Proof. unfold imported_mems, mem_imports, importing. f_equal. apply flat_map_ext. intros im. destruct (im_desc im); reflexivity. Qed.
Lemma importing_globals m : length (imported_globals (m_imports m)) = global_imports m.
Proof. unfold imported_globals, global_imports, importing. f_equal. apply flat_map_ext. intros im. destruct (im_desc im); reflexivity. Qed.
Lemma making_tables m fs tn mn gn c x c' : making m fs tn mn gn c ->
  c' = mkContext (c_types c) (c_funcs c) (c_tables c ++ x) (c_mems c) (c_globals c) (c_locals c) (c_ret c) -> making m fs (tn + length x) mn gn c'.
Proof. intros (A & B & C & D & E) ->. unfold making. cbn. rewrite app_length, C. auto. Qed.
Lemma making_mems m fs tn mn gn c x c' : making m fs tn mn gn c ->
  c' = mkContext (c_types c) (c_funcs c) (c_tables c) (c_mems c ++ x) (c_globals c) (c_locals c) (c_ret c) -> making m fs tn (mn + length x) gn c'.
Proof. intros (A & B & C & D & E) ->. unfold making. cbn. rewrite app_length, D. auto. Qed.
Lemma making_globals m fs tn mn gn c x c' : making m fs tn mn gn c ->
  c' = mkContext (c_types c) (c_funcs c) (c_tables c) (c_mems c) (c_globals c ++ x) (c_locals c) (c_ret c) -> making m fs tn mn (gn + length x) c'.
Proof. intros (A & B & C & D & E) ->. unfold making. cbn. rewrite app_length, E. auto. Qed.
Lemma logs_context m : logs (
  grows V_Ref (length (m_types m)) ++ grows_by_one V_Ref 0 (length (func_imports m)) ++
  grows V_Ref (table_imports m) ++ grows V_Ref (mem_imports m) ++ grows V_Ref (global_imports m) ++
  grows_by_one V_Ref (length (func_imports m)) (length (m_funcs m)) ++ grows V_Ref (table_imports m + length (m_tables m)) ++
  grows V_Ref (mem_imports m + length (m_mems m)) ++ grows V_Ref (global_imports m + length (m_globals m)))
  (fun c => c_types c = m_types m /\ map exchange_of (c_funcs c) = func_exchanges m) (w_context m).
Proof.
  unfold w_context. rewrite use_types_eq. cbn [default_context c_types c_funcs c_tables c_mems c_globals c_locals c_ret app].
  eapply logs_bind; [apply (logs_grown (making m [] 0 0 0)); repeat split|intros c1 B1].
  eapply logs_bind; [rewrite <- funcs_in_eq; apply (logs_imported_funcs m 0 0 0 _ []); exact B1|cbn beta; rewrite funcs_in_eq; cbn [app]; intros c2 B2].
  pose proof (making_tables _ _ _ _ _ _ _ _ B2 (use_imported_tables_eq (m_imports m) c2)) as B3. rewrite importing_tables in B3.
  eapply logs_then; [apply (logs_grown _ _ _ B3)|intros c3 B3'|destruct B3 as (_ & _ & -> & _); reflexivity]. clear B3. rename B3' into B3. cbn [Nat.add] in B3.
  pose proof (making_mems _ _ _ _ _ _ _ _ B3 (use_imported_mems_eq (m_imports m) c3)) as B4. rewrite importing_mems in B4.
  eapply logs_then; [apply (logs_grown _ _ _ B4)|intros c4 B4'|destruct B4 as (_ & _ & _ & -> & _); reflexivity]. clear B4. rename B4' into B4. cbn [Nat.add] in B4.
  pose proof (making_globals _ _ _ _ _ _ _ _ B4 (use_imported_globals_eq (m_imports m) c4)) as B5. rewrite importing_globals in B5.
  eapply logs_then; [apply (logs_grown _ _ _ B5)|intros c5 B5'|destruct B5 as (_ & _ & _ & _ & ->); reflexivity]. clear B5. rename B5' into B5. cbn [Nat.add] in B5.
  eapply logs_bind; [apply logs_funcs; exact B5|intros c6 B6].
  pose proof (making_tables _ _ _ _ _ _ _ _ B6 (use_tables_eq (m_tables m) c6)) as B7. rewrite map_length in B7.
  eapply logs_then; [apply (logs_grown _ _ _ B7)|intros c7 B7'|destruct B7 as (_ & _ & -> & _); reflexivity]. clear B7. rename B7' into B7.
  pose proof (making_mems _ _ _ _ _ _ _ _ B7 (use_mems_eq (m_mems m) c7)) as B8. rewrite map_length in B8.
  eapply logs_then; [apply (logs_grown _ _ _ B8)|intros c8 B8'|destruct B8 as (_ & _ & _ & -> & _); reflexivity]. clear B8. rename B8' into B8.
  pose proof (making_globals _ _ _ _ _ _ _ _ B8 (use_globals_eq (m_globals m) c8)) as B9. rewrite map_length in B9.
  eapply logs_eq; [apply (logs_grown _ _ _ B9)|destruct B9 as (_ & _ & _ & _ & ->); reflexivity|]. intros c (A1 & A2 & _). split; assumption.
Qed.

Lemma prepared_table m x cs r : prepared m cs -> v_table x cs = VOk r -> prepared m (snd r).
Proof. unfold v_table. intros R H. apply vbind_ok in H as (u & _ & [= <-]). exact R. Qed.
Lemma prepared_mem m x cs r : prepared m cs -> v_mem x cs = VOk r -> prepared m (snd r).
Proof. unfold v_mem. intros R H. apply vbind_ok in H as (u & _ & [= <-]). exact R. Qed.
Lemma prepared_type m x cs r : prepared m cs -> v_type_item x cs = VOk r -> prepared m (snd r).
Proof. unfold v_type_item. intros R H. apply vbind_ok in H as (u & _ & [= <-]). exact R. Qed.
Lemma each_keeps {A B} (inv : vctx -> Prop) (v : A -> vctx -> vres (B * vctx)) xs : (forall x cs r, inv cs -> v x cs = VOk r -> inv (snd r)) ->
  forall cs r, inv cs -> v_each v xs cs = VOk r -> inv (snd r).
Proof.
  intros K. induction xs as [|x xs IH]; intros cs r C; cbn [v_each]; [intros [= <-]; exact C|]. intros H. apply vbind_ok in H as (r1 & H1 & H). apply vbind_ok in H as (r2 & H2 & [= <-]).
  cbn [snd]. eapply IH; [|exact H2]. eapply K; [exact C|exact H1].
Qed.
Theorem logs_module checks bits m : (forall x, In x (module_exprs m) -> no_pseudo x) -> (forall x, In x (module_exprs m) -> branches_below bits x) ->
  logs (module_asks m) (fun _ => True) (w_validate checks bits m).
Proof.
  intros NP BR. unfold w_validate, module_asks, context_asks. cbv zeta.
  assert (IN : forall f, In f (m_funcs m) -> In (fn_body f) (module_exprs m)) by (intros f F; unfold module_exprs; apply in_or_app; left; apply in_map; exact F).
  eapply logs_then; [apply logs_context|intros c [C1 C2]|rewrite <- !app_assoc; reflexivity].
  eapply (logs_bind _ _ (fun _ => True)); [apply logs_grown; exact I|intros cg _].
  eapply (logs_after _ (fun r => prepared m (snd r))); [intros r H; eapply (each_keeps (prepared m)); [apply prepared_type| |exact H]; repeat split; assumption|intros r1 R1].
  eapply logs_bind; [apply (logs_each (prepared m) (w_func checks bits) (func_asks m)); [intros f cs F RC; apply logs_func; auto|exact R1]|cbn beta; intros r2 R2].
  eapply (logs_after _ (fun r => prepared m (snd r))); [intros r H; eapply (each_keeps (prepared m)); [apply prepared_table|exact R2|exact H]|intros r3 R3].
  eapply (logs_after _ (fun r => prepared m (snd r))); [intros r H; eapply (each_keeps (prepared m)); [apply prepared_mem|exact R3|exact H]|intros r4 R4].
  eapply logs_bind; [apply (logs_each (fun cs => snd cs = empty_stacks) (w_global checks bits) (fun g => const_asks (glob_init g))); [intros g cs _ RC; apply logs_global; exact RC|reflexivity]|intros r5 _].
  eapply logs_bind; [apply (logs_each (prepared m) (w_elem checks bits) (fun e => const_asks (el_offset e))); [intros e cs _ RC; apply logs_elem; exact RC|exact R4]|cbn beta; intros r6 R6].
  eapply logs_bind; [apply (logs_each (prepared m) (w_data checks bits) (fun d => const_asks (da_offset d))); [intros d cs _ RC; apply logs_data; exact RC|exact R6]|intros r7 _].
  eapply (logs_after _ (fun _ => True)); [auto|intros cs8 _].
  eapply (logs_then [_] _ (fun _ => True)); [apply logs_note; exact I|intros ? _|reflexivity].
  eapply (logs_after _ (fun _ => True)); [auto|intros ims _].
  eapply (logs_then [_] _ (fun _ => True)); [apply logs_note; exact I|intros ? _|reflexivity].
  eapply (logs_after _ (fun _ => True)); [auto|intros exs _].
  destruct (negb _); [apply logs_fail|]. destruct (negb _); [apply logs_fail|].
  eapply (logs_then [_] [] (fun _ => True)); [apply logs_note; exact I|intros ? _|reflexivity].
  destruct (negb _); [apply logs_fail|]. apply logs_run. auto.
Qed.

(** ** What C82 says *)
Lemma branches_range bits e : (32 <= bits)%N -> code_in_range e -> branches_below bits e.
Proof.
  intros B R l O. destruct (R _ O) as [F _]. inversion F; subst. assert (2 ^ 32 <= 2 ^ bits)%N by (apply N.pow_le_mono_r; lia). lia.
Qed.
Definition readable (m : module) : Prop := forall x, In x (module_exprs m) -> no_pseudo x /\ code_in_range x.
Lemma logs_readable checks bits m : readable m -> (32 <= bits)%N -> logs (module_asks m) (fun _ => True) (w_validate checks bits m).
Proof. intros R B. apply logs_module; intros x X; [apply R, X|apply branches_range; [exact B|apply R, X]]. Qed.
Theorem requests_exact m : (forall x, In x (module_exprs m) -> no_pseudo x /\ code_in_range x) ->
  forall checks bits mt, (32 <= bits)%N -> h_validate checks bits m = VOk mt -> checking checks bits m = module_asks m.
Proof. intros R checks bits mt B H. apply (logs_readable checks bits m R B) with (a := mt). rewrite storage_same. exact H. Qed.
Theorem requests_begin m : (forall x, In x (module_exprs m) -> no_pseudo x /\ code_in_range x) ->
  forall checks bits, (32 <= bits)%N -> exists more, module_asks m = checking checks bits m ++ more.
Proof. intros R checks bits B. apply (logs_readable checks bits m R B). Qed.
Theorem requests_host m : (forall x, In x (module_exprs m) -> no_pseudo x /\ code_in_range x) ->
  forall allows checks bits mt, (32 <= bits)%N ->
  (validate_within allows checks bits m = VOk mt <-> h_validate checks bits m = VOk mt /\ forall e, In e (module_asks m) -> allows e = true).
Proof.
  intros R allows checks bits mt B. unfold validate_within. rewrite storage_same. split.
  - destruct (forallb allows (checking checks bits m)) eqn:F; [|discriminate]. intros H. split; [exact H|].
    rewrite <- (requests_exact m R checks bits mt B H). apply forallb_forall. exact F.
  - intros [H A]. rewrite (requests_exact m R checks bits mt B H). apply forallb_forall in A. rewrite A. exact H.
Qed.
Theorem requests_enough m : (forall x, In x (module_exprs m) -> no_pseudo x /\ code_in_range x) ->
  forall allows checks bits, (32 <= bits)%N -> (forall e, In e (module_asks m) -> allows e = true) ->
  validate_within allows checks bits m = h_validate checks bits m.
Proof.
  intros R allows checks bits B A. unfold validate_within. rewrite storage_same. destruct (requests_begin m R checks bits B) as [more E].
  replace (forallb allows (checking checks bits m)) with true; [reflexivity|]. symmetry. apply forallb_forall. intros e I. apply A. rewrite E. apply in_or_app. left. exact I.
Qed.
Lemma file_readable bs m r : p_module bs = (Ok m, r) -> readable m.
Proof.
  intros P x X. destruct (parsed_module_nested _ _ _ _ P X) as (A & B & _). split; [split; assumption|]. apply module_exact in P as [_ P].
  destruct (module_range _ _ _ P) as (_ & _ & R). exact (R x X).
Qed.
Theorem requests_file bs m r : p_module bs = (Ok m, r) -> forall checks bits, (32 <= bits)%N ->
  (exists more, module_asks m = checking checks bits m ++ more) /\
  forall mt, h_validate checks bits m = VOk mt -> checking checks bits m = module_asks m.
Proof.
  intros P checks bits B. pose proof (file_readable _ _ _ P) as R. split; [exact (requests_begin m R checks bits B)|]. intros mt. exact (requests_exact m R checks bits mt B).
Qed.
