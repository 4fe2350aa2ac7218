(** Validation stops inside the first beginning that cannot be completed. *)
From Coq Require Import Lia.
From Verif Require Import SpecVerdict SpecBeginning SpecTyping SpecRefs SpecCode ValidatorCost ValidatorState SafeProof TypingProof ModuleValidProof StateProof CostProof ValidityClaims.

(** the shortest completion: [unreachable] at the end of every open block *)
Fixpoint complete (p : beginning) : list instr :=
  match p with
  | B_here is => is ++ [I_Unreachable]
  | B_block is rt p => is ++ [I_Block rt (complete p); I_Unreachable]
  | B_loop is rt p => is ++ [I_Loop rt (complete p); I_Unreachable]
  | B_then is rt p => is ++ [I_If rt (complete p) [I_Unreachable]; I_Unreachable]
  | B_else is rt b p => is ++ [I_If rt b (complete p); I_Unreachable]
  end.
Lemma complete_begins p : begins p (complete p).
Proof. induction p; cbn [complete]; constructor; assumption. Qed.

Definition framing (i : instr) : Prop := match i with I_Unreachable | I_Block _ _ | I_Loop _ _ | I_If _ _ _ => True | _ => False end.
Lemma occurs_app j a b : occurs j (a ++ b) <-> occurs j a \/ occurs j b.
Proof.
  split.
  - intros O. inversion O as [? I|i sub ? I C O']; subst; apply in_app_or in I; destruct I as [I|I];
      try (left; apply occurs_here; exact I); try (right; apply occurs_here; exact I);
      [left|right]; eapply occurs_inside; eassumption.
  - intros [O|O]; (inversion O as [? I|i sub ? I C O']; subst; [apply occurs_here|eapply occurs_inside; [|exact C|exact O']]; apply in_or_app; auto).
Qed.
Lemma occurs_cons j i e : occurs j (i :: e) <-> j = i \/ (exists sub, In sub (children i) /\ occurs j sub) \/ occurs j e.
Proof.
  split.
  - intros O. inversion O as [? I|x sub ? I C O']; subst; destruct I as [->|I]; eauto; right; right; [apply occurs_here; exact I|eapply occurs_inside; eassumption].
  - intros [->|[(sub & C & O)|O]]; [apply occurs_here; left; reflexivity|eapply occurs_inside; [left; reflexivity|exact C|exact O]|].
    inversion O as [? I|x sub ? I C O']; subst; [apply occurs_here; right; exact I|eapply occurs_inside; [right; exact I|exact C|exact O'] ].
Qed.
Lemma occurs_nil j : ~ occurs j [].
Proof. intros O. inversion O as [? I|? ? ? I]; destruct I. Qed.
Lemma occurs_complete p e j : begins p e -> occurs j (complete p) -> framing j \/ occurs j e.
Proof.
  intros B. revert j. induction B as [is rest|is rt p b rest B IH|is rt p b rest B IH|is rt p b c rest B IH|is rt b p c rest B IH]; intros j; cbn [complete];
    rewrite !occurs_app, !occurs_cons; cbn [children In]; intros [O|O]; try (right; left; exact O).
  - destruct O as [->|[(s & [] & _)|O]]; [left; exact I|destruct (occurs_nil _ O)].
  - destruct O as [->|[(s & [<- |[]] & O)|[->|[(s & [] & _)|O]]]]; [left; exact I| |left; exact I|destruct (occurs_nil _ O)].
    destruct (IH j O) as [F|F]; [left; exact F|]. right. right. right. left. eauto.
  - destruct O as [->|[(s & [<- |[]] & O)|[->|[(s & [] & _)|O]]]]; [left; exact I| |left; exact I|destruct (occurs_nil _ O)].
    destruct (IH j O) as [F|F]; [left; exact F|]. right. right. right. left. eauto.
  - destruct O as [->|[(s & [<- |[<- |[]]] & O)|[->|[(s & [] & _)|O]]]]; [left; exact I| | |left; exact I|destruct (occurs_nil _ O)].
    + destruct (IH j O) as [F|F]; [left; exact F|]. right. right. right. left. eauto.
    + apply occurs_cons in O. cbn [children In] in O. destruct O as [->|[(s & [] & _)|O]]; [left; exact I|destruct (occurs_nil _ O)].
  - destruct O as [->|[(s & [<- |[<- |[]]] & O)|[->|[(s & [] & _)|O]]]]; [left; exact I| | |left; exact I|destruct (occurs_nil _ O)].
    + right. right. right. left. eauto.
    + destruct (IH j O) as [F|F]; [left; exact F|]. right. right. right. left. eauto.
Qed.
Lemma complete_clean p e : begins p e -> no_pseudo e -> no_pseudo (complete p).
Proof. intros B [A E]. split; intros O; apply (occurs_complete p e) in O; try assumption; destruct O as [[]|O]; auto. Qed.
Lemma complete_natural p e : begins p e -> natural_alignment e -> natural_alignment (complete p).
Proof.
  intros B N j a n t O T. apply (occurs_complete p e) in O; [|assumption]. destruct O as [F|O]; [|eapply N; eassumption].
  destruct j; try destruct F; destruct T; discriminate.
Qed.
Lemma np_app a b : no_pseudo (a ++ b) -> no_pseudo a /\ no_pseudo b.
Proof. intros [A B]. rewrite occurs_app in A, B. unfold no_pseudo. tauto. Qed.

(** ** Sequences *)
Lemma v_seq_app v a b s : v_seq v (a ++ b) s = (s <-- v_seq v a s ;; v_seq v b s).
Proof. revert s. induction a as [|i a IH]; intros s; cbn [app v_seq]; [reflexivity|]. destruct (v i s); cbn [vbind]; auto. Qed.
Lemma k_assoc {A B D} (p : kv A) (f : A -> kv B) (g : B -> kv D) : k_bind (k_bind p f) g = k_bind p (fun a => k_bind (f a) g).
Proof.
  destruct p as [[a| |] n]; cbn [k_bind]; try reflexivity. destruct (f a) as [[b| |] m]; cbn [k_bind fst snd]; try reflexivity. rewrite Nat.add_assoc. reflexivity.
Qed.
Lemma k_ext {A B} (p : kv A) (f g : A -> kv B) : (forall a, f a = g a) -> k_bind p f = k_bind p g.
Proof. intros H. destruct p as [[a| |] n]; cbn [k_bind]; rewrite ?H; reflexivity. Qed.
Lemma k_ret_bind {A B} (a : A) (f : A -> kv B) : k_bind (k_ret a) f = f a.
Proof. cbn. destruct (f a). reflexivity. Qed.
Lemma k_seq_app v a b s : k_seq v (a ++ b) s = (s <-# k_seq v a s ;; k_seq v b s).
Proof.
  revert s. induction a as [|i a IH]; intros s; cbn [app k_seq]; [rewrite k_ret_bind; reflexivity|].
  rewrite k_assoc. apply k_ext. intros _. rewrite k_assoc. apply k_ext. intros s1. apply IH.
Qed.
Lemma t_assoc {A B D} (p : sv A) (f : A -> sv B) (g : B -> sv D) s : sv_bind (sv_bind p f) g s = sv_bind p (fun a => sv_bind (f a) g) s.
Proof. unfold sv_bind. destruct (p s) as [[a| |] s']; reflexivity. Qed.
Lemma t_seq_app v a b s : t_seq v (a ++ b) s = sv_bind (t_seq v a) (fun _ => t_seq v b) s.
Proof.
  revert s. induction a as [|i a IH]; intros s; cbn [app t_seq]; [reflexivity|].
  rewrite t_assoc. unfold sv_bind at 1 2. destruct (v i s) as [[u| |] s']; try reflexivity. apply IH.
Qed.
Lemma t_seqs c is s : agrees (v_seq (v_instr c) is s) (t_seq (t_instr c) is s).
Proof. apply t_seq_agrees. apply Forall_forall. intros i _. apply t_instr_agrees. Qed.
Lemma k_seqs c is s : fst (k_seq (k_instr c) is s) = v_seq (v_instr c) is s.
Proof. apply fk_seq. apply Forall_forall. intros i _. apply fk_instr. Qed.

(** ** Stopping: an error after the same steps with the same stacks left, for all code in [E] *)
Definition stops (c : context) (E : list instr -> Prop) (s : stacks) : Prop :=
  exists n s', forall e, E e -> k_seq (k_instr c) e s = (VErr, n) /\ t_seq (t_instr c) e s = (VErr, s').
(** a step that both models take alike *)
Definition pair_ok (r : vres stacks) (k : kv stacks) (t : sv unit) (s : stacks) : Prop := fst k = r /\ agrees r (t s).
Lemma pair_err r k t s : pair_ok r k t s -> r = VErr ->
  exists n s', forall (f : stacks -> kv stacks) (g : unit -> sv unit), k_bind k f = (VErr, n) /\ sv_bind t g s = (VErr, s').
Proof.
  intros [K T] ->. destruct k as [r n]. cbn in K. subst r. unfold sv_bind. cbn in T. destruct (t s) as [r s'] eqn:E. cbn in T. subst r.
  exists n, s'. intros f g. auto.
Qed.
Lemma pair_run r k t s s1 : pair_ok r k t s -> r = VOk s1 -> exists n, k = (VOk s1, n) /\ t s = (VOk tt, s1).
Proof. intros [K T] ->. destruct k as [r n]. cbn in K. subst r. eauto. Qed.
Lemma seq_pair c is s : pair_ok (v_seq (v_instr c) is s) (k_seq (k_instr c) is s) (t_seq (t_instr c) is) s.
Proof. split; [apply k_seqs|apply t_seqs]. Qed.
Lemma stops_here c is s : v_seq (v_instr c) is s = VErr -> stops c (fun e => exists r, e = is ++ r) s.
Proof.
  intros H. destruct (pair_err _ _ _ _ (seq_pair c is s) H) as (n & s' & X). exists n, s'. intros e (r & ->). rewrite k_seq_app, t_seq_app. apply X.
Qed.
(** what is left to do after a common part *)
Lemma after_ok r k t s s1 n s' : pair_ok r k t s -> r = VOk s1 ->
  exists n', forall (f : stacks -> kv stacks) (g : unit -> sv unit), f s1 = (VErr, n) -> g tt s1 = (VErr, s') -> k_bind k f = (VErr, n') /\ sv_bind t g s = (VErr, s').
Proof.
  intros P E. destruct (pair_run _ _ _ _ _ P E) as (m & -> & T). exists (m + n)%nat. intros f g F G. cbn [k_bind]. unfold sv_bind. rewrite T, F, G. auto.
Qed.
Lemma stops_after c is s s1 (E : list instr -> Prop) : v_seq (v_instr c) is s = VOk s1 -> stops c E s1 -> stops c (fun e => exists r, E r /\ e = is ++ r) s.
Proof.
  intros H (n & s' & X). destruct (after_ok _ _ _ _ _ n s' (seq_pair c is s) H) as (n' & Y). exists n', s'. intros e (r & R & ->).
  rewrite k_seq_app, t_seq_app. destruct (X r R). apply Y; assumption.
Qed.
(** entering an instruction *)
Definition enters (c : context) (E : instr -> Prop) (s : stacks) : Prop :=
  exists n s', forall i, E i -> k_instr c i s = (VErr, n) /\ t_instr c i s = (VErr, s').
Lemma stops_enter c s E : enters c E s -> stops c (fun e => exists i r, E i /\ e = i :: r) s.
Proof.
  intros (n & s' & X). exists (1 + n)%nat, s'. intros e (i & r & I & ->). destruct (X i I) as [K T]. cbn [k_seq t_seq]. unfold sv_bind. rewrite K, T. auto.
Qed.
Lemma frame_pair a b s : pair_ok (VOk (push_frame a b s)) (k_push_frame a b s) (t_push_frame a b) s.
Proof. split; reflexivity. Qed.
Lemma pops_pair ts s : pair_ok (pop_operands ts s) (k_pop_operands ts s) (t_pop_operands ts) s.
Proof. split; [apply fk_pops|apply t_pops_agrees]. Qed.
Lemma else_pair s : pair_ok (v_else s) (k_else s) t_else s.
Proof. split; [apply fk_else|apply t_else_agrees]. Qed.
(** errors pass through what follows *)
Lemma through n s' (k : kv stacks) (t : sv unit) s (f : stacks -> kv stacks) (g : unit -> sv unit) :
  k = (VErr, n) -> t s = (VErr, s') -> k_bind k f = (VErr, n) /\ sv_bind t g s = (VErr, s').
Proof. intros -> T. unfold sv_bind. rewrite T. auto. Qed.
Lemma enters_block c rt E s : stops c E (push_frame rt rt s) -> enters c (fun i => exists b, E b /\ i = I_Block rt b) s.
Proof.
  intros (n & s' & X). destruct (after_ok _ _ _ _ _ n s' (frame_pair rt rt s) eq_refl) as (n' & Y). exists n', s'. intros i (b & B & ->).
  cbn [k_instr t_instr]. destruct (X b B) as [K T].
  destruct (through n s' _ (t_seq (t_instr c) b) _ k_end (fun _ => t_end) K T) as [Z1 Z2].
  apply (Y (fun s => k_bind (k_seq (k_instr c) b s) k_end) (fun _ => sv_bind (t_seq (t_instr c) b) (fun _ => t_end)) Z1 Z2).
Qed.
Lemma enters_loop c rt E s : stops c E (push_frame [] rt s) -> enters c (fun i => exists b, E b /\ i = I_Loop rt b) s.
Proof.
  intros (n & s' & X). destruct (after_ok _ _ _ _ _ n s' (frame_pair [] rt s) eq_refl) as (n' & Y). exists n', s'. intros i (b & B & ->).
  cbn [k_instr t_instr]. destruct (X b B) as [K T].
  destruct (through n s' _ (t_seq (t_instr c) b) _ k_end (fun _ => t_end) K T) as [Z1 Z2].
  apply (Y (fun s => k_bind (k_seq (k_instr c) b s) k_end) (fun _ => sv_bind (t_seq (t_instr c) b) (fun _ => t_end)) Z1 Z2).
Qed.
Lemma enters_pop c rt s : pop_operands [T_I32] s = VErr -> enters c (fun i => exists b d, i = I_If rt b d) s.
Proof.
  intros H. destruct (pair_err _ _ _ _ (pops_pair [T_I32] s) H) as (n & s' & X). exists n, s'. intros i (b & d & ->). cbn [k_instr t_instr]. apply X.
Qed.
Lemma enters_then c rt E s s1 : pop_operands [T_I32] s = VOk s1 -> stops c E (push_frame rt rt s1) -> enters c (fun i => exists b d, E b /\ i = I_If rt b d) s.
Proof.
  intros H (n & s' & X). destruct (after_ok _ _ _ _ _ n s' (frame_pair rt rt s1) eq_refl) as (n1 & Y1).
  destruct (after_ok _ _ _ _ _ n1 s' (pops_pair [T_I32] s) H) as (n2 & Y2). exists n2, s'. intros i (b & d & B & ->).
  cbn [k_instr t_instr]. destruct (X b B) as [K T].
  destruct (through n s' _ (t_seq (t_instr c) b) _ (fun s => k_bind (k_else s) (fun s => k_bind (k_seq (k_instr c) d s) k_end))
              (fun _ => sv_bind t_else (fun _ => sv_bind (t_seq (t_instr c) d) (fun _ => t_end))) K T) as [B1 B2].
  destruct (Y1 (fun s => k_bind (k_seq (k_instr c) b s) (fun s => k_bind (k_else s) (fun s => k_bind (k_seq (k_instr c) d s) k_end)))
              (fun _ => sv_bind (t_seq (t_instr c) b) (fun _ => sv_bind t_else (fun _ => sv_bind (t_seq (t_instr c) d) (fun _ => t_end)))) B1 B2) as [C1 C2].
  apply (Y2 _ _ C1 C2).
Qed.
Lemma enters_else c rt b E s s1 s2 s3 : pop_operands [T_I32] s = VOk s1 -> v_seq (v_instr c) b (push_frame rt rt s1) = VOk s2 -> v_else s2 = VOk s3 ->
  stops c E s3 -> enters c (fun i => exists d, E d /\ i = I_If rt b d) s.
Proof.
  intros H1 H2 H3 (n & s' & X). destruct (after_ok _ _ _ _ _ n s' (else_pair s2) H3) as (n1 & Y1).
  destruct (after_ok _ _ _ _ _ n1 s' (seq_pair c b _) H2) as (n2 & Y2).
  destruct (after_ok _ _ _ _ _ n2 s' (frame_pair rt rt s1) eq_refl) as (n3 & Y3).
  destruct (after_ok _ _ _ _ _ n3 s' (pops_pair [T_I32] s) H1) as (n4 & Y4).
  exists n4, s'. intros i (d & D & ->). destruct (X d D) as [K T]. cbn [k_instr t_instr].
  pose proof (through n s' _ (t_seq (t_instr c) d) s3 k_end (fun _ => t_end) K T) as [Z1 Z2].
  destruct (Y1 (fun s => k_bind (k_seq (k_instr c) d s) k_end) (fun _ => sv_bind (t_seq (t_instr c) d) (fun _ => t_end)) Z1 Z2) as [A1 A2].
  destruct (Y2 (fun s => k_bind (k_else s) (fun s => k_bind (k_seq (k_instr c) d s) k_end)) (fun _ => sv_bind t_else (fun _ => sv_bind (t_seq (t_instr c) d) (fun _ => t_end))) A1 A2) as [B1 B2].
  destruct (Y3 (fun s => k_bind (k_seq (k_instr c) b s) (fun s => k_bind (k_else s) (fun s => k_bind (k_seq (k_instr c) d s) k_end)))
              (fun _ => sv_bind (t_seq (t_instr c) b) (fun _ => sv_bind t_else (fun _ => sv_bind (t_seq (t_instr c) d) (fun _ => t_end)))) B1 B2) as [C1 C2].
  apply (Y4 _ _ C1 C2).
Qed.
Lemma enters_branch c rt b s s1 : pop_operands [T_I32] s = VOk s1 ->
  (s2 <-- v_seq (v_instr c) b (push_frame rt rt s1) ;; v_else s2) = VErr -> enters c (fun i => exists d, i = I_If rt b d) s.
Proof.
  intros H1 H. destruct (v_seq (v_instr c) b (push_frame rt rt s1)) as [s2| |] eqn:H2; cbn [vbind] in H; try discriminate H.
  - destruct (pair_err _ _ _ _ (else_pair s2) H) as (n & s' & X).
    destruct (after_ok _ _ _ _ _ n s' (seq_pair c b _) H2) as (n2 & Y2).
    destruct (after_ok _ _ _ _ _ n2 s' (frame_pair rt rt s1) eq_refl) as (n3 & Y3).
    destruct (after_ok _ _ _ _ _ n3 s' (pops_pair [T_I32] s) H1) as (n4 & Y4).
    exists n4, s'. intros i (d & ->). cbn [k_instr t_instr].
    destruct (X (fun s => k_bind (k_seq (k_instr c) d s) k_end) (fun _ => sv_bind (t_seq (t_instr c) d) (fun _ => t_end))) as [A1 A2].
    destruct (Y2 (fun s => k_bind (k_else s) (fun s => k_bind (k_seq (k_instr c) d s) k_end)) (fun _ => sv_bind t_else (fun _ => sv_bind (t_seq (t_instr c) d) (fun _ => t_end))) A1 A2) as [B1 B2].
    destruct (Y3 (fun s => k_bind (k_seq (k_instr c) b s) (fun s => k_bind (k_else s) (fun s => k_bind (k_seq (k_instr c) d s) k_end)))
                (fun _ => sv_bind (t_seq (t_instr c) b) (fun _ => sv_bind t_else (fun _ => sv_bind (t_seq (t_instr c) d) (fun _ => t_end)))) B1 B2) as [C1 C2].
    apply (Y4 _ _ C1 C2).
  - destruct (pair_err _ _ _ _ (seq_pair c b _) H2) as (n & s' & X).
    destruct (after_ok _ _ _ _ _ n s' (frame_pair rt rt s1) eq_refl) as (n3 & Y3).
    destruct (after_ok _ _ _ _ _ n3 s' (pops_pair [T_I32] s) H1) as (n4 & Y4).
    exists n4, s'. intros i (d & ->). cbn [k_instr t_instr].
    destruct (X (fun s => k_bind (k_else s) (fun s => k_bind (k_seq (k_instr c) d s) k_end)) (fun _ => sv_bind t_else (fun _ => sv_bind (t_seq (t_instr c) d) (fun _ => t_end)))) as [B1 B2].
    destruct (Y3 (fun s => k_bind (k_seq (k_instr c) b s) (fun s => k_bind (k_else s) (fun s => k_bind (k_seq (k_instr c) d s) k_end)))
                (fun _ => sv_bind (t_seq (t_instr c) b) (fun _ => sv_bind t_else (fun _ => sv_bind (t_seq (t_instr c) d) (fun _ => t_end)))) B1 B2) as [C1 C2].
    apply (Y4 _ _ C1 C2).
Qed.
Lemma stops_sub c (E F : list instr -> Prop) s : (forall e, F e -> E e) -> stops c E s -> stops c F s.
Proof. intros H (n & s' & X). exists n, s'. auto. Qed.

(** ** Every beginning either stops or can be completed *)
Definition shut (base : list operand) (fr : frame) (frs : list frame) : stacks := mkStacks base (set_unr fr true :: frs).
Lemma shut_st base fr frs : shut base fr frs = st base (set_unr fr true) frs [].
Proof. reflexivity. Qed.
(** after the whole instructions of a beginning *)
Lemma first_part c is base fr frs seg : length base = f_height fr -> wf (st base fr frs seg) -> no_pseudo is ->
  stops c (fun e => exists r, e = is ++ r) (st base fr frs seg) \/
  exists seg1 u1, v_seq (v_instr c) is (st base fr frs seg) = VOk (st base (set_unr fr u1) frs seg1) /\ wf (st base (set_unr fr u1) frs seg1).
Proof.
  intros HB W NP. pose proof (good_seq c is _ W) as G. destruct (v_seq (v_instr c) is (st base fr frs seg)) as [s1| |] eqn:E.
  - right. pose proof E as E'. apply v_seq_sound in E' as (seg1 & u1 & -> & _); [|assumption..]. exists seg1, u1. split; [reflexivity|exact G].
  - left. apply stops_here, E.
  - destruct G.
Qed.
Lemma last_part c base fr frs s1 seg1 u1 : length base = f_height fr -> s1 = st base (set_unr fr u1) frs seg1 ->
  v_seq (v_instr c) [I_Unreachable] s1 = VOk (shut base fr frs).
Proof. intros HB ->. cbn [v_seq v_instr]. rewrite unreachable_st by exact HB. reflexivity. Qed.
(** the end of a block that was shut *)
Lemma end_shut base lab rt fr frs seg : exists seg', v_end (shut (seg ++ base) (mkFrame lab rt (length (seg ++ base)) false) (fr :: frs)) = VOk (st base fr frs seg').
Proof.
  rewrite shut_st, v_end_complete; [|reflexivity|left; reflexivity]. cbn [f_out set_unr]. eexists. 
  change (mkStacks (seg ++ base) (fr :: frs)) with (st base fr frs seg). rewrite push_operands_st. reflexivity.
Qed.
Lemma new_frame lab rt base fr frs seg :
  push_frame lab rt (st base fr frs seg) = st (seg ++ base) (mkFrame lab rt (length (seg ++ base)) false) (fr :: frs) [].
Proof. reflexivity. Qed.
Lemma np_block i e : In e (children i) -> forall r, no_pseudo (i :: r) -> no_pseudo e.
Proof. intros I r N. apply no_pseudo_cons in N as [N _]. eapply no_pseudo_sub; eassumption. Qed.
Lemma either c p : forall base fr frs seg, length base = f_height fr -> wf (st base fr frs seg) -> no_pseudo (complete p) ->
  stops c (begins p) (st base fr frs seg) \/ v_seq (v_instr c) (complete p) (st base fr frs seg) = VOk (shut base fr frs).
Proof.
  induction p as [is|is rt p IH|is rt p IH|is rt p IH|is rt b p IH]; intros base fr frs seg HB W NP; cbn [complete] in *; apply np_app in NP as [N1 N2];
    (destruct (first_part c is base fr frs seg HB W N1) as [S|(seg1 & u1 & E & W1)];
     [left; eapply stops_sub; [|exact S]; intros e B; inversion B; subst; eauto|]); rewrite v_seq_app, E; cbn [vbind].
  - right. eapply (last_part c); [exact HB|reflexivity].
  - destruct (IH (seg1 ++ base) (mkFrame rt rt (length (seg1 ++ base)) false) (set_unr fr u1 :: frs) [] eq_refl) as [S|R].
    + rewrite <- new_frame. apply wf_push_frame, W1.
    + eapply np_block; [|exact N2]. left. reflexivity.
    + left. rewrite <- new_frame in S. apply enters_block, stops_enter in S. apply (stops_after _ _ _ _ _ E) in S.
      eapply stops_sub; [|exact S]. intros e B. inversion B; subst. eexists. split; [|reflexivity]. do 2 eexists. split; [|reflexivity]. eauto.
    + right. cbn [v_seq v_instr]. rewrite new_frame, R. cbn [vbind].
      destruct (end_shut base rt rt (set_unr fr u1) frs seg1) as (seg' & ->). cbn [vbind]. eapply (last_part c); [exact HB|reflexivity].
  - destruct (IH (seg1 ++ base) (mkFrame [] rt (length (seg1 ++ base)) false) (set_unr fr u1 :: frs) [] eq_refl) as [S|R].
    + rewrite <- new_frame. apply wf_push_frame, W1.
    + eapply np_block; [|exact N2]. left. reflexivity.
    + left. rewrite <- new_frame in S. apply enters_loop, stops_enter in S. apply (stops_after _ _ _ _ _ E) in S.
      eapply stops_sub; [|exact S]. intros e B. inversion B; subst. eexists. split; [|reflexivity]. do 2 eexists. split; [|reflexivity]. eauto.
    + right. cbn [v_seq v_instr]. rewrite new_frame, R. cbn [vbind].
      destruct (end_shut base [] rt (set_unr fr u1) frs seg1) as (seg' & ->). cbn [vbind]. eapply (last_part c); [exact HB|reflexivity].
  - pose proof (good_pops [T_I32] _ W1) as GP. destruct (pop_operands [T_I32] (st base (set_unr fr u1) frs seg1)) as [s2| |] eqn:P; [|left|destruct GP].
    2: { apply (enters_pop c rt), stops_enter, (stops_after _ _ _ _ _ E) in P. eapply stops_sub; [|exact P]. intros e B. inversion B; subst.
         eexists. split; [|reflexivity]. do 2 eexists. split; [|reflexivity]. eauto. }
    pose proof P as P'. apply (pop_all_sound base (set_unr fr u1) frs HB) in P' as (seg2 & -> & _).
    destruct (IH (seg2 ++ base) (mkFrame rt rt (length (seg2 ++ base)) false) (set_unr fr u1 :: frs) [] eq_refl) as [S|R].
    + rewrite <- new_frame. apply wf_push_frame, GP.
    + eapply np_block; [|exact N2]. left. reflexivity.
    + left. rewrite <- new_frame in S. apply (enters_then _ _ _ _ _ P), stops_enter, (stops_after _ _ _ _ _ E) in S.
      eapply stops_sub; [|exact S]. intros e B. inversion B; subst. eexists. split; [|reflexivity]. do 2 eexists. split; [|reflexivity]. eauto.
    + right. cbn [v_seq v_instr]. rewrite P. cbn [vbind]. rewrite new_frame, R. cbn [vbind].
      unfold v_else. rewrite shut_st, pop_frame_complete; [|reflexivity|left; reflexivity]. cbn [vbind fst snd f_out set_unr].
      change (mkStacks (seg2 ++ base) (set_unr fr u1 :: frs)) with (st base (set_unr fr u1) frs seg2). rewrite new_frame, unreachable_st by reflexivity. cbn [vbind].
      destruct (end_shut base rt rt (set_unr fr u1) frs seg2) as (seg' & Z). unfold shut in Z. rewrite Z. cbn [vbind]. eapply (last_part c); [exact HB|reflexivity].
  - pose proof (good_pops [T_I32] _ W1) as GP. destruct (pop_operands [T_I32] (st base (set_unr fr u1) frs seg1)) as [s2| |] eqn:P; [|left|destruct GP].
    2: { apply (enters_pop c rt), stops_enter, (stops_after _ _ _ _ _ E) in P. eapply stops_sub; [|exact P]. intros e B. inversion B; subst.
         eexists. split; [|reflexivity]. do 2 eexists. split; [|reflexivity]. eauto. }
    pose proof P as P'. apply (pop_all_sound base (set_unr fr u1) frs HB) in P' as (seg2 & -> & _).
    assert (W2 : wf (push_frame rt rt (st base (set_unr fr u1) frs seg2))) by (apply wf_push_frame, GP).
    assert (NB : no_pseudo b) by (eapply np_block; [|exact N2]; left; reflexivity).
    destruct (s3 <-- v_seq (v_instr c) b (push_frame rt rt (st base (set_unr fr u1) frs seg2)) ;; v_else s3) as [s4| |] eqn:Q.
    2: { left. apply (enters_branch _ _ _ _ _ P), stops_enter, (stops_after _ _ _ _ _ E) in Q. eapply stops_sub; [|exact Q]. intros e B. inversion B; subst.
         eexists. split; [|reflexivity]. do 2 eexists. split; [|reflexivity]. eauto. }
    2: { exfalso. assert (G : gs (s3 <-- v_seq (v_instr c) b (push_frame rt rt (st base (set_unr fr u1) frs seg2)) ;; v_else s3))
           by (eapply good_bind; [apply good_seq, W2|intros; apply good_else; assumption]). rewrite Q in G. exact G. }
    apply vbind_ok in Q as (s3 & Q1 & Q2). pose proof Q1 as Q1'. rewrite new_frame in Q1'.
    apply v_seq_sound in Q1' as (seg3 & u3 & -> & _); [|reflexivity|assumption].
    pose proof Q2 as Q2'. unfold v_else in Q2'. apply vbind_ok in Q2' as (rs & Q3 & Q4).
    apply (pop_frame_sound (seg2 ++ base) (mkFrame rt rt (length (seg2 ++ base)) u3) (set_unr fr u1 :: frs) eq_refl seg3) in Q3 as [-> _].
    cbn [fst snd f_out] in Q4. injection Q4 as <-.
    change (mkStacks (seg2 ++ base) (set_unr fr u1 :: frs)) with (st base (set_unr fr u1) frs seg2) in *.
    destruct (IH (seg2 ++ base) (mkFrame rt rt (length (seg2 ++ base)) false) (set_unr fr u1 :: frs) [] eq_refl) as [S|R].
    + rewrite <- new_frame. exact W2.
    + eapply np_block; [|exact N2]. right. left. reflexivity.
    + left. rewrite <- new_frame in S. apply (enters_else _ _ _ _ _ _ _ _ P Q1 Q2), stops_enter, (stops_after _ _ _ _ _ E) in S.
      eapply stops_sub; [|exact S]. intros e B. inversion B; subst. eexists. split; [|reflexivity]. do 2 eexists. split; [|reflexivity]. eauto.
    + right. cbn [v_seq v_instr]. rewrite P. cbn [vbind]. rewrite Q1. cbn [vbind]. rewrite Q2. cbn [vbind]. rewrite new_frame, R. cbn [vbind].
      destruct (end_shut base rt rt (set_unr fr u1) frs seg2) as (seg' & ->). cbn [vbind]. eapply (last_part c); [exact HB|reflexivity].
Qed.

(** ** Functions *)
Definition body_stops (c : context) (ty : typeidx) (locals : list valty) (E : list instr -> Prop) : Prop :=
  exists n cs, forall e, E e ->
    k_func (mkFunc ty locals e) (c, empty_stacks) = (VErr, n) /\ t_func (mkFunc ty locals e) (c, empty_stacks) = (VErr, cs).
Lemma first_state r : wf (st [] (mkFrame r r 0 false) [] []).
Proof. cbn. auto. Qed.
Lemma func_either c ty locals p : no_pseudo (complete p) ->
  (exists t, func_type false false (tenv_of c) (mkFunc ty locals (complete p)) t) \/ body_stops c ty locals (begins p).
Proof.
  intros NP. destruct (v_typeidx c ty) as [t| |] eqn:T.
  - set (c1 := set_locals (set_ret c (Some (ft_results t))) (ft_params t ++ locals)).
    destruct (either c1 p [] (mkFrame (ft_results t) (ft_results t) 0 false) [] [] eq_refl (first_state _) NP) as [(n & s' & X)|R].
    + right. exists (1 + (length (ft_params t) + length locals + (1 + n)))%nat, (c1, s'). intros e B. destruct (X e B) as [K S]. split.
      * unfold k_func. cbn [fn_ty fn_locals fn_body]. rewrite T. cbn [k_step k_bind k_steps k_push_frame fst snd].
        change (push_frame (ft_results t) (ft_results t) empty_stacks) with (st [] (mkFrame (ft_results t) (ft_results t) 0 false) [] []).
        unfold k_expr. fold c1. rewrite K. reflexivity.
      * unfold t_func. cbn [fn_ty fn_locals fn_body]. unfold cv_bind, cv_read, cv_update, cv_stacks. cbn [fst snd]. rewrite T. cbn [fst snd].
        change (snd (t_push_frame (ft_results t) (ft_results t) empty_stacks)) with (st [] (mkFrame (ft_results t) (ft_results t) 0 false) [] []).
        unfold t_expr. fold c1. cbn [fst snd t_push_frame]. rewrite S. reflexivity.
    + left. exists t. apply v_func_typing; [exact NP|]. eexists. unfold v_func. cbn [fn_ty fn_locals fn_body]. rewrite T. cbn [vbind].
      change (push_frame (ft_results t) (ft_results t) empty_stacks) with (st [] (mkFrame (ft_results t) (ft_results t) 0 false) [] []).
      unfold v_expr. fold c1. rewrite R. cbn [vbind]. rewrite shut_st, pop_frame_complete; [|reflexivity|left; reflexivity]. reflexivity.
  - right. exists 1%nat, (c, empty_stacks). intros e _. unfold k_func, t_func. cbn [fn_ty fn_locals fn_body]. unfold cv_bind, cv_read. cbn [fst snd].
    rewrite T. split; reflexivity.
  - exfalso. eapply v_lookup_no_panic. exact T.
Qed.
Lemma body_settled c ty locals p e : begins p e -> no_pseudo e ->
  (exists e' t, begins p e' /\ func_type false false (tenv_of c) (mkFunc ty locals e') t) \/
  (exists n cs, forall e', begins p e' ->
    k_func (mkFunc ty locals e') (c, empty_stacks) = (VErr, n) /\ t_func (mkFunc ty locals e') (c, empty_stacks) = (VErr, cs)).
Proof.
  intros B N. destruct (func_either c ty locals p (complete_clean p e B N)) as [(t & H)|H]; [left|right; exact H].
  exists (complete p), t. split; [apply complete_begins|exact H].
Qed.
Lemma body_prompt c ty locals p e : begins p e -> no_pseudo e -> natural_alignment e ->
  (forall e' t, begins p e' -> ~ func_type true true (tenv_of c) (mkFunc ty locals e') t) ->
  exists n cs, forall e', begins p e' ->
    k_func (mkFunc ty locals e') (c, empty_stacks) = (VErr, n) /\ t_func (mkFunc ty locals e') (c, empty_stacks) = (VErr, cs).
Proof.
  intros B N A D. destruct (func_either c ty locals p (complete_clean p e B N)) as [(t & H)|H]; [|exact H]. exfalso.
  apply (D (complete p) t (complete_begins p)). apply (alignment_only _ _ _ H). cbn [fn_body]. eapply complete_natural; eassumption.
Qed.
