(** Proofs about single calls of the validator on a context of the caller. *)
From Coq Require Import Lia.
From Verif Require Import ValidatorState SpecRefs SpecTyping EncodeProof TypingProof ModuleValidProof SafeProof.

(** ** The model with the state agrees with the one without *)
Definition agrees (r : vres stacks) (q : vres unit * stacks) : Prop :=
  match r with VOk s => q = (VOk tt, s) | VErr => fst q = VErr | VPanic => fst q = VPanic end.
(** the same for results *)
Definition agrees2 {A} (r : vres (A * stacks)) (q : vres A * stacks) : Prop :=
  match r with VOk (a, s) => q = (VOk a, s) | VErr => fst q = VErr | VPanic => fst q = VPanic end.
Lemma agrees_bind r f p (g : unit -> sv unit) s : agrees r (p s) -> (forall s, agrees (f s) (g tt s)) -> agrees (vbind r f) (sv_bind p g s).
Proof.
  unfold sv_bind. destruct r as [s'| |]; cbn [agrees vbind]; intros H G.
  - rewrite H. apply G.
  - destruct (p s) as [[]]; cbn in H; try discriminate; reflexivity.
  - destruct (p s) as [[]]; cbn in H; try discriminate; reflexivity.
Qed.
Lemma agrees2_bind {A} (r : vres (A * stacks)) f p (g : A -> sv unit) s : agrees2 r (p s) -> (forall a s, agrees (f (a, s)) (g a s)) -> agrees (vbind r f) (sv_bind p g s).
Proof.
  unfold sv_bind. destruct r as [[a s']| |]; cbn [agrees2 vbind]; intros H G.
  - rewrite H. apply G.
  - destruct (p s) as [[]]; cbn in H; try discriminate; reflexivity.
  - destruct (p s) as [[]]; cbn in H; try discriminate; reflexivity.
Qed.
Lemma agrees_run {A} (r : vres A) f (g : A -> sv unit) s : (forall a, agrees (f a) (g a s)) -> agrees (vbind r f) (sv_bind (sv_run r) g s).
Proof. intros G. unfold sv_bind, sv_run. destruct r; cbn [vbind]; [apply G|reflexivity|reflexivity]. Qed.
Lemma agrees_read {A} (r : stacks -> vres A) f (g : A -> sv unit) s : (forall a, agrees (f a) (g a s)) -> agrees (vbind (r s) f) (sv_bind (sv_read r) g s).
Proof. intros G. unfold sv_bind, sv_read. destruct (r s); cbn [vbind]; [apply G|reflexivity|reflexivity]. Qed.
Lemma t_pop_agrees op s : agrees2 (pop_operand op s) (t_pop_operand op s).
Proof.
  unfold pop_operand, t_pop_operand. destruct (frames s) as [|fr frs]; [reflexivity|]. destruct (_ && _)%bool; [reflexivity|].
  destruct (Nat.eqb _ _); [reflexivity|]. destruct (operands s) as [|v ops]; [reflexivity|].
  destruct v as [|tv]; [reflexivity|]. destruct op as [|t]; [reflexivity|]. destruct (operand_eqb _ _); reflexivity.
Qed.
Lemma t_pop_all_agrees ts s : agrees (pop_all ts s) (t_pop_all ts s).
Proof. revert s. induction ts as [|t ts IH]; intros s; [reflexivity|]. cbn [pop_all t_pop_all]. eapply agrees2_bind; [apply t_pop_agrees|]. intros a s1. apply IH. Qed.
Lemma t_pops_agrees ts s : agrees (pop_operands ts s) (t_pop_operands ts s).
Proof. apply t_pop_all_agrees. Qed.
Lemma t_pop_frame_agrees s : agrees2 (pop_frame s) (t_pop_frame s).
Proof.
  unfold pop_frame, t_pop_frame. destruct (frames s) as [|fr frs]; [reflexivity|].
  pose proof (t_pops_agrees (f_out fr) s) as H. unfold sv_bind. destruct (pop_operands (f_out fr) s) as [s'| |]; cbn [agrees vbind] in *.
  - rewrite H. destruct (negb _); [reflexivity|]. destruct (frames s'); reflexivity.
  - destruct (t_pop_operands (f_out fr) s) as [[]]; cbn in H; try discriminate; reflexivity.
  - destruct (t_pop_operands (f_out fr) s) as [[]]; cbn in H; try discriminate; reflexivity.
Qed.
Lemma t_unreachable_agrees s : agrees (s_unreachable s) (t_unreachable s).
Proof. unfold t_unreachable. destruct (s_unreachable s); reflexivity. Qed.
Lemma t_else_agrees s : agrees (v_else s) (t_else s).
Proof. unfold v_else, t_else. eapply agrees2_bind; [apply t_pop_frame_agrees|]. intros a s1. reflexivity. Qed.
Lemma t_end_agrees s : agrees (v_end s) (t_end s).
Proof. unfold v_end, t_end. eapply agrees2_bind; [apply t_pop_frame_agrees|]. intros a s1. reflexivity. Qed.
Lemma t_seq_agrees c is : Forall (fun i => forall s, agrees (v_instr c i s) (t_instr c i s)) is -> forall s, agrees (v_seq (v_instr c) is s) (t_seq (t_instr c) is s).
Proof. induction 1 as [|i is H _ IH]; intros s; [reflexivity|]. cbn [v_seq t_seq]. apply agrees_bind; [apply H|exact IH]. Qed.
Lemma agrees_frame l o (f : stacks -> vres stacks) (g : unit -> sv unit) s :
  agrees (f (push_frame l o s)) (g tt (push_frame l o s)) -> agrees (f (push_frame l o s)) (sv_bind (t_push_frame l o) g s).
Proof. intros H. exact H. Qed.
Ltac agree SQ := repeat first
  [ reflexivity
  | apply t_pops_agrees | apply t_unreachable_agrees | apply t_else_agrees | apply t_end_agrees
  | apply agrees_run; intros ?
  | apply agrees_read; intros ?
  | apply agrees_bind; [first [apply t_pops_agrees|apply t_else_agrees|apply SQ; first [left; reflexivity|right; left; reflexivity]]|intros ?]
  | eapply agrees2_bind; [apply t_pop_agrees|intros ? ?]
  | match goal with |- agrees (if ?b then _ else _) _ => destruct b end ].
Lemma t_instr_agrees c i : forall s, agrees (v_instr c i s) (t_instr c i s).
Proof.
  induction i as [i IH] using instr_children_ind. intros s.
  assert (SQ : forall sub, In sub (children i) -> forall s, agrees (v_seq (v_instr c) sub s) (t_seq (t_instr c) sub s)).
  { intros sub I. apply t_seq_agrees. apply IH, I. }
  clear IH. destruct i; cbn [v_instr t_instr]; unfold v_load, t_load, v_store, t_store; cbn zeta.
  all: try solve [agree SQ].
  - apply (agrees_frame a a (fun s => s0 <-- v_seq (v_instr c) b s ;; v_end s0)). agree SQ.
  - apply (agrees_frame [] a (fun s => s0 <-- v_seq (v_instr c) b s ;; v_end s0)). agree SQ.
  - apply agrees_bind; [apply t_pops_agrees|]. intros s1.
    apply (agrees_frame a a (fun s => s2 <-- v_seq (v_instr c) b s ;; s3 <-- v_else s2 ;; s4 <-- v_seq (v_instr c) c0 s3 ;; v_end s4)). agree SQ.
Qed.
Lemma t_expr_agrees c e s : agrees (v_expr c e s) (t_expr c e s).
Proof. apply t_seq_agrees. apply Forall_forall. intros i _. apply t_instr_agrees. Qed.
Lemma t_constexpr_agrees c e s : agrees (v_constexpr c e s) (t_constexpr c e s).
Proof.
  revert s. induction e as [|i e IH]; intros s; [reflexivity|]. cbn [v_constexpr t_constexpr]. apply agrees_run. intros _.
  apply agrees_bind; [apply t_instr_agrees|]. exact IH.
Qed.

(** ** Components *)
Definition agrees3 {A} (r : vres (A * vctx)) (q : vres A * vctx) : Prop :=
  match r with VOk (a, cs) => q = (VOk a, cs) | VErr => fst q = VErr | VPanic => fst q = VPanic end.
Lemma agrees3_stacks {A B} (r : vres (A * stacks)) f (p : context -> sv A) (g : A -> cv B) cs :
  agrees2 r (p (fst cs) (snd cs)) -> (forall a s, agrees3 (f (a, s)) (g a (fst cs, s))) -> agrees3 (vbind r f) (cv_bind (cv_stacks p) g cs).
Proof.
  unfold cv_bind, cv_stacks. destruct r as [[a s]| |]; cbn [agrees2 vbind]; intros H G.
  - rewrite H. apply G.
  - destruct (p (fst cs) (snd cs)) as [[]]; cbn in H; try discriminate; reflexivity.
  - destruct (p (fst cs) (snd cs)) as [[]]; cbn in H; try discriminate; reflexivity.
Qed.
Lemma agrees3_stacks1 {B} (r : vres stacks) f (p : context -> sv unit) (g : unit -> cv B) cs :
  agrees r (p (fst cs) (snd cs)) -> (forall s, agrees3 (f s) (g tt (fst cs, s))) -> agrees3 (vbind r f) (cv_bind (cv_stacks p) g cs).
Proof.
  unfold cv_bind, cv_stacks. destruct r as [s| |]; cbn [agrees vbind]; intros H G.
  - rewrite H. apply G.
  - destruct (p (fst cs) (snd cs)) as [[]]; cbn in H; try discriminate; reflexivity.
  - destruct (p (fst cs) (snd cs)) as [[]]; cbn in H; try discriminate; reflexivity.
Qed.
Lemma agrees3_read {A B} (r : vctx -> vres A) f (g : A -> cv B) cs : (forall a, agrees3 (f a) (g a cs)) -> agrees3 (vbind (r cs) f) (cv_bind (cv_read r) g cs).
Proof. intros G. unfold cv_bind, cv_read. destruct (r cs); cbn [vbind]; [apply G|reflexivity|reflexivity]. Qed.
Lemma t_func_agrees f cs : agrees3 (v_func f cs) (t_func f cs).
Proof.
  destruct cs as [c s]. unfold v_func, t_func. apply (agrees3_read (fun cs => v_typeidx (fst cs) (fn_ty f)) _ _ (c, s)). intros t.
  cbn zeta. set (c' := set_locals (set_ret c (Some (ft_results t))) (ft_params t ++ fn_locals f)).
  change (agrees3 (s0 <-- v_expr c' (fn_body f) (push_frame (ft_results t) (ft_results t) s) ;; rs <-- pop_frame s0 ;;
      (if stacks_not_empty (snd rs) then VErr else VOk (t, (set_ret (set_locals c' []) None, snd rs))))
    ((_ <=| cv_stacks (fun c => t_expr c (fn_body f)) ;; _ <=| cv_stacks (fun _ => t_pop_frame) ;; _ <=| t_check_empty ;;
      _ <=| cv_update (fun c => set_locals c []) ;; _ <=| cv_update (fun c => set_ret c None) ;; cv_ret t) (c', push_frame (ft_results t) (ft_results t) s))).
  apply agrees3_stacks1; [apply t_expr_agrees|]. intros s1. apply agrees3_stacks; [apply t_pop_frame_agrees|]. intros r s2. cbn [fst snd].
  unfold cv_bind, t_check_empty, cv_read. cbn [fst snd]. destruct (stacks_not_empty s2); reflexivity.
Qed.
Definition agrees4 (r : vres vctx) (q : vres unit * vctx) : Prop :=
  match r with VOk cs => q = (VOk tt, cs) | VErr => fst q = VErr | VPanic => fst q = VPanic end.
Lemma t_const_body_agrees r e cs : agrees4 (v_const_body r e cs) (t_const_body r e cs).
Proof.
  destruct cs as [c s]. unfold v_const_body, t_const_body.
  assert (H : agrees3 (s0 <-- v_constexpr c e (push_frame r r s) ;; rs <-- pop_frame s0 ;; (if stacks_not_empty (snd rs) then VErr else VOk (tt, (c, snd rs))))
    ((_ <=| cv_stacks (fun _ => t_push_frame r r) ;; _ <=| cv_stacks (fun c => t_constexpr c e) ;; _ <=| cv_stacks (fun _ => t_pop_frame) ;; t_check_empty) (c, s))).
  { change (agrees3 (s0 <-- v_constexpr c e (push_frame r r s) ;; rs <-- pop_frame s0 ;; (if stacks_not_empty (snd rs) then VErr else VOk (tt, (c, snd rs))))
      ((_ <=| cv_stacks (fun c => t_constexpr c e) ;; _ <=| cv_stacks (fun _ => t_pop_frame) ;; t_check_empty) (c, push_frame r r s))).
    apply agrees3_stacks1; [apply t_constexpr_agrees|]. intros s1. apply agrees3_stacks; [apply t_pop_frame_agrees|]. intros a s2. cbn [fst snd].
    unfold t_check_empty, cv_read. cbn [fst snd]. destruct (stacks_not_empty s2); reflexivity. }
  revert H. destruct (v_constexpr c e (push_frame r r s)) as [s1| |]; cbn [vbind]; try (intros H; exact H).
  destruct (pop_frame s1) as [rs| |]; cbn [vbind]; try (intros H; exact H). destruct (stacks_not_empty (snd rs)); intros H; exact H.
Qed.
Lemma agrees3_const {B} (r : vres vctx) f p (g : unit -> cv B) cs :
  agrees4 r (p cs) -> (forall cs, agrees3 (f cs) (g tt cs)) -> agrees3 (vbind r f) (cv_bind p g cs).
Proof.
  unfold cv_bind. destruct r as [s| |]; cbn [agrees4 vbind]; intros H G.
  - rewrite H. apply G.
  - destruct (p cs) as [[]]; cbn in H; try discriminate; reflexivity.
  - destruct (p cs) as [[]]; cbn in H; try discriminate; reflexivity.
Qed.
Lemma t_global_agrees g cs : agrees3 (v_global g cs) (t_global g cs).
Proof.
  unfold v_global, t_global. apply (agrees3_read (fun _ => v_globalty (glob_ty g)) _ _ cs). intros _.
  apply agrees3_const; [apply t_const_body_agrees|]. intros cs'. reflexivity.
Qed.
Lemma t_elem_agrees e cs : agrees3 (v_elem e cs) (t_elem e cs).
Proof.
  unfold v_elem, t_elem. apply (agrees3_read (fun cs => v_tableidx (fst cs) (el_table e)) _ _ cs). intros t.
  unfold cv_bind at 1. unfold cv_read at 1. destruct (negb _); [reflexivity|].
  apply agrees3_const; [apply t_const_body_agrees|]. intros cs'. unfold cv_read. destruct (v_elem_init (fst cs') (el_init e)) as [[]| |]; reflexivity.
Qed.
Lemma t_data_agrees d cs : agrees3 (v_data d cs) (t_data d cs).
Proof.
  unfold v_data, t_data. apply (agrees3_read (fun cs => v_memidx (fst cs) (da_mem d)) _ _ cs). intros _.
  pose proof (t_const_body_agrees [T_I32] (da_offset d) cs) as H. revert H. destruct (v_const_body [T_I32] (da_offset d) cs) as [cs'| |]; intros H; exact H.
Qed.
Lemma t_use_imported_funcs_agrees l : forall c s, match use_imported_funcs l c with
  | VOk c' => t_use_imported_funcs l (c, s) = (VOk tt, (c', s)) | VErr => fst (t_use_imported_funcs l (c, s)) = VErr | VPanic => fst (t_use_imported_funcs l (c, s)) = VPanic end.
Proof.
  induction l as [|im l IH]; intros c s; [reflexivity|]. cbn [use_imported_funcs t_use_imported_funcs]. destruct (im_desc im) as [x|x|x|x]; try apply IH.
  unfold cv_bind, cv_read, cv_update. cbn [fst snd]. destruct (v_typeidx c x) as [t| |]; cbn [vbind]; [apply IH|reflexivity|reflexivity].
Qed.
Lemma t_use_funcs_agrees l : forall c s, match use_funcs l c with
  | VOk c' => t_use_funcs l (c, s) = (VOk tt, (c', s)) | VErr => fst (t_use_funcs l (c, s)) = VErr | VPanic => fst (t_use_funcs l (c, s)) = VPanic end.
Proof.
  induction l as [|im l IH]; intros c s; [reflexivity|]. cbn [use_funcs t_use_funcs].
  unfold cv_bind, cv_read, cv_update. cbn [fst snd]. destruct (v_typeidx c (fn_ty im)) as [t| |]; cbn [vbind]; [apply IH|reflexivity|reflexivity].
Qed.

(** ** What is left after any call *)
Definition keeps {A} (P Q E : stacks -> Prop) (p : sv A) : Prop := forall s, P s ->
  match p s with (VOk _, s') => Q s' | (VErr, s') => E s' | (VPanic, _) => False end.
Lemma keeps_bind {A B} P Q R E (p : sv A) (g : A -> sv B) : keeps P Q E p -> (forall a, keeps Q R E (g a)) -> keeps P R E (sv_bind p g).
Proof.
  intros H G s HP. specialize (H s HP). unfold sv_bind. destruct (p s) as [[a| |] s']; [apply G; exact H|exact H|exact H].
Qed.
Lemma keeps_weak {A} (P P' Q Q' E E' : stacks -> Prop) (p : sv A) : keeps P Q E p -> (forall s, P' s -> P s) -> (forall s, Q s -> Q' s) -> (forall s, E s -> E' s) -> keeps P' Q' E' p.
Proof. intros H HP HQ HE s K. specialize (H s (HP s K)). destruct (p s) as [[a| |] s']; auto. Qed.
(** sound stacks with at least [n] frames *)
Definition K (n : nat) (s : stacks) : Prop := wf s /\ (n <= length (frames s))%nat.
Lemma K_less n n' s : (n' <= n)%nat -> K n s -> K n' s.
Proof. intros L [W F]. split; [assumption|lia]. Qed.
Definition stays {A} (n : nat) (p : sv A) : Prop := keeps (K n) (K n) (K n) p.
Lemma stays_bind {A B} n (p : sv A) (g : A -> sv B) : stays n p -> (forall a, stays n (g a)) -> stays n (sv_bind p g).
Proof. apply keeps_bind. Qed.
Lemma stays_run {A} n (r : vres A) : r <> VPanic -> stays n (sv_run r).
Proof. intros N s H. unfold sv_run. destruct r; [exact H|exact H|congruence]. Qed.
Lemma stays_read {A} n (f : stacks -> vres A) : (forall s, f s <> VPanic) -> stays n (sv_read f).
Proof. intros N s H. unfold sv_read. specialize (N s). destruct (f s); [exact H|exact H|congruence]. Qed.
Lemma stays_ret {A} n (a : A) : stays n (sv_ret a).
Proof. intros s H. exact H. Qed.
Lemma stays_push n op : stays n (t_push_operand op).
Proof. intros s [W F]. split; [apply wf_push; assumption|exact F]. Qed.
Lemma stays_pushes n ts : stays n (t_push_operands ts).
Proof. intros s [W F]. cbn. split; [apply wf_push_operands; assumption|]. rewrite push_operands_frames. exact F. Qed.
Lemma stays_pop n op : stays n (t_pop_operand op).
Proof.
  intros s [W F]. unfold t_pop_operand. destruct s as [ops [|fr frs]]; cbn [frames operands] in *; [split; assumption|].
  unfold wf in W. cbn in W. destruct W as [A B].
  destruct (Nat.eqb_spec (length ops) (f_height fr)) as [E|E]; cbn [andb].
  - destruct (f_unreachable fr); (split; [split; assumption|assumption]).
  - destruct ops as [|v ops]; [cbn in *; lia|]. cbn [length] in *.
    assert (G : K n (mkStacks ops (fr :: frs))) by (split; [split; [cbn; lia|assumption]|assumption]).
    destruct v as [|tv]; [exact G|]. destruct op as [|t]; [exact G|]. destruct (operand_eqb (Val tv) (Val t)); exact G.
Qed.
Lemma stays_pop_all n ts : stays n (t_pop_all ts).
Proof. induction ts as [|t ts IH]; cbn [t_pop_all]; [apply stays_ret|]. apply stays_bind; [apply stays_pop|auto]. Qed.
Lemma stays_pops n ts : stays n (t_pop_operands ts).
Proof. apply stays_pop_all. Qed.
Lemma stays_unreachable n : stays n t_unreachable.
Proof.
  intros s [W F]. unfold t_unreachable. pose proof (good_unreachable s W) as G. destruct (s_unreachable s) as [s'| |] eqn:E; cbn in G.
  - split; [exact G|]. apply unreachable_frames in E. lia.
  - split; assumption.
  - destruct G.
Qed.
Lemma keeps_push_frame n l o : keeps (K n) (K (S n)) (K n) (t_push_frame l o).
Proof. intros s [W F]. cbn. split; [apply wf_push_frame; assumption|]. cbn. lia. Qed.
(** [pop_frame] takes one frame, only if it succeeds *)
Lemma keeps_pop_frame n : keeps (K n) (K (pred n)) (K n) t_pop_frame.
Proof.
  intros s [W F]. pose proof (good_pop_frame s W) as G. pose proof (t_pop_frame_agrees s) as AG.
  assert (FR : match t_pop_frame s with (VOk _, s') => S (length (frames s')) = length (frames s) | (VErr, s') => K n s' | (VPanic, _) => False end).
  { unfold t_pop_frame. destruct (frames s) as [|fr frs] eqn:FS; [split; [assumption|rewrite FS; assumption]|].
    pose proof (stays_pops n (f_out fr) s) as ST. pose proof (t_pops_agrees (f_out fr) s) as AP. unfold sv_bind.
    destruct (t_pop_operands (f_out fr) s) as [[a| |] s'].
    - assert (KS : K n s') by (apply ST; split; [assumption|rewrite FS; assumption]). destruct (negb _); [exact KS|].
      destruct (pop_operands (f_out fr) s) as [s1| |] eqn:E; cbn in AP; try discriminate. injection AP as _ ->. apply pops_frames in E. rewrite E, FS. reflexivity.
    - apply ST. split; [assumption|rewrite FS; assumption].
    - apply ST. split; [assumption|rewrite FS; assumption]. }
  destruct (pop_frame s) as [[r s1]| |]; cbn in AG, G.
  - rewrite AG in FR |- *. split; [exact G|lia].
  - destruct (t_pop_frame s) as [[]]; try discriminate AG. exact FR.
  - destruct G.
Qed.
Lemma stays_else n : stays n t_else.
Proof.
  unfold t_else. destruct n as [|n].
  - eapply keeps_bind; [apply keeps_pop_frame|]. intros r. eapply keeps_weak; [apply (keeps_push_frame 0)|auto|intros s; apply K_less; lia|auto].
  - eapply keeps_bind; [apply keeps_pop_frame|]. intros r. cbn [pred]. intros s H. pose proof (keeps_push_frame n r r s H) as G. cbn in *. exact G.
Qed.
Lemma keeps_end n : keeps (K n) (K (pred n)) (K (pred n)) t_end.
Proof.
  apply (keeps_bind _ (K (pred n))); [|intros r; apply stays_pushes].
  eapply keeps_weak; [apply (keeps_pop_frame n)|auto|auto|]. intros s. apply K_less. lia.
Qed.
Lemma v_lookup_np {A} (xs : list A) i : v_lookup xs i <> VPanic.
Proof. apply v_lookup_no_panic. Qed.
Lemma br_table_np s fr ls : v_br_table_labels s fr ls <> VPanic.
Proof. pose proof (good_br_table s fr ls) as G. intros E. rewrite E in G. exact G. Qed.
Lemma stays_seq n v is : Forall (fun i => stays n (v i)) is -> stays n (t_seq v is).
Proof. induction 1 as [|i is H _ IH]; cbn [t_seq]; [apply stays_ret|]. apply stays_bind; auto. Qed.
Lemma occurs_in j i e : occurs j [i] -> In i e -> occurs j e.
Proof.
  intros O I. inversion O as [e' X E|y sub e' X C O' E]; destruct X as [X|[]]; subst; [apply occurs_here; exact I|eapply occurs_inside; eassumption].
Qed.
Definition unless_ends (n : nat) (e : expr) : Prop := n = 0%nat \/ ~ occurs I_End e.
Ltac stay := repeat first
  [ apply stays_ret | apply stays_pop | apply stays_pops | apply stays_push | apply stays_pushes | apply stays_unreachable | apply stays_else
  | apply stays_read; first [intros ?; apply v_labelidx_no_panic|intros ?; apply br_table_np]
  | apply stays_run; first [apply v_lookup_np|discriminate|match goal with |- match ?r with _ => _ end <> _ => destruct r; discriminate end]
  | apply stays_bind; [|intros ?]
  | match goal with |- stays _ (if ?b then _ else _) => destruct b end ].
Lemma stays_instr c i : forall n, unless_ends n [i] -> stays n (t_instr c i).
Proof.
  induction i as [i IH] using instr_children_ind. intros n U.
  assert (SQ : forall sub, In sub (children i) -> forall m, m = 0%nat \/ n <> 0%nat -> stays m (t_seq (t_instr c) sub)).
  { intros sub I m M. apply stays_seq. specialize (IH sub I). rewrite Forall_forall in IH |- *. intros j J. apply IH; [exact J|].
    destruct M as [->|M]; [left; reflexivity|]. right. destruct U as [U|U]; [congruence|]. intros O. apply U.
    eapply occurs_inside; [left; reflexivity|exact I|]. eapply occurs_in; eassumption. }
  assert (BL : forall l o is, In is (children i) -> stays n (_ <-| t_push_frame l o ;; _ <-| t_seq (t_instr c) is ;; t_end)).
  { intros l o is I. destruct n as [|n].
    - apply (keeps_bind _ (K 0)); [eapply keeps_weak; [apply (keeps_push_frame 0)|auto|intros s; apply (K_less 1 0); lia|auto]|]. intros ?.
      apply (keeps_bind _ (K 0)); [apply SQ; auto|]. intros ?. apply (keeps_end 0).
    - apply (keeps_bind _ (K (S (S n)))); [apply keeps_push_frame|]. intros ?.
      apply (keeps_bind _ (K (S (S n)))); [|intros ?; apply (keeps_end (S (S n)))].
      eapply keeps_weak; [apply (SQ is I (S (S n))); auto|auto|auto|intros s; apply K_less; lia]. }
  clear IH. destruct i; cbn [t_instr]; unfold t_load, t_store; try solve [stay].
  - apply BL. left. reflexivity.
  - apply BL. left. reflexivity.
  - apply stays_bind; [apply stays_pops|]. intros ?. destruct n as [|n].
    + apply (keeps_bind _ (K 0)); [eapply keeps_weak; [apply (keeps_push_frame 0)|auto|intros s; apply (K_less 1 0); lia|auto]|]. intros ?.
      apply (keeps_bind _ (K 0)); [apply SQ; [left; reflexivity|auto]|]. intros ?. apply (keeps_bind _ (K 0)); [apply stays_else|]. intros ?.
      apply (keeps_bind _ (K 0)); [apply SQ; [right; left; reflexivity|auto]|]. intros ?. apply (keeps_end 0).
    + apply (keeps_bind _ (K (S (S n)))); [apply keeps_push_frame|]. intros ?.
      assert (W : forall A (p : sv A), stays (S (S n)) p -> keeps (K (S (S n))) (K (S (S n))) (K (S n)) p).
      { intros A p H. eapply keeps_weak; [exact H|auto|auto|intros s; apply K_less; lia]. }
      apply (keeps_bind _ (K (S (S n)))); [apply W, SQ; [left; reflexivity|auto]|]. intros ?. apply (keeps_bind _ (K (S (S n)))); [apply W, stays_else|]. intros ?.
      apply (keeps_bind _ (K (S (S n)))); [apply W, SQ; [right; left; reflexivity|auto]|]. intros ?. apply (keeps_end (S (S n))).
  - destruct U as [->|U]; [apply (keeps_end 0)|]. exfalso. apply U. apply occurs_here. left. reflexivity.
Qed.
Lemma unless_in n e i : unless_ends n e -> In i e -> unless_ends n [i].
Proof.
  intros [->|U] I; [left; reflexivity|right]. intros O. apply U. eapply occurs_in; eassumption.
Qed.
Lemma stays_expr c e n : unless_ends n e -> stays n (t_expr c e).
Proof. intros U. apply stays_seq. apply Forall_forall. intros i I. apply stays_instr. eapply unless_in; eassumption. Qed.
(** constants leave frames alone *)
Lemma stays_constexpr c e n : stays n (t_constexpr c e).
Proof.
  induction e as [|i e IH]; cbn [t_constexpr]; [apply stays_ret|]. destruct (v_const_check c i) as [[]| |] eqn:E.
  - apply stays_bind; [apply stays_run; discriminate|]. intros ?. apply stays_bind; [|auto]. apply stays_instr. right.
    intros O. destruct i; try discriminate E; inversion O as [? X|y sub ? X C O']; subst; destruct X as [X|[]]; try discriminate X; subst; destruct C.
  - intros s H. exact H.
  - exfalso. destruct i; try discriminate E. cbn [v_const_check] in E. unfold v_globalidx in E.
    match type of E with context [v_lookup ?l ?x] => pose proof (v_lookup_np l x) as N; destruct (v_lookup l x) end; cbn in E; [|discriminate|congruence].
    destruct (negb _) in E; discriminate.
Qed.

(** ** Calls *)
Definition keepc {A} (P Q E : vctx -> Prop) (p : cv A) : Prop := forall cs, P cs ->
  match p cs with (VOk _, cs') => Q cs' | (VErr, cs') => E cs' | (VPanic, _) => False end.
Lemma keepc_bind {A B} P Q R E (p : cv A) (g : A -> cv B) : keepc P Q E p -> (forall a, keepc Q R E (g a)) -> keepc P R E (cv_bind p g).
Proof.
  intros H G s HP. specialize (H s HP). unfold cv_bind. destruct (p s) as [[a| |] s']; [apply G; exact H|exact H|exact H].
Qed.
Lemma keepc_weak {A} (P P' Q Q' E E' : vctx -> Prop) (p : cv A) : keepc P Q E p -> (forall s, P' s -> P s) -> (forall s, Q s -> Q' s) -> (forall s, E s -> E' s) -> keepc P' Q' E' p.
Proof. intros H HP HQ HE s W. specialize (H s (HP s W)). destruct (p s) as [[a| |] s']; auto. Qed.
Definition J (C : context -> Prop) (n : nat) (cs : vctx) : Prop := C (fst cs) /\ K n (snd cs).
Definition stayc {A} C n (p : cv A) : Prop := keepc (J C n) (J C n) (J C n) p.
Lemma stayc_bind {A B} C n (p : cv A) (g : A -> cv B) : stayc C n p -> (forall a, stayc C n (g a)) -> stayc C n (cv_bind p g).
Proof. apply keepc_bind. Qed.
Lemma stayc_ret {A} C n (a : A) : stayc C n (cv_ret a).
Proof. intros cs H. exact H. Qed.
Lemma stayc_read {A} C n (f : vctx -> vres A) : (forall cs, f cs <> VPanic) -> stayc C n (cv_read f).
Proof. intros N s H. unfold cv_read. specialize (N s). destruct (f s); [exact H|exact H|congruence]. Qed.
Lemma stayc_update (C : context -> Prop) n f : (forall c, C c -> C (f c)) -> stayc C n (cv_update f).
Proof. intros H cs [A B]. split; [apply H; exact A|exact B]. Qed.
Lemma keepc_stacks {A} C P Q E (p : context -> sv A) : (forall c, keeps P Q E (p c)) ->
  keepc (fun cs => C (fst cs) /\ P (snd cs)) (fun cs => C (fst cs) /\ Q (snd cs)) (fun cs => C (fst cs) /\ E (snd cs)) (cv_stacks p).
Proof.
  intros H cs [X Y]. specialize (H (fst cs) (snd cs) Y). unfold cv_stacks. destruct (p (fst cs) (snd cs)) as [[a| |] s']; cbn [fst snd] in *; auto.
Qed.
Lemma stayc_stacks {A} C n (p : context -> sv A) : (forall c, stays n (p c)) -> stayc C n (cv_stacks p).
Proof. apply keepc_stacks. Qed.
Lemma stayc_void {A} C n (p : cv A) : stayc C n p -> stayc C n (cv_void p).
Proof. intros H. apply stayc_bind; [exact H|intros; apply stayc_ret]. Qed.
Lemma stayc_empty C n : stayc C n t_check_empty.
Proof. apply stayc_read. intros cs. destruct (stacks_not_empty _); discriminate. Qed.

(** A frame around something that keeps it *)
Lemma stayc_framed {A} C n r (p : context -> sv A) (rest : cv unit) : (forall c m, m = 0%nat \/ n <> 0%nat -> stays m (p c)) -> stayc C n rest ->
  stayc C n (_ <=| cv_stacks (fun _ => t_push_frame r r) ;; _ <=| cv_stacks p ;; _ <=| cv_stacks (fun _ => t_pop_frame) ;; rest).
Proof.
  intros H R. destruct n as [|n].
  - apply (keepc_bind _ (J C 0)).
    { apply keepc_stacks. intros c. eapply keeps_weak; [apply (keeps_push_frame 0)|auto|intros s; apply (K_less 1 0); lia|auto]. }
    intros ?. apply stayc_bind; [apply stayc_stacks; auto|]. intros ?. apply stayc_bind; [|intros ?; exact R].
    apply stayc_stacks. intros c. apply (keeps_pop_frame 0).
  - apply (keepc_bind _ (J C (S (S n)))); [apply keepc_stacks; intros c; apply keeps_push_frame|]. intros ?.
    apply (keepc_bind _ (J C (S (S n)))).
    { apply keepc_stacks. intros c. eapply keeps_weak; [apply (H c (S (S n))); right; discriminate|auto|auto|intros s; apply K_less; lia]. }
    intros ?. apply (keepc_bind _ (J C (S n))); [|intros ?; exact R].
    apply keepc_stacks. intros c. eapply keeps_weak; [apply (keeps_pop_frame (S (S n)))|auto|auto|intros s; apply K_less; lia].
Qed.
(** what only reads or sets the locals and the result type *)
Definition loose (C : context -> Prop) : Prop := forall c l r, C c -> C (set_locals c l) /\ C (set_ret c r).
Lemma stayc_func C n f : loose C -> unless_ends n (fn_body f) -> stayc C n (t_func f).
Proof.
  intros LC U. unfold t_func. apply stayc_bind; [apply stayc_read; intros cs; apply v_lookup_np|]. intros t. cbv zeta.
  apply stayc_bind; [apply stayc_update; intros c X; apply (LC c []); exact X|]. intros ?.
  apply stayc_bind; [apply stayc_update; intros c X; apply (LC c _ None); exact X|]. intros ?.
  assert (G : stayc C n ((_ <=| cv_stacks (fun _ => t_push_frame (ft_results t) (ft_results t)) ;; _ <=| cv_stacks (fun c => t_expr c (fn_body f)) ;;
    _ <=| cv_stacks (fun _ => t_pop_frame) ;; (_ <=| t_check_empty ;; _ <=| cv_update (fun c => set_locals c []) ;; cv_update (fun c => set_ret c None))))).
  { apply stayc_framed.
    - intros c m M. apply stays_expr. destruct U as [U|U]; [|right; exact U]. left. destruct M as [M|M]; [exact M|congruence].
    - apply stayc_bind; [apply stayc_empty|]. intros ?. apply stayc_bind; [apply stayc_update; intros c X; apply (LC c _ None); exact X|]. intros ?.
      apply stayc_update; intros c X; apply (LC c []); exact X. }
  intros cs H. specialize (G cs H). revert G. unfold cv_bind, cv_ret.
  destruct (cv_stacks (fun _ => t_push_frame (ft_results t) (ft_results t)) cs) as [[u1| |] cs1]; auto.
  destruct (cv_stacks (fun c => t_expr c (fn_body f)) cs1) as [[u2| |] cs2]; auto.
  destruct (cv_stacks (fun _ => t_pop_frame) cs2) as [[u3| |] cs3]; auto.
  destruct (t_check_empty cs3) as [[u4| |] cs4]; auto.
Qed.
Lemma stayc_const_body C n r e : stayc C n (t_const_body r e).
Proof. apply stayc_framed; [intros c m _; apply stays_constexpr|apply stayc_empty]. Qed.
Lemma stayc_global C n g : stayc C n (t_global g).
Proof.
  unfold t_global. apply stayc_bind; [apply stayc_read; discriminate|]. intros ?. apply stayc_bind; [apply stayc_const_body|intros ?; apply stayc_ret].
Qed.
Lemma good_np {A} (P : A -> Prop) r : good P r -> r <> VPanic.
Proof. intros G E. rewrite E in G. exact G. Qed.
Lemma stayc_elem C n e : stayc C n (t_elem e).
Proof.
  unfold t_elem. apply stayc_bind; [apply stayc_read; intros; apply v_lookup_np|]. intros t.
  apply stayc_bind; [apply stayc_read; intros; destruct (negb _); discriminate|]. intros ?.
  apply stayc_bind; [apply stayc_const_body|]. intros ?. apply stayc_read. intros cs. eapply good_np, good_elem_init.
Qed.
Lemma stayc_data C n d : stayc C n (t_data d).
Proof. unfold t_data. apply stayc_bind; [apply stayc_read; intros; apply v_lookup_np|]. intros ?. apply stayc_const_body. Qed.
