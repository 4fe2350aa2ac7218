(** How long reading a file takes (C88). *)
From Coq Require Import Lia.
From Verif Require Import ParserCost SpecParser ParserMeta TypesProof InstrProof ModuleProof SectionsProof ModuleClaims TimeProof EncodeProof StackProof SpecFormat SpecSteps.
Open Scope N_scope.
Local Notation W := whasm_format.
Lemma len_app {A} (a b : list A) : len (a ++ b) = len a + len b. Proof. unfold len. rewrite app_length. lia. Qed.
Lemma len_cons {A} (a : A) b : len (a :: b) = 1 + len b. Proof. unfold len. cbn [length]. lia. Qed.
Lemma len_nil {A} : len (@nil A) = 0. Proof. reflexivity. Qed.

(** ** Parsers that take the time they should *)
Definition pays {A} (R : takes A) (a : lp A) : Prop := forall c v e r, R c v e ->
  exists k, a (c ++ r) = ((Ok v, r), k) /\ calls k = len c /\ steps_taken k = len c + e.
(** the same for parsers that are given exactly their bytes, and call [x] times more *)
Definition pays_all {A} (x : N) (R : takes A) (a : lp A) : Prop := forall c v e, R c v e ->
  exists k, a c = ((Ok v, []), k) /\ calls k = len c + x /\ steps_taken k = len c + e.
Lemma then_ok {A B} (a : lp A) (f : A -> lp B) bs x r1 k1 y r2 k2 : a bs = ((Ok x, r1), k1) -> f x r1 = ((Ok y, r2), k2) -> l_bind a f bs = ((Ok y, r2), cost_add k1 k2).
Proof. intros H1 H2. unfold l_bind. rewrite H1. cbv zeta. rewrite H2. reflexivity. Qed.
Lemma ret_ok {A} (x : A) bs : l_ret x bs = ((Ok x, bs), no_cost). Proof. reflexivity. Qed.
Lemma steps_ok n bs : l_steps n bs = ((Ok tt, bs), mkCost 0 n 0). Proof. reflexivity. Qed.
Global Hint Rewrite @len_app @len_cons @len_nil : len.
Ltac costs := unfold cost_add, no_cost, no_others in *; cbn [calls steps_taken copies] in *; autorewrite with len in *; try lia.
Lemma pays_run {A} (p : parser A) E : exact p E -> pays (takes_just E no_others) (l_run p).
Proof.
  intros X c v e r [H ->]. assert (P : p (c ++ r) = (Ok v, r)) by (apply X; eauto). unfold l_run. rewrite P. eexists. split; [reflexivity|].
  unfold pulls. cbn [fst snd calls steps_taken]. rewrite app_length. replace (length c + length r - length r)%nat with (length c) by lia. unfold len, no_others. lia.
Qed.
Lemma run_pays {A} (p : parser A) E c v r : exact p E -> E c v -> exists k, l_run p (c ++ r) = ((Ok v, r), k) /\ calls k = len c /\ steps_taken k = len c.
Proof. intros X H. destruct (pays_run p E X c v 0 r (conj H eq_refl)) as (k & P & C & T). exists k. split; [exact P|]. costs. Qed.
Lemma pays_times {A} (R : takes A) a : pays R a -> forall es xs e, each R es xs e -> forall r,
  exists k, l_times (length xs) a (es ++ r) = ((Ok xs, r), k) /\ calls k = len es /\ steps_taken k = len es + e.
Proof.
  intros PA. induction 1 as [|b x e bs xs e' H _ IH]; intros r; cbn [length l_times].
  - eexists. split; [reflexivity|]. split; reflexivity.
  - rewrite <- app_assoc. destruct (PA b x e (bs ++ r) H) as (k1 & P1 & C1 & T1). destruct (IH r) as (k2 & P2 & C2 & T2). eexists. split.
    { eapply then_ok; [apply steps_ok|]. eapply then_ok; [exact P1|]. eapply then_ok; [apply steps_ok|]. eapply then_ok; [exact P2|]. apply ret_ok. }
    costs.
Qed.
Lemma pays_vec {A} (R : takes A) a : pays R a -> pays (vec_takes R) (l_vec a).
Proof.
  intros PA c xs e r (n & es & -> & U & H). destruct (run_pays p_u32 _ n _ (es ++ r) exact_u32 U) as (k1 & P1 & C1 & T1).
  destruct (pays_times R a PA _ _ _ H r) as (k2 & P2 & C2 & T2). rewrite <- app_assoc. eexists. split.
  { eapply then_ok; [exact P1|]. unfold len. rewrite Nat2N.id. exact P2. } costs.
Qed.
Lemma pays_unwrapping_vec {A B} (Q : takes B) a (u : A -> B) : pays Q (x <=. a ;; l_ret (u x)) -> pays (vec_takes Q) (l_unwrapping_vec a u).
Proof. intros P. exact (pays_vec Q (x <=. a ;; l_ret (u x)) P). Qed.
Lemma pays_map {A B} (R : takes A) (Q : takes B) a (u : A -> B) : pays R a -> (forall c y e, Q c y e -> exists x, R c x e /\ y = u x) -> pays Q (x <=. a ;; l_ret (u x)).
Proof.
  intros PA F c y e r H. destruct (F _ _ _ H) as (x & H1 & ->). destruct (PA c x e r H1) as (k & P & C & T). eexists. split; [eapply then_ok; [exact P|apply ret_ok]|]. costs.
Qed.
Lemma pays_sized_more {A} x (R : takes A) a : pays_all x R a -> forall c v e r, sized_takes R c v e ->
  exists k, l_sized a (c ++ r) = ((Ok v, r), k) /\ calls k = len c /\ steps_taken k = len c + e + 2 * x.
Proof.
  intros PA c v e r (n & ct & e1 & -> & U & H & ->). destruct (run_pays p_u32 _ n _ (ct ++ r) exact_u32 U) as (k1 & P1 & C1 & T1).
  destruct (PA ct v e1 H) as (k2 & P2 & C2 & T2). rewrite <- app_assoc. eexists. split.
  { eapply then_ok; [exact P1|]. cbv zeta.
    assert (F1 : firstn (N.to_nat (len ct)) (ct ++ r) = ct) by (unfold len; rewrite Nat2N.id, firstn_app, firstn_all, Nat.sub_diag; cbn [firstn]; apply app_nil_r).
    assert (F2 : skipn (N.to_nat (len ct)) (ct ++ r) = r) by (unfold len; rewrite Nat2N.id, skipn_app, skipn_all, Nat.sub_diag; reflexivity).
    rewrite F1, F2, P2. cbn [fst snd length]. rewrite Nat.sub_0_r. fold (len ct). rewrite N.eqb_refl. cbn [negb app]. reflexivity. }
  costs.
Qed.
Lemma pays_all_of {A} (R : takes A) a : pays R a -> pays_all 0 R a.
Proof. intros PA c v e H. destruct (PA c v e [] H) as (k & P & C & T). rewrite app_nil_r in P. exists k. split; [exact P|]. costs. Qed.
Lemma pays_sized {A} (R : takes A) a : pays R a -> pays (sized_takes R) (l_sized a).
Proof. intros PA c v e r H. destruct (pays_sized_more 0 R a (pays_all_of R a PA) c v e r H) as (k & P & C & T). exists k. split; [exact P|]. costs. Qed.
Lemma each_just {A} (E : format A) es xs : enc_list E es xs -> each (takes_just E no_others) es xs (2 * len xs).
Proof.
  intros (cs & F & ->). induction F as [|c x cs xs H F IH]; [constructor|]. cbn [concat]. replace (2 * len (x :: xs)) with (0 + 2 + 2 * len xs) by costs.
  constructor; [split; [exact H|reflexivity]|exact IH].
Qed.
Lemma vec_just {A} (E : format A) c xs : enc_vec W E c xs -> vec_takes (takes_just E no_others) c xs (2 * len xs).
Proof. intros (n & es & -> & U & L). exists n, es. split; [reflexivity|]. split; [exact U|]. apply each_just, L. Qed.
Lemma vec_pays {A} (p : parser A) E c xs r : exact p E -> enc_vec W E c xs ->
  exists k, l_vec (l_run p) (c ++ r) = ((Ok xs, r), k) /\ calls k = len c /\ steps_taken k = len c + 2 * len xs.
Proof. intros X H. exact (pays_vec _ _ (pays_run p E X) c xs _ r (vec_just E c xs H)). Qed.
Lemma bytes_pay c (xs : list byte) r : enc_vec W enc_byte c xs ->
  exists k, l_unwrapping_vec (l_run p_byte) (fun b => b) (c ++ r) = ((Ok xs, r), k) /\ calls k = len c /\ steps_taken k = len c + 2 * len xs.
Proof.
  intros H. apply (pays_unwrapping_vec (takes_just enc_byte no_others)); [|apply vec_just, H].
  apply (pays_map (takes_just enc_byte no_others)); [apply pays_run, exact_byte'|]. intros c0 y e Q. eauto.
Qed.
Lemma pays_string : pays (takes_just (enc_name W) name_others) l_string.
Proof.
  intros c n e r [[H U] ->]. destruct (bytes_pay c n r H) as (k & P & C & T). unfold name_others. eexists. split.
  { eapply then_ok; [exact P|]. eapply then_ok; [apply steps_ok|]. replace (utf8_valid n) with true; [apply ret_ok|]. symmetry. apply utf8_valid_sound. exact U. }
  fold (len n). costs.
Qed.
Lemma pays_retval : pays (takes_just enc_blockty (fun r => len r)) l_retval.
Proof.
  intros c v e r [H ->]. destruct (run_pays p_retval _ c v r exact_retval H) as (k & P & C & T). eexists. split.
  { eapply then_ok; [exact P|]. eapply then_ok; [apply steps_ok|]. apply ret_ok. } fold (len v). costs.
Qed.
Lemma byte_ok b bs : l_run p_byte (b :: bs) = ((Ok b, bs), mkCost 1 1 0).
Proof. unfold l_run, pulls. cbn [p_byte fst snd length]. replace (S (length bs) - length bs)%nat with 1%nat by lia. reflexivity. Qed.
Lemma pays_functy : pays functy_takes l_functy.
Proof.
  intros c [ps rs] e r [H ->]. destruct H as (pb & rb & -> & H1 & H2). cbn [ft_params ft_results] in *.
  destruct (vec_pays p_valty _ pb ps (rb ++ r) exact_valty H1) as (k1 & P1 & C1 & T1). destruct (vec_pays p_valty _ rb rs r exact_valty H2) as (k2 & P2 & C2 & T2).
  cbn [app]. rewrite <- app_assoc. eexists. split.
  { eapply then_ok; [apply byte_ok|]. cbv beta iota. eapply then_ok; [exact P1|]. eapply then_ok; [exact P2|]. apply ret_ok. } cbn [ft_params ft_results]. costs.
Qed.

(** ** Code *)
Scheme instr_takes_mut := Induction for instr_takes Sort Prop with code_takes_mut := Induction for code_takes Sort Prop.
Combined Scheme takes_mut from instr_takes_mut, code_takes_mut.
Lemma simple_opcode sub b : b <> x02 -> b <> x03 -> b <> x04 -> b <> x0e -> l_opcode sub b = l_run (p_opcode out_of_fuel b).
Proof. intros N2 N3 N4 N5. destruct b; first [contradiction|reflexivity]. Qed.
Lemma simple_opcode' sub sub' b : b <> x02 -> b <> x03 -> b <> x04 -> p_opcode sub b = p_opcode sub' b.
Proof. intros N2 N3 N4. destruct b; first [contradiction|reflexivity]. Qed.
Lemma token_ok f tb t r : terminator [tb] t -> l_instr (S f) (tb :: r) = ((Ok t, r), mkCost 1 1 0).
Proof.
  intros [[T ->]|[T ->]]; injection T as ->; cbn [l_instr]; unfold l_bind; rewrite byte_ok; cbn [l_opcode]; unfold l_run; cbn [p_opcode ret]; unfold pulls; cbn [fst snd];
  rewrite Nat.sub_diag; reflexivity.
Qed.
Lemma sub_again f acc : l_subexpr (S f) acc =
  (_ <=. l_steps 1 ;; next <=. l_instr f ;; match next with I_End => l_ret (acc, next) | I_Else => l_ret (acc, next) | _ => _ <=. l_steps 1 ;; l_subexpr f (acc ++ [next]) end).
Proof. reflexivity. Qed.
Lemma code_pays :
  (forall c i e, instr_takes c i e -> forall fuel r, (2 * length c + 1 <= fuel)%nat ->
    exists k, l_instr fuel (c ++ r) = ((Ok i, r), k) /\ calls k = len c /\ steps_taken k = len c + e) /\
  (forall c is e, code_takes c is e -> forall fuel acc tb t r, terminator [tb] t -> (2 * length c + 2 <= fuel)%nat ->
    exists k, l_subexpr fuel acc (c ++ tb :: r) = ((Ok (acc ++ is, t), r), k) /\ calls k = len c + 1 /\ steps_taken k = len c + 1 + e + 1).
Proof.
  assert (END : terminator [x0b] I_End) by (left; auto). assert (ELSE : terminator [x05] I_Else) by (right; auto).
  assert (BL : forall (mk : retval -> list instr -> instr) b rt is rtb isb k, (forall sub, l_opcode sub b = (a <=. l_retval ;; b <=. l_expr_of sub ;; l_ret (mk a b))) ->
    enc_blockty rtb rt -> (forall fuel acc tb t r, terminator [tb] t -> (2 * length isb + 2 <= fuel)%nat ->
      exists k0, l_subexpr fuel acc (isb ++ tb :: r) = ((Ok (acc ++ is, t), r), k0) /\ calls k0 = len isb + 1 /\ steps_taken k0 = len isb + 1 + k + 1) ->
    forall fuel r, (2 * length (b :: rtb ++ isb ++ [x0b]) + 1 <= fuel)%nat ->
    exists k0, l_instr fuel ((b :: rtb ++ isb ++ [x0b]) ++ r) = ((Ok (mk rt is), r), k0) /\ calls k0 = len (b :: rtb ++ isb ++ [x0b]) /\
      steps_taken k0 = len (b :: rtb ++ isb ++ [x0b]) + (len rt + k + 1)).
  { intros mk b rt is rtb isb k O R IH fuel r L. cbn [length] in L. rewrite !app_length in L. cbn [length] in L. destruct fuel as [|f]; [lia|].
    cbn [app l_instr]. rewrite <- !app_assoc. cbn [app]. destruct (pays_retval rtb rt _ (isb ++ x0b :: r) (conj R eq_refl)) as (k1 & P1 & C1 & T1).
    destruct (IH f [] x0b I_End r END ltac:(lia)) as (k2 & P2 & C2 & T2). eexists. split.
    { eapply then_ok; [apply byte_ok|]. rewrite O. eapply then_ok; [exact P1|]. eapply then_ok; [eapply then_ok; [exact P2|apply ret_ok]|]. apply ret_ok. } costs. }
  apply takes_mut.
  - intros rt is rtb isb k R _ IH. exact (BL I_Block x02 rt is rtb isb k (fun _ => eq_refl) R IH).
  - intros rt is rtb isb k R _ IH. exact (BL I_Loop x03 rt is rtb isb k (fun _ => eq_refl) R IH).
  - intros rt is rtb isb k R _ IH fuel r L. cbn [length] in L. rewrite !app_length in L. cbn [length] in L. destruct fuel as [|f]; [lia|].
    cbn [app l_instr]. rewrite <- !app_assoc. cbn [app]. destruct (pays_retval rtb rt _ (isb ++ x0b :: r) (conj R eq_refl)) as (k1 & P1 & C1 & T1).
    destruct (IH f [] x0b I_End r END ltac:(lia)) as (k2 & P2 & C2 & T2). eexists. split.
    { eapply then_ok; [apply byte_ok|]. cbn [l_opcode]. eapply then_ok; [exact P1|]. eapply then_ok; [exact P2|]. cbv beta iota. cbn [is_else].
      eapply then_ok; [apply ret_ok|]. cbv beta iota. cbn [is_end app]. apply ret_ok. } costs.
  - intros rt is is' rtb isb isb' k k' R _ IH _ IH' fuel r L. cbn [length] in L. rewrite !app_length in L. cbn [length] in L.
    destruct fuel as [|f]; [lia|].
    cbn [app l_instr]. rewrite <- !app_assoc. cbn [app]. destruct (pays_retval rtb rt _ (isb ++ x05 :: isb' ++ x0b :: r) (conj R eq_refl)) as (k1 & P1 & C1 & T1).
    destruct (IH f [] x05 I_Else (isb' ++ x0b :: r) ELSE ltac:(lia)) as (k2 & P2 & C2 & T2).
    destruct (IH' f [] x0b I_End r END ltac:(lia)) as (k3 & P3 & C3 & T3). eexists. split.
    { eapply then_ok; [apply byte_ok|]. cbn [l_opcode]. rewrite <- app_assoc. eapply then_ok; [exact P1|]. eapply then_ok; [exact P2|]. cbv beta iota. cbn [is_else].
      eapply then_ok; [exact P3|]. cbv beta iota. cbn [is_end app]. apply ret_ok. } costs.
  - intros ls l bs H fuel r L. inversion H as [i op E|i op x xb E|i op al off ab ob E|ls' l' lsb lb V U| | | | | | | | | | | ]; subst; try discriminate.
    destruct fuel as [|f]; [lia|]. cbn [app l_instr]. rewrite <- app_assoc.
    destruct (vec_pays p_labelidx _ lsb ls (lb ++ r) exact_u32 V) as (k1 & P1 & C1 & T1). destruct (run_pays p_labelidx _ lb l r exact_u32 U) as (k2 & P2 & C2 & T2).
    eexists. split.
    { eapply then_ok; [apply byte_ok|]. cbn [l_opcode]. eapply then_ok; [exact P1|]. eapply then_ok; [exact P2|]. apply ret_ok. } unfold labelidx, u32 in *. costs.
  - intros i bs H N1 N2 N3 N4 fuel r L. pose proof (proj1 complete_instr_sub _ _ H fuel r L) as P. destruct fuel as [|f]; [lia|].
    pose proof (enc_instr_length _ _ _ H) as LB. destruct bs as [|b bs]; [cbn in LB; lia|]. cbn [app l_instr] in *. change (p_opcode (p_subexpr f []) b (bs ++ r) = (Ok i, r)) in P.
    assert (NN : b <> x02 /\ b <> x03 /\ b <> x04 /\ b <> x0e).
    { repeat split; intros ->; cbn [p_opcode] in P.
      - u32_sound. destruct (N1 _ _ eq_refl). 
      - u32_sound. destruct (N2 _ _ eq_refl).
      - apply bind_ok in P. destruct P as (a & r1 & _ & P). apply bind_ok in P. destruct P as ([e1 t1] & r2 & _ & P). apply bind_ok in P. destruct P as ([e2 t2] & r3 & _ & P).
        destruct (is_end t2); [|discriminate]. injection P as <- _. destruct (N3 _ _ _ eq_refl).
      - apply bind_ok in P. destruct P as (a & r1 & _ & P). apply bind_ok in P. destruct P as (b & r2 & _ & P). injection P as <- _. destruct (N4 _ _ eq_refl). }
    destruct NN as (M1 & M2 & M3 & M4). rewrite (simple_opcode' _ out_of_fuel b M1 M2 M3) in P. eexists. split.
    { eapply then_ok; [apply byte_ok|]. rewrite (simple_opcode _ b M1 M2 M3 M4). unfold l_run. rewrite P. reflexivity. }
    unfold pulls. cbn [fst snd]. rewrite app_length. replace (length bs + length r - length r)%nat with (length bs) by lia. fold (len bs). costs.
  - intros fuel acc tb t r T L. destruct fuel as [|fuel]; [cbn in L; lia|]. destruct fuel as [|f]; [cbn in L; lia|]. remember (S f) as g eqn:EG. rewrite app_nil_r. eexists. split.
    { cbn [app]. rewrite sub_again. eapply then_ok; [apply steps_ok|]. subst g. eapply then_ok; [apply token_ok; exact T|].
      destruct T as [[_ ->]|[_ ->]]; apply ret_ok. } costs.
  - intros i is ib isb k k' H IH H' IH' fuel acc tb t r T L. rewrite app_length in L. destruct fuel as [|f]; [lia|]. rewrite <- app_assoc.
    destruct (IH f (isb ++ tb :: r) ltac:(lia)) as (k1 & P1 & C1 & T1).
    assert (LI : (1 <= length ib)%nat) by (destruct H; try (cbn [length]; lia); eapply enc_instr_length; eassumption).
    destruct (IH' f (acc ++ [i]) tb t r T ltac:(lia)) as (k2 & P2 & C2 & T2). rewrite <- app_assoc in P2. cbn [app] in P2. 
    assert (NT : i <> I_End /\ i <> I_Else).
    { destruct H; try (split; discriminate). eapply enc_instr_not_term; eassumption. }
    eexists. split.
    { rewrite sub_again. eapply then_ok; [apply steps_ok|]. eapply then_ok; [exact P1|].
      instantiate (1 := cost_add (mkCost 0 1 0) k2). assert (Q : (_ <=. l_steps 1 ;; l_subexpr f (acc ++ [i])) (isb ++ tb :: r) = ((Ok (acc ++ i :: is, t), r), cost_add (mkCost 0 1 0) k2))
        by (eapply then_ok; [apply steps_ok|exact P2]).
      destruct NT as [NT1 NT2]. destruct i; try (exact Q); contradiction. }
    costs.
Qed.
Lemma pays_expr : pays expr_takes l_expr.
Proof.
  intros c e n r (isb & k' & -> & H & ->). unfold l_expr. rewrite <- app_assoc. cbn [app].
  destruct (proj2 code_pays _ _ _ H (fuel_for (length (isb ++ x0b :: r))) [] x0b I_End r) as (k & P & C & T); [left; auto|unfold fuel_for; rewrite app_length; cbn [length]; lia|].
  eexists. split; [eapply then_ok; [exact P|apply ret_ok]|]. costs.
Qed.

(** ** The parts of sections *)
Lemma runs_pay rs : forall rb, enc_list (enc_run W) rb rs -> forall acc r,
  exists k, l_runs (length rs) (l_run p_valty) acc (rb ++ r) = ((Ok (acc ++ expand_runs rs), r), k) /\ calls k = len rb /\ steps_taken k = len rb + len rs.
Proof.
  induction rs as [|[n t] rs IH]; intros rb (cs & F & ->) acc r; inversion F as [|c x cs' xs H F']; subst; cbn [length l_runs].
  - rewrite app_nil_r. eexists. split; [apply ret_ok|]. costs.
  - destruct H as (nb & tb & -> & U & V). cbn [fst snd] in *. cbn [concat]. rewrite <- !app_assoc.
    destruct (run_pays p_u32 _ nb n (tb ++ concat cs' ++ r) exact_u32 U) as (k1 & P1 & C1 & T1).
    destruct (run_pays p_valty _ tb t (concat cs' ++ r) exact_valty V) as (k2 & P2 & C2 & T2).
    destruct (IH (concat cs') (ex_intro _ cs' (conj F' eq_refl)) (acc ++ repeat t (N.to_nat n)) r) as (k3 & P3 & C3 & T3).
    unfold expand_runs in *. cbn [flat_map fst snd]. rewrite (app_assoc acc). eexists. split.
    { eapply then_ok; [apply steps_ok|]. eapply then_ok; [exact P1|]. eapply then_ok; [exact P2|]. eapply then_ok; [reflexivity|]. exact P3. } costs.
Qed.
Lemma pays_func : pays (fun bs f k => fn_ty f = 0 /\ body_takes bs (fn_locals f, fn_body f) k) l_func.
Proof.
  intros c [ty ls e] n r (HT & rb & eb & gs & k' & -> & (nb & es & -> & U & L) & E & H & ->). cbn [fst snd fn_locals fn_body fn_ty] in *. subst ty ls.
  destruct (run_pays p_u32 _ nb _ (es ++ eb ++ r) exact_u32 U) as (k1 & P1 & C1 & T1). destruct (runs_pay gs es L [] (eb ++ r)) as (k2 & P2 & C2 & T2).
  destruct (pays_expr eb e k' r H) as (k3 & P3 & C3 & T3). rewrite <- !app_assoc. eexists. split.
  { eapply then_ok; [eapply then_ok; [exact P1|rewrite Nat2N.id; exact P2]|]. eapply then_ok; [exact P3|]. apply ret_ok. } costs.
Qed.
Lemma pays_global : pays global_takes l_global.
Proof.
  intros c [t i] n r (tb & eb & -> & H1 & H2). cbn [glob_ty glob_init] in *. rewrite <- app_assoc.
  destruct (run_pays p_globalty _ tb t (eb ++ r) exact_globalty H1) as (k1 & P1 & C1 & T1). destruct (pays_expr eb i n r H2) as (k2 & P2 & C2 & T2). eexists. split.
  { eapply then_ok; [exact P1|]. eapply then_ok; [exact P2|]. apply ret_ok. } costs.
Qed.
Lemma pays_elem : pays elem_takes l_elem.
Proof.
  intros c [t o i] n r (xb & ob & ib & k' & -> & H1 & H2 & H3 & ->). cbn [el_table el_offset el_init] in *. rewrite <- !app_assoc.
  destruct (run_pays p_tableidx _ xb t (ob ++ ib ++ r) exact_u32 H1) as (k1 & P1 & C1 & T1). destruct (pays_expr ob o k' (ib ++ r) H2) as (k2 & P2 & C2 & T2).
  destruct (vec_pays p_funcidx _ ib i r exact_u32 H3) as (k3 & P3 & C3 & T3). eexists. split.
  { eapply then_ok; [exact P1|]. eapply then_ok; [exact P2|]. eapply then_ok; [exact P3|]. apply ret_ok. } unfold funcidx, u32 in *. costs.
Qed.
Lemma pays_data : pays data_takes l_data.
Proof.
  intros c [t o i] n r (xb & ob & ib & k' & -> & H1 & H2 & H3 & ->). cbn [da_mem da_offset da_init] in *. rewrite <- !app_assoc.
  destruct (run_pays p_memidx _ xb t (ob ++ ib ++ r) exact_u32 H1) as (k1 & P1 & C1 & T1). destruct (pays_expr ob o k' (ib ++ r) H2) as (k2 & P2 & C2 & T2).
  destruct (bytes_pay ib i r H3) as (k3 & P3 & C3 & T3). eexists. split.
  { eapply then_ok; [exact P1|]. eapply then_ok; [exact P2|]. eapply then_ok; [exact P3|]. apply ret_ok. } costs.
Qed.
Lemma pays_import : pays import_takes l_import.
Proof.
  intros c [m n d] e r [(mb & nb & db & -> & H1 & H2 & H3) ->]. cbn [im_module im_name im_desc] in *. rewrite <- !app_assoc.
  destruct (pays_string mb m _ (nb ++ db ++ r) (conj H1 eq_refl)) as (k1 & P1 & C1 & T1). destruct (pays_string nb n _ (db ++ r) (conj H2 eq_refl)) as (k2 & P2 & C2 & T2).
  destruct (run_pays p_importdesc _ db d r exact_importdesc H3) as (k3 & P3 & C3 & T3). eexists. split.
  { eapply then_ok; [exact P1|]. eapply then_ok; [exact P2|]. eapply then_ok; [exact P3|]. apply ret_ok. } costs.
Qed.
Lemma pays_export : pays export_takes l_export.
Proof.
  intros c [n d] e r [(nb & db & -> & H2 & H3) ->]. cbn [ex_name ex_desc] in *. rewrite <- !app_assoc.
  destruct (pays_string nb n _ (db ++ r) (conj H2 eq_refl)) as (k2 & P2 & C2 & T2).
  destruct (run_pays p_exportdesc _ db d r exact_exportdesc H3) as (k3 & P3 & C3 & T3). eexists. split.
  { eapply then_ok; [exact P2|]. eapply then_ok; [exact P3|]. apply ret_ok. } costs.
Qed.
Lemma pays_custom : pays_all 1 (fun bs y k => exists c, enc_custom W bs c /\ y = (fst c, len (snd c)) /\ k = name_others (fst c) + 1) l_custom.
Proof.
  intros bs y k ([n rest] & (nb & -> & H) & -> & ->). cbn [fst snd] in *. destruct (pays_string nb n _ rest (conj H eq_refl)) as (k2 & P2 & C2 & T2). eexists. split.
  { eapply then_ok; [exact P2|]. eapply then_ok; [reflexivity|]. apply ret_ok. } fold (len rest). costs.
Qed.

(** ** Sections *)
Lemma id_is id b : Byte.to_N id = Byte.to_N b -> id = b.
Proof. intros H. apply (f_equal Byte.of_N) in H. rewrite !Byte.of_to_N in H. injection H as ->. reflexivity. Qed.
Lemma bind_inv {A B} (a : lp A) (f : A -> lp B) bs x r1 k1 o : a bs = ((Ok x, r1), k1) -> l_bind a f bs = o -> o = (fst (f x r1), cost_add k1 (snd (f x r1))).
Proof. intros H <-. unfold l_bind. rewrite H. reflexivity. Qed.
Lemma each_map cs : forall bs k, each (sized_takes body_takes) bs cs k ->
  each (sized_takes (fun c f k => fn_ty f = 0 /\ body_takes c (fn_locals f, fn_body f) k)) bs (map (fun c : code => mkFunc 0 (fst c) (snd c)) cs) k.
Proof.
  induction 1 as [|b x k bs xs k' H _ IH]; [constructor|]. cbn [map]. constructor; [|exact IH].
  destruct H as (n & ct & e & -> & U & H & ->). exists n, ct, e. split; [reflexivity|]. split; [exact U|]. split; [|reflexivity]. split; [reflexivity|]. destruct x. exact H.
Qed.
Lemma section_pays id bs sec e s tl s' r k : Byte.to_N id = section_id sec -> contents_take bs sec e -> l_section id s (bs ++ tl) = ((Ok s', r), k) ->
  r = tl /\ calls k = len bs /\ steps_taken k = len bs + e.
Proof.
  intros I H K.
  assert (G : forall A (a : lp A) (R : takes A) (f : A -> pstate) v, pays R a -> sized_takes R bs v e ->
    (v <=. l_sized a ;; l_ret (f v)) (bs ++ tl) = ((Ok s', r), k) -> r = tl /\ calls k = len bs /\ steps_taken k = len bs + e).
  { intros A a R f v PA S Q. destruct (pays_sized R a PA bs v e tl S) as (k1 & P1 & C1 & T1). apply (bind_inv _ _ _ _ _ _ _ P1) in Q. cbn in Q. injection Q as _ -> ->.
    split; [reflexivity|]. costs. }
  destruct sec; cbn [section_id contents_take] in *.
  - assert (id = x00) as -> by (apply id_is; exact I). cbn [l_section] in K. destruct H as (n & ct & e1 & -> & U & (H & ->) & ->).
    destruct (pays_sized_more 1 _ _ pays_custom (n ++ ct) (fst c, len (snd c)) (name_others (fst c) + 1 + 2 * len ct) tl) as (k1 & P1 & C1 & T1).
    { exists n, ct, (name_others (fst c) + 1). split; [reflexivity|]. split; [exact U|]. split; [|reflexivity]. exists c. auto. }
    apply (bind_inv _ _ _ _ _ _ _ P1) in K. cbn in K. injection K as _ -> ->. split; [reflexivity|]. costs.
  - assert (id = x01) as -> by (apply id_is; exact I). exact (G _ _ _ _ v (pays_vec _ _ pays_functy) H K).
  - assert (id = x02) as -> by (apply id_is; exact I). exact (G _ _ _ _ v (pays_vec _ _ pays_import) H K).
  - assert (id = x03) as -> by (apply id_is; exact I). exact (G _ _ _ _ v (pays_vec _ _ (pays_run _ _ exact_u32)) H K).
  - assert (id = x04) as -> by (apply id_is; exact I). exact (G _ _ _ _ v (pays_vec _ _ (pays_run _ _ exact_table)) H K).
  - assert (id = x05) as -> by (apply id_is; exact I). exact (G _ _ _ _ v (pays_vec _ _ (pays_run _ _ exact_mem)) H K).
  - assert (id = x06) as -> by (apply id_is; exact I). exact (G _ _ _ _ v (pays_vec _ _ pays_global) H K).
  - assert (id = x07) as -> by (apply id_is; exact I). exact (G _ _ _ _ v (pays_vec _ _ pays_export) H K).
  - assert (id = x08) as -> by (apply id_is; exact I). exact (G _ _ _ _ v (pays_run _ _ exact_start) H K).
  - assert (id = x09) as -> by (apply id_is; exact I). exact (G _ _ _ _ v (pays_vec _ _ pays_elem) H K).
  - assert (id = x0a) as -> by (apply id_is; exact I). cbn [l_section] in K. destruct H as (e1 & (n & ct & e2 & -> & U & (n2 & es & -> & U2 & F) & ->) & ->).
    pose proof (pays_sized _ _ (pays_unwrapping_vec _ (l_sized l_func) (fun f => f) (pays_map _ _ (l_sized l_func) (fun f => f) (pays_sized _ _ pays_func) (fun c y e Q => ex_intro _ y (conj Q eq_refl))))) as PP.
    destruct (PP (n ++ n2 ++ es) (map (fun c : code => mkFunc 0 (fst c) (snd c)) v) (e2 + 2 * len (n2 ++ es)) tl) as (k1 & P1 & C1 & T1).
    { exists n, (n2 ++ es), e2. split; [reflexivity|]. split; [exact U|]. split; [|reflexivity]. exists n2, es. split; [reflexivity|].
      split; [unfold len in *; rewrite map_length; exact U2|]. apply each_map, F. }
    apply (bind_inv _ _ _ _ _ _ _ P1) in K. cbv beta zeta in K. rewrite map_length in K. destruct (length v =? length (ps_func_types s))%nat eqn:B; [|discriminate]. cbn [negb] in K. apply Nat.eqb_eq in B.
    unfold l_bind in K. cbn [l_steps] in K. destruct (assign_types _ _ _) as [fs'|er| |]; [|discriminate..]. cbn [fst snd l_ret] in K. injection K as _ -> ->.
    split; [reflexivity|]. rewrite <- B. fold (len v). costs.
  - assert (id = x0b) as -> by (apply id_is; exact I). exact (G _ _ _ _ v (pays_vec _ _ pays_data) H K).
Qed.
Lemma sections_pay : forall body secs e, sections_take body secs e -> forall fuel s s' r k, l_sections fuel s body = ((Ok s', r), k) ->
  calls k = len body + 1 /\ steps_taken k + 1 = e.
Proof.
  induction 1 as [|id bs sec e rest ss e' I H _ IH]; intros fuel s s' r k K; (destruct fuel as [|fuel]; [discriminate|]); cbn [l_sections] in K.
  - injection K as _ _ <-. split; reflexivity.
  - apply (bind_inv _ _ _ _ _ _ _ (steps_ok 1 (id :: bs ++ rest))) in K. cbv beta in K. set (g := l_bind (l_run p_byte) _) in K.
    destruct (g (id :: bs ++ rest)) as [o kk] eqn:Q. cbn [fst snd] in K. injection K as <- ->. subst g.
    apply (bind_inv _ _ _ _ _ _ _ (byte_ok id (bs ++ rest))) in Q. cbv beta in Q.
    destruct (negb (byte_is id 0) && (Byte.to_N id <=? ps_last_id s)); [discriminate|]. cbv zeta in Q. set (s1 := if byte_is id 0 then s else _) in *.
    unfold l_bind in Q. destruct (l_section id s1 (bs ++ rest)) as [[[s2|er| |] r2] k2] eqn:S; [|discriminate..].
    destruct (section_pays _ _ _ _ _ _ _ _ _ I H S) as (-> & C & T). destruct (l_sections fuel s2 rest) as [o3 k3] eqn:Z. cbn [fst snd] in Q. injection Q as <- ->.
    destruct (IH _ _ _ _ _ Z) as [C3 T3]. costs.
Qed.
Lemma run_cost {A} (p : parser A) c r v : p (c ++ r) = (Ok v, r) -> l_run p (c ++ r) = ((Ok v, r), mkCost (len c) (len c) 0).
Proof.
  intros P. unfold l_run, pulls. rewrite P. cbn [fst snd]. rewrite app_length. replace (length c + length r - length r)%nat with (length c) by lia.
  rewrite N.add_0_r. reflexivity.
Qed.
Theorem file_time bs secs total m r : file_takes bs secs total -> p_module bs = (Ok m, r) -> steps_taken (parsing_cost bs) = total.
Proof.
  intros (body & e & -> & ST & ->) H. pose proof (free_module (preamble ++ body)) as E. rewrite H in E. unfold parsing_cost.
  destruct (l_module (preamble ++ body)) as [x k] eqn:G. cbn [fst snd] in *. subst x.
  pose proof (run_cost (p_array 4 p_byte) [x00; x61; x73; x6d] ([x01; x00; x00; x00] ++ body) [x00; x61; x73; x6d] eq_refl) as A.
  pose proof (run_cost (p_array 4 p_byte) [x01; x00; x00; x00] body [x01; x00; x00; x00] eq_refl) as B.
  change ([x00; x61; x73; x6d] ++ [x01; x00; x00; x00] ++ body) with (preamble ++ body) in A.
  unfold l_module in G. apply (bind_inv _ _ _ _ _ _ _ A) in G. cbv beta in G. cbn [bytes_are] in G.
  match type of G with context [negb ?b] => change b with true in G end. cbn [negb] in G. set (g := l_bind (l_run (p_array 4 p_byte)) _) in G.
  destruct (g _) as [o kk] eqn:Q. cbn [fst snd] in G. injection G as <- ->. subst g. apply (bind_inv _ _ _ _ _ _ _ B) in Q. cbv beta in Q.
  match type of Q with context [negb ?b] => change b with true in Q end. cbn [negb] in Q.
  unfold l_bind, l_peekable in Q. destruct (l_sections _ _ body) as [[[s|er| |] r2] k3] eqn:Z; [|discriminate..]. cbn [fst snd l_ret] in Q. injection Q as _ _ ->.
  destruct (sections_pay _ _ _ ST _ _ _ _ _ Z) as [C T]. rewrite len_app. change (len preamble) with 8. costs.
Qed.

(** ** Every accepted file has its time *)
Definition has {A} (R : takes A) (E : format A) : Prop := forall c x, E c x -> exists e, R c x e.
Lemma has_just {A} (E : format A) f : has (takes_just E f) E. Proof. intros c x H. exists (f x). split; [exact H|reflexivity]. Qed.
Lemma has_vec {A} (R : takes A) E : has R E -> has (vec_takes R) (enc_vec W E).
Proof.
  intros H c xs (n & es & -> & U & cs & F & ->). assert (G : exists e, each R (concat cs) xs e).
  { clear U. induction F as [|b x cs xs B F (e' & IH)]; [exists 0; constructor|]. destruct (H _ _ B) as (e & HE). exists (e + 2 + e'). cbn [concat]. constructor; assumption. }
  destruct G as (e & G). exists e, n, (concat cs). auto.
Qed.
Lemma has_sized {A} (R : takes A) E : has R E -> has (sized_takes R) (enc_sized W E).
Proof. intros H c x (n & ct & -> & U & HE). destruct (H _ _ HE) as (e & G). exists (e + 2 * len ct), n, ct, e. auto. Qed.
Lemma has_code : (forall c i, enc_instr W c i -> exists e, instr_takes c i e) /\ (forall c is, enc_instrs W c is -> exists e, code_takes c is e).
Proof.
  apply enc_instr_instrs_ind; intros;
    repeat match goal with H : exists e, _ |- _ => destruct H as (? & ?) end;
    try (eexists; eapply T_other; [econstructor; eassumption|intros ? ? ->; discriminate|intros ? ? ->; discriminate|intros ? ? ? ->; discriminate|intros ? ? ->; discriminate]);
    try (eexists; eapply T_other; [econstructor; eassumption|discriminate..]).
  all: eexists; first [eapply T_table; econstructor; eassumption|eapply T_block; eassumption|eapply T_loop; eassumption|eapply T_if; eassumption|eapply T_else; eassumption
    |apply T_nothing|eapply T_instr; eassumption].
Qed.
Lemma has_expr : has expr_takes (enc_expr W).
Proof. intros c e (isb & -> & H). destruct (proj2 has_code _ _ H) as (k & K). exists (k + 1), isb, k. auto. Qed.
Lemma has_body : has body_takes (enc_func W).
Proof. intros c x (rb & eb & gs & -> & V & E & _ & H). destruct (has_expr _ _ H) as (k & K). exists (len gs + k), rb, eb, gs, k. auto. Qed.
Lemma has_global : has global_takes (enc_global W).
Proof. intros c x (tb & eb & -> & H1 & H2). destruct (has_expr _ _ H2) as (k & K). exists k, tb, eb. auto. Qed.
Lemma has_elem : has elem_takes (enc_elem W).
Proof. intros c x (xb & ob & ib & -> & H1 & H2 & H3). destruct (has_expr _ _ H2) as (k & K). exists (k + 2 * len (el_init x)), xb, ob, ib, k. auto. Qed.
Lemma has_data : has data_takes (enc_data W).
Proof. intros c x (xb & ob & ib & -> & H1 & H2 & H3). destruct (has_expr _ _ H2) as (k & K). exists (k + 2 * len (da_init x)), xb, ob, ib, k. auto. Qed.
Lemma has_section c s : enc_section W c s -> exists id bs e, c = id :: bs /\ Byte.to_N id = section_id s /\ contents_take bs s e.
Proof.
  intros H. destruct s; destruct H as (b & -> & H).
  1: destruct (has_sized _ _ (has_just (enc_custom W) (fun c => name_others (fst c) + 3)) _ _ H) as (e & G).
  2: destruct (has_sized _ _ (has_vec _ _ (has_just _ _ : has functy_takes (enc_functy W))) _ _ H) as (e & G).
  3: destruct (has_sized _ _ (has_vec _ _ (has_just _ _ : has import_takes (enc_import W))) _ _ H) as (e & G).
  4: destruct (has_sized _ _ (has_vec _ _ (has_just (enc_u32 W) no_others)) _ _ H) as (e & G).
  5: destruct (has_sized _ _ (has_vec _ _ (has_just (enc_table W) no_others)) _ _ H) as (e & G).
  6: destruct (has_sized _ _ (has_vec _ _ (has_just (enc_mem W) no_others)) _ _ H) as (e & G).
  7: destruct (has_sized _ _ (has_vec _ _ has_global) _ _ H) as (e & G).
  8: destruct (has_sized _ _ (has_vec _ _ (has_just _ _ : has export_takes (enc_export W))) _ _ H) as (e & G).
  9: destruct (has_sized _ _ (has_just (enc_start W) no_others) _ _ H) as (e & G).
  10: destruct (has_sized _ _ (has_vec _ _ has_elem) _ _ H) as (e & G).
  11: destruct (has_sized _ _ (has_vec _ _ (has_sized _ _ has_body)) _ _ H) as (e & G).
  12: destruct (has_sized _ _ (has_vec _ _ has_data) _ _ H) as (e & G).
  11: eexists _, b, _; split; [reflexivity|]; split; [reflexivity|]; exists e; split; [exact G|reflexivity].
  all: eexists _, b, e; split; [reflexivity|]; split; [reflexivity|exact G].
Qed.
Theorem file_has body secs : enc_list (enc_section W) body secs -> exists total, file_takes (preamble ++ body) secs total.
Proof.
  intros (cs & F & ->). assert (G : exists k, sections_take (concat cs) secs k).
  { induction F as [|c s cs ss H F (k & IH)]; [exists 3; constructor|]. destruct (has_section _ _ H) as (id & bs & e & -> & I & C). eexists. cbn [concat app].
    apply T_section; [exact I|exact C|exact IH]. }
  destruct G as (k & G). exists (len (preamble ++ concat cs) + k), (concat cs), k. auto.
Qed.
Theorem accepted_time bs m r : p_module bs = (Ok m, r) -> exists secs, file_takes bs secs (steps_taken (parsing_cost bs)) /\ m = module_of secs.
Proof.
  intros H. pose proof H as P. apply module_exact in P. destruct P as (_ & body & secs & -> & L & _ & _ & ->). destruct (file_has body secs L) as (t & T).
  exists secs. rewrite (file_time _ _ _ _ _ T H). auto.
Qed.

(** ** Eight steps for each byte *)
Definition busy_sections (k : nat) : list section := [S_Type [mkFuncTy [] []]; S_Function [0]; S_Code [([], repeat I_Nop k)]].
Lemma busy_code k : code_takes (repeat x01 k) (repeat I_Nop k) (2 * N.of_nat k).
Proof.
  induction k as [|k IH]; [constructor|]. cbn [repeat]. replace (2 * N.of_nat (S k)) with (0 + 2 + 2 * N.of_nat k) by lia.
  apply (T_instr I_Nop _ [x01]); [|exact IH]. apply T_other; try discriminate. apply enc_plain; reflexivity.
Qed.
Lemma u32_w v : v < 2 ^ 32 -> enc_u32 W (e_u32 v) v. Proof. apply e_u32_ok. intros; exact I. Qed.
Lemma sized_w {A} (R : takes A) c x e : N.of_nat (length c) < 2 ^ 32 -> R c x e -> sized_takes R (e_sized c) x (e + 2 * len c).
Proof. intros L H. exists (e_u32 (N.of_nat (length c))), c, e. split; [reflexivity|]. split; [apply u32_w, L|]. split; [exact H|reflexivity]. Qed.
Lemma one_w {A} (R : takes A) c x e : R c x e -> vec_takes R (x01 :: c) [x] (e + 2 + 0).
Proof.
  intros H. exists [x01], c. split; [reflexivity|]. split; [exact (u32_w 1 eq_refl)|]. rewrite <- (app_nil_r c). constructor; [exact H|constructor].
Qed.
Lemma none_w {A} (E : format A) : enc_vec W E [x00] [].
Proof. exists [x00], []. split; [reflexivity|]. split; [exact (u32_w 0 eq_refl)|]. exists []. split; [constructor|reflexivity]. Qed.
Lemma inner_length k : N.of_nat (length (x00 :: repeat x01 k ++ [x0b])) = N.of_nat k + 2.
Proof. cbn [length]. rewrite app_length, repeat_length. cbn [length]. lia. Qed.
Lemma e_sized_length c : N.of_nat (length c) < 2 ^ 32 -> N.of_nat (length c) < N.of_nat (length (e_sized c)) <= N.of_nat (length c) + 5.
Proof. intros L. unfold e_sized. rewrite app_length. pose proof (e_u32_length _ L). lia. Qed.
Lemma nops_code k : enc_instrs W (repeat x01 k) (repeat I_Nop k).
Proof. induction k as [|k IH]; [constructor|]. cbn [repeat]. apply (enc_instrs_cons W I_Nop _ [x01]); [apply enc_plain; reflexivity|exact IH]. Qed.
Lemma sized_ok {A} (E : format A) c x : N.of_nat (length c) < 2 ^ 32 -> E c x -> enc_sized W E (e_sized c) x.
Proof. intros L H. exists (e_u32 (N.of_nat (length c))), c. split; [reflexivity|]. split; [apply u32_w, L|exact H]. Qed.
Lemma one_ok {A} (E : format A) c x : E c x -> enc_vec W E (x01 :: c) [x].
Proof.
  intros H. exists [x01], c. split; [reflexivity|]. split; [exact (u32_w 1 eq_refl)|]. exists [c]. split; [constructor; [exact H|constructor]|cbn; rewrite app_nil_r; reflexivity].
Qed.
Lemma busy_func k : enc_func W (x00 :: repeat x01 k ++ [x0b]) ([], repeat I_Nop k).
Proof.
  exists [x00], (repeat x01 k ++ [x0b]), []. split; [reflexivity|]. split; [apply none_w|]. split; [reflexivity|]. split; [exact I|].
  exists (repeat x01 k). split; [reflexivity|apply nops_code].
Qed.
Lemma busy_written k : N.of_nat k < 2 ^ 31 -> exists body, busy k = preamble ++ body /\ enc_list (enc_section W) body (busy_sections k).
Proof.
  intros L. pose proof (inner_length k) as J. pose proof (e_sized_length (x00 :: repeat x01 k ++ [x0b]) ltac:(lia)) as O. eexists. split; [reflexivity|].
  exists [[x01; x04; x01; x60; x00; x00]; [x03; x02; x01; x00]; x0a :: e_sized (x01 :: e_sized (x00 :: repeat x01 k ++ [x0b]))]. split; [|cbn [concat]; rewrite !app_nil_r; reflexivity].
  constructor; [|constructor; [|constructor; [|constructor]]].
  - exists [x04; x01; x60; x00; x00]. split; [reflexivity|]. apply (sized_ok _ [x01; x60; x00; x00]); [reflexivity|]. apply one_ok. exists [x00], [x00]. split; [reflexivity|]. split; apply none_w.
  - exists [x02; x01; x00]. split; [reflexivity|]. apply (sized_ok _ [x01; x00]); [reflexivity|]. apply one_ok. exact (u32_w 0 eq_refl).
  - eexists. split; [reflexivity|]. apply sized_ok; [set (z := e_sized _) in *; cbn [length]; lia|]. apply one_ok. apply sized_ok; [lia|]. apply busy_func.
Qed.
Theorem eight_steps k : N.of_nat k < 2 ^ 31 ->
  p_module (busy k) = (Ok (mkModule [mkFuncTy [] []] [mkFunc 0 [] (repeat I_Nop k)] [] [] [] [] [] None [] []), []) /\ (k <= length (busy k))%nat /\
  8 * N.of_nat (length (busy k)) <= steps_taken (parsing_cost (busy k)) + 160.
Proof.
  intros L. pose proof (inner_length k) as J. set (inner := x00 :: repeat x01 k ++ [x0b]) in *.
  pose proof (e_sized_length inner ltac:(lia)) as L1. set (outer := x01 :: e_sized inner) in *.
  assert (L3 : N.of_nat (length outer) = 1 + N.of_nat (length (e_sized inner))) by (unfold outer; cbn [length]; lia).
  pose proof (e_sized_length outer ltac:(lia)) as L2.
  assert (BT : body_takes inner ([], repeat I_Nop k) (2 * N.of_nat k + 1)).
  { exists [x00], (repeat x01 k ++ [x0b]), [], (2 * N.of_nat k + 1). split; [reflexivity|]. split; [apply none_w|]. split; [reflexivity|]. split; [|reflexivity].
    exists (repeat x01 k), (2 * N.of_nat k). split; [reflexivity|]. split; [apply busy_code|reflexivity]. }
  assert (ST : exists t, file_takes (busy k) (busy_sections k) t /\ 8 * N.of_nat (length (busy k)) <= t + 160).
  { eexists. split.
    - eexists _, _. split; [reflexivity|]. split; [|reflexivity].
      apply (T_section x01 [x04; x01; x60; x00; x00]); [reflexivity| |].
      { apply (sized_w _ [x01; x60; x00; x00]); [reflexivity|]. apply one_w. split; [|reflexivity]. exists [x00], [x00]. split; [reflexivity|]. split; apply none_w. }
      apply (T_section x03 [x02; x01; x00]); [reflexivity| |].
      { apply (sized_w _ [x01; x00]); [reflexivity|]. apply one_w. split; [|reflexivity]. exact (u32_w 0 eq_refl). }
      fold inner outer. rewrite <- (app_nil_r (e_sized outer)). apply T_section; [reflexivity| |constructor].
      eexists. split; [|reflexivity]. apply sized_w; [lia|]. apply one_w. apply sized_w; [lia|]. exact BT.
    - unfold busy. fold inner outer. cbn [ft_params ft_results]. unfold no_others. rewrite !len_app, !len_cons, !len_nil. unfold len in *. rewrite !app_length. cbn [length].
      change (length preamble) with 8%nat. lia. }
  destruct ST as (t & ST & B).
  destruct (busy_written k L) as (body & EB & EN).
  assert (P : p_module (busy k) = (Ok (mkModule [mkFuncTy [] []] [mkFunc 0 [] (repeat I_Nop k)] [] [] [] [] [] None [] []), [])).
  { apply module_exact. split; [reflexivity|]. exists body, (busy_sections k). split; [exact EB|]. split; [exact EN|]. split; [|split; [left; reflexivity|reflexivity]].
    repeat split; reflexivity. }
  split; [exact P|]. split; [|rewrite (file_time _ _ _ _ _ ST P); exact B].
  unfold busy. fold inner outer. rewrite !app_length. cbn [length]. lia.
Qed.
