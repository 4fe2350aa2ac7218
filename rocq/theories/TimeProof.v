(** How long parsing takes. *)
From Coq Require Import Lia ZifyN ZifyNat ZArith.
From Verif Require Import ParserCost SpecCost SpecFormat SpecParser ParserMeta TypesProof InstrProof
  ModuleProof SectionsProof ModuleClaims ModuleClaims2 AllocProof
  ValidatorCost CostFileProof.
Open Scope N_scope.

(** ** Without the costs it is the same parser *)
Definition free {A} (a : lp A) (p : parser A) : Prop := forall bs, fst (a bs) = p bs.
Lemma free_run {A} (p : parser A) : free (l_run p) p. Proof. intros bs. reflexivity. Qed.
Lemma free_ret {A} (x : A) : free (l_ret x) (ret x). Proof. intros bs. reflexivity. Qed.
Lemma free_fail {A} e : free (@l_fail A e) (fail e). Proof. intros bs. reflexivity. Qed.
Lemma free_fuel {A} : free (@l_out_of_fuel A) out_of_fuel. Proof. intros bs. reflexivity. Qed.
Lemma free_panic {A} : free (@l_panic A) panic. Proof. intros bs. reflexivity. Qed.
Lemma free_bind {A B} (a : lp A) (p : parser A) (f : A -> lp B) (g : A -> parser B) :
  free a p -> (forall x, free (f x) (g x)) -> free (l_bind a f) (bind p g).
Proof.
  intros P F bs. unfold l_bind, bind. rewrite <- (P bs). destruct (a bs) as [[[x|e| |] r] l]; cbn [fst]; try reflexivity.
  rewrite <- (F x r). reflexivity.
Qed.
Lemma free_steps {A} n (a : lp A) p : free a p -> free (l_bind (l_steps n) (fun _ => a)) p.
Proof. intros P bs. unfold l_bind, l_steps. rewrite <- (P bs). reflexivity. Qed.
Lemma free_copies {A} n (a : lp A) p : free a p -> free (l_bind (l_copies n) (fun _ => a)) p.
Proof. intros P bs. unfold l_bind, l_copies. rewrite <- (P bs). reflexivity. Qed.
Lemma free_times {A} n (a : lp A) p : free a p -> free (l_times n a) (p_times n p).
Proof.
  intros P. induction n; cbn [l_times p_times]; [apply free_ret|]. apply free_steps, free_bind; [assumption|]. intros x.
  apply free_steps, free_bind; [assumption|]. intros xs. apply free_ret.
Qed.
Lemma free_vec {A} (a : lp A) p : free a p -> free (l_vec a) (p_vec p).
Proof. intros P. apply free_bind; [apply free_run|]. intros n. apply free_times, P. Qed.
Lemma free_unwrapping_vec {A B} (a : lp A) p (u : A -> B) : free a p -> free (l_unwrapping_vec a u) (p_unwrapping_vec p u).
Proof.
  intros P. apply free_bind; [apply free_run|]. intros n. apply free_times.
  apply free_bind; [assumption|]. intros x. apply free_ret.
Qed.
Lemma free_runs {A} j (a : lp A) p : free a p -> forall acc, free (l_runs j a acc) (p_runs j p acc).
Proof.
  intros P. induction j; intros acc; cbn [l_runs p_runs]; [apply free_ret|].
  apply free_steps, free_bind; [apply free_run|]. intros n. apply free_bind; [assumption|]. intros v. apply free_copies, IHj.
Qed.
Lemma free_compact_vec {A} (a : lp A) p : free a p -> free (l_compact_vec a) (p_compact_vec p).
Proof. intros P. apply free_bind; [apply free_run|]. intros j. apply free_runs, P. Qed.
Lemma free_sized {A} (a : lp A) p : free a p -> free (l_sized a) (p_sized p).
Proof.
  intros P. apply free_bind; [apply free_run|]. intros n bs. cbn beta zeta. rewrite <- (P (firstn (N.to_nat n) bs)).
  destruct (a (firstn (N.to_nat n) bs)) as [[[x|e| |] r] l]; cbn [fst]; [|reflexivity..]. destruct (negb _); reflexivity.
Qed.
Lemma free_string : free l_string p_string.
Proof.
  apply free_bind; [apply free_unwrapping_vec, free_run|]. intros raw. apply free_steps. destruct (utf8_valid raw); [apply free_ret|apply free_fail].
Qed.
Lemma free_retval : free l_retval p_retval.
Proof.
  intros bs. unfold l_retval, l_bind, l_run, l_steps, l_ret. destruct (p_retval bs) as [[x|e| |] r]; reflexivity.
Qed.
Lemma free_functy : free l_functy p_functy.
Proof.
  apply free_bind; [apply free_run|]. intros [].
  all: try apply free_fail. apply free_bind; [apply free_vec, free_run|]. intros ps.
  apply free_bind; [apply free_vec, free_run|]. intros rs. apply free_ret.
Qed.
Lemma free_expr_of a p : free a p -> free (l_expr_of a) (p_expr_of p).
Proof. intros P. apply free_bind; [assumption|]. intros [e t]. destruct t; first [apply free_ret|apply free_fail]. Qed.
Lemma free_if_of a p : free a p -> free (l_if_of a) (p_if_of p).
Proof.
  intros P. apply free_bind; [apply free_retval|]. intros rt. apply free_bind; [assumption|]. intros [b1 n1].
  apply free_bind; [destruct (is_else n1); [assumption|apply free_ret]|]. intros [b2 n2].
  destruct (is_end n2); [apply free_ret|apply free_fail].
Qed.
Lemma free_opcode a p b : free a p -> free (l_opcode a b) (p_opcode p b).
Proof.
  intros P. unfold l_opcode. destruct b; try apply free_run; unfold p_opcode.
  - apply free_bind; [apply free_retval|]. intros rt. apply free_bind; [apply free_expr_of, P|]. intros e. apply free_ret.
  - apply free_bind; [apply free_retval|]. intros rt. apply free_bind; [apply free_expr_of, P|]. intros e. apply free_ret.
  - apply free_if_of, P.
  - apply free_bind; [apply free_vec, free_run|]. intros ls. apply free_bind; [apply free_run|]. intros l. apply free_ret.
Qed.
Lemma free_instr_sub fuel : free (l_instr fuel) (p_instr fuel) /\ forall acc, free (l_subexpr fuel acc) (p_subexpr fuel acc).
Proof.
  induction fuel as [|f [IH1 IH2]]; cbn [l_instr l_subexpr p_instr p_subexpr].
  - split; intros; apply free_fuel.
  - split.
    + apply free_bind; [apply free_run|]. intros b. apply free_opcode, IH2.
    + intros acc. apply free_steps, free_bind; [assumption|]. intros i. destruct i; first [apply free_ret|apply free_steps, IH2].
Qed.
Lemma free_expr : free l_expr p_expr.
Proof. intros bs. unfold l_expr, p_expr. apply free_expr_of, free_instr_sub. Qed.
Lemma free_consume : free l_consume p_consume. Proof. intros bs. reflexivity. Qed.
Ltac m_free := repeat first [ apply free_run | apply free_ret | apply free_fail | apply free_panic | apply free_consume | apply free_string | apply free_vec
  | apply free_unwrapping_vec | apply free_compact_vec | apply free_sized | apply free_functy | apply free_expr | assumption
  | apply free_bind; [|intro] ].
Lemma free_func : free l_func p_func. Proof. unfold l_func, p_func. m_free. Qed.
Lemma free_global : free l_global p_global. Proof. unfold l_global, p_global, p_constexpr. m_free. Qed.
Lemma free_elem : free l_elem p_elem. Proof. unfold l_elem, p_elem, p_constexpr. m_free. Qed.
Lemma free_data : free l_data p_data. Proof. unfold l_data, p_data, p_constexpr. m_free. Qed.
Lemma free_import : free l_import p_import. Proof. unfold l_import, p_import. m_free. Qed.
Lemma free_export : free l_export p_export. Proof. unfold l_export, p_export. m_free. Qed.
Lemma free_custom : free l_custom p_custom. Proof. unfold l_custom, p_custom. m_free. Qed.
Lemma free_section id s : free (l_section id s) (p_section id s).
Proof.
  pose proof free_custom. pose proof free_import. pose proof free_global. pose proof free_export.
  pose proof free_elem. pose proof free_func. pose proof free_data.
  unfold l_section, p_section. destruct id; try apply free_fail; m_free.
  destruct (negb _); [apply free_fail|]. apply free_steps. destruct (assign_types _ _ _); first [apply free_ret|apply free_panic].
Qed.
Definition l_round (f : nat) (s : pstate) : lp pstate :=
  _ <=. l_steps 1 ;;
  id <=. l_run p_byte ;;
  if negb (byte_is id 0x00) && (Byte.to_N id <=? ps_last_id s)
  then l_fail (UnexpectedSectionId id)
  else
    let s1 := if byte_is id 0x00 then s
              else mkPstate (ps_result s) (ps_func_types s) (Byte.to_N id) in
    s2 <=. l_section id s1 ;;
    l_sections f s2.
Lemma free_sections fuel : forall s, free (l_sections fuel s) (p_sections fuel s).
Proof.
  induction fuel as [|f IH]; intros s bs; [reflexivity|]. cbn [l_sections p_sections]. destruct bs as [|b bs]; [reflexivity|].
  revert bs. intros bs. generalize (b :: bs). clear b bs. intros bs. revert bs.
  change (free (l_round f s) (id <- p_byte ;;
       if negb (byte_is id 0x00) && (Byte.to_N id <=? ps_last_id s)
       then fail (UnexpectedSectionId id)
       else
         let s1 := if byte_is id 0x00 then s
                   else mkPstate (ps_result s) (ps_func_types s) (Byte.to_N id) in
         s2 <- p_section id s1 ;;
         p_sections f s2)). unfold l_round.
  apply free_steps, free_bind; [apply free_run|]. intros id. destruct (_ && _); [apply free_fail|]. cbv zeta.
  apply free_bind; [apply free_section|]. intros s2. apply IH.
Qed.
Lemma free_peekable {A} (a : lp A) p : free a p -> free (l_peekable a) p.
Proof. intros P bs. apply P. Qed.
Theorem free_module : free l_module p_module.
Proof.
  unfold l_module, p_module. apply free_bind; [apply free_run|]. intros magic. destruct (negb _); [apply free_fail|].
  apply free_bind; [apply free_run|]. intros version. destruct (negb _); [apply free_fail|].
  intros bs. apply (free_bind _ _ _ _ (free_peekable _ _ (free_sections _ _))). intros s. apply free_ret.
Qed.

(** ** Credit.  Each byte that is read gives a credit of [k] steps.  With a credit of [g] at the beginning, [b] of it is left on
    success; otherwise at most [f] too many steps have been taken.  [e]: calls without a byte, on success. *)
Definition used (bs r : list byte) : Z := Z.of_nat (length bs) - Z.of_nat (length r).
Record lasts (k f e g : Z) {A} (b : A -> Z) (a : lp A) : Prop := mkLasts {
  lasts_ok : forall bs x r w, a bs = ((Ok x, r), w) ->
    (0 <= used bs r /\ Z.of_N (calls w) <= used bs r + e /\ Z.of_N (steps_taken w) + b x <= k * used bs r + g)%Z;
  lasts_err : forall bs o r w, a bs = ((o, r), w) -> (forall x, o <> Ok x) ->
    (0 <= used bs r /\ Z.of_N (calls w) <= used bs r + 1 /\ Z.of_N (steps_taken w) <= k * used bs r + g + f)%Z }.
Lemma used_add bs r1 r2 : used bs r2 = (used bs r1 + used r1 r2)%Z.
Proof. unfold used. lia. Qed.
Lemma used_same bs : used bs bs = 0%Z. Proof. unfold used. lia. Qed.
Lemma lasts_weaken k f e g f' e' g' {A} (b b' : A -> Z) (a : lp A) : (g + f <= g' + f')%Z -> (e <= e')%Z ->
  (forall x, (b' x + g <= b x + g')%Z) -> lasts k f e g b a -> lasts k f' e' g' b' a.
Proof.
  intros F E B [L1 L2]. split.
  - intros bs x r w H. destruct (L1 _ _ _ _ H) as (? & ? & ?). specialize (B x). repeat split; lia.
  - intros bs o r w H NO. destruct (L2 _ _ _ _ H NO) as (? & ? & ?). repeat split; lia.
Qed.
Lemma lasts_run k n f g {A} (p : parser A) : (1 <= k)%Z -> (0 <= n)%Z -> (1 <= g + f)%Z -> suffixing p ->
  (forall bs x r, p bs = (Ok x, r) -> (n <= used bs r)%Z) -> lasts k f 0 g (fun _ => (g + (k - 1) * n)%Z) (l_run p).
Proof.
  intros K NN G S P. split.
  - intros bs x r w H. unfold l_run in H. pose proof (suffixing_length p bs S) as L. injection H as H <-. rewrite H in *. pose proof (P _ _ _ H) as U.
    unfold pulls, used in *. cbn [fst snd calls steps_taken] in *. repeat split; try lia. nia.
  - intros bs o r w H NO. unfold l_run in H. pose proof (suffixing_length p bs S) as L. injection H as H <-. rewrite H in *.
    unfold pulls, used in *. cbn [fst snd calls steps_taken] in *.
    assert (X : (match o with Err UnexpectedEndOfFile => 1 | _ => 0 end) <= 1) by (destruct o as [|[]| |]; lia).
    repeat split; try lia. nia.
Qed.
Lemma lasts_ret k f e g {A} (b : A -> Z) (x : A) : (0 <= e)%Z -> (b x <= g)%Z -> lasts k f e g b (l_ret x).
Proof.
  intros E B. split.
  - intros bs y r w H. injection H as <- <- <-. rewrite used_same. cbn [calls steps_taken no_cost]. lia.
  - intros bs o r w H NO. injection H as <- <- <-. exfalso. apply (NO x). reflexivity.
Qed.
Lemma lasts_stop k f e g {A} b (a : lp A) : (0 <= g + f)%Z -> (forall bs, exists o, a bs = ((o, bs), no_cost) /\ forall x, o <> Ok x) -> lasts k f e g b a.
Proof.
  intros G S. split; intros bs x r w H; destruct (S bs) as (o & E & N); rewrite E in H.
  - exfalso. apply (N x). congruence.
  - intros _. injection H as <- <- <-. rewrite used_same. cbn [calls steps_taken no_cost]. lia.
Qed.
Lemma lasts_fail k f e g {A} b err : (0 <= g + f)%Z -> lasts k f e g b (@l_fail A err).
Proof. intros G. apply lasts_stop; [assumption|]. intros bs. eexists. split; [reflexivity|discriminate]. Qed.
Lemma lasts_bind k f e g {A B} (b1 : A -> Z) (b : B -> Z) (a : lp A) (q : A -> lp B) :
  lasts k f 0 g b1 a -> (forall x, lasts k f e (b1 x) b (q x)) -> lasts k f e g b (l_bind a q).
Proof.
  intros [A1 A2] Q. split.
  - intros bs y r w H. unfold l_bind in H. destruct (a bs) as [[[x|er| |] r1] w1] eqn:E; [|discriminate..].
    cbv zeta in H. destruct (q x r1) as [z w2] eqn:E2. cbn [fst snd] in H. injection H as -> <-. apply A1 in E. apply (Q x) in E2.
    rewrite (used_add bs r1 r). rewrite Z.mul_add_distr_l. cbn [cost_add calls steps_taken]. lia.
  - intros bs o r w H NO. unfold l_bind in H. destruct (a bs) as [[[x|er| |] r1] w1] eqn:E.
    + cbv zeta in H. destruct (q x r1) as [z w2] eqn:E2. cbn [fst snd] in H. injection H as -> <-. apply A1 in E. apply (Q x) in E2; [|assumption].
      rewrite (used_add bs r1 r). rewrite Z.mul_add_distr_l. cbn [cost_add calls steps_taken]. lia.
    + injection H as <- <- <-. apply (A2 _ _ _ _ E). discriminate.
    + injection H as <- <- <-. apply (A2 _ _ _ _ E). discriminate.
    + injection H as <- <- <-. apply (A2 _ _ _ _ E). discriminate.
Qed.
Lemma lasts_steps k f e g {A} n (b : A -> Z) (a : lp A) : lasts k f e (g - Z.of_N n) b a -> lasts k f e g b (_ <=. l_steps n ;; a).
Proof.
  intros L. apply (lasts_bind k f e g (fun _ => (g - Z.of_N n)%Z)); [|intros _; assumption]. split.
  - intros bs x r w H. injection H as <- <- <-. rewrite used_same. cbn [calls steps_taken]. lia.
  - intros bs o r w H NO. injection H as <- <- <-. exfalso. apply (NO tt). reflexivity.
Qed.
Lemma lasts_copies k f e g {A} n (b : A -> Z) (a : lp A) : lasts k f e g b a -> lasts k f e g b (_ <=. l_copies n ;; a).
Proof.
  intros L. apply (lasts_bind k f e g (fun _ => g)); [|intros _; assumption]. split.
  - intros bs x r w H. injection H as <- <- <-. rewrite used_same. cbn [calls steps_taken]. lia.
  - intros bs o r w H NO. injection H as <- <- <-. exfalso. apply (NO tt). reflexivity.
Qed.

(** Whatever the credit, with a debt of at most 2, [t] more of it is left. *)
Definition gains (k f t : Z) {A} (a : lp A) : Prop := forall g, (-2 <= g)%Z -> lasts k f 0 g (fun _ => (g + t)%Z) a.
Lemma gains_less k f t t' {A} (a : lp A) : (t' <= t)%Z -> gains k f t a -> gains k f t' a.
Proof. intros T G g N. eapply lasts_weaken; [| | |apply G, N]; cbn beta; intros; lia. Qed.
Lemma gains_run k f {A} (p : parser A) : (1 <= k)%Z -> (3 <= f)%Z -> suffixing p -> progress p -> gains k f (k - 1) (l_run p).
Proof.
  intros K F S P g G. eapply lasts_weaken; [| | |apply (lasts_run k 1 f g)]; cbn beta; try assumption; intros; try lia.
  apply P in H. unfold used. lia.
Qed.
Lemma gains_run0 k f {A} (p : parser A) : (1 <= k)%Z -> (3 <= f)%Z -> suffixing p -> gains k f 0 (l_run p).
Proof.
  intros K F S g G. eapply lasts_weaken; [| | |apply (lasts_run k 0 f g)]; cbn beta; try assumption; intros; try lia.
  pose proof (suffixing_length p bs S) as L. rewrite H in L. cbn [snd] in L. unfold used. lia.
Qed.
Lemma gains_ret k f {A} (x : A) : gains k f 0 (l_ret x).
Proof. intros g G. apply lasts_ret; lia. Qed.
Lemma gains_fail k f t {A} e : (3 <= f)%Z -> gains k f t (@l_fail A e).
Proof. intros F g G. apply lasts_fail. lia. Qed.
Lemma gains_bind k f t1 t2 {A B} (a : lp A) (q : A -> lp B) : (0 <= t1)%Z -> gains k f t1 a -> (forall x, gains k f t2 (q x)) -> gains k f (t1 + t2) (l_bind a q).
Proof.
  intros T P Q g G. eapply lasts_bind; [apply P, G|]. intros x. cbn beta.
  eapply lasts_weaken; [| | |apply (Q x (g + t1)%Z)]; cbn beta; intros; lia.
Qed.
Lemma gains_then k f t {A B} (a : lp A) (q : A -> lp B) : (0 <= t)%Z -> gains k f t a -> (forall x, gains k f 0 (q x)) -> gains k f t (l_bind a q).
Proof. intros T P Q. replace t with (t + 0)%Z by lia. apply gains_bind; assumption. Qed.
(** elements that leave [t] more than the two steps of their round *)
Definition list_gains (k f c t : Z) {A} (a : lp (list A)) : Prop := forall g, (-2 <= g)%Z -> lasts k f 0 g (fun xs => (g + c + t * Z.of_nat (length xs))%Z) a.
Lemma lasts_times k f t {A} (a : lp A) : (0 <= t)%Z -> gains k f (2 + t) a ->
  forall n g, (-1 <= g)%Z -> lasts k f 0 g (fun xs => (g + t * Z.of_nat (length xs))%Z) (l_times n a).
Proof.
  intros T E. induction n as [|n IH]; intros g G; cbn [l_times].
  - apply lasts_ret; cbn [length]; lia.
  - apply lasts_steps. eapply lasts_bind; [apply E; lia|]. intros x. cbn beta. apply lasts_steps.
    eapply lasts_bind; [apply IH; lia|]. intros xs. cbn beta. apply lasts_ret; cbn [length]; nia.
Qed.
Lemma gains_u32 k f : (1 <= k)%Z -> (3 <= f)%Z -> gains k f (k - 1) (l_run p_u32).
Proof. intros K F. apply gains_run; try assumption; [apply suffixing_u32|apply progress_u32]. Qed.
Lemma gains_counted k f t {A} (a : lp A) : (2 <= k)%Z -> (3 <= f)%Z -> (0 <= t)%Z -> gains k f (2 + t) a ->
  list_gains k f (k - 1) t (n <=. l_run p_u32 ;; l_times (N.to_nat n) a).
Proof.
  intros K F T E g G. eapply lasts_bind; [apply gains_u32; lia|]. intros n. cbn beta.
  eapply lasts_weaken; [| | |apply (lasts_times k f t a T E (N.to_nat n) (g + (k - 1))%Z)]; cbn beta; intros; lia.
Qed.
Lemma list_gains_gains k f c t {A} (a : lp (list A)) : (0 <= t)%Z -> list_gains k f c t a -> gains k f c a.
Proof. intros T L g G. eapply lasts_weaken; [| | |apply L, G]; cbn beta; intros; nia. Qed.
Lemma gains_vec k f {A} (a : lp A) : (2 <= k)%Z -> (3 <= f)%Z -> gains k f 2 a -> gains k f (k - 1) (l_vec a).
Proof. intros K F E. apply (list_gains_gains k f _ 0); [lia|]. apply gains_counted; try assumption. lia. Qed.
Lemma list_gains_unwrapping k f t {A B} (a : lp A) (u : A -> B) : (2 <= k)%Z -> (3 <= f)%Z -> (0 <= t)%Z -> gains k f (2 + t) a ->
  list_gains k f (k - 1) t (l_unwrapping_vec a u).
Proof. intros K F T E. apply gains_counted; try assumption. apply gains_then; [lia|assumption|]. intros x. apply gains_ret. Qed.
Lemma gains_runs k f {A} (a : lp A) : (2 <= k)%Z -> (3 <= f)%Z -> gains k f 0 a -> forall j acc g, (-1 <= g)%Z -> lasts k f 0 g (fun _ => g) (l_runs j a acc).
Proof.
  intros K F E. induction j as [|j IH]; intros acc g G; cbn [l_runs]; [apply lasts_ret; lia|].
  apply lasts_steps. eapply lasts_bind; [apply gains_u32; lia|]. intros n. cbn beta.
  eapply lasts_bind; [apply E; lia|]. intros v. cbn beta. apply lasts_copies.
  eapply lasts_weaken; [| | |apply (IH _ (g - 1 + (k - 1) + 0)%Z)]; cbn beta; intros; cbn; lia.
Qed.
Lemma gains_compact_vec k f {A} (a : lp A) : (2 <= k)%Z -> (3 <= f)%Z -> gains k f 0 a -> gains k f (k - 1) (l_compact_vec a).
Proof.
  intros K F E g G. eapply lasts_bind; [apply gains_u32; lia|]. intros n. cbn beta.
  eapply lasts_weaken; [| | |apply (gains_runs k f a K F E (N.to_nat n) [] (g + (k - 1))%Z)]; cbn beta; intros; lia.
Qed.
(** A window: two more steps for each call *)
Lemma lasts_window k f e g {A} (b : A -> Z) (a : lp A) n : (0 <= e <= 1)%Z -> (forall x, 0 <= f + b x)%Z -> lasts k f e g b a ->
  lasts (k + 2) (f + 2) 0 g (fun x => (b x - 2 * e)%Z) (fun bs =>
    let window := firstn (N.to_nat n) bs in
    let after := skipn (N.to_nat n) bs in
    let x := a window in
    let inner := snd x in
    let k := mkCost (N.min (calls inner) n) (steps_taken inner + calls inner * 2) (copies inner) in
    match fst x with
    | (Ok result, r) =>
      let count := N.of_nat (List.length window - List.length r) in
      if negb (n =? count) then ((Err SizeMissmatch, r ++ after), k)
      else ((Ok result, r ++ after), k)
    | (o, r) => ((o, r ++ after), k)
    end).
Proof.
  intros E B [L1 L2].
  assert (L : forall bs r : list byte, used bs (r ++ skipn (N.to_nat n) bs) = used (firstn (N.to_nat n) bs) r).
  { intros bs r. unfold used. rewrite <- (firstn_skipn (N.to_nat n) bs) at 1. rewrite !app_length. lia. }
  split.
  - intros bs x r w H. cbn beta zeta in H.
    destruct (a (firstn (N.to_nat n) bs)) as [[[y|er| |] r1] w1] eqn:F; cbn [fst snd] in H; [|discriminate..].
    destruct (negb _) eqn:Q; [discriminate|]. injection H as <- <- <-. apply L1 in F. rewrite L.
    apply Bool.negb_false_iff, N.eqb_eq in Q. cbn [calls steps_taken]. unfold used in *. repeat split; lia.
  - intros bs o r w H NO. cbn beta zeta in H.
    destruct (a (firstn (N.to_nat n) bs)) as [[[y|er| |] r1] w1] eqn:F; cbn [fst snd] in H.
    + apply L1 in F. specialize (B y). destruct (negb _); injection H as <- <- <-; rewrite L; cbn [calls steps_taken]; lia.
    + apply L2 in F; [|discriminate]. injection H as <- <- <-. rewrite L. cbn [calls steps_taken]. lia.
    + apply L2 in F; [|discriminate]. injection H as <- <- <-. rewrite L. cbn [calls steps_taken]. lia.
    + apply L2 in F; [|discriminate]. injection H as <- <- <-. rewrite L. cbn [calls steps_taken]. lia.
Qed.

Lemma list_gains_sized k f c t {A} (a : lp (list A)) : (0 <= k)%Z -> (3 <= f)%Z -> (0 <= c)%Z -> (0 <= t)%Z -> list_gains k f c t a ->
  list_gains (k + 2) (f + 2) (k + 1 + c) t (l_sized a).
Proof.
  intros K F C T P g G. eapply lasts_bind; [apply gains_u32; lia|]. intros n. cbn beta.
  eapply lasts_weaken; [| | |apply (lasts_window k f 0 (g + (k + 2 - 1))%Z (fun xs => (g + (k + 2 - 1) + c + t * Z.of_nat (length xs))%Z) a n)];
    [| | | | |apply P]; cbn beta; intros; nia.
Qed.
Lemma gains_sized k f t {A} (a : lp A) : (0 <= k)%Z -> (3 <= f)%Z -> (0 <= t)%Z -> gains k f t a -> gains (k + 2) (f + 2) (k + 1 + t) (l_sized a).
Proof.
  intros K F T P g G. eapply lasts_bind; [apply gains_u32; lia|]. intros n. cbn beta.
  eapply lasts_weaken; [| | |apply (lasts_window k f 0 (g + (k + 2 - 1))%Z (fun _ => (g + (k + 2 - 1) + t)%Z) a n)];
    [| | | | |apply P]; cbn beta; intros; lia.
Qed.
Lemma gains_byte k f : (1 <= k)%Z -> (3 <= f)%Z -> gains k f (k - 1) (l_run p_byte).
Proof. intros K F. apply gains_run; try assumption; [apply suffixing_byte|apply progress_byte]. Qed.
(** 2 steps for the rounds, 1 for the encoding *)
Lemma gains_string k f : (4 <= k)%Z -> (3 <= f)%Z -> gains k f (k - 1) l_string.
Proof.
  intros K F g G. unfold l_string. eapply lasts_bind.
  - apply (list_gains_unwrapping k f 1); try lia. apply (gains_less k f (k - 1)); [lia|]. apply gains_byte; lia.
  - intros raw. cbn beta. apply lasts_steps. destruct (utf8_valid raw); [apply lasts_ret|apply lasts_fail]; lia.
Qed.
Lemma retval_short bs x r : p_retval bs = (Ok x, r) -> (length x <= 1 /\ length r < length bs)%nat.
Proof.
  unfold p_retval, bind. destruct (p_byte bs) as [[b| | |] r1] eqn:E; try discriminate. apply progress_byte in E.
  intros H. destruct (Byte.byte_eq_dec b x40) as [->|N].
  - injection H as <- <-. cbn. lia.
  - assert (H' : (match p_valty [b] with
                  | (Ok t, _) => (Ok [t], r1) | (Err e, _) => (Err e, r1) | (Panic, _) => (Panic, r1) | (OutOfFuel, _) => (OutOfFuel, r1)
                  end) = (Ok x, r)) by (destruct b; first [exact H|contradiction]).
    destruct (p_valty [b]) as [[t| | |] ?]; try discriminate. injection H' as <- <-. cbn. lia.
Qed.
Lemma lasts_run_b k f g {A} (b : A -> Z) (p : parser A) : (1 <= k)%Z -> (1 <= g + f)%Z -> suffixing p ->
  (forall bs x r, p bs = (Ok x, r) -> (b x <= g + (k - 1) * used bs r)%Z) -> lasts k f 0 g b (l_run p).
Proof.
  intros K G S P. split.
  - intros bs x r w H. destruct (lasts_ok _ _ _ _ _ _ (lasts_run k 0 f g p K ltac:(lia) G S ltac:(
      intros bs' x' r' E; pose proof (suffixing_length p bs' S) as L; rewrite E in L; cbn [snd] in L; unfold used; lia)) _ _ _ _ H) as (U & C & _).
    unfold l_run in H. injection H as H <-. apply P in H. cbn [calls steps_taken] in *. lia.
  - apply (lasts_run k 0 f g p K ltac:(lia) G S).
    intros bs' x' r' E. pose proof (suffixing_length p bs' S) as L. rewrite E in L. cbn [snd] in L. unfold used. lia.
Qed.
Lemma gains_retval k f : (2 <= k)%Z -> (3 <= f)%Z -> gains k f (k - 2) l_retval.
Proof.
  intros K F g G. unfold l_retval. eapply lasts_bind with (b1 := fun x => (g + (k - 2) + Z.of_nat (length x))%Z).
  - apply lasts_run_b; [lia|lia|apply suffixing_retval|]. intros bs x r H. apply retval_short in H. unfold used. nia.
  - intros x. cbn beta. apply lasts_steps, lasts_ret; lia.
Qed.
Lemma gains_valty k f : (1 <= k)%Z -> (3 <= f)%Z -> gains k f (k - 1) (l_run p_valty).
Proof. intros K F. apply gains_run; try assumption; [apply suffixing_valty|apply progress_valty']. Qed.
Lemma gains_functy k f : (3 <= k)%Z -> (3 <= f)%Z -> gains k f (k - 1) l_functy.
Proof.
  intros K F. unfold l_functy. apply gains_then; [lia|apply gains_byte; lia|]. intros b.
  destruct b; try (apply gains_fail; assumption).
  assert (V : gains k f (k - 1) (l_vec (l_run p_valty))) by (apply gains_vec; [lia|lia|]; apply (gains_less k f (k - 1)); [lia|apply gains_valty; lia]).
  apply (gains_less k f (k - 1)); [lia|]. apply gains_then; [lia|assumption|]. intros ps.
  apply (gains_less k f (k - 1)); [lia|]. apply gains_then; [lia|assumption|]. intros rs. apply gains_ret.
Qed.

Definition sub_gains (k f : Z) {A} (a : lp A) : Prop := forall g, (-1 <= g)%Z -> lasts k f 0 g (fun _ => (g + 1)%Z) a.
Lemma sub_gains_expr_of k f sub : (3 <= f)%Z -> sub_gains k f sub -> sub_gains k f (l_expr_of sub).
Proof.
  intros F S g G. unfold l_expr_of. eapply lasts_bind; [apply S, G|]. intros [e i]. cbn beta.
  destruct i; first [apply lasts_ret; lia|apply lasts_fail; lia].
Qed.
Lemma gains_opcode k f sub b : (3 <= k)%Z -> (3 <= f)%Z -> sub_gains k f sub -> gains k f 0 (l_opcode sub b).
Proof.
  intros K F S. unfold l_opcode.
  destruct b; try (apply gains_run0; [lia|lia|]; apply suffixing_opcode; intros bs; exists []; reflexivity).
  - intros g G. eapply lasts_bind; [apply gains_retval; lia|]. intros rt. cbn beta.
    eapply lasts_bind; [apply (sub_gains_expr_of k f sub F S); lia|]. intros e. cbn beta. apply lasts_ret; lia.
  - intros g G. eapply lasts_bind; [apply gains_retval; lia|]. intros rt. cbn beta.
    eapply lasts_bind; [apply (sub_gains_expr_of k f sub F S); lia|]. intros e. cbn beta. apply lasts_ret; lia.
  - intros g G. unfold l_if_of. eapply lasts_bind; [apply gains_retval; lia|]. intros rt. cbn beta.
    eapply lasts_bind; [apply S; lia|]. intros [b1 n1]. cbn beta.
    eapply lasts_bind with (b1 := fun _ => (g + (k - 2) + 1)%Z).
    + destruct (is_else n1); [|apply lasts_ret; lia]. eapply lasts_weaken; [| | |apply (S (g + (k - 2) + 1)%Z)]; cbn beta; intros; lia.
    + intros [b2 n2]. cbn beta. destruct (is_end n2); [apply lasts_ret|apply lasts_fail]; lia.
  - apply (gains_less k f (k - 1)); [lia|]. apply gains_then; [lia| |].
    + apply gains_vec; [lia|lia|]. apply (gains_less k f (k - 1)); [lia|]. apply gains_u32; lia.
    + intros ls. apply (gains_less k f (k - 1)); [lia|]. apply gains_then; [lia|apply gains_u32; lia|]. intros l. apply gains_ret.
Qed.
Lemma gains_instr_sub k f fuel : (3 <= k)%Z -> (3 <= f)%Z -> gains k f (k - 1) (l_instr fuel) /\ forall acc, sub_gains k f (l_subexpr fuel acc).
Proof.
  intros K F. assert (O : forall A b e g, (-2 <= g)%Z -> lasts k f e g b (@l_out_of_fuel A)).
  { intros A b e g G. apply lasts_stop; [lia|]. intros bs. eexists. split; [reflexivity|discriminate]. }
  induction fuel as [|n IH]; cbn [l_instr l_subexpr].
  - split; [intros g G|intros acc g G]; apply O; lia.
  - destruct IH as [IH1 IH2]. split.
    + apply gains_then; [lia|apply gains_byte; lia|]. intros b. apply gains_opcode; [assumption..|apply IH2].
    + intros acc g G. apply lasts_steps. eapply lasts_bind; [apply IH1; lia|]. intros i. cbn beta.
      destruct i; first [apply lasts_ret; lia|apply lasts_steps; eapply lasts_weaken; [| | |apply (IH2 _ g)]; cbn beta; intros; lia].
Qed.
Lemma gains_expr k f : (3 <= k)%Z -> (3 <= f)%Z -> sub_gains k f l_expr.
Proof.
  intros K F g G.
  split; intros bs; unfold l_expr; apply (sub_gains_expr_of k f (l_subexpr (fuel_for (length bs)) []) F (proj2 (gains_instr_sub k f _ K F) [])), G.
Qed.
Lemma gains_before_expr k f t {A B} (a : lp A) (q : A -> expr -> lp B) : (3 <= k)%Z -> (3 <= f)%Z -> (1 <= t)%Z -> gains k f t a ->
  (forall x e, gains k f 0 (q x e)) -> gains k f (t + 1) (x <=. a ;; e <=. l_expr ;; q x e).
Proof.
  intros K F T P Q g G. eapply lasts_bind; [apply P, G|]. intros x. cbn beta.
  eapply lasts_bind; [apply (gains_expr k f K F); lia|]. intros e. cbn beta.
  eapply lasts_weaken; [| | |apply (Q x e (g + t + 1)%Z)]; cbn beta; intros; lia.
Qed.
Lemma gains_func k f : (3 <= k)%Z -> (3 <= f)%Z -> gains k f k l_func.
Proof.
  intros K F. apply (gains_less k f (k - 1 + 1)); [lia|].
  apply (gains_before_expr k f (k - 1) (l_compact_vec (l_run p_valty)) (fun ls e => l_ret {| fn_ty := 0; fn_locals := ls; fn_body := e |})); try lia.
  - apply gains_compact_vec; [lia|lia|]. apply (gains_less k f (k - 1)); [lia|apply gains_valty; lia].
  - intros; apply gains_ret.
Qed.
Lemma gains_globalty k f : (1 <= k)%Z -> (3 <= f)%Z -> gains k f (k - 1) (l_run p_globalty).
Proof.
  intros K F. apply gains_run; [assumption..|apply suffixing_globalty|].
  apply progress_bind_l; [apply progress_valty'|]. intros v. apply suffixing_bind; [apply suffixing_mut|]. intros; apply suffixing_ret.
Qed.
Lemma gains_global k f : (3 <= k)%Z -> (3 <= f)%Z -> gains k f k l_global.
Proof.
  intros K F. apply (gains_less k f (k - 1 + 1)); [lia|].
  apply (gains_before_expr k f (k - 1) (l_run p_globalty) (fun t e => l_ret {| glob_ty := t; glob_init := e |})); try lia.
  - apply gains_globalty; lia.
  - intros; apply gains_ret.
Qed.
Lemma gains_elem k f : (3 <= k)%Z -> (3 <= f)%Z -> gains k f k l_elem.
Proof.
  intros K F. apply (gains_less k f (k - 1 + 1)); [lia|].
  apply (gains_before_expr k f (k - 1) (l_run p_tableidx) (fun t o => i <=. l_vec (l_run p_funcidx) ;; l_ret {| el_table := t; el_offset := o; el_init := i |})); try lia.
  - apply gains_u32; lia.
  - intros t o. apply (gains_less k f (k - 1)); [lia|]. apply gains_then; [lia| |].
    + apply gains_vec; [lia|lia|]. apply (gains_less k f (k - 1)); [lia|]. apply gains_u32; lia.
    + intros i. apply gains_ret.
Qed.
Lemma gains_data k f : (3 <= k)%Z -> (3 <= f)%Z -> gains k f k l_data.
Proof.
  intros K F. apply (gains_less k f (k - 1 + 1)); [lia|].
  apply (gains_before_expr k f (k - 1) (l_run p_memidx) (fun t o => i <=. l_unwrapping_vec (l_run p_byte) (fun b => b) ;; l_ret {| da_mem := t; da_offset := o; da_init := i |})); try lia.
  - apply gains_u32; lia.
  - intros t o. apply (gains_less k f (k - 1)); [lia|]. apply gains_then; [lia| |].
    + apply (list_gains_gains k f _ 0); [lia|]. apply list_gains_unwrapping; try lia. apply (gains_less k f (k - 1)); [lia|]. apply gains_byte; lia.
    + intros i. apply gains_ret.
Qed.
Lemma gains_import k f : (4 <= k)%Z -> (3 <= f)%Z -> gains k f (k - 1) l_import.
Proof.
  intros K F. apply gains_then; [lia|apply gains_string; lia|]. intros m.
  apply (gains_less k f (k - 1)); [lia|]. apply gains_then; [lia|apply gains_string; lia|]. intros n.
  apply gains_then; [lia|apply gains_run0; [lia|lia|apply suffixing_importdesc]|]. intros d. apply gains_ret.
Qed.
Lemma gains_export k f : (4 <= k)%Z -> (3 <= f)%Z -> gains k f (k - 1) l_export.
Proof.
  intros K F. apply gains_then; [lia|apply gains_string; lia|]. intros n.
  apply gains_then; [lia|apply gains_run0; [lia|lia|apply suffixing_exportdesc]|]. intros d. apply gains_ret.
Qed.
Lemma lasts_custom k f g : (4 <= k)%Z -> (3 <= f)%Z -> (-2 <= g)%Z -> lasts k f 1 g (fun _ => (g + (k - 2))%Z) l_custom.
Proof.
  intros K F G. eapply lasts_bind; [apply gains_string; lia|]. intros n. cbn beta. split.
  - intros bs x r w H. injection H as <- <- <-. unfold used. cbn [cost_add no_cost calls steps_taken length]. nia.
  - intros bs o r w H NO. injection H as <- <- <-. exfalso. eapply NO. reflexivity.
Qed.

(** ** The sections *)
Lemma gains_sec t {A} (a : lp A) (h : A -> pstate) : (0 <= t)%Z -> gains 5 5 t a -> gains 7 7 0 (v <=. l_sized a ;; l_ret (h v)).
Proof.
  intros T P. apply (gains_less 7 7 (5 + 1 + t)); [lia|]. apply gains_then; [lia| |intros v; apply gains_ret].
  apply (gains_sized 5 5 t); try lia. assumption.
Qed.
Lemma gains_sec_vec t {A} (a : lp A) (h : list A -> pstate) : (2 <= t)%Z -> gains 5 5 t a -> gains 7 7 0 (v <=. l_sized (l_vec a) ;; l_ret (h v)).
Proof. intros T P. apply (gains_sec 4); [lia|]. apply (gains_vec 5 5); [lia|lia|]. apply (gains_less 5 5 t); assumption. Qed.
Lemma gains_section id s : gains 7 7 0 (l_section id s).
Proof.
  assert (T : gains 5 5 4 (l_run p_table)).
  { apply (gains_run 5 5); [lia|lia|apply suffixing_table|]. apply progress_bind_l; [|intros; apply suffixing_ret].
    apply progress_bind_l; [apply progress_elemty|]. intros e. apply suffixing_bind; [apply suffixing_limits|]. intros; apply suffixing_ret. }
  assert (ME : gains 5 5 4 (l_run p_mem)).
  { apply (gains_run 5 5); [lia|lia|apply suffixing_mem|]. apply progress_bind_l; [|intros; apply suffixing_ret].
    apply progress_bind_l; [apply progress_limits|]. intros; apply suffixing_ret. }
  unfold l_section. destruct id; try (apply gains_fail; lia).
  - intros g G. eapply lasts_bind with (b1 := fun _ => g); [|intros; apply lasts_ret; lia].
    eapply lasts_bind; [apply (gains_u32 7 7); lia|]. intros n. cbn beta.
    eapply lasts_weaken; [| | |apply (lasts_window 5 5 1 (g + (7 - 1))%Z (fun _ => (g + (7 - 1) + (5 - 2))%Z) l_custom n)];
      [| | | | |apply (lasts_custom 5 5)]; cbn beta; intros; lia.
  - apply (gains_sec_vec 4); [lia|apply (gains_functy 5 5); lia].
  - apply (gains_sec_vec 4); [lia|apply (gains_import 5 5); lia].
  - apply (gains_sec_vec 4); [lia|apply (gains_u32 5 5); lia].
  - apply (gains_sec_vec 4); [lia|assumption].
  - apply (gains_sec_vec 4); [lia|assumption].
  - apply (gains_sec_vec 5); [lia|apply (gains_global 5 5); lia].
  - apply (gains_sec_vec 4); [lia|apply (gains_export 5 5); lia].
  - apply (gains_sec 0); [lia|]. apply gains_run0; [lia|lia|apply suffixing_start].
  - apply (gains_sec_vec 5); [lia|apply (gains_elem 5 5); lia].
  - intros g G. eapply lasts_bind.
    + apply (list_gains_sized 5 5 4 1); try lia. apply (list_gains_unwrapping 5 5 1); try lia.
      apply (gains_less 5 5 (3 + 1 + 3)); [lia|]. apply (gains_sized 3 3 3); try lia. apply (gains_func 3 3); lia.
    + intros fs. cbn beta. destruct (negb _) eqn:L; [apply lasts_fail; lia|]. apply Bool.negb_false_iff, Nat.eqb_eq in L.
      cbv zeta. apply lasts_steps. destruct (assign_types _ _ _); [apply lasts_ret; lia|..];
        (apply lasts_stop; [lia|]; intros bs; eexists; split; [reflexivity|discriminate]).
  - apply (gains_sec_vec 5); [lia|apply (gains_data 5 5); lia].
Qed.
Lemma lasts_sections fuel : forall s g, (0 <= g)%Z -> lasts 7 7 1 g (fun _ => (g - 2)%Z) (l_sections fuel s).
Proof.
  induction fuel as [|f IH]; intros s g G.
  - apply lasts_stop; [lia|]. intros bs. eexists. split; [reflexivity|discriminate].
  - assert (B : lasts 7 7 1 g (fun _ => (g - 2)%Z) (l_round f s)).
    { unfold l_round. apply lasts_steps. eapply lasts_bind; [apply (gains_byte 7 7); lia|]. intros id. cbn beta.
      destruct (_ && _); [apply lasts_fail; lia|]. cbv zeta. eapply lasts_bind; [apply gains_section; lia|]. intros s2. cbn beta.
      eapply lasts_weaken; [| | |apply (IH s2 g)]; cbn beta; intros; lia. }
    destruct B as [B1 B2]. split.
    + intros [|b bs] x r w H; [injection H as <- <- <-; rewrite used_same; cbn [calls steps_taken]; lia|]. apply (B1 (b :: bs)) in H. assumption.
    + intros [|b bs] o r w H NO; [injection H as <- <- <-; exfalso; eapply NO; reflexivity|]. apply (B2 (b :: bs)) in H; assumption.
Qed.
Lemma lasts_peekable k f g {A} (b : A -> Z) (a : lp A) : lasts k f 1 g b a -> lasts (k + 1) (f + 1) 1 g (fun x => (b x - 1)%Z) (l_peekable a).
Proof.
  intros [L1 L2]. split.
  - intros bs x r w H. unfold l_peekable in H. cbv zeta in H. destruct (a bs) as [o w1] eqn:E. cbn [fst snd] in H.
    injection H as -> <-. apply L1 in E. cbn [cost_add calls steps_taken]. lia.
  - intros bs o r w H NO. unfold l_peekable in H. cbv zeta in H. destruct (a bs) as [y w1] eqn:E. cbn [fst snd] in H.
    injection H as -> <-. apply L2 in E; [|assumption]. cbn [cost_add calls steps_taken]. lia.
Qed.
Lemma lasts_map k f e g {A B} (b : A -> Z) c (a : lp A) (h : A -> B) : (forall x, c <= b x)%Z -> lasts k f e g b a ->
  lasts k f e g (fun _ => c) (x <=. a ;; l_ret (h x)).
Proof.
  intros C [L1 L2]. split.
  - intros bs y r w H. unfold l_bind in H. destruct (a bs) as [[[x|er| |] r1] w1] eqn:E; [|discriminate..].
    cbv zeta in H. cbn [l_ret fst snd] in H. injection H as <- <- <-. apply L1 in E. specialize (C x).
    cbn [cost_add no_cost calls steps_taken]. lia.
  - intros bs o r w H NO. unfold l_bind in H. destruct (a bs) as [[[x|er| |] r1] w1] eqn:E.
    + cbv zeta in H. cbn [l_ret fst snd] in H. injection H as <- <- <-. exfalso. eapply NO. reflexivity.
    + injection H as <- <- <-. apply (L2 _ _ _ _ E). discriminate.
    + injection H as <- <- <-. apply (L2 _ _ _ _ E). discriminate.
    + injection H as <- <- <-. apply (L2 _ _ _ _ E). discriminate.
Qed.
Lemma array_takes n : forall bs xs r, p_array n p_byte bs = (Ok xs, r) -> used bs r = Z.of_nat n.
Proof.
  unfold p_array. induction n as [|n IH]; intros bs xs r H.
  - injection H as _ <-. apply used_same.
  - cbn [p_times] in H. unfold bind in H. destruct bs as [|b bs]; [discriminate|]. cbn [p_byte] in H.
    destruct (p_times n p_byte bs) as [[ys| | |] r1] eqn:E; try discriminate. injection H as _ <-. apply IH in E.
    unfold used in *. cbn [length]. lia.
Qed.
Lemma lasts_module : lasts 8 1 1 0 (fun _ => 0%Z) l_module.
Proof.
  assert (AR : forall g, (0 <= g)%Z -> lasts 8 1 0 g (fun _ => (g + (8 - 1) * 4)%Z) (l_run (p_array 4 p_byte))).
  { intros g G. apply lasts_run; try lia; [apply suffixing_times, suffixing_byte|]. intros bs x r H. rewrite (array_takes _ _ _ _ H). lia. }
  unfold l_module. eapply lasts_bind; [apply AR; lia|]. intros magic. destruct (negb _); [apply lasts_fail; lia|].
  eapply lasts_bind; [apply AR; lia|]. intros version. cbn beta. destruct (negb _); [apply lasts_fail; lia|].
  assert (B : forall fuel, lasts 8 1 1 (0 + (8 - 1) * 4 + (8 - 1) * 4) (fun _ => 0%Z)
    (s <=. l_peekable (l_sections fuel (mkPstate default_module [] 0)) ;; l_ret (ps_result s))).
  { intros fuel. eapply lasts_weaken; [| | |apply (lasts_map 8 8 1 49 (fun _ => 49 - 2 - 1)%Z 46)];
      [| | | |apply (lasts_peekable 7 7 49 (fun _ => 49 - 2)%Z), lasts_sections]; cbn beta; intros; lia. }
  split; intros bs; apply B.
Qed.

(** ** Copies: at most 2^32 - 1 for each six bytes; on success [c] and those made give [h] *)
Definition M32 : Z := 4294967295.
Record spends (c : Z) {A} (h : A -> Z) (a : lp A) : Prop := mkSpends {
  spends_ok : forall bs x r w, a bs = ((Ok x, r), w) ->
    (0 <= used bs r /\ c + Z.of_N (copies w) = h x /\ 6 * Z.of_N (copies w) <= M32 * used bs r)%Z;
  spends_err : forall bs o r w, a bs = ((o, r), w) -> (forall x, o <> Ok x) ->
    (0 <= used bs r /\ 6 * Z.of_N (copies w) <= M32 * used bs r)%Z }.
Lemma spends_none c {A} (h : A -> Z) (a : lp A) : (forall bs, (0 <= used bs (snd (fst (a bs))))%Z /\ copies (snd (a bs)) = 0) ->
  (forall bs x r w, a bs = ((Ok x, r), w) -> h x = c) -> spends c h a.
Proof.
  intros N C. split.
  - intros bs x r w H. specialize (N bs). apply C in H as E. rewrite H in N. cbn [fst snd] in N. rewrite (proj2 N). unfold M32. lia.
  - intros bs o r w H _. specialize (N bs). rewrite H in N. cbn [fst snd] in N. rewrite (proj2 N). unfold M32. lia.
Qed.
Lemma spends_run c {A} (p : parser A) : suffixing p -> spends c (fun _ => c) (l_run p).
Proof.
  intros S. apply spends_none; [|reflexivity]. intros bs. unfold l_run. cbn [fst snd copies]. split; [|reflexivity].
  pose proof (suffixing_length p bs S). unfold used. lia.
Qed.
Lemma spends_ret c {A} (h : A -> Z) x : h x = c -> spends c h (l_ret x).
Proof.
  intros E. apply spends_none; [intros bs; cbn [l_ret fst snd copies no_cost]; rewrite used_same; split; [lia|reflexivity]|].
  intros bs y r w H. injection H as <- _ _. exact E.
Qed.
Lemma spends_stop c {A} (h : A -> Z) (a : lp A) : (forall bs, exists o, a bs = ((o, bs), no_cost) /\ forall x, o <> Ok x) -> spends c h a.
Proof.
  intros S. apply spends_none.
  - intros bs. destruct (S bs) as (o & -> & _). cbn [fst snd copies no_cost]. rewrite used_same. lia.
  - intros bs x r w H. destruct (S bs) as (o & E & N). exfalso. apply (N x). congruence.
Qed.
Lemma spends_fail c {A} (h : A -> Z) e : spends c h (@l_fail A e).
Proof. apply spends_stop. intros bs. eexists. split; [reflexivity|discriminate]. Qed.
Lemma spends_steps c n : spends c (fun _ => c) (l_steps n).
Proof. apply spends_none; [|reflexivity]. intros bs. cbn [l_steps fst snd copies]. rewrite used_same. lia. Qed.
Lemma spends_bind_ok c {A B} (h1 : A -> Z) (h : B -> Z) (a : lp A) (q : A -> lp B) :
  spends c h1 a -> (forall bs x r w, a bs = ((Ok x, r), w) -> spends (h1 x) h (q x)) -> spends c h (l_bind a q).
Proof.
  intros [A1 A2] Q. split.
  - intros bs y r w H. unfold l_bind in H. destruct (a bs) as [[[x|er| |] r1] w1] eqn:E; [|discriminate..].
    cbv zeta in H. destruct (q x r1) as [z w2] eqn:E2. cbn [fst snd] in H. injection H as -> <-. specialize (Q _ _ _ _ E). apply A1 in E. apply Q in E2.
    rewrite (used_add bs r1 r). rewrite Z.mul_add_distr_l. cbn [cost_add copies]. lia.
  - intros bs o r w H NO. unfold l_bind in H. destruct (a bs) as [[[x|er| |] r1] w1] eqn:E.
    + cbv zeta in H. destruct (q x r1) as [z w2] eqn:E2. cbn [fst snd] in H. injection H as -> <-. specialize (Q _ _ _ _ E). apply A1 in E. apply (spends_err _ _ _ Q) in E2; [|assumption].
      rewrite (used_add bs r1 r). rewrite Z.mul_add_distr_l. cbn [cost_add copies]. lia.
    + injection H as <- <- <-. apply (A2 _ _ _ _ E). discriminate.
    + injection H as <- <- <-. apply (A2 _ _ _ _ E). discriminate.
    + injection H as <- <- <-. apply (A2 _ _ _ _ E). discriminate.
Qed.
Lemma spends_bind c {A B} (h1 : A -> Z) (h : B -> Z) (a : lp A) (q : A -> lp B) :
  spends c h1 a -> (forall x, spends (h1 x) h (q x)) -> spends c h (l_bind a q).
Proof. intros P Q. eapply spends_bind_ok; [exact P|]. intros bs x r w _. apply Q. Qed.
(** nothing is copied *)
Definition idle {A} (a : lp A) : Prop := forall c, spends c (fun _ => c) a.
Lemma idle_run {A} (p : parser A) : suffixing p -> idle (l_run p). Proof. intros S c. apply spends_run, S. Qed.
Lemma idle_bind {A B} (a : lp A) (q : A -> lp B) : idle a -> (forall x, idle (q x)) -> idle (l_bind a q).
Proof. intros P Q c. eapply spends_bind; [apply P|]. intros x. apply Q. Qed.
Lemma idle_ret {A} (x : A) : idle (l_ret x). Proof. intros c. apply spends_ret. reflexivity. Qed.
Lemma idle_fail {A} e : idle (@l_fail A e). Proof. intros c. apply spends_fail. Qed.
Lemma idle_steps n : idle (l_steps n). Proof. intros c. apply spends_steps. Qed.
Definition sumZ {A} (h : A -> Z) (xs : list A) : Z := fold_right (fun x n => h x + n)%Z 0%Z xs.
Lemma spends_times {A} (h : A -> Z) (a : lp A) n : (forall c, spends c (fun x => c + h x)%Z a) -> forall c, spends c (fun xs => c + sumZ h xs)%Z (l_times n a).
Proof.
  intros P. induction n as [|n IH]; intros c; cbn [l_times].
  - apply spends_ret. cbn [sumZ fold_right]. lia.
  - eapply spends_bind; [apply spends_steps|]. intros u. cbn beta. clear u. eapply spends_bind; [apply P|]. intros x. cbn beta.
    eapply spends_bind; [apply spends_steps|]. intros u. cbn beta. clear u. eapply spends_bind; [apply IH|]. intros xs. cbn beta.
    apply spends_ret. cbn [sumZ fold_right]. unfold sumZ. lia.
Qed.
Lemma idle_times {A} (a : lp A) n : idle a -> idle (l_times n a).
Proof.
  intros P. induction n as [|n IH]; cbn [l_times]; [apply idle_ret|].
  apply idle_bind; [apply idle_steps|]. intros _. apply idle_bind; [assumption|]. intros x.
  apply idle_bind; [apply idle_steps|]. intros _. apply idle_bind; [assumption|]. intros xs. apply idle_ret.
Qed.
Lemma idle_u32 : idle (l_run p_u32). Proof. apply idle_run, suffixing_u32. Qed.
Lemma idle_vec {A} (a : lp A) : idle a -> idle (l_vec a).
Proof. intros P. apply idle_bind; [apply idle_u32|]. intros n. apply idle_times, P. Qed.
Lemma idle_unwrapping_vec {A B} (a : lp A) (u : A -> B) : idle a -> idle (l_unwrapping_vec a u).
Proof. intros P. apply idle_bind; [apply idle_u32|]. intros n. apply idle_times, idle_bind; [assumption|]. intros x. apply idle_ret. Qed.
Lemma uleb_small bs : (Z.of_N (uleb_val bs) < 2 ^ (7 * Z.of_nat (length bs)))%Z.
Proof.
  induction bs as [|b bs IH]; cbn [uleb_val length]; [reflexivity|]. pose proof (payload_lt b).
  replace (7 * Z.of_nat (S (length bs)))%Z with (7 + 7 * Z.of_nat (length bs))%Z by lia. rewrite Z.pow_add_r by lia.
  change (2 ^ 7)%Z with 128%Z. lia.
Qed.
Lemma u32_dear bs n r : p_u32 bs = (Ok n, r) -> (1 <= used bs r /\ 6 * Z.of_N n <= M32 * (used bs r + 1))%Z.
Proof.
  intros H. apply exact_u32 in H. destruct H as (pre & -> & [[L [V F]] _]). unfold fits_u in F. pose proof (uleb_small pre) as S. rewrite V in S.
  assert (P : (0 < length pre)%nat) by (destruct L; cbn; lia).
  replace (used (pre ++ r) r) with (Z.of_nat (length pre)) by (unfold used; rewrite app_length; lia).
  split; [lia|]. unfold M32. change (2 ^ 32) with 4294967296 in F.
  destruct (Nat.le_gt_cases 5 (length pre)); [lia|].
  assert (E : (length pre = 1 \/ length pre = 2 \/ length pre = 3 \/ length pre = 4)%nat) by lia.
  destruct E as [E|[E|[E|E]]]; rewrite E in *; [change (7 * Z.of_nat 1)%Z with 7%Z in S|change (7 * Z.of_nat 2)%Z with 14%Z in S
    |change (7 * Z.of_nat 3)%Z with 21%Z in S|change (7 * Z.of_nat 4)%Z with 28%Z in S]; cbn in S; lia.
Qed.
Lemma spends_runs j : forall acc c, spends c (fun xs => c + Z.of_nat (length xs) - Z.of_nat (length acc))%Z (l_runs j (l_run p_valty) acc).
Proof.
  induction j as [|j IH]; intros acc c; cbn [l_runs]; [apply spends_ret; lia|].
  eapply spends_bind; [apply spends_steps|]. intros u. cbn beta. clear u.
  assert (U : forall bs bs1 bs2 n v, p_u32 bs = (Ok n, bs1) -> p_valty bs1 = (Ok v, bs2) ->
    (0 <= used bs bs2 /\ 6 * Z.of_N n <= M32 * used bs bs2)%Z).
  { intros bs bs1 bs2 n v E1 E2. apply u32_dear in E1. apply progress_valty' in E2. unfold used in *. unfold M32 in *. lia. }
  split.
  - intros bs x r w H. unfold l_bind, l_run, l_copies in H. pose proof (suffixing_length p_u32 bs suffixing_u32) as S1.
    destruct (p_u32 bs) as [[n|e| |] bs1] eqn:E1; cbn [fst snd] in *; try discriminate.
    destruct (p_valty bs1) as [[v|e| |] bs2] eqn:E2; cbn [fst snd] in *; try discriminate.
    destruct (l_runs j _ _ bs2) as [o w2] eqn:E3. cbv zeta in H. cbn [fst snd] in H. injection H as -> <-.
    apply (IH _ c) in E3. specialize (U _ _ _ _ _ E1 E2). rewrite (used_add bs bs2 r), Z.mul_add_distr_l. rewrite app_length, repeat_length in E3.
    cbn [cost_add copies]. lia.
  - intros bs o r w H NO. unfold l_bind, l_run, l_copies in H. pose proof (suffixing_length p_u32 bs suffixing_u32) as S1.
    destruct (p_u32 bs) as [[n|e| |] bs1] eqn:E1; cbn [fst snd] in *;
      [|injection H as <- <- <-; cbn [cost_add copies]; unfold used, M32; lia..].
    pose proof (suffixing_length p_valty bs1 suffixing_valty) as S2.
    destruct (p_valty bs1) as [[v|e| |] bs2] eqn:E2; cbn [fst snd] in *;
      [|cbv zeta in H; cbn [fst snd] in H; injection H as <- <- <-; cbn [cost_add copies]; unfold used, M32; lia..].
    destruct (l_runs j _ _ bs2) as [y w2] eqn:E3. cbv zeta in H. cbn [fst snd] in H. injection H as -> <-.
    apply (spends_err _ _ _ (IH _ c)) in E3; [|assumption]. specialize (U _ _ _ _ _ E1 E2). rewrite (used_add bs bs2 r), Z.mul_add_distr_l.
    cbn [cost_add copies]. lia.
Qed.
Lemma spends_same c {A} (h h' : A -> Z) (a : lp A) : (forall x, h x = h' x) -> spends c h a -> spends c h' a.
Proof.
  intros E [S1 S2]. split; [|assumption]. intros bs x r w H. rewrite <- E. apply (S1 _ _ _ _ H).
Qed.
Lemma spends_locals c : spends c (fun xs => c + Z.of_nat (length xs))%Z (l_compact_vec (l_run p_valty)).
Proof.
  eapply spends_bind; [apply idle_u32|]. intros n. cbn beta. eapply spends_same; [|apply spends_runs]. intros xs. cbn [length]. lia.
Qed.
Lemma spends_sized c {A} (h : A -> Z) (a : lp A) : spends c h a -> spends c h (l_sized a).
Proof.
  intros [L1 L2]. eapply spends_bind; [apply idle_u32|]. intros n. cbn beta.
  assert (L : forall bs r : list byte, used bs (r ++ skipn (N.to_nat n) bs) = used (firstn (N.to_nat n) bs) r).
  { intros bs r. unfold used. rewrite <- (firstn_skipn (N.to_nat n) bs) at 1. rewrite !app_length. lia. }
  split.
  - intros bs x r w H. cbn beta zeta in H.
    destruct (a (firstn (N.to_nat n) bs)) as [[[y|er| |] r1] w1] eqn:F; cbn [fst snd] in H; [|discriminate..].
    destruct (negb _) eqn:Q; [discriminate|]. injection H as <- <- <-. apply L1 in F. rewrite L. exact F.
  - intros bs o r w H NO. cbn beta zeta in H.
    destruct (a (firstn (N.to_nat n) bs)) as [[[y|er| |] r1] w1] eqn:F; cbn [fst snd] in H.
    + apply L1 in F. destruct (negb _); injection H as <- <- <-; rewrite L; cbn [copies]; tauto.
    + apply L2 in F; [|discriminate]. injection H as <- <- <-. rewrite L. exact F.
    + apply L2 in F; [|discriminate]. injection H as <- <- <-. rewrite L. exact F.
    + apply L2 in F; [|discriminate]. injection H as <- <- <-. rewrite L. exact F.
Qed.
Lemma idle_sized {A} (a : lp A) : idle a -> idle (l_sized a). Proof. intros P c. apply spends_sized, P. Qed.
Lemma idle_consume : idle l_consume.
Proof.
  intros c. apply spends_none; [|reflexivity]. intros bs. unfold l_consume, used. cbn [fst snd copies length]. split; [lia|reflexivity].
Qed.
Lemma idle_byte : idle (l_run p_byte). Proof. apply idle_run, suffixing_byte. Qed.
Lemma idle_valty : idle (l_run p_valty). Proof. apply idle_run, suffixing_valty. Qed.
Lemma idle_string : idle l_string.
Proof.
  unfold l_string. apply idle_bind; [apply idle_unwrapping_vec, idle_byte|]. intros raw. apply idle_bind; [apply idle_steps|]. intros _.
  destruct (utf8_valid raw); [apply idle_ret|apply idle_fail].
Qed.
Lemma idle_retval : idle l_retval.
Proof. apply idle_bind; [apply idle_run, suffixing_retval|]. intros x. apply idle_bind; [apply idle_steps|]. intros _. apply idle_ret. Qed.
Lemma idle_functy : idle l_functy.
Proof.
  apply idle_bind; [apply idle_byte|]. intros b. destruct b; try apply idle_fail.
  apply idle_bind; [apply idle_vec, idle_valty|]. intros ps. apply idle_bind; [apply idle_vec, idle_valty|]. intros rs. apply idle_ret.
Qed.
Lemma idle_expr_of sub : idle sub -> idle (l_expr_of sub).
Proof. intros S. apply idle_bind; [assumption|]. intros [e i]. destruct i; first [apply idle_ret|apply idle_fail]. Qed.
Lemma idle_opcode sub b : idle sub -> idle (l_opcode sub b).
Proof.
  intros S. unfold l_opcode. destruct b; try (apply idle_run; apply suffixing_opcode; intros bs; exists []; reflexivity).
  - apply idle_bind; [apply idle_retval|]. intros rt. apply idle_bind; [apply idle_expr_of, S|]. intros e. apply idle_ret.
  - apply idle_bind; [apply idle_retval|]. intros rt. apply idle_bind; [apply idle_expr_of, S|]. intros e. apply idle_ret.
  - apply idle_bind; [apply idle_retval|]. intros rt. apply idle_bind; [assumption|]. intros [b1 n1].
    apply idle_bind; [destruct (is_else n1); [assumption|apply idle_ret]|]. intros [b2 n2]. destruct (is_end n2); [apply idle_ret|apply idle_fail].
  - apply idle_bind; [apply idle_vec, idle_u32|]. intros ls. apply idle_bind; [apply idle_u32|]. intros l. apply idle_ret.
Qed.
Lemma idle_instr_sub fuel : idle (l_instr fuel) /\ forall acc, idle (l_subexpr fuel acc).
Proof.
  induction fuel as [|n IH]; cbn [l_instr l_subexpr].
  - split; intros; intros c; (apply spends_stop; intros bs; eexists; split; [reflexivity|discriminate]).
  - destruct IH as [IH1 IH2]. split.
    + apply idle_bind; [apply idle_byte|]. intros b. apply idle_opcode, IH2.
    + intros acc. apply idle_bind; [apply idle_steps|]. intros _. apply idle_bind; [assumption|]. intros i.
      destruct i; first [apply idle_ret|apply idle_bind; [apply idle_steps|intros _; apply IH2]].
Qed.
Lemma idle_expr : idle l_expr.
Proof. intros c. split; intros bs; unfold l_expr; apply (idle_expr_of _ (proj2 (idle_instr_sub (fuel_for (length bs))) []) c). Qed.
Lemma spends_func c : spends c (fun f => c + Z.of_nat (length (fn_locals f)))%Z l_func.
Proof.
  eapply spends_bind; [apply spends_locals|]. intros ls. cbn beta. eapply spends_bind; [apply idle_expr|]. intros e. cbn beta. apply spends_ret. reflexivity.
Qed.
Lemma spends_funcs c :
  spends c (fun fs => c + sumZ (fun f => Z.of_nat (length (fn_locals f))) fs)%Z (l_unwrapping_vec (l_sized l_func) (fun f => f)).
Proof.
  eapply spends_bind; [apply idle_u32|]. intros n. cbn beta. apply (spends_times (fun f => Z.of_nat (length (fn_locals f)))).
  intros d. eapply spends_bind; [apply spends_sized, spends_func|]. intros f. apply spends_ret. reflexivity.
Qed.
Lemma idle_global : idle l_global.
Proof. apply idle_bind; [apply idle_run, suffixing_globalty|]. intros t. apply idle_bind; [apply idle_expr|]. intros e. apply idle_ret. Qed.
Lemma idle_elem : idle l_elem.
Proof.
  apply idle_bind; [apply idle_u32|]. intros t. apply idle_bind; [apply idle_expr|]. intros e.
  apply idle_bind; [apply idle_vec, idle_u32|]. intros i. apply idle_ret.
Qed.
Lemma idle_data : idle l_data.
Proof.
  apply idle_bind; [apply idle_u32|]. intros t. apply idle_bind; [apply idle_expr|]. intros e.
  apply idle_bind; [apply idle_unwrapping_vec, idle_byte|]. intros i. apply idle_ret.
Qed.
Lemma idle_import : idle l_import.
Proof.
  apply idle_bind; [apply idle_string|]. intros m. apply idle_bind; [apply idle_string|]. intros n.
  apply idle_bind; [apply idle_run, suffixing_importdesc|]. intros d. apply idle_ret.
Qed.
Lemma idle_export : idle l_export.
Proof.
  apply idle_bind; [apply idle_string|]. intros n. apply idle_bind; [apply idle_run, suffixing_exportdesc|]. intros d. apply idle_ret.
Qed.
Lemma idle_custom : idle l_custom.
Proof. apply idle_bind; [apply idle_string|]. intros n. apply idle_bind; [apply idle_consume|]. intros c. apply idle_ret. Qed.

Definition locals_in (s : pstate) : Z := Z.of_nat (declared (ps_result s)).
Lemma sum_declared fs : sumZ (fun f => Z.of_nat (length (fn_locals f))) fs = Z.of_nat (list_sum (map (@length valty) (map fn_locals fs))).
Proof. induction fs as [|f fs IH]; [reflexivity|]. cbn [sumZ fold_right map list_sum]. unfold sumZ in IH. rewrite IH. cbn [list_sum fold_right]. unfold list_sum. lia. Qed.
Lemma spends_sec c {A} (a : lp A) (h : A -> pstate) : idle a -> (forall v, locals_in (h v) = c) -> spends c locals_in (v <=. l_sized a ;; l_ret (h v)).
Proof. intros P E. eapply spends_bind; [apply idle_sized, P|]. intros v. apply spends_ret, E. Qed.
Lemma spends_section id s : (id = x0a -> m_funcs (ps_result s) = []) -> spends (locals_in s) locals_in (l_section id s).
Proof.
  intros I. unfold l_section. destruct id; try apply spends_fail; try (apply spends_sec; [|reflexivity]).
  - apply idle_custom.
  - apply idle_vec, idle_functy.
  - apply idle_vec, idle_import.
  - apply idle_vec, idle_u32.
  - apply idle_vec, idle_run, suffixing_table.
  - apply idle_vec, idle_run, suffixing_mem.
  - apply idle_vec, idle_global.
  - apply idle_vec, idle_export.
  - apply idle_run, suffixing_start.
  - apply idle_vec, idle_elem.
  - specialize (I eq_refl). eapply spends_bind.
    + apply spends_sized, spends_funcs.
    + intros fs. cbn beta. destruct (negb _); [apply spends_fail|]. cbv zeta. eapply spends_bind; [apply spends_steps|]. intros u. cbn beta. clear u. cbn beta.
      destruct (assign_types _ _ _) as [fs'| | |] eqn:E; [|apply spends_stop; intros bs; eexists; split; [reflexivity|discriminate]..].
      apply spends_ret. apply assign_types_locals in E. unfold locals_in, declared, total. rewrite I. cbn [ps_result with_result set_funcs m_funcs].
      rewrite sum_declared, <- E, map_map. cbn. lia.
  - apply idle_vec, idle_data.
Qed.
Lemma section_keeps id s bs s' r : p_section id s bs = (Ok s', r) ->
  ps_last_id s' = ps_last_id s /\ (id <> x0a -> m_funcs (ps_result s') = m_funcs (ps_result s)).
Proof.
  unfold p_section. intros H. destruct id; try discriminate;
  try (apply bind_ok in H; destruct H as (v & r1 & H1 & H); injection H as <- _; split; [reflexivity|intros _; reflexivity]).
  apply bind_ok in H. destruct H as (v & r1 & H1 & H). destruct (negb _); [discriminate|]. cbv zeta in H.
  destruct (assign_types _ _ _); try discriminate. injection H as <- _. split; [reflexivity|congruence].
Qed.
Lemma spends_sections fuel : forall s, (ps_last_id s < 10 -> m_funcs (ps_result s) = []) -> spends (locals_in s) locals_in (l_sections fuel s).
Proof.
  induction fuel as [|f IH]; intros s I.
  - apply spends_stop. intros bs. eexists. split; [reflexivity|discriminate].
  - assert (B : spends (locals_in s) locals_in (l_round f s)).
    { unfold l_round. eapply spends_bind; [apply spends_steps|]. intros u. cbn beta. clear u. eapply spends_bind; [apply idle_byte|]. intros id. cbn beta.
      destruct (_ && _) eqn:O; [apply spends_fail|]. cbv zeta.
      set (s1 := if byte_is id 0 then s else mkPstate (ps_result s) (ps_func_types s) (Byte.to_N id)).
      assert (R : ps_result s1 = ps_result s) by (unfold s1; destruct (byte_is id 0); reflexivity).
      assert (I1 : id = x0a -> m_funcs (ps_result s1) = []).
      { intros ->. rewrite R. apply I. change (byte_is x0a 0) with false in O. cbn [negb andb] in O. apply N.leb_gt in O. exact O. }
      assert (I2 : id <> x0a -> ps_last_id s1 < 10 -> m_funcs (ps_result s1) = []).
      { intros _ L. rewrite R. apply I. unfold s1 in L. destruct (byte_is id 0) eqn:Z; [assumption|].
        cbn [ps_last_id negb andb] in *. apply N.leb_gt in O. lia. }
      replace (locals_in s) with (locals_in s1) by (unfold locals_in; rewrite R; reflexivity).
      eapply spends_bind_ok; [apply spends_section, I1|]. intros bs s2 r w H. apply IH.
      pose proof (free_section id s1 bs) as F. rewrite H in F. cbn [fst] in F. symmetry in F. apply section_keeps in F. destruct F as [F1 F2].
      intros L. rewrite F1 in L. destruct (Byte.byte_eq_dec id x0a) as [->|N]; [cbn in L; lia|]. rewrite (F2 N). apply I2; assumption. }
    destruct B as [B1 B2]. split.
    + intros [|b bs] x r w H; [injection H as <- <- <-; rewrite used_same; cbn [copies]; lia|]. apply (B1 (b :: bs)) in H. assumption.
    + intros [|b bs] o r w H NO; [injection H as <- <- <-; exfalso; eapply NO; reflexivity|]. apply (B2 (b :: bs)) in H; assumption.
Qed.
Lemma spends_module : spends 0 (fun m => Z.of_nat (declared m)) l_module.
Proof.
  assert (AR : idle (l_run (p_array 4 p_byte))) by (apply idle_run, suffixing_times, suffixing_byte).
  eapply spends_bind; [apply AR|]. intros magic. cbn beta. destruct (negb _); [apply spends_fail|].
  eapply spends_bind; [apply AR|]. intros version. cbn beta. destruct (negb _); [apply spends_fail|].
  assert (B : forall fuel, spends 0 (fun m => Z.of_nat (declared m))
    (s <=. l_peekable (l_sections fuel (mkPstate default_module [] 0)) ;; l_ret (ps_result s))).
  { intros fuel. eapply spends_bind; [|intros s; apply spends_ret; reflexivity].
    destruct (spends_sections fuel (mkPstate default_module [] 0) (fun _ => eq_refl)) as [S1 S2].
    split; intros bs x r w H; unfold l_peekable in H; cbv zeta in H; destruct (l_sections fuel _ bs) as [o w1] eqn:E; cbn [fst snd] in H; injection H as -> <-.
    - apply S1 in E. cbn [cost_add copies]. rewrite N.add_0_r. exact E.
    - intros NO. apply S2 in E; [|assumption]. cbn [cost_add copies]. rewrite N.add_0_r. exact E. }
  split; intros bs; apply B.
Qed.

(** ** The claims *)
Lemma consumed bs : used bs (snd (p_module bs)) = Z.of_nat (length bs - length (snd (p_module bs))).
Proof. pose proof (suffixing_length _ bs suffixing_module). unfold used. lia. Qed.
Theorem time_bounds bs :
  calls (parsing_cost bs) <= N.of_nat (length bs - length (snd (p_module bs))) + 1 /\
  steps_taken (parsing_cost bs) <= 8 * N.of_nat (length bs - length (snd (p_module bs))) + 1 /\
  6 * copies (parsing_cost bs) <= (2 ^ 32 - 1) * N.of_nat (length bs - length (snd (p_module bs))).
Proof.
  pose proof (consumed bs) as C. unfold parsing_cost. pose proof (free_module bs) as F. destruct (l_module bs) as [[o r] w] eqn:E. cbn [fst snd] in *. rewrite <- F in *. cbn [snd] in *.
  change (2 ^ 32 - 1) with 4294967295.
  destruct o as [m|e| |]; [apply (lasts_ok _ _ _ _ _ _ lasts_module) in E as L; apply (spends_ok _ _ _ spends_module) in E as S
    |(apply (lasts_err _ _ _ _ _ _ lasts_module) in E as L; [|discriminate]);
     (apply (spends_err _ _ _ spends_module) in E as S; [|discriminate])..]; unfold M32 in S; rewrite C in *; lia.
Qed.
Theorem time_copies bs m r : p_module bs = (Ok m, r) -> copies (parsing_cost bs) = N.of_nat (declared m).
Proof.
  intros P. unfold parsing_cost. pose proof (free_module bs) as F. rewrite P in F. destruct (l_module bs) as [y w] eqn:E. cbn [fst snd] in *. subst y.
  apply (spends_ok _ _ _ spends_module) in E. lia.
Qed.
Theorem time_refuted : exists m, length bomb = 30%nat /\ p_module bomb = (Ok m, []) /\ copies (parsing_cost bomb) = 2 ^ 32 - 1.
Proof.
  destruct locals_bomb as (L & m & f & P & F & N). exists m. split; [assumption|]. split; [assumption|].
  rewrite (time_copies _ _ _ P). unfold declared, total. rewrite F. cbn [map list_sum fold_right]. rewrite Nat.add_0_r. assumption.
Qed.
Theorem time_total bs m r : p_module bs = (Ok m, r) ->
  steps_taken (parsing_cost bs) + copies (parsing_cost bs) + N.of_nat (validation_steps m) <=
  N.of_nat (length bs * length bs) + 8 * N.of_nat (length bs) + 1 + 2 * N.of_nat (declared m).
Proof.
  intros P. destruct (time_bounds bs) as (_ & T & _). rewrite (time_copies _ _ _ P). pose proof (steps_file _ _ _ P). lia.
Qed.
