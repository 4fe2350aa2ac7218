(** Code with the body of a function in the place of calls of it does the same. *)
From Coq Require Import Lia.
From Verif Require Import SpecInline SpecVerdict SpecExec ExecProof InstProof InlineProof.
Open Scope N_scope.

Section Sim.
Variable M : machine.
Variable types : list functy.
Variables funcs funcs' : list (finst M).
Variables (x : N) (t : functy) (g : func).
Hypothesis zero_ok : forall u, mach_num M (zero_const u) [] = Some [mkValue u 0].

(** ** Related code: variables [k] further on; [md]: how far away the block is that is left instead of returning; [sp]: what may be
    in the place of a call of [x] *)
Definition stays (i : instr) : Prop :=
  match i with
  | I_Block _ _ | I_Loop _ _ | I_If _ _ _ | I_Return | I_LocalGet _ | I_LocalSet _ | I_LocalTee _ => False
  | _ => True
  end.
Definition deeper (md : option N) : option N := option_map (fun d => d + 1) md.
Inductive like (k : N) (sp : option (list instr)) : option N -> instr -> instr -> Prop :=
| L_same md i : stays i -> like k sp md i i
| L_get md y : like k sp md (I_LocalGet y) (I_LocalGet (k + y))
| L_set md y : like k sp md (I_LocalSet y) (I_LocalSet (k + y))
| L_tee md y : like k sp md (I_LocalTee y) (I_LocalTee (k + y))
| L_return : like k sp None I_Return I_Return
| L_leave d : like k sp (Some d) I_Return (I_Br d)
| L_block md rt b b' : likes k sp (deeper md) b b' -> like k sp md (I_Block rt b) (I_Block rt b')
| L_loop md rt b b' : likes k sp (deeper md) b b' -> like k sp md (I_Loop rt b) (I_Loop rt b')
| L_if md rt b b' d d' : likes k sp (deeper md) b b' -> likes k sp (deeper md) d d' -> like k sp md (I_If rt b d) (I_If rt b' d')
with likes (k : N) (sp : option (list instr)) : option N -> list instr -> list instr -> Prop :=
| L_nil md : likes k sp md [] []
| L_cons md i i' e e' : like k sp md i i' -> likes k sp md e e' -> likes k sp md (i :: e) (i' :: e')
| L_call md s e e' : sp = Some s -> likes k sp md e e' -> likes k sp md (I_Call x :: e) (s ++ e').

(** ** Related configurations and results *)
Definition emb (pre : list value) (tv tp : list valty) (c c' : conf M) : Prop :=
  map type_of (c_vars c) = tv /\ exists post, map type_of post = tp /\ c' = mkConf (c_stack c) (pre ++ c_vars c ++ post) (c_store c).
Definition simr pre tv tp (md : option N) (r r' : result M) : Prop :=
  match r with
  | R_Normal c => exists c', emb pre tv tp c c' /\ r' = R_Normal c'
  | R_Branch l vs c => exists c', emb pre tv tp c c' /\ r' = R_Branch l vs c'
  | R_Return vs st =>
    match md with
    | None => r' = R_Return vs st
    | Some d => exists c c', emb pre tv tp c c' /\ c_store c = st /\ r' = R_Branch (N.to_nat d) vs c'
    end
  | R_Trap => r' = R_Trap
  | R_Fuel => r' = R_Fuel
  | R_Stuck => True
  end.
Definition labels_fit (md : option N) (labels labels' : list (list valty)) (ret ret' : list valty) : Prop :=
  (forall l ts, at_N labels l = Some ts -> at_N labels' l = Some ts) /\
  match md with None => ret' = ret | Some d => at_N labels' d = Some ret end.
Definition room : list valty := ft_params t ++ fn_locals g.
Definition spot_ok (pre : list value) (tv tp : list valty) (md : option N) (sp : option (list instr)) : Prop :=
  forall s, sp = Some s -> md = None /\ pre = [] /\ tp = room /\ s = inlined (N.of_nat (length tv)) t g.
(** Related functions *)
Definition fun_like (f f' : finst M) : Prop :=
  f' = f \/ exists u h h', f = F_Wasm u h /\ f' = F_Wasm u h' /\ fn_locals h' = fn_locals h ++ room /\
    likes 0 (Some (inlined (N.of_nat (length (ft_params u ++ fn_locals h))) t g)) None (fn_body h) (fn_body h').
Hypothesis funs : forall a f, nth_error funcs a = Some f -> exists f', nth_error funcs' a = Some f' /\ fun_like f f'.
Hypothesis callee : at_N funcs x = Some (F_Wasm t g).

Lemma emb_stack pre tv tp c c' s : emb pre tv tp c c' -> emb pre tv tp (with_stack M c s) (with_stack M c' s).
Proof. intros (T & post & P & ->). split; [exact T|]. exists post. split; [exact P|]. reflexivity. Qed.
Lemma emb_store pre tv tp c c' s : emb pre tv tp c c' -> emb pre tv tp (with_store M c s) (with_store M c' s).
Proof. intros (T & post & P & ->). split; [exact T|]. exists post. split; [exact P|]. reflexivity. Qed.
Lemma emb_same pre tv tp c c' : emb pre tv tp c c' -> c_stack c' = c_stack c /\ c_store c' = c_store c.
Proof. intros (T & post & P & ->). split; reflexivity. Qed.
Lemma simr_push pre tv tp md c c' vs rest : emb pre tv tp c c' -> simr pre tv tp md (push M vs rest c) (push M vs rest c').
Proof. intros E. unfold push. eexists. split; [apply emb_stack, E|reflexivity]. Qed.
Lemma simr_pop pre tv tp md ts c c' k k' : emb pre tv tp c c' ->
  (forall vs d d', emb pre tv tp d d' -> simr pre tv tp md (k vs d) (k' vs d')) -> simr pre tv tp md (pop M ts c k) (pop M ts c' k').
Proof.
  intros E K. unfold pop. rewrite (proj1 (emb_same _ _ _ _ _ E)). destruct (take ts (c_stack c)) as [[vs rest]|]; [|exact I]. apply K, emb_stack, E.
Qed.
Lemma simr_pop1 pre tv tp md u c c' k k' : emb pre tv tp c c' ->
  (forall v d d', emb pre tv tp d d' -> simr pre tv tp md (k v d) (k' v d')) -> simr pre tv tp md (pop1 M u c k) (pop1 M u c' k').
Proof. intros E K. apply simr_pop; [exact E|]. intros [|v [|]] d d' D; [exact I|apply K, D|exact I]. Qed.
Lemma simr_found {A} pre tv tp md (o : option A) k k' : (forall a, simr pre tv tp md (k a) (k' a)) -> simr pre tv tp md (found M o k) (found M o k').
Proof. intros K. destruct o; [apply K|exact I]. Qed.
Lemma simr_trap {A} pre tv tp md (o : option A) k k' : (forall a, simr pre tv tp md (k a) (k' a)) -> simr pre tv tp md (or_trap M o k) (or_trap M o k').
Proof. intros K. destruct o; [apply K|reflexivity]. Qed.
Lemma simr_branch pre tv tp md labels labels' ret ret' l c c' : labels_fit md labels labels' ret ret' -> emb pre tv tp c c' ->
  simr pre tv tp md (branch M labels l c) (branch M labels' l c').
Proof.
  intros [L _] E. unfold branch. destruct (at_N labels l) as [ts|] eqn:H; [|exact I]. rewrite (L _ _ H). cbn [found].
  apply simr_pop; [exact E|]. intros vs d d' D. exists d'. split; [exact D|reflexivity].
Qed.
Lemma set_nth_app1 {A} n (v : A) xs ys : (n < length xs)%nat -> set_nth n v (xs ++ ys) = set_nth n v xs ++ ys.
Proof. revert n. induction xs as [|y xs IH]; intros [|n] H; cbn in *; try lia; [reflexivity|]. rewrite IH by lia. reflexivity. Qed.
Lemma set_nth_app2 {A} n (v : A) xs ys : set_nth (length xs + n) v (xs ++ ys) = xs ++ set_nth n v ys.
Proof. induction xs as [|y xs IH]; [reflexivity|]. cbn. rewrite IH. reflexivity. Qed.
Lemma set_nth_types n v xs : forall old, nth_error xs n = Some old -> type_of v = type_of old -> map type_of (set_nth n v xs) = map type_of xs.
Proof.
  revert n. induction xs as [|y xs IH]; intros [|n] old H T; cbn in *; try discriminate; [injection H as ->; rewrite T; reflexivity|].
  rewrite (IH _ _ H T). reflexivity.
Qed.
Lemma at_app pre xs post k y v : k = N.of_nat (length pre) -> at_N (A:=value) xs y = Some v -> at_N (pre ++ xs ++ post) (k + y) = Some v.
Proof.
  intros -> H. unfold at_N in *. replace (N.to_nat _) with (length pre + N.to_nat y)%nat by lia. rewrite nth_error_app2 by lia.
  replace (_ - _)%nat with (N.to_nat y) by lia. rewrite nth_error_app1; [exact H|]. apply nth_error_Some. congruence.
Qed.
(** a variable is given a value of its type *)
Lemma emb_set pre tv tp c c' k y old v : k = N.of_nat (length pre) -> at_N (c_vars c) y = Some old -> type_of v = type_of old -> emb pre tv tp c c' ->
  emb pre tv tp (with_vars M c (set_nth (N.to_nat y) v (c_vars c))) (with_vars M c' (set_nth (N.to_nat (k + y)) v (c_vars c'))).
Proof.
  intros -> O T (E & post & P & ->). split; cbn [with_vars c_vars]; [rewrite (set_nth_types _ _ _ _ O T); exact E|]. exists post. split; [exact P|].
  cbn [with_vars c_vars c_stack c_store]. unfold with_vars. cbn [c_vars c_stack c_store]. f_equal.
  replace (N.to_nat _) with (length pre + N.to_nat y)%nat by lia. rewrite set_nth_app2, set_nth_app1; [reflexivity|].
  apply nth_error_Some. unfold at_N in O. congruence.
Qed.
Lemma take_type u vs v rest : take [u] vs = Some ([v], rest) -> type_of v = u.
Proof.
  unfold take. destruct (valtys_same _ _) eqn:E; [|discriminate]. intros H. assert (Q : rev (firstn (length [u]) vs) = [v]) by congruence.
  rewrite Q in E. apply same_eq in E. cbn in E. congruence.
Qed.
(** as [simr_pop1], with the type of the operand *)
Lemma simr_pop1' pre tv tp md u c c' k k' : emb pre tv tp c c' ->
  (forall v s, type_of v = u -> emb pre tv tp (with_stack M c s) (with_stack M c' s) -> simr pre tv tp md (k v (with_stack M c s)) (k' v (with_stack M c' s))) ->
  simr pre tv tp md (pop1 M u c k) (pop1 M u c' k').
Proof.
  intros E K. unfold pop1, pop. rewrite (proj1 (emb_same _ _ _ _ _ E)). destruct (take [u] (c_stack c)) as [[vs rest]|] eqn:H; [|exact I].
  destruct vs as [|v [|]]; [exact I| |exact I]. apply K; [eapply take_type, H|apply emb_stack, E].
Qed.

(** ** Calls *)
Definition call_at (fs : list (finst M)) (n : nat) (f : finst M) (c : conf M) : result M :=
  pop M (ft_params (finst_type f)) c (fun args c =>
    match f with
    | F_Host u h => or_trap M (h (c_store c) args) (fun sr =>
        if valtys_same (map type_of (snd sr)) (ft_results u) then push M (snd sr) (c_stack c) (with_store M c (fst sr)) else R_Stuck)
    | F_Wasm u fn =>
      finish M u c (run_seq M (exec M types fs n [ft_results u] (ft_results u)) (fn_body fn)
                    (mkConf [] (args ++ map zero (fn_locals fn)) (c_store c)))
    end).
Definition sim_code (n : nat) : Prop := forall pre tv tp md sp labels labels' ret ret' e e' c c',
  likes (N.of_nat (length pre)) sp md e e' -> emb pre tv tp c c' -> labels_fit md labels labels' ret ret' -> spot_ok pre tv tp md sp ->
  simr pre tv tp md (run_seq M (exec M types funcs n labels ret) e c) (run_seq M (exec M types funcs' n labels' ret') e' c').
Definition sim_instr (n : nat) : Prop := forall pre tv tp md sp labels labels' ret ret' i i' c c',
  like (N.of_nat (length pre)) sp md i i' -> emb pre tv tp c c' -> labels_fit md labels labels' ret ret' -> spot_ok pre tv tp md sp ->
  simr pre tv tp md (exec M types funcs n labels ret i c) (exec M types funcs' n labels' ret' i' c').

Lemma stays_dec i : stays i \/ ~ stays i.
Proof. destruct i; cbn; tauto. Qed.
Lemma simr_finish pre tv tp md tv1 tp1 u c c' r r' : emb pre tv tp c c' -> simr [] tv1 tp1 None r r' ->
  simr pre tv tp md (finish M u c r) (finish M u c' r').
Proof.
  intros E S. unfold finish. rewrite (proj1 (emb_same _ _ _ _ _ E)).
  assert (P : forall vs st, simr pre tv tp md (if valtys_same (map type_of vs) (ft_results u) then push M vs (c_stack c) (with_store M c st) else R_Stuck)
    (if valtys_same (map type_of vs) (ft_results u) then push M vs (c_stack c) (with_store M c' st) else R_Stuck)).
  { intros vs st. destruct (valtys_same _ _); [|exact I]. apply simr_push, emb_store, E. }
  destruct r as [d|l vs d|vs st| | |]; cbn [simr] in S.
  - destruct S as (d' & D & ->). destruct (emb_same _ _ _ _ _ D) as [-> ->]. apply P.
  - destruct S as (d' & D & ->). destruct (emb_same _ _ _ _ _ D) as [_ Q]. destruct l; [|exact I]. rewrite Q. apply P.
  - subst r'. apply P.
  - subst r'. reflexivity.
  - exact I.
  - subst r'. reflexivity.
Qed.
(** every code is like itself, and moved code like the code *)
Fixpoint like_self sp (i : instr) {struct i} : like 0 sp None i i.
Proof.
  destruct i; try (apply L_same; exact I); try apply L_return; try apply (L_get 0); try apply (L_set 0); try apply (L_tee 0).
  all: first [apply L_block|apply L_loop|apply L_if].
  all: match goal with |- likes _ _ _ ?b _ => induction b as [|j b IH]; [apply L_nil|apply L_cons; [apply like_self|exact IH]] end.
Qed.
Lemma likes_self sp e : likes 0 sp None e e.
Proof. induction e; [apply L_nil|apply L_cons; [apply like_self|assumption]]. Qed.
Fixpoint like_moved k d (i : instr) {struct i} : like k None (Some d) i (moved k d i).
Proof.
  destruct i; try (apply L_same; exact I); try apply L_leave; try apply L_get; try apply L_set; try apply L_tee; cbn [moved].
  all: first [apply L_block|apply L_loop|apply L_if].
  all: match goal with |- likes _ _ _ ?b _ => induction b as [|j b IH]; [apply L_nil|apply L_cons; [apply like_moved|exact IH]] end.
Qed.
Lemma likes_moved k d e : likes k None (Some d) e (map (moved k d) e).
Proof. induction e; [apply L_nil|apply L_cons; [apply like_moved|assumption]]. Qed.

(** ** Blocks *)
Lemma labels_deeper md labels labels' ret ret' ts : labels_fit md labels labels' ret ret' ->
  labels_fit (deeper md) (ts :: labels) (ts :: labels') ret ret'.
Proof.
  intros [L R]. split.
  - intros l us. unfold at_N in *. destruct (N.to_nat l) as [|j] eqn:E; [tauto|]. cbn. intros H. specialize (L (N.of_nat j) us). rewrite Nnat.Nat2N.id in L. auto.
  - destruct md as [d|]; [|exact R]. cbn. unfold at_N in *. replace (N.to_nat (d + 1)) with (S (N.to_nat d)) by lia. exact R.
Qed.
Lemma simr_block pre tv tp md rt outer ob ob' r r' : simr pre tv tp (deeper md) r r' ->
  (forall vs d d', emb pre tv tp d d' -> simr pre tv tp md (ob vs d) (ob' vs d')) ->
  simr pre tv tp md (run_block M rt outer ob r) (run_block M rt outer ob' r').
Proof.
  intros S K. destruct r as [d|l vs d|vs st| | |]; cbn [simr] in S.
  - destruct S as (d' & D & ->). cbn [run_block]. unfold leave. rewrite (proj1 (emb_same _ _ _ _ _ D)). destruct (valtys_same _ _); [|exact I].
    apply simr_push, D.
  - destruct S as (d' & D & ->). destruct l as [|l]; cbn [run_block]; [apply K, D|]. exists d'. split; [exact D|reflexivity].
  - destruct md as [d|]; cbn [deeper option_map] in S.
    + destruct S as (c & c' & E & Q & ->). replace (N.to_nat (d + 1)) with (Datatypes.S (N.to_nat d)) by lia. cbn [run_block].
      exists c, c'. split; [exact E|]. split; [exact Q|reflexivity].
    + subst r'. reflexivity.
  - subst r'. reflexivity.
  - exact I.
  - subst r'. reflexivity.
Qed.
Lemma simr_leave pre tv tp md rt outer vs d d' : emb pre tv tp d d' -> simr pre tv tp md (leave M rt outer vs d) (leave M rt outer vs d').
Proof. intros E. unfold leave. destruct (valtys_same _ _); [|exact I]. apply simr_push, E. Qed.
Lemma take_inv ts vs us rest : take ts vs = Some (us, rest) -> map type_of us = ts /\ vs = rev us ++ rest.
Proof.
  unfold take. destruct (valtys_same _ _) eqn:E; [|discriminate]. intros H. injection H as <- <-. split; [apply same_eq, E|].
  rewrite rev_involutive. symmetry. apply firstn_skipn.
Qed.
Lemma zeros_type us : map type_of (map zero us) = us.
Proof. induction us as [|u us IH]; [reflexivity|]. cbn. rewrite IH. reflexivity. Qed.
Lemma sim_call n pre tv tp md f f' c c' : sim_code n -> fun_like f f' -> emb pre tv tp c c' ->
  simr pre tv tp md (call_at funcs n f c) (call_at funcs' n f' c').
Proof.
  intros S F E. unfold call_at. assert (T : finst_type f' = finst_type f) by (destruct F as [->|(u & h & h' & -> & -> & _)]; reflexivity). rewrite T.
  unfold pop. rewrite (proj1 (emb_same _ _ _ _ _ E)). destruct (take _ (c_stack c)) as [[args rest]|] eqn:P; [|exact I].
  apply take_inv in P as [P _]. assert (E1 : emb pre tv tp (with_stack M c rest) (with_stack M c' rest)) by (apply emb_stack, E).
  set (c1 := with_stack M c rest) in *. set (c1' := with_stack M c' rest) in *. destruct (emb_same _ _ _ _ _ E1) as [Q1 Q2].
  destruct F as [->|(u & h & h' & -> & -> & L & B)].
  - destruct f as [u h|u h]; cbn [finst_type] in *.
    + apply (simr_finish _ _ _ _ (map type_of (args ++ map zero (fn_locals h))) []); [exact E1|].
      apply S with (sp := None); [apply likes_self| |split; [tauto|reflexivity]|intros s; discriminate].
      split; [reflexivity|]. exists []. split; [reflexivity|]. cbn [c_stack c_vars c_store]. rewrite Q2, app_nil_r. reflexivity.
    + rewrite Q1, Q2. apply simr_trap. intros [st r]. cbn [fst snd]. destruct (valtys_same _ _); [|exact I]. apply simr_push, emb_store, E1.
  - cbn [finst_type] in *. apply (simr_finish _ _ _ _ (ft_params u ++ fn_locals h) room); [exact E1|].
    eapply S; [exact B| |split; [tauto|reflexivity]|].
    + split; [cbn [c_vars]; rewrite map_app, zeros_type, P; reflexivity|]. exists (map zero room). split; [apply zeros_type|].
      cbn [c_stack c_vars c_store]. rewrite Q2, L, map_app, app_assoc. reflexivity.
    + intros s Hs. injection Hs as <-. repeat split; reflexivity.
Qed.

(** ** The code in the place of a call *)
Lemma run_app (run : instr -> conf M -> result M) e1 e2 c :
  run_seq M run (e1 ++ e2) c = match run_seq M run e1 c with R_Normal c' => run_seq M run e2 c' | r => r end.
Proof. revert c. induction e1 as [|i e1 IH]; intros c; [reflexivity|]. cbn [app run_seq]. destruct (run i c); try reflexivity. apply IH. Qed.
Lemma numbers_last k n : numbers k (S n) = numbers k n ++ [k + N.of_nat n].
Proof. unfold numbers. rewrite seq_S, map_app. reflexivity. Qed.
Lemma numbers_first k n : numbers k (S n) = k :: numbers (k + 1) n.
Proof.
  unfold numbers. cbn [seq map]. f_equal; [lia|]. rewrite <- seq_shift, map_map. apply map_ext. intros a. lia.
Qed.
Lemma one_set fs n labels ret v rest pre p tail st k : k = N.of_nat (length pre) -> type_of v = type_of p ->
  exec M types fs (S n) labels ret (I_LocalSet k) (mkConf (v :: rest) (pre ++ p :: tail) st) = R_Normal (mkConf rest (pre ++ v :: tail) st).
Proof.
  intros -> T. cbn [exec plain_type load_type store_type c_vars]. unfold at_N. rewrite Nnat.Nat2N.id, nth_error_app2, Nat.sub_diag by lia. cbn [nth_error found].
  unfold pop1, pop. cbn [c_stack]. rewrite <- T. change (v :: rest) with (rev [v] ++ rest). change [type_of v] with (map type_of [v]). rewrite take_ok.
  cbn [with_stack with_vars c_vars c_stack c_store]. f_equal. unfold with_vars. cbn [c_stack c_store with_stack c_vars]. f_equal.
  rewrite <- (Nat.add_0_r (length pre)). rewrite set_nth_app2. reflexivity.
Qed.
Lemma all_sets fs n labels ret pre st rest : forall args post tail, map type_of post = map type_of args ->
  run_seq M (exec M types fs (S n) labels ret) (map I_LocalSet (rev (numbers (N.of_nat (length pre)) (length args))))
    (mkConf (rev args ++ rest) (pre ++ post ++ tail) st) = R_Normal (mkConf rest (pre ++ args ++ tail) st).
Proof.
  induction args as [|a args IH] using rev_ind; intros post tail T.
  - apply map_eq_nil in T as ->. reflexivity.
  - rewrite map_app in T. apply map_eq_app in T as (p1 & p2 & -> & T1 & T2). destruct p2 as [|p [|]]; try discriminate. injection T2 as T2.
    rewrite app_length, Nat.add_1_r, numbers_last, rev_app_distr, rev_app_distr. cbn [rev app map run_seq].
    rewrite <- app_assoc. cbn [app]. rewrite (app_assoc pre p1 (p :: tail)). rewrite (one_set fs n labels ret a (rev args ++ rest) (pre ++ p1) p tail st).
    + rewrite <- !app_assoc. cbn [app]. apply (IH p1 (a :: tail) T1).
    + rewrite app_length. apply (f_equal (@List.length _)) in T1. rewrite !map_length in T1. rewrite T1. lia.
    + congruence.
Qed.
Lemma all_zeros fs n labels ret st rest : forall us pre post, map type_of post = us ->
  run_seq M (exec M types fs (S n) labels ret)
    (flat_map (fun xt => [zero_const (snd xt); I_LocalSet (fst xt)]) (combine (numbers (N.of_nat (length pre)) (length us)) us))
    (mkConf rest (pre ++ post) st) = R_Normal (mkConf rest (pre ++ map zero us) st).
Proof.
  induction us as [|u us IH]; intros pre post T.
  - apply map_eq_nil in T as ->. reflexivity.
  - destruct post as [|p post]; [discriminate|]. cbn [map] in T. injection T as T1 T2. cbn [length]. rewrite numbers_first. cbn [combine flat_map fst snd].
    rewrite <- app_assoc || idtac. cbn [app run_seq].
    assert (Z : exec M types fs (S n) labels ret (zero_const u) (mkConf rest (pre ++ p :: post) st) = R_Normal (mkConf (zero u :: rest) (pre ++ p :: post) st)).
    { pose proof (zero_ok u) as Z. destruct u; cbn [exec zero_const plain_type]; unfold pop; cbn; cbn [zero_const] in Z; rewrite Z; reflexivity. }
    rewrite Z. rewrite (one_set fs n labels ret (zero u) rest pre p post st _ eq_refl) by (cbn; congruence).
    specialize (IH (pre ++ [zero u]) post T2). rewrite app_length in IH. cbn [length] in IH. rewrite <- !app_assoc in IH. cbn [app] in IH.
    replace (N.of_nat (length pre) + 1) with (N.of_nat (length pre + 1)) by lia. exact IH.
Qed.
Lemma sim_spot n tv labels labels' ret c c' : sim_code n -> emb [] tv room c c' ->
  simr [] tv room None (exec M types funcs (S n) labels ret (I_Call x) c)
    (run_seq M (exec M types funcs' (S n) labels' ret) (inlined (N.of_nat (length tv)) t g) c').
Proof.
  intros S (V & post & T & ->). change (exec M types funcs (Datatypes.S n) labels ret (I_Call x) c) with (found M (at_N funcs x) (fun f => call_at funcs n f c)).
  rewrite callee. cbn [found]. unfold call_at, pop. cbn [finst_type]. destruct (take _ (c_stack c)) as [[args rest]|] eqn:P; [|exact I].
  apply take_inv in P as [P Q]. unfold room in T. apply map_eq_app in T as (p1 & p2 & -> & T1 & T2).
  assert (L : length tv = length (c_vars c)) by (rewrite <- V; apply map_length).
  assert (La : length (ft_params t) = length args) by (rewrite <- P; apply map_length).
  unfold inlined. rewrite run_app, Q, L, La. cbn [app]. rewrite (all_sets funcs' n labels' ret (c_vars c) (c_store c) rest args p1 p2) by congruence.
  rewrite run_app, (app_assoc (c_vars c) args p2). replace (N.of_nat (length (c_vars c)) + N.of_nat (length args)) with (N.of_nat (length (c_vars c ++ args)))
    by (rewrite app_length; lia).
  rewrite (all_zeros funcs' n labels' ret (c_store c) rest (fn_locals g) (c_vars c ++ args) p2 T2). cbn [run_seq].
  cbn [exec plain_type load_type store_type c_stack]. unfold with_stack at 2. cbn [c_stack c_vars c_store].
  assert (SB : simr (c_vars c) room [] (Some 0)
    (run_seq M (exec M types funcs n [ft_results t] (ft_results t)) (fn_body g) (mkConf [] (args ++ map zero (fn_locals g)) (c_store c)))
    (run_seq M (exec M types funcs' n (ft_results t :: labels') ret) (map (moved (N.of_nat (length (c_vars c))) 0) (fn_body g))
      (mkConf [] ((c_vars c ++ args) ++ map zero (fn_locals g)) (c_store c)))).
  { eapply S; [apply likes_moved| | |intros s; discriminate].
    - split; [cbn [c_vars]; rewrite map_app, zeros_type, P; reflexivity|]. exists []. split; [reflexivity|]. cbn [c_vars c_stack c_store].
      rewrite app_nil_r, app_assoc. reflexivity.
    - split; [|reflexivity]. intros l ts. unfold at_N. destruct (N.to_nat l) as [|j]; [tauto|]. cbn. destruct j; discriminate. }
  set (r := run_seq M _ (fn_body g) _) in *. set (r' := run_seq M _ (map _ _) _) in *. clearbody r r'.
  assert (K : forall vs d d', emb (c_vars c) room [] d d' ->
    simr [] tv room None (if valtys_same (map type_of vs) (ft_results t) then push M vs rest (with_store M (with_stack M c rest) (c_store d)) else R_Stuck)
      (match leave M (ft_results t) rest vs d' with R_Normal c' => R_Normal c' | r => r end)).
  { intros vs d d' (D & po & PO & ->). apply map_eq_nil in PO as ->. unfold leave. destruct (valtys_same _ _); [|exact I].
    unfold push, with_stack, with_store. cbn [c_vars c_stack c_store]. eexists. split; [|reflexivity]. split; [exact V|]. exists (c_vars d). split; [exact D|].
    cbn [c_stack c_vars c_store app]. rewrite app_nil_r. reflexivity. }
  destruct r as [d|l vs d|vs st| | |]; cbn [simr] in SB; unfold finish; cbn [with_stack c_stack].
  - destruct SB as (d' & D & ->). cbn [run_block]. rewrite (proj1 (emb_same _ _ _ _ _ D)). apply K, D.
  - destruct SB as (d' & D & ->). destruct l; [|exact I]. cbn [run_block]. apply K, D.
  - destruct SB as (d & d' & D & <- & ->). cbn [run_block]. change (N.to_nat 0) with O. apply K, D.
  - subst r'. reflexivity.
  - exact I.
  - subst r'. reflexivity.
Qed.

(** ** All together *)
Lemma sim_instr_next n : sim_instr n -> sim_code n -> sim_instr (S n).
Proof.
  intros SI SC pre tv tp md sp labels labels' ret ret' i i' c c' L E F P. pose proof (emb_same _ _ _ _ _ E) as [Q1 Q2].
  assert (P' : spot_ok pre tv tp (deeper md) sp).
  { intros s Hs. destruct (P s Hs) as (-> & R). split; [reflexivity|exact R]. }
  destruct L as [md i St|md y|md y|md y| |d|md rt b b' B|md rt b b' B|md rt b b' d d' B D].
  - cbn [exec]. rewrite Q2. destruct (plain_type i) as [[ts1 ts2]|]; [|destruct (load_type i) as [lt|]; [|destruct (store_type i) as [[st1 ty]|]]].
    + apply simr_pop; [exact E|]. intros vs d d' D. apply simr_trap. intros r. rewrite (proj1 (emb_same _ _ _ _ _ D)). apply simr_push, D.
    + apply simr_found. intros mm. apply simr_pop1; [exact E|]. intros v d d' D. apply simr_trap. intros r. rewrite (proj1 (emb_same _ _ _ _ _ D)). apply simr_push, D.
    + destruct st1. apply simr_found. intros mm. apply simr_pop1; [exact E|]. intros v d d' D. apply simr_pop1; [exact D|]. intros v2 d2 d2' D2.
      apply simr_trap. intros mm'. rewrite (proj2 (emb_same _ _ _ _ _ D2)). eexists. split; [apply emb_store, D2|reflexivity].
    + destruct i; try exact I; try contradiction St.
      (* unreachable, nop, drop, select *)
      all: try reflexivity.
      all: try (eexists; split; [exact E|reflexivity]).
      all: try (apply simr_branch with (1 := F), E).
      all: try (rewrite Q1; destruct (c_stack c); [exact I|]; eexists; split; [apply emb_stack, E|reflexivity]).
      all: try (apply simr_found; intros v; rewrite Q1; apply simr_push, E).
      all: try (apply simr_found; intros v; apply simr_pop1; [exact E|]; intros w d d' D; rewrite ?(proj1 (emb_same _ _ _ _ _ D)), ?(proj2 (emb_same _ _ _ _ _ D));
                first [apply simr_push, emb_store, D | eexists; split; [apply emb_store, D|reflexivity]]).
      all: try (apply simr_pop1; [exact E|]; intros w d d' D; first [
        apply simr_branch with (1 := F), D
       | destruct (is_zero w); [eexists; split; [exact D|reflexivity]|apply simr_branch with (1 := F), D]
       | rewrite (proj1 (emb_same _ _ _ _ _ D)); destruct (c_stack d) as [|v2 [|v1 vs]]; try exact I; destruct (valtys_same _ _); [apply simr_push, D|exact I] ]).
      * (* call *)
        match goal with |- context [at_N funcs ?y] => destruct (at_N funcs y) as [f|] eqn:H; [|exact I] end.
        destruct (funs _ _ H) as (f' & H' & FL). unfold at_N. rewrite H'. cbn [found]. apply (sim_call n pre tv tp md f f' c c' SC FL E).
      * (* call_indirect *)
        apply simr_found. intros tb. apply simr_found. intros ft. apply simr_pop1; [exact E|]. intros z d d' D. apply simr_trap. intros addr.
        destruct (nth_error funcs addr) as [f|] eqn:H; [|exact I]. destruct (funs _ _ H) as (f' & H' & FL). rewrite H'. cbn [found].
        assert (T : finst_type f' = finst_type f) by (destruct FL as [->|(u & h & h' & -> & -> & _)]; reflexivity). 
        destruct (functy_same (finst_type f) ft) eqn:FS; rewrite T, FS; [|reflexivity].
        pose proof (sim_call n pre tv tp md f f' d d' SC FL D) as R. unfold call_at in R. rewrite T in R. exact R.
  - cbn [exec plain_type load_type store_type]. destruct (at_N (c_vars c) y) as [v|] eqn:H; [|exact I]. destruct E as (V & post & T & ->). cbn [c_vars c_stack].
    rewrite (at_app pre _ post _ y v eq_refl H). cbn [found]. apply simr_push. split; [exact V|]. exists post. split; [exact T|reflexivity].
  - cbn [exec plain_type load_type store_type]. destruct (at_N (c_vars c) y) as [v|] eqn:H; [|exact I].
    assert (H' : at_N (c_vars c') (N.of_nat (length pre) + y) = Some v) by (destruct E as (V & post & T & ->); cbn [c_vars]; apply at_app; [reflexivity|exact H]).
    rewrite H'. cbn [found]. apply simr_pop1'; [exact E|]. intros w s TW D. eexists. split; [|reflexivity].
    apply (emb_set pre tv tp _ _ _ y v w eq_refl); [exact H|exact TW|exact D].
  - cbn [exec plain_type load_type store_type]. destruct (at_N (c_vars c) y) as [v|] eqn:H; [|exact I].
    assert (H' : at_N (c_vars c') (N.of_nat (length pre) + y) = Some v) by (destruct E as (V & post & T & ->); cbn [c_vars]; apply at_app; [reflexivity|exact H]).
    rewrite H'. cbn [found]. apply simr_pop1'; [exact E|]. intros w s TW D. cbn [with_stack c_stack].
    apply simr_push. apply (emb_set pre tv tp _ _ _ y v w eq_refl); [exact H|exact TW|exact D].
  - cbn [exec plain_type load_type store_type]. destruct F as [_ F]. subst ret'. apply simr_pop; [exact E|]. intros vs d d' D.
    rewrite (proj2 (emb_same _ _ _ _ _ D)). reflexivity.
  - cbn [exec plain_type load_type store_type]. destruct F as [_ F]. unfold branch. rewrite F. cbn [found]. apply simr_pop; [exact E|]. intros vs e e' D.
    exists e, e'. split; [exact D|]. split; reflexivity.
  - cbn [exec plain_type load_type store_type]. rewrite Q1. apply simr_block; [|intros; apply simr_leave; assumption].
    apply (SC pre tv tp (deeper md) sp); [exact B|apply emb_stack, E|apply labels_deeper, F|exact P'].
  - cbn [exec plain_type load_type store_type]. rewrite Q1. apply simr_block.
    + apply (SC pre tv tp (deeper md) sp); [exact B|apply emb_stack, E|apply labels_deeper, F|exact P'].
    + intros [|v vs] d d' D; [|exact I]. apply (SI pre tv tp md sp); [apply L_loop, B|apply emb_stack, D|exact F|exact P].
  - cbn [exec plain_type load_type store_type]. apply simr_pop1; [exact E|]. intros z e e' H. rewrite (proj1 (emb_same _ _ _ _ _ H)).
    apply simr_block; [|intros; apply simr_leave; assumption].
    apply (SC pre tv tp (deeper md) sp); [destruct (is_zero z); assumption|apply emb_stack, H|apply labels_deeper, F|exact P'].
Qed.
Lemma sim_code_here n : sim_instr n -> (forall m, n = S m -> sim_code m) -> sim_code n.
Proof.
  intros SI SC pre tv tp md sp labels labels' ret ret' e e' c c' L E F P. revert c c' E.
  induction L as [md|md i i' e e' H L IH|md s e e' H L IH]; intros c c' E.
  - exists c'. split; [exact E|reflexivity].
  - cbn [run_seq]. pose proof (SI pre tv tp md sp labels labels' ret ret' i i' c c' H E F P) as R. revert R. generalize (exec M types funcs' n labels' ret' i' c').
    destruct (exec M types funcs n labels ret i c) as [d|l vs d|vs st| | |]; cbn [simr]; intros r' R.
    + destruct R as (d' & D & ->). apply IH; assumption.
    + destruct R as (d' & D & ->). exists d'. split; [exact D|reflexivity].
    + destruct md as [dd|]; [|subst r'; reflexivity]. destruct R as (a & a' & A & Q & ->). exists a, a'. split; [exact A|]. split; [exact Q|reflexivity].
    + subst r'. reflexivity.
    + exact I.
    + subst r'. reflexivity.
  - rewrite run_app. cbn [run_seq]. destruct (P s H) as (-> & -> & -> & ->). destruct F as [F1 F2]. subst ret'. 
    assert (R : simr [] tv room None (exec M types funcs n labels ret (I_Call x) c)
       (run_seq M (exec M types funcs' n labels' ret) (inlined (N.of_nat (length tv)) t g) c')).
    { destruct n as [|m]; [|apply sim_spot; [apply SC; reflexivity|exact E]]. cbn [exec]. unfold inlined.
      destruct (map I_LocalSet _); [|reflexivity]. destruct (flat_map _ _); reflexivity. }
    revert R. generalize (run_seq M (exec M types funcs' n labels' ret) (inlined (N.of_nat (length tv)) t g) c').
    destruct (exec M types funcs n labels ret (I_Call x) c) as [d|l vs d|vs st| | |]; cbn [simr]; intros r' R.
    + destruct R as (d' & D & ->). apply IH; [split; [exact F1|reflexivity]|exact P|exact D].
    + destruct R as (d' & D & ->). exists d'. split; [exact D|reflexivity].
    + subst r'. reflexivity.
    + subst r'. reflexivity.
    + exact I.
    + subst r'. reflexivity.
Qed.
Lemma sim_all n : sim_instr n /\ sim_code n.
Proof.
  induction n as [|n [SI SC]].
  - assert (Z : sim_instr 0) by (intros pre tv tp md sp labels labels' ret ret' i i' c c' _ _ _ _; reflexivity). split; [exact Z|].
    apply sim_code_here; [exact Z|discriminate].
  - assert (Z := sim_instr_next n SI SC). split; [exact Z|]. apply sim_code_here; [exact Z|]. intros m H. injection H as <-. exact SC.
Qed.
Lemma sim_invoke n a args st : invoke M types funcs n a args st <> R_Stuck ->
  invoke M types funcs' n a args st = invoke M types funcs n a args st.
Proof.
  unfold invoke. intros NS.
  pose proof (proj1 (sim_all n) [] [] [] None None [] [] [] [] (I_Call (N.of_nat a)) (I_Call (N.of_nat a)) (mkConf (rev args) [] st) (mkConf (rev args) [] st)) as R.
  assert (E : emb [] [] [] (mkConf (rev args) [] st) (mkConf (rev args) [] st)).
  { split; [reflexivity|]. exists []. split; reflexivity. }
  specialize (R (L_same _ _ _ (I_Call (N.of_nat a)) I) E (conj (fun _ _ H => H) eq_refl)). specialize (R ltac:(intros s; discriminate)). revert R NS.
  generalize (exec M types funcs' n [] [] (I_Call (N.of_nat a)) (mkConf (rev args) [] st)).
  destruct (exec M types funcs n [] [] (I_Call (N.of_nat a)) (mkConf (rev args) [] st)) as [d|l vs d|vs s| | |]; cbn [simr]; intros r' R NS; try exact R.
  - destruct R as (d' & (V & post & T & ->) & ->). apply map_eq_nil in T as ->. cbn [app]. rewrite app_nil_r. destruct d. reflexivity.
  - destruct R as (d' & (V & post & T & ->) & ->). apply map_eq_nil in T as ->. cbn [app]. rewrite app_nil_r. destruct d. reflexivity.
  - congruence.
Qed.
End Sim.

(** ** Functions of an instance *)
Lemma likes_app x k sp md a a' b b' : likes x k sp md a a' -> likes x k sp md b b' -> likes x k sp md (a ++ b) (a' ++ b').
Proof.
  intros H B. induction H as [md|md i i' e e' H L IH|md s e e' H L IH]; [exact B|apply L_cons; [exact H|apply IH, B]|].
  rewrite <- app_assoc. apply L_call; [exact H|apply IH, B].
Qed.
Lemma likes_put x s p : likes x 0 (Some s) None (put p [I_Call x]) (put p s).
Proof.
  induction p as [a b|a rt p IH b|a rt p IH b|a rt p IH o b|a rt o p IH b]; cbn [put]; (apply likes_app; [apply likes_self|]).
  - apply (L_call x 0 (Some s) None s b b eq_refl). apply likes_self.
  - apply L_cons; [apply L_block, IH|apply likes_self].
  - apply L_cons; [apply L_loop, IH|apply likes_self].
  - apply L_cons; [apply L_if; [exact IH|apply likes_self]|apply likes_self].
  - apply L_cons; [apply L_if; [apply likes_self|exact IH]|apply likes_self].
Qed.
Lemma own_like M x t g u h h' gs a : fun_like M x t g (F_Wasm u h) (F_Wasm u h') -> forall fs us f, nth_error us (length fs) = Some u ->
  nth_error (map (fun p => @F_Wasm M (fst p) (snd p)) (combine us (fs ++ h :: gs))) a = Some f ->
  exists f', nth_error (map (fun p => @F_Wasm M (fst p) (snd p)) (combine us (fs ++ h' :: gs))) a = Some f' /\ fun_like M x t g f f'.
Proof.
  intros L fs. revert a. induction fs as [|f0 fs IH]; intros a [|v us] f U H; try discriminate.
  - cbn in U. injection U as ->. destruct a as [|a]; cbn in H |- *.
    + injection H as <-. eexists. split; [reflexivity|exact L].
    + exists f. split; [exact H|left; reflexivity].
  - destruct a as [|a]; cbn in H |- *; [exists f; split; [exact H|left; reflexivity]|]. apply (IH a us f U H).
Qed.
Lemma own_length M (us : list functy) fs (h h' : func) gs :
  length (map (fun p => @F_Wasm M (fst p) (snd p)) (combine us (fs ++ h :: gs))) = length (map (fun p => @F_Wasm M (fst p) (snd p)) (combine us (fs ++ h' :: gs))).
Proof. rewrite !map_length, !combine_length, !app_length. reflexivity. Qed.
Lemma space_nth m fts : func_space m fts -> forall i y, nth_error (func_index m) i = Some y -> exists ft, nth_error fts i = Some ft /\ at_index (m_types m) y ft.
Proof.
  unfold func_space. intros F. induction F as [|y0 ft0 ys fts0 H F IH]; intros [|i] y Y; try discriminate; cbn in Y |- *.
  - injection Y as <-. exists ft0. split; [reflexivity|exact H].
  - apply (IH i y Y).
Qed.
Lemma skipn_nth {A} n : forall (xs : list A) i, nth_error (skipn n xs) i = nth_error xs (n + i).
Proof. induction n as [|n IH]; intros [|y xs] i; try reflexivity; [destruct i; reflexivity|]. apply IH. Qed.
Lemma combine_nth_error {A B} : forall (us : list A) (hs : list B) i u h, nth_error us i = Some u -> nth_error hs i = Some h -> nth_error (combine us hs) i = Some (u, h).
Proof. induction us as [|u0 us IH]; intros [|h0 hs] [|i] u h U H; try discriminate; cbn in *; [congruence|]. apply IH; assumption. Qed.
Lemma space_length m fts : func_space m fts -> length fts = length (func_index m).
Proof. unfold func_space. intros F. induction F as [|a b xs ys H F IH]; [reflexivity|]. cbn. rewrite IH. reflexivity. Qed.
Lemma zero_known M : knows_zero M -> forall u, mach_num M (zero_const u) [] = Some [mkValue u 0].
Proof. intros [A B C D] []; assumption. Qed.
Section Inst.
Variables (m : module) (fs : list func) (ty : N) (locals : list valty) (p : place) (gs : list func) (x : N) (t : functy) (g : func) (ft : functy).
Local Notation before := (with_body m fs ty locals (put p [I_Call x]) gs).
Local Notation after := (with_body m fs ty (locals ++ ft_params t ++ fn_locals g)
                           (put p (inlined (N.of_nat (length (ft_params ft) + length locals)) t g)) gs).
Lemma same_space fts : func_space before fts -> func_space after fts.
Proof. unfold func_space, func_index. cbn [with_body with_funcs m_types m_imports m_funcs]. rewrite !map_app. cbn [map fn_ty]. exact (fun H => H). Qed.
Theorem inline_same (M : machine) fts (imported others : list (finst M)) fuel a args st : own_func before x t g -> at_index (m_types m) ty ft ->
  knows_zero M ->
  func_space before fts -> length imported = length (imported_funcs (m_imports m)) ->
  invoke M (m_types m) (instance_funcs before fts imported others) fuel a args st <> R_Stuck ->
  invoke M (m_types m) (instance_funcs after fts imported others) fuel a args st = invoke M (m_types m) (instance_funcs before fts imported others) fuel a args st.
Proof.
  intros (y & X & Y & T) FT Z F L NS. assert (U : nth_error (skipn (length imported) fts) (length fs) = Some ft).
  { rewrite skipn_nth, L. destruct (space_nth _ _ F (length (imported_funcs (m_imports m)) + length fs) ty) as (ft' & H & A).
    - unfold func_index. cbn [with_body with_funcs m_imports m_funcs]. rewrite nth_error_app2 by lia. rewrite Nat.add_comm, Nat.add_sub, map_app.
      rewrite nth_error_app2 by (rewrite map_length; lia). rewrite map_length, Nat.sub_diag. reflexivity.
    - rewrite H. unfold at_index in *. cbn [with_body with_funcs m_types] in A. congruence. }
  apply (sim_invoke M (m_types m) (instance_funcs before fts imported others) (instance_funcs after fts imported others) x t g (zero_known M Z)); [| |exact NS].
  - intros b f. unfold instance_funcs. cbn [with_body with_funcs m_funcs].
    set (own := map _ (combine (skipn (length imported) fts) (fs ++ mkFunc ty locals _ :: gs))).
    set (own' := map _ (combine (skipn (length imported) fts) (fs ++ mkFunc ty (locals ++ _) _ :: gs))).
    assert (Q : length own' = length own) by apply own_length.
    assert (K : forall b f, nth_error own b = Some f -> exists f', nth_error own' b = Some f' /\ fun_like M x t g f f').
    { intros b0 f0. apply own_like with (u := ft); [|exact U]. right. eexists _, _, _. split; [reflexivity|]. split; [reflexivity|]. split; [reflexivity|].
      cbn [fn_body fn_locals]. rewrite app_length. apply likes_put. }
    intros H. destruct (Nat.lt_ge_cases b (length imported)) as [I|I].
    + rewrite nth_error_app1 in H |- * by exact I. exists f. split; [exact H|left; reflexivity].
    + rewrite nth_error_app2 in H |- * by exact I. destruct (Nat.lt_ge_cases (b - length imported) (length own)) as [J|J].
      * rewrite nth_error_app1 in H by exact J. rewrite nth_error_app1 by (rewrite Q; exact J). apply K, H.
      * rewrite nth_error_app2 in H by exact J. rewrite nth_error_app2 by (rewrite Q; exact J). rewrite Q. exists f. split; [exact H|left; reflexivity].
  - unfold at_N, instance_funcs. rewrite X. cbn [with_body with_funcs m_imports]. rewrite nth_error_app2 by lia.
    replace (_ + y - length imported)%nat with y by lia. 
    assert (Uy : nth_error (skipn (length imported) fts) y = Some t).
    { rewrite skipn_nth, L. destruct (space_nth _ _ F (length (imported_funcs (m_imports m)) + y) (fn_ty g)) as (t' & H & A).
      - unfold func_index. cbn [with_body with_funcs m_imports]. rewrite nth_error_app2 by lia. rewrite Nat.add_comm, Nat.add_sub. apply map_nth_error. exact Y.
      - rewrite H. unfold at_index in *. congruence. }
    pose proof (combine_nth_error _ _ y _ _ Uy Y) as CN. rewrite nth_error_app1.
    + apply (map_nth_error (fun p => @F_Wasm M (fst p) (snd p))) in CN. exact CN.
    + rewrite map_length. apply nth_error_Some. rewrite CN. discriminate.
Qed.
(** no call of an instance of an accepted module gets stuck *)
Theorem inline_runs : own_func before x t g -> at_index (m_types m) ty ft ->
  (forall f, In f (m_funcs before) -> no_pseudo (fn_body f)) -> accepted before ->
  exists fts, func_space before fts /\ func_space after fts /\ forall M imported others st, machine_ok M ->
    knows_zero M ->
    let fs1 := instance_funcs before fts imported others in
    let fs2 := instance_funcs after fts imported others in
    let C := module_env before fts in
    map finst_type imported = firstn (length (imported_funcs (m_imports m))) fts ->
    Forall (host_ok C (length fs1)) imported -> Forall (host_ok C (length fs1)) others -> store_ok C (length fs1) st ->
    forall fuel a f args, nth_error fs1 a = Some f -> map type_of args = ft_params (finst_type f) ->
      invoke M (m_types m) fs2 fuel a args st = invoke M (m_types m) fs1 fuel a args st.
Proof.
  intros O FT NP A. destruct (accepted_safe _ A NP) as (fts & F & S). exists fts. split; [exact F|]. split; [apply same_space, F|].
  intros M imported others st MO Z fs1 fs2 C IT HI HO ST fuel a f args N T.
  apply inline_same; try assumption.
  - apply (f_equal (@List.length _)) in IT. rewrite map_length, firstn_length in IT. rewrite IT. apply Nat.min_l.
    rewrite (space_length _ _ F). unfold func_index. rewrite app_length. cbn [with_body with_funcs m_imports]. lia.
  - specialize (S M imported others st MO IT HI HO ST fuel a f args N T). intros E. cbn [with_body with_funcs m_types] in S. rewrite E in S. exact S.
Qed.
(** instantiating, which may run a function *)
Theorem inline_instantiates (M : machine) fts (imported others : list (finst M)) imp fuel : own_func before x t g -> at_index (m_types m) ty ft ->
  knows_zero M ->
  func_space before fts -> length imported = length (imported_funcs (m_imports m)) ->
  instantiate before imp (instance_funcs before fts imported others) fuel <> Inst_Stuck ->
  instantiate after imp (instance_funcs after fts imported others) fuel = instantiate before imp (instance_funcs before fts imported others) fuel.
Proof.
  intros O FT Z F L. unfold instantiate. cbn [with_body with_funcs m_globals m_tables m_mems m_elem m_data].
  destruct (all_some _ (m_globals m)); [|congruence]. destruct (init_elems _ _) as [st| | |]; try congruence. destruct (init_datas _ _) as [st'| | |]; try congruence.
  unfold run_start. cbn [with_body with_funcs m_start m_types]. destruct (m_start m) as [s|]; [|reflexivity]. intros NS.
  rewrite (inline_same M fts imported others fuel (N.to_nat (st_func s)) [] st' O FT Z F L); [reflexivity|].
  intros E. cbn [with_body with_funcs] in E, NS. rewrite E in NS. congruence.
Qed.
End Inst.
