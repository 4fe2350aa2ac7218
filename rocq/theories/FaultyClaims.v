(** What parsing from an iterator that may panic does. *)
From Coq Require Import Lia ZifyN ZifyNat String.
From Verif Require Import ParserFaulty FaultyElements IterElements ElementSpec SpecParser SpecIter SpecFaulty ParserCost ParserMeta ModuleClaims ModuleClaims2
  IterProof IterClaims TimeIterProof FaultyProof.
Open Scope N_scope.

(** ** What is yielded *)
Lemma gives_app {S} (next : faulty S) l1 : forall s l2 s2, gives next s (l1 ++ l2) s2 <-> exists s1, gives next s l1 s1 /\ gives next s1 l2 s2.
Proof.
  induction l1 as [|b l1 IH]; intros s l2 s2; cbn [app gives].
  - split; [intros H; exists s; auto|]. intros (s1 & -> & H). exact H.
  - split.
    + intros (s1 & E & H). apply IH in H. destruct H as (s3 & H1 & H2). exists s3. eauto.
    + intros (s1 & (s3 & E & H1) & H2). exists s3. split; [exact E|]. apply IH. eauto.
Qed.
Lemma gives_compare {S} (next : faulty S) l1 : forall l2 s s1 s2, gives next s l1 s1 -> gives next s l2 s2 ->
  (exists y, l2 = l1 ++ y /\ gives next s1 y s2) \/ (exists y, l1 = l2 ++ y /\ gives next s2 y s1).
Proof.
  induction l1 as [|b l1 IH]; intros l2 s s1 s2 H1 H2.
  - cbn in H1. subst s1. left. exists l2. auto.
  - destruct l2 as [|c l2].
    + cbn in H2. subst s2. right. exists (b :: l1). auto.
    + destruct H1 as (t1 & N1 & H1), H2 as (t2 & N2 & H2). rewrite N1 in N2. injection N2 as <- <-.
      destruct (IH l2 t1 s1 s2 H1 H2) as [(y & -> & Y)|(y & -> & Y)]; [left|right]; exists y; auto.
Qed.
Lemma gives_before {S} (next : faulty S) l l' s s1 s2 : gives_then_panics next s l s1 -> gives next s l' s2 -> exists y, l = l' ++ y.
Proof.
  intros (G & P) G'. destruct (gives_compare next l l' s s1 s2 G G') as [(y & -> & Z)|(y & -> & Z)]; [|eauto].
  destruct y as [|b y]; [exists []; rewrite !app_nil_r; reflexivity|]. destruct Z as (s3 & N3 & _). congruence.
Qed.
Lemma panics_unique {S} (next : faulty S) l l' s s1 s1' : gives_then_panics next s l s1 -> gives_then_panics next s l' s1' -> l = l' /\ s1 = s1'.
Proof.
  intros (Y & N) (Y' & N'). destruct (gives_compare next l l' s s1 s1' Y Y') as [(y & -> & Z)|(y & -> & Z)];
    (destruct y as [|b y]; [cbn in Z; subst; rewrite app_nil_r; split; reflexivity|destruct Z as (? & Z & _); congruence]).
Qed.

(** ** An iterator that does not panic but yields zeros from then on *)
Definition sealed {T} (pn : faulty T) : iterator (T + T) := fun s =>
  match s with
  | inl t => match pn t with Some (v, t1) => (v, inl t1) | None => (Some x00, inr t) end
  | inr t => (Some x00, inr t)
  end.
Lemma tracks_sealed {T} (pn : faulty T) : tracks (sealed pn) pn (fun t s => s = inl t) (fun t s => s = inr t).
Proof.
  split.
  - intros t s ->. cbn. destruct (pn t) as [[v t1]|]; [eexists; split; reflexivity|reflexivity].
  - intros t s ->. reflexivity.
Qed.
Lemma sealed_zeros {T} (pn : faulty T) l : forall t s, yields (sealed pn) (inr t) l s -> s = inr t.
Proof.
  induction l as [|b l IH]; intros t s H; [symmetry; exact H|]. destruct H as (s1 & N & H). cbn in N. injection N as <- <-. apply (IH _ _ H).
Qed.
Lemma sealed_live {T} (pn : faulty T) l : forall t t', yields (sealed pn) (inl t) l (inl t') -> gives pn t l t'.
Proof.
  induction l as [|b l IH]; intros t t' H; [injection H as ->; reflexivity|]. destruct H as (s1 & N & H). cbn in N.
  destruct (pn t) as [[v t1]|] eqn:E.
  - injection N as -> <-. exists t1. split; [exact E|apply IH, H].
  - injection N as <- <-. apply sealed_zeros in H. discriminate.
Qed.
Lemma sealed_dead {T} (pn : faulty T) l : forall t t', yields (sealed pn) (inl t) l (inr t') ->
  exists l1 b l2, l = l1 ++ b :: l2 /\ gives_then_panics pn t l1 t'.
Proof.
  induction l as [|b l IH]; intros t t' H; [discriminate H|]. destruct H as (s1 & N & H). cbn in N.
  destruct (pn t) as [[v t1]|] eqn:E.
  - injection N as -> <-. destruct (IH _ _ H) as (l1 & c & l2 & -> & G & P). exists (b :: l1), c, l2. split; [reflexivity|]. split; [|exact P].
    exists t1. auto.
  - injection N as <- <-. apply sealed_zeros in H. injection H as ->. exists [], x00, l. split; [reflexivity|]. split; [reflexivity|exact E].
Qed.

(** ** What was read *)
Lemma faulty_iter {A} E (i : ip A) j p : simw E i p -> rel i j -> forall fuel S (next : faulty S) s o s', j fuel S next s = (o, s') ->
  (exists l, gives next s l s' /\ settles p l o) \/
  (exists l, gives_then_ends next s l s' /\ p l = (o, []) /\ E o) \/
  (o = Panic /\ exists l, gives_then_panics next s l s' /\ forall l1 l2 o', l = l1 ++ l2 -> ~ settles p l1 o') \/
  (o = OutOfFuel /\ exists l, gives next s l s' /\ (fuel <= 2 * length l + 2)%nat).
Proof.
  intros M R fuel S next s o s' H. pose proof (proj1 (R fuel _ _ _ _ _ _ (tracks_sealed next)) s (inl s) eq_refl) as TG.
  rewrite H in TG. destruct (i fuel _ (sealed next) (inl s)) as [o1 s1] eqn:HI.
  pose proof (proj2 M _ _ _ _ _ _ HI) as SM. destruct TG as [[E1 L]|[E1 L]]; cbn [fst snd] in E1, L; subst s1 o.
  - destruct SM as [l Y Q|l s2 Y N Q D|l -> Y L Q].
    + left. exists l. split; [apply sealed_live, Y|exact Q].
    + right. left. exists l. split; [|split; [exact Q|exact D]]. destruct s2 as [t2|t2]; [|discriminate N].
      exists t2. split; [apply sealed_live, Y|]. cbn in N. destruct (next t2) as [[v t3]|]; [|discriminate N]. injection N as -> <-. reflexivity.
    + right. right. right. split; [reflexivity|]. exists l. split; [apply sealed_live, Y|exact L].
  - right. right. left. split; [reflexivity|].
    assert (K : exists l, yields (sealed next) (inl s) l (inr s') /\ snd (p l) = []).
    { destruct SM as [l Y Q|l s2 Y N Q D|l _ Y L Q].
      - exists l. split; [exact Y|]. specialize (Q []). rewrite app_nil_r in Q. rewrite Q. reflexivity.
      - exfalso. destruct s2 as [t2|t2]; [|discriminate N]. cbn in N. destruct (next t2) as [[v t3]|]; discriminate N.
      - exists l. split; [exact Y|exact Q]. }
    destruct K as (l & Y & Q). destruct (sealed_dead _ _ _ _ Y) as (l1 & b & l2 & -> & G). exists l1. split; [exact G|].
    intros k1 k2 o' -> ST. rewrite <- app_assoc, ST in Q. cbn [snd] in Q. destruct k2; discriminate Q.
Qed.

(** With enough fuel, on an iterator that panics after [l]: *)
Lemma faulty_after {A} E (i : ip A) j p : simw E i p -> rel i j -> safe p -> forall fuel S (next : faulty S) s l s1,
  gives_then_panics next s l s1 -> (2 * length l + 2 < fuel)%nat ->
  (exists l1 l2, l = l1 ++ l2 /\ settles p l1 (fst (j fuel S next s)) /\ gives next s l1 (snd (j fuel S next s))) \/
  (j fuel S next s = (Panic, s1) /\ forall l1 l2 o, l = l1 ++ l2 -> ~ settles p l1 o).
Proof.
  intros M R SF fuel S next s l s1 G F. destruct (j fuel S next s) as [o s'] eqn:H. cbn [fst snd].
  destruct (faulty_iter E i j p M R _ _ _ _ _ _ H) as [(l1 & G1 & ST)|[(l1 & (s2 & G1 & N) & Q & _)|[(-> & l1 & G1 & NS)|(-> & l1 & G1 & L)]]].
  - left. destruct (gives_before _ _ _ _ _ _ G G1) as (y & ->). exists l1, y. auto.
  - exfalso. destruct G as [G P]. destruct (gives_compare next l l1 s s1 s2 G G1) as [(y & -> & Z)|(y & -> & Z)];
      (destruct y as [|b y]; [cbn in Z; subst; congruence|destruct Z as (? & Z & _); congruence]).
  - right. destruct (panics_unique _ _ _ _ _ _ G G1) as [<- <-]. auto.
  - exfalso. destruct (gives_before _ _ _ _ _ _ G G1) as (y & ->). rewrite app_length in F. lia.
Qed.

Lemma settles_one {A} (p : parser A) l1 l2 k1 k2 o o' : l1 ++ l2 = k1 ++ k2 -> settles p l1 o -> settles p k1 o' -> o = o'.
Proof. intros E H H'. pose proof (H l2) as X. rewrite E, (H' k2) in X. congruence. Qed.

Lemma faulty_says {A} E (i : ip A) j p : simw E i p -> rel i j -> safe p -> forall fuel S (next : faulty S) s l s1,
  gives_then_panics next s l s1 -> (2 * length l + 2 < fuel)%nat -> forall o, o <> Panic ->
  (fst (j fuel S next s) = o <-> exists l1 l2, l = l1 ++ l2 /\ settles p l1 o).
Proof.
  intros M R SF fuel S next s l s1 G F o NP. destruct (faulty_after E i j p M R SF fuel S next s l s1 G F) as [(l1 & l2 & EQ & ST & _)|[X NS]].
  - split; [intros <-; eauto|]. intros (k1 & k2 & EQ' & ST'). rewrite EQ in EQ'. apply (settles_one p _ _ _ _ _ _ EQ' ST ST').
  - rewrite X. cbn [fst]. split; [intros <-; destruct (NP eq_refl)|]. intros (k1 & k2 & EQ' & ST'). destruct (NS _ _ _ EQ' ST').
Qed.
Lemma settles_sound {A} (p : parser A) l o : safe p -> settles p l o -> o <> Panic /\ o <> OutOfFuel.
Proof. intros SF ST. pose proof (ST []) as X. destruct (SF (l ++ [])) as [P1 P2]. rewrite X in P1, P2. auto. Qed.
Lemma faulty_panics {A} E (i : ip A) j p : simw E i p -> rel i j -> safe p -> forall fuel S (next : faulty S) s l s1,
  gives_then_panics next s l s1 -> (2 * length l + 2 < fuel)%nat ->
  (fst (j fuel S next s) = Panic <-> forall l1 l2 o, l = l1 ++ l2 -> ~ settles p l1 o).
Proof.
  intros M R SF fuel S next s l s1 G F. destruct (faulty_after E i j p M R SF fuel S next s l s1 G F) as [(l1 & l2 & EQ & ST & _)|[X NS]].
  - destruct (settles_sound _ _ _ SF ST) as [NP _]. split; [contradiction|]. intros NS. destruct (NS _ _ _ EQ ST).
  - rewrite X. split; auto.
Qed.

(** ** Modules *)
Lemma safe_module : safe p_module.
Proof.
  intros bs. destruct (proj1 parse_total bs) as [(m & r & ->)|(e & r & ->)]; split; discriminate.
Qed.
Lemma module_faulty fuel S (next : faulty S) s o s' : j_module fuel S next s = (o, s') -> o <> OutOfFuel ->
  (exists l, gives next s l s' /\ settles p_module l o) \/
  (exists l, gives_then_ends next s l s' /\ p_module l = (o, [])) \/
  (o = Panic /\ exists l, gives_then_panics next s l s' /\ forall l1 l2 o', l = l1 ++ l2 -> ~ settles p_module l1 o').
Proof.
  intros H NF. destruct (faulty_iter decided _ _ _ sim_module rel_module _ _ _ _ _ _ H) as [X|[(l & X & Y & _)|[X|[X _]]]]; eauto. contradiction.
Qed.
Lemma module_never_settles l m : ~ settles p_module l (Ok m).
Proof. intros H. pose proof (module_ok_all _ _ _ (H [x00])). discriminate. Qed.
Lemma module_after fuel S (next : faulty S) s l s1 : gives_then_panics next s l s1 -> (2 * length l + 2 < fuel)%nat ->
  (forall e, fst (j_module fuel S next s) = Err e <-> exists l1 l2, l = l1 ++ l2 /\ settles p_module l1 (Err e)) /\
  (j_module fuel S next s = (Panic, s1) <-> forall l1 l2 e, l = l1 ++ l2 -> ~ settles p_module l1 (Err e)).
Proof.
  intros G F. split.
  - intros e. apply (faulty_says decided _ _ _ sim_module rel_module safe_module fuel S next s l s1 G F). discriminate.
  - destruct (faulty_after decided _ _ _ sim_module rel_module safe_module fuel S next s l s1 G F) as [(l1 & l2 & EQ & ST & _)|[X NS]].
    + split.
      * intros H. rewrite H in ST. destruct (settles_sound _ _ _ safe_module ST) as [[] _]. reflexivity.
      * intros NS. destruct (settles_sound _ _ _ safe_module ST) as [N1 N2].
        destruct (fst (j_module fuel S next s)) as [m|e| |]; [destruct (module_never_settles _ _ ST)|destruct (NS _ _ _ EQ ST)|destruct N1; reflexivity|destruct N2; reflexivity].
    + split; [intros _ l1 l2 e; apply NS|intros _; exact X].
Qed.
(** the part of a file before the panic *)
Lemma module_file fuel S (next : faulty S) s l1 s1 : gives_then_panics next s l1 s1 -> (2 * length l1 + 2 < fuel)%nat -> forall l2,
  j_module fuel S next s = (Panic, s1) \/ (exists e, fst (j_module fuel S next s) = Err e /\ fst (p_module (l1 ++ l2)) = Err e).
Proof.
  intros G F l2. destruct (faulty_after decided _ _ _ sim_module rel_module safe_module fuel S next s l1 s1 G F) as [(k1 & k2 & -> & ST & _)|[X NS]]; [right|left; exact X].
  destruct (settles_sound _ _ _ safe_module ST) as [N1 N2]. pose proof (ST (k2 ++ l2)) as P. rewrite app_assoc in P.
  destruct (fst (j_module fuel S next s)) as [m|e| |]; [destruct (module_never_settles _ _ ST)| |destruct N1; reflexivity|destruct N2; reflexivity].
  exists e. split; [reflexivity|]. rewrite P. reflexivity.
Qed.
Lemma module_accepted fuel S (next : faulty S) s l1 s1 l2 m : gives_then_panics next s l1 s1 -> (2 * length l1 + 2 < fuel)%nat ->
  fst (p_module (l1 ++ l2)) = Ok m -> j_module fuel S next s = (Panic, s1).
Proof. intros G F P. destruct (module_file fuel S next s l1 s1 G F l2) as [X|(e & _ & X)]; [exact X|congruence]. Qed.
(** the slice [l] *)
Lemma slice_yields l1 : forall l2, yields slice_next (l1 ++ l2) l1 l2.
Proof. induction l1 as [|b l1 IH]; intros l2; [reflexivity|]. exists (l1 ++ l2). split; [reflexivity|apply IH]. Qed.
Lemma slice_told l : (exists l1 l2 o, l = l1 ++ l2 /\ settles p_module l1 o /\ calls (snd (l_module l)) = N.of_nat (length l1)) \/
  calls (snd (l_module l)) = N.of_nat (length l) + 1.
Proof.
  set (F := (2 * length l + 3)%nat). destruct (i_module F _ slice_next l) as [o s'] eqn:H.
  assert (EN : yields_then_ends slice_next l l []).
  { exists []. split; [|reflexivity]. pose proof (slice_yields l []) as Y. rewrite app_nil_r in Y. exact Y. }
  destruct (tells_module _ _ _ _ _ _ H) as [l1 Y Q|l1 s2 Y N Q C D| ->].
  - left. destruct (yields_before_end _ _ _ _ _ _ EN Y) as (y & ->). exists l1, y, o. split; [reflexivity|]. split; [|apply Q].
    intros rest. rewrite <- TimeProof.free_module. apply Q.
  - right. destruct (ends_unique _ _ _ _ _ _ EN (ex_intro _ s2 (conj Y N))) as [<- _]. exact C.
  - exfalso. pose proof (ending_module F _ slice_next l l [] EN) as X. rewrite H in X. cbn [fst] in X.
    destruct (safe_module l) as [_ S2]. apply S2. symmetry. apply X. unfold F. lia.
Qed.
Definition then_zeros : iterator (list byte) := fun s => match s with b :: r => (Some b, r) | [] => (Some x00, []) end.
Lemma zeros_yield l1 : forall l2, yields then_zeros (l1 ++ l2) l1 l2.
Proof. induction l1 as [|b l1 IH]; intros l2; [reflexivity|]. exists (l1 ++ l2). split; [reflexivity|apply IH]. Qed.
Lemma settled_calls k o : settles p_module k o -> forall rest, calls (snd (l_module (k ++ rest))) = N.of_nat (length k).
Proof.
  intros ST. set (F := (2 * length k + 3)%nat). destruct (i_module F _ then_zeros k) as [o1 s'] eqn:H.
  pose proof (zeros_yield k []) as K. rewrite app_nil_r in K.
  assert (ONE : forall l o', yields then_zeros k l s' -> settles p_module l o' -> l = k).
  { intros l o' Y Q. destruct (yields_compare _ _ _ _ _ _ K Y) as [(y & -> & _)|(y & E & _)].
    - pose proof (Q []) as Q1. rewrite app_nil_r, ST in Q1. injection Q1 as _ ->. apply app_nil_r.
    - pose proof (ST []) as Q1. rewrite app_nil_r in Q1. rewrite E, Q in Q1. injection Q1 as _ ->. rewrite app_nil_r in E. congruence. }
  destruct (tells_module _ _ _ _ _ _ H) as [l Y Q|l s2 Y N Q C D| ->].
  - assert (l = k) as ->; [|intros rest; apply Q]. apply (ONE l o1 Y). intros rest. rewrite <- TimeProof.free_module. apply Q.
  - exfalso. destruct s2; discriminate N.
  - exfalso. destruct (proj2 sim_module _ _ _ _ _ _ H) as [l Y Q|l s2 Y N Q D|l _ Y L Q].
    + destruct (settles_sound p_module l OutOfFuel safe_module Q) as [_ []]. reflexivity.
    + destruct s2; discriminate N.
    + unfold F in L. destruct (yields_compare _ _ _ _ _ _ K Y) as [(y & -> & _)|(y & E & _)].
      * rewrite ST in Q. cbn [snd] in Q. subst y. rewrite app_nil_r in L. lia.
      * pose proof (f_equal (@length byte) E) as E'. rewrite app_length in E'. lia.
Qed.
Lemma module_calls fuel S (next : faulty S) s l1 s1 l2 : gives_then_panics next s l1 s1 -> (2 * length l1 + 2 < fuel)%nat ->
  (fst (j_module fuel S next s) = Panic <-> N.of_nat (length l1) < calls (snd (l_module (l1 ++ l2)))).
Proof.
  intros G F. rewrite (faulty_panics decided _ _ _ sim_module rel_module safe_module fuel S next s l1 s1 G F). split.
  - intros NS. destruct (slice_told (l1 ++ l2)) as [(k1 & k2 & o & EQ & ST & C)|C]; rewrite C; [|rewrite app_length; lia].
    destruct (N.lt_ge_cases (N.of_nat (length l1)) (N.of_nat (length k1))) as [X|X]; [exact X|]. exfalso.
    assert (P : l1 = k1 ++ skipn (length k1) l1).
    { pose proof (f_equal (firstn (length k1)) EQ) as Z. rewrite (firstn_app (length k1) k1), Nat.sub_diag, firstn_all, firstn_O, app_nil_r in Z.
      rewrite firstn_app in Z. replace (length k1 - length l1)%nat with O in Z by lia. rewrite firstn_O, app_nil_r in Z.
      rewrite <- Z at 1. symmetry. apply firstn_skipn. }
    apply (NS _ _ _ P ST).
  - intros L k1 k2 o -> ST. rewrite <- app_assoc, (settled_calls k1 o ST), app_length in L. lia.
Qed.

(** ** An iterator that never panics *)
Lemma never_faulty {A} (i : ip A) j : rel i j -> forall fuel S (next : iterator S) (pn : faulty S) s, (forall s, pn s = Some (next s)) ->
  j fuel S pn s = i fuel S next s.
Proof.
  intros R fuel S next pn s H.
  assert (T : tracks next pn eq (fun _ _ => False)).
  { split; [|intros t s0 []]. intros t s0 <-. rewrite H. destruct (next t) as [v t1]. eexists. split; reflexivity. }
  destruct (proj1 (R fuel _ _ _ _ _ _ T) s s eq_refl) as [[E1 E2]|[_ []]]. destruct (i _ _ _ _), (j _ _ _ _). cbn in *. congruence.
Qed.
Lemma module_never fuel S (next : iterator S) (pn : faulty S) s : (forall s, pn s = Some (next s)) -> j_module fuel S pn s = i_module fuel S next s.
Proof. apply never_faulty, rel_module. Qed.

(** ** Elements *)
Lemma faulty_element A j p : faulty_models A j p -> element A p /\ exists i, models A i p /\ rel i j.
Proof.
  induction 1;
    try (destruct IHfaulty_models as (EL & i & MO & R));
    (split; [constructor; assumption|eexists; split; [constructor; eassumption|]]);
    first [ apply rel_byte | apply rel_unsigned | apply rel_signed | apply rel_float | apply rel_string
    | apply rel_limits | apply rel_valty | apply rel_elemty | apply rel_retval | apply rel_functy | apply rel_tablety | apply rel_memty
    | apply rel_mut | apply rel_globalty | apply rel_instr_top | apply rel_expr | apply rel_func | apply rel_table | apply rel_mem | apply rel_global
    | apply rel_elem | apply rel_data | apply rel_start | apply rel_importdesc | apply rel_exportdesc | apply rel_import | apply rel_export
    | apply rel_sized, rel_custom | apply rel_section | apply rel_vec; assumption | apply rel_unwrapping_vec; assumption
    | apply rel_compact_vec; assumption | apply rel_times; assumption | apply rel_sized; assumption ].
Qed.
Lemma safe_element A p : element A p -> safe p.
Proof. intros EL bs. destruct (proj2 parse_total A p bs EL) as [(a & r & ->)|(e & r & ->)]; split; discriminate. Qed.
Lemma elements_faulty A j p : faulty_models A j p -> forall fuel S (next : faulty S) s o s', j fuel S next s = (o, s') -> o <> OutOfFuel ->
  (exists l, gives next s l s' /\ settles p l o) \/
  (exists l e, gives_then_ends next s l s' /\ p l = (o, []) /\ o = Err e) \/
  (o = Panic /\ exists l, gives_then_panics next s l s' /\ forall l1 l2 o', l = l1 ++ l2 -> ~ settles p l1 o').
Proof.
  intros M fuel S next s o s' H NF. destruct (faulty_element A j p M) as (_ & i & MO & R).
  destruct (faulty_iter failed _ _ _ (sim_models A i p MO) R _ _ _ _ _ _ H) as [X|[(l & X & Y & e & Z)|[X|[X _]]]]; eauto 8. contradiction.
Qed.
Lemma elements_after A j p : faulty_models A j p -> forall fuel S (next : faulty S) s l s1, gives_then_panics next s l s1 -> (2 * length l + 2 < fuel)%nat ->
  (forall o, o <> Panic -> (fst (j fuel S next s) = o <-> exists l1 l2, l = l1 ++ l2 /\ settles p l1 o)) /\
  (j fuel S next s = (Panic, s1) <-> forall l1 l2 o, l = l1 ++ l2 -> ~ settles p l1 o).
Proof.
  intros M fuel S next s l s1 G F. destruct (faulty_element A j p M) as (EL & i & MO & R). pose proof (safe_element A p EL) as SF.
  pose proof (sim_models A i p MO) as SM. split.
  - intros o. apply (faulty_says failed i j p SM R SF fuel S next s l s1 G F).
  - destruct (faulty_after failed i j p SM R SF fuel S next s l s1 G F) as [(l1 & l2 & EQ & ST & _)|[X NS]].
    + destruct (settles_sound _ _ _ SF ST) as [N1 N2]. split; [intros H; rewrite H in N1; destruct N1; reflexivity|]. intros NS. destruct (NS _ _ _ EQ ST).
    + split; auto.
Qed.
Lemma elements_never A j p : faulty_models A j p -> exists i, models A i p /\
  forall fuel S (next : iterator S) (pn : faulty S) s, (forall s, pn s = Some (next s)) -> j fuel S pn s = i fuel S next s.
Proof.
  intros M. destruct (faulty_element A j p M) as (_ & i & MO & R). exists i. split; [exact MO|]. apply never_faulty, R.
Qed.
