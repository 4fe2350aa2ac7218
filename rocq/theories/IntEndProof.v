(** Integers that the input ends in. *)
From Coq Require Import Lia ZifyN ZifyNat.
From Verif Require Import ParserModule SpecFormat SpecPrompt LebProof CoreClaims ParserMeta SpecBlame BlameProof.
Open Scope N_scope.

Lemma uleb_app a b : uleb_val (a ++ b) = uleb_val a + 128 ^ N.of_nat (length a) * uleb_val b.
Proof.
  induction a as [|x a IH]; [cbn [app uleb_val length]; change (N.of_nat 0) with 0; rewrite N.pow_0_r; lia|].
  cbn [app uleb_val length]. rewrite IH, Nat2N.inj_succ, N.pow_succ_r'. nia.
Qed.
Lemma sleb_app a b : b <> [] -> sleb_val (a ++ b) = (Z.of_N (uleb_val a) + Z.of_N (128 ^ N.of_nat (length a)) * sleb_val b)%Z.
Proof.
  intros NE. induction a as [|x a IH].
  - cbn [app uleb_val length]. change (128 ^ N.of_nat 0) with 1. lia.
  - cbn [app uleb_val length]. rewrite Nat2N.inj_succ, N.pow_succ_r'.
    transitivity (Z.of_N (payload x) + 128 * sleb_val (a ++ b))%Z.
    + destruct (a ++ b) as [|y l] eqn:E; [apply app_eq_nil in E as [_ E]; destruct (NE E)|reflexivity].
    + rewrite IH. nia.
Qed.
Lemma uleb_bound a : uleb_val a < 128 ^ N.of_nat (length a).
Proof.
  induction a as [|x a IH]; [cbn; lia|]. cbn [uleb_val length]. rewrite Nat2N.inj_succ, N.pow_succ_r'. unfold payload.
  pose proof (N.mod_lt (Byte.to_N x) 128 ltac:(lia)). nia.
Qed.
Definition unended (bs : list byte) : Prop := Forall (fun b => 128 <= Byte.to_N b) bs.
Lemma unended_leb bs t : unended bs -> leb t -> leb (bs ++ t).
Proof. induction 1 as [|b bs B F IH]; intros T; [exact T|]. cbn [app]. constructor; [exact B|apply IH, T]. Qed.
Lemma unended_no bs : unended bs -> ~ leb bs.
Proof. intros U L. apply (leb_not_all_cont bs [] L). rewrite app_nil_r. exact U. Qed.

Lemma begins_unsigned size bs : unended bs -> (begins (encodes (enc_u whasm_format size)) bs <-> uleb_val bs < 2 ^ size).
Proof.
  intros U. split.
  - intros (tl & v & (_ & V & F) & _). unfold fits_u in F. rewrite uleb_app in V. nia.
  - intros L. exists [x00], (uleb_val bs). split; [|exact I]. split; [apply unended_leb; [exact U|constructor; cbn; lia]|].
    split; [rewrite uleb_app; change (uleb_val [x00]) with 0; lia|exact L].
Qed.
Lemma begins_signed size bs : unended bs -> (begins (encodes (enc_s whasm_format size)) bs <->
  (Z.of_N (uleb_val bs) < 2 ^ (Z.of_N size - 1) \/ Z.of_N (128 ^ N.of_nat (length bs) - uleb_val bs) <= 2 ^ (Z.of_N size - 1))%Z).
Proof.
  intros U. pose proof (uleb_bound bs) as B. set (M := (2 ^ (Z.of_N size - 1))%Z). assert (M0 : (0 <= M)%Z) by (apply Z.pow_nonneg; lia). split.
  - intros (tl & v & (L & V & F) & _). unfold fits_s in F. fold M in F.
    assert (NE : tl <> []) by (intros ->; rewrite app_nil_r in L; exact (unended_no bs U L)).
    rewrite sleb_app in V by exact NE. destruct (Z_le_gt_dec 0 (sleb_val tl)) as [P|P]; [left; nia|right].
    assert (Z.of_N (128 ^ N.of_nat (length bs)) * sleb_val tl <= - Z.of_N (128 ^ N.of_nat (length bs)))%Z by nia. lia.
  - intros [L|L].
    + exists [x00], (Z.of_N (uleb_val bs)). split; [|exact I]. split; [apply unended_leb; [exact U|constructor; cbn; lia]|].
      split; [rewrite sleb_app by discriminate; change (sleb_val [x00]) with 0%Z; lia|]. unfold fits_s. fold M. lia.
    + exists [x7f], (Z.of_N (uleb_val bs) - Z.of_N (128 ^ N.of_nat (length bs)))%Z. split; [|exact I]. split; [apply unended_leb; [exact U|constructor; cbn; lia]|].
      split; [rewrite sleb_app by discriminate; change (sleb_val [x7f]) with (-1)%Z; lia|]. unfold fits_s. fold M. lia.
Qed.

Lemma first_bad_not V bs r : first_bad V bs r -> ~ begins V bs.
Proof. intros (pre & b & -> & _ & _ & N) [tl T]. apply N. exists (r ++ tl). rewrite <- app_assoc in *. exact T. Qed.
Lemma ended_num {A} (p : parser A) (E : format A) range bs : blames p (f_num (encodes E) range) -> ~ encodes E bs ->
  (exists e r, p bs = (Err e, r)) ->
  (begins (encodes E) bs -> p bs = (Err UnexpectedEndOfFile, [])) /\ (~ begins (encodes E) bs -> fst (p bs) = Err range).
Proof.
  intros B N (e & r & H). pose proof (proj1 (B bs e r) H) as [(-> & -> & H1 & H2)|(-> & H1)].
  - split; [intros _; exact H|contradiction].
  - split; [intros X; destruct (first_bad_not _ _ _ H1 X)|intros _; rewrite H; reflexivity].
Qed.
Lemma unended_encodes {A} (E : format A) bs : (forall l a, E l a -> leb l) -> unended bs -> ~ encodes E bs.
Proof. intros H U [a X]. exact (unended_no bs U (H _ _ X)). Qed.
Lemma app_unended bs pre rest : unended bs -> bs = pre ++ rest -> ~ leb pre.
Proof. intros U -> L. apply (leb_not_all_cont pre rest L). exact U. Qed.

Theorem unsigned_unended size bs : size = 8 \/ size = 16 \/ size = 32 \/ size = 64 -> Forall (fun b => 128 <= Byte.to_N b) bs ->
  (uleb_val bs < 2 ^ size -> p_unsigned size bs = (Err UnexpectedEndOfFile, [])) /\
  (2 ^ size <= uleb_val bs -> fst (p_unsigned size bs) = Err OutOfRangeUnsignedInteger).
Proof.
  intros S U. assert (L : 8 <= size) by lia.
  assert (B : blames (p_unsigned size) (f_u size)) by (apply blames_unsigned; [apply exact_u, L|destruct S as [->|[->|[->| ->]]]; constructor]).
  assert (X : exists e r, p_unsigned size bs = (Err e, r)).
  { destruct (p_unsigned size bs) as [o r] eqn:R. pose proof (proj1 (proj2 (CoreClaims.unsigned_errors size bs L)) (fun pre rest E => app_unended bs pre rest U E)) as K.
    rewrite R in K. cbn [fst] in K. destruct K as [-> | ->]; eauto. }
  destruct (ended_num _ _ _ bs B (unended_encodes _ bs (fun l a H => proj1 (proj1 H)) U) X) as [K1 K2]. rewrite (begins_unsigned size bs U) in K1, K2. split; [exact K1|].
  intros G. apply K2. lia.
Qed.
Theorem signed_unended size bs : size = 8 \/ size = 16 \/ size = 32 \/ size = 64 -> Forall (fun b => 128 <= Byte.to_N b) bs ->
  ((Z.of_N (uleb_val bs) < 2 ^ (Z.of_N size - 1) \/ Z.of_N (128 ^ N.of_nat (length bs) - uleb_val bs) <= 2 ^ (Z.of_N size - 1))%Z ->
     p_signed size bs = (Err UnexpectedEndOfFile, [])) /\
  ((2 ^ (Z.of_N size - 1) <= Z.of_N (uleb_val bs) /\ 2 ^ (Z.of_N size - 1) < Z.of_N (128 ^ N.of_nat (length bs) - uleb_val bs))%Z ->
     fst (p_signed size bs) = Err OutOfRangeSignedInteger).
Proof.
  intros S U. assert (L : 8 <= size) by lia.
  assert (B : blames (p_signed size) (f_s size)) by (apply blames_signed; [apply exact_s, L|destruct S as [->|[->|[->| ->]]]; constructor]).
  assert (X : exists e r, p_signed size bs = (Err e, r)).
  { destruct (p_signed size bs) as [o r] eqn:R. pose proof (proj1 (proj2 (CoreClaims.signed_errors size bs L)) (fun pre rest E => app_unended bs pre rest U E)) as K.
    rewrite R in K. cbn [fst] in K. destruct K as [-> | ->]; eauto. }
  destruct (ended_num _ _ _ bs B (unended_encodes _ bs (fun l a H => proj1 (proj1 H)) U) X) as [K1 K2]. rewrite (begins_signed size bs U) in K1, K2. split; [exact K1|].
  intros G. apply K2. lia.
Qed.
