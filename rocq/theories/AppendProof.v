(** What may follow the bytes of a file. *)
From Coq Require Import Lia.
From Verif Require Import ParserModule SpecAppend LebProof SectionsProof ModuleClaims SizeProof UniqueProof PiecesProof ParserMeta .
Open Scope N_scope.

Lemma file_app qs ps : file (qs ++ ps) = file qs ++ flat_map piece_bytes ps.
Proof. unfold file. rewrite flat_map_app, app_assoc. reflexivity. Qed.

(** ** Pieces in front of other pieces *)
Lemma cut_prefix qs : forall ps ext, Forall well_sized qs -> Forall well_sized ps -> flat_map piece_bytes qs ++ ext = flat_map piece_bytes ps ->
  (exists rs, ps = qs ++ rs /\ ext = flat_map piece_bytes rs) \/ (exists n x y, qs = n ++ x :: y /\ ps = n).
Proof.
  induction qs as [|[i n c] qs IH]; intros ps ext W W' E; [left; exists ps; split; [reflexivity|exact E]|].
  destruct ps as [|[i' n' c'] ps]; [right; exists [], (mkPiece i n c), qs; split; reflexivity|].
  inversion W as [|? ? (L & V & _) W2]; subst. inversion W' as [|? ? (L' & V' & _) W2']; subst. cbn in *. injection E as <- E. rewrite <- !app_assoc in E.
  destruct (leb_prefix_unique _ _ _ _ L L' E) as [<- E2]. rewrite V in V'. apply Nat2N.inj in V'.
  assert (X : c = c' /\ flat_map piece_bytes qs ++ ext = flat_map piece_bytes ps).
  { clear -V' E2. revert c' V' E2. induction c as [|b c IHc]; intros [|b' c'] L E; try discriminate L; [split; [reflexivity|exact E]|].
    cbn in *. injection E as <- E. destruct (IHc c' (eq_add_S _ _ L) E) as [<- E3]. split; [reflexivity|exact E3]. }
  destruct X as [<- E3]. destruct (IH ps ext W2 W2' E3) as [(rs & -> & ->)|(a & x & y & -> & ->)].
  - left. exists rs. split; reflexivity.
  - right. exists (mkPiece i n c :: a), x, y. split; reflexivity.
Qed.
Lemma app_longer {A} (f : piece -> list A) (a : list piece) x y ext : (forall p, f p <> []) -> flat_map f (a ++ x :: y) ++ ext <> flat_map f a.
Proof.
  intros N E. apply (f_equal (@length A)) in E. rewrite flat_map_app in E. cbn [flat_map] in E. rewrite !app_length in E.
  specialize (N x). destruct (f x); [congruence|]. cbn in E. lia.
Qed.
Theorem append_iff qs ext : Forall well_sized qs ->
  ((exists m, p_module (file qs ++ ext) = (Ok m, [])) <->
   exists ps, Forall well_sized ps /\ ext = flat_map piece_bytes ps /\ exists m, p_module (file (qs ++ ps)) = (Ok m, [])).
Proof.
  intros S. split.
  - intros [m P]. destruct (accepted_cut _ _ P) as (rs & (S2 & E) & _). unfold file in E. rewrite <- app_assoc in E. apply app_inv_head in E.
    destruct (cut_prefix _ _ _ S S2 E) as [(ps & -> & ->)|(a & x & y & -> & ->)].
    + apply Forall_app in S2 as [_ S2]. exists ps. split; [exact S2|]. split; [reflexivity|]. exists m. rewrite file_app. exact P.
    + exfalso. eapply app_longer; [|exact E]. discriminate.
  - intros (ps & _ & -> & m & P). exists m. rewrite <- file_app. exact P.
Qed.
Theorem append_separately qs ext : Forall well_sized qs ->
  ((exists m, p_module (file qs ++ ext) = (Ok m, [])) <->
   exists ps, Forall well_sized ps /\ ext = flat_map piece_bytes ps /\ in_order (qs ++ ps) /\
     (forall p, In p (qs ++ ps) -> about_functions p = false -> exists m, p_module (file [p]) = (Ok m, [])) /\
     exists m, p_module (file (filter about_functions (qs ++ ps))) = (Ok m, [])).
Proof.
  intros S. rewrite append_iff by exact S.
  split; intros (ps & S2 & E & H); exists ps; (split; [exact S2|]); (split; [exact E|]); apply (parsed_separately (qs ++ ps)); try assumption; apply Forall_app; split; assumption.
Qed.

(** ** One byte after the file *)
Lemma past_last qs ss b : Forall2 denotes qs ss -> ordered ss -> past qs b = (Byte.to_N b <=? last_id 0 ss) && negb (last_id 0 ss =? 0).
Proof.
  intros D O. apply Bool.eq_true_iff_eq. rewrite Bool.andb_true_iff, N.leb_le, Bool.negb_true_iff, N.eqb_neq. unfold past. rewrite existsb_exists. split.
  - intros (q & I & H). apply Bool.andb_true_iff in H as [H1 H2]. apply N.leb_le in H2. rewrite byte_eqb_N in H1. apply Bool.negb_true_iff, N.eqb_neq in H1. change (Byte.to_N x00) with 0 in H1.
    assert (X : exists s, In s ss /\ section_id s = Byte.to_N (pc_id q)).
    { clear -D I. induction D as [|p s ps ss (_ & E & _) D IH]; [destruct I|]. destruct I as [->|I]; [exists s; split; [left; reflexivity|auto]|]. destruct (IH I) as (s' & I' & E'). exists s'. split; [right; exact I'|exact E']. }
    destruct X as (s & I2 & E). assert (C : is_custom s = false) by (destruct s; try reflexivity; cbn in E; congruence).
    pose proof (last_id_max ss O s I2 C). lia.
  - intros [L N]. assert (X : exists s, In s ss /\ is_custom s = false /\ section_id s = last_id 0 ss).
    { clear -N. destruct (ss) as [|s0 l0] eqn:E0; [destruct N; reflexivity|]. rewrite <- E0 in *. clear E0 s0 l0.
      assert (G : forall lo, last_id lo ss = lo \/ exists s, In s ss /\ is_custom s = false /\ section_id s = last_id lo ss).
      { clear. induction ss as [|s ss IH]; intros lo; [left; reflexivity|]. cbn [last_id]. destruct (is_custom s) eqn:C.
        - destruct (IH lo) as [H|(x & I & H)]; [left; exact H|right; exists x; split; [right; exact I|exact H]].
        - destruct (IH (section_id s)) as [H|(x & I & H)]; right; [exists s; split; [left; reflexivity|split; [exact C|congruence]]|exists x; split; [right; exact I|exact H]]. }
      destruct (G 0) as [H|H]; [congruence|exact H]. }
    destruct X as (s & I & C & E).
    assert (X : exists q, In q qs /\ Byte.to_N (pc_id q) = section_id s).
    { clear -D I. induction D as [|p s' ps ss (_ & E & _) D IH]; [destruct I|]. destruct I as [->|I]; [exists p; split; [left; reflexivity|auto]|]. destruct (IH I) as (q & I' & E'). exists q. split; [right; exact I'|exact E']. }
    destruct X as (q & I2 & E2). exists q. split; [exact I2|]. rewrite byte_eqb_N, E2, E. change (Byte.to_N x00) with 0.
    apply Bool.andb_true_iff. split; [apply Bool.negb_true_iff, N.eqb_neq, N|apply N.leb_le, L].
Qed.
Lemma after_file qs m b t : Forall well_sized qs -> p_module (file qs) = (Ok m, []) -> exists st,
  p_module (file qs ++ b :: t) = if negb (Byte.eqb b x00) && past qs b then (Err (UnexpectedSectionId b), t)
    else bind (bind (p_section b st) (p_sections (S (length t)))) (fun s => ret (ps_result s)) t.
Proof.
  intros S P. apply file_parses in P as (ss & D & O & C & ->); [|exact S]. exists (mark (state_of ss) b).
  unfold file. rewrite <- app_assoc, module_preamble. unfold bind at 1, p_body.
  unfold bind at 1. rewrite (sections_prefix _ ss (denote_enc _ _ D) _ (state_of ss)); [| |lia].
  2: { apply run_init. auto. }
  rewrite sections_cons. cbn [state_of ps_last_id]. rewrite (past_last qs ss b D O).
  assert (B : byte_is b 0 = Byte.eqb b x00) by (destruct b; reflexivity). rewrite B.
  assert (X : negb (Byte.eqb b x00) && (Byte.to_N b <=? last_id 0 ss) = negb (Byte.eqb b x00) && ((Byte.to_N b <=? last_id 0 ss) && negb (last_id 0 ss =? 0))).
  { destruct (Byte.eqb b x00) eqn:E; [reflexivity|]. cbn [negb andb]. destruct (N.leb_spec (Byte.to_N b) (last_id 0 ss)) as [L|L]; [|reflexivity]. cbn [andb].
    rewrite byte_eqb_N in E. apply N.eqb_neq in E. change (Byte.to_N x00) with 0 in E. symmetry. apply Bool.negb_true_iff, N.eqb_neq. lia. }
  rewrite X. destruct (negb (Byte.eqb b x00) && (_ && _)); reflexivity.
Qed.
Lemma refused qs m b t : Forall well_sized qs -> p_module (file qs) = (Ok m, []) -> refusal qs b <> UnexpectedEndOfFile ->
  p_module (file qs ++ b :: t) = (Err (refusal qs b), t).
Proof.
  intros S P N. destruct (after_file qs m b t S P) as [st E]. rewrite E. unfold refusal in *. destruct (negb _ && _); [reflexivity|].
  destruct (N.ltb_spec 11 (Byte.to_N b)) as [L|L]; [|congruence].
  assert (X : forall st bs, p_section b st bs = (Err (InvalidSectionId b), bs)) by (intros st' bs; destruct b; try reflexivity; exfalso; cbn in L; lia).
  unfold bind. rewrite X. reflexivity.
Qed.
Lemma sized_short {A B} (q : parser A) (f : A -> parser B) t : q [] = (Err UnexpectedEndOfFile, []) -> (length t <= 1)%nat ->
  bind (p_sized q) f t = (Err UnexpectedEndOfFile, []).
Proof.
  intros Q L. destruct t as [|s [|? ?]]; [reflexivity| |cbn in L; lia]. clear L.
  unfold p_sized, bind at 1.
  assert (X : p_u32 [s] = (Err UnexpectedEndOfFile, []) \/ exists n, p_u32 [s] = (Ok n, [])) by (destruct s; vm_compute; eauto).
  destruct X as [E|[n E]]; unfold bind; rewrite E; [reflexivity|]. rewrite firstn_nil, skipn_nil, Q. reflexivity.
Qed.
Lemma section_short b st t : Byte.to_N b <= 11 -> (length t <= 1)%nat -> p_section b st t = (Err UnexpectedEndOfFile, []).
Proof.
  intros L T. destruct b; try (exfalso; cbn in L; lia); cbn [p_section]; apply sized_short; try exact T; reflexivity.
Qed.
Lemma short_refused qs m b t : Forall well_sized qs -> p_module (file qs) = (Ok m, []) -> (length t <= 1)%nat ->
  fst (p_module (file qs ++ b :: t)) = Err (refusal qs b).
Proof.
  intros S P T. destruct (after_file qs m b t S P) as [st E].
  destruct (N.ltb_spec 11 (Byte.to_N b)) as [L|L].
  { rewrite (refused qs m b t S P); [reflexivity|]. unfold refusal. apply N.ltb_lt in L. rewrite L. destruct (negb _ && _); discriminate. }
  rewrite E. unfold refusal. destruct (negb _ && _); [reflexivity|]. apply N.ltb_ge in L. rewrite L. apply N.ltb_ge in L.
  unfold bind. rewrite section_short by assumption. reflexivity.
Qed.

(** ** Zeros, and the beginning of another file *)
Lemma zero_section n st : p_section x00 st (repeat x00 (S n)) = (Err UnexpectedEndOfFile, repeat x00 n).
Proof. reflexivity. Qed.
Lemma not_past qs : negb (Byte.eqb x00 x00) && past qs x00 = false. Proof. reflexivity. Qed.
Theorem zeros_refused bs m n : p_module bs = (Ok m, []) -> (0 < n)%nat -> p_module (bs ++ repeat x00 n) = (Err UnexpectedEndOfFile, repeat x00 (n - 2)).
Proof.
  intros P L. destruct (accepted_cut _ _ P) as (qs & (S & ->) & _). destruct n as [|n]; [lia|]. cbn [repeat].
  destruct (after_file qs m x00 (repeat x00 n) S P) as [st ->]. rewrite not_past. unfold bind. destruct n as [|n]; [reflexivity|].
  rewrite zero_section. cbn [Nat.sub]. rewrite Nat.sub_0_r. reflexivity.
Qed.
Lemma copy_short n : forall bs, (length bs < n)%nat -> p_times n (x <- p_byte ;; ret x) bs = (Err UnexpectedEndOfFile, []).
Proof.
  induction n as [|n IH]; intros bs L; [lia|]. cbn [p_times]. unfold bind at 1 2.
  destruct bs as [|b bs]; [reflexivity|]. cbn [p_byte]. cbn in L. unfold ret at 1. unfold bind at 1. rewrite IH by lia. reflexivity.
Qed.
Lemma asm_section st t : p_section x00 st (x61 :: x73 :: t) = (Err UnexpectedEndOfFile, skipn 96 t).
Proof.
  cbn [p_section]. unfold bind at 1. unfold p_sized. unfold bind at 1.
  change (p_u32 (x61 :: x73 :: t)) with (@Ok N 97, x73 :: t). cbv iota beta.
  assert (X : p_custom (firstn (N.to_nat 97) (x73 :: t)) = (Err UnexpectedEndOfFile, [])).
  { change (firstn (N.to_nat 97) (x73 :: t)) with (x73 :: firstn 96 t). unfold p_custom, bind at 1, p_string, bind at 1, p_unwrapping_vec. unfold bind at 1.
    change (p_u32 (x73 :: firstn 96 t)) with (@Ok N 115, firstn 96 t). cbv iota beta. rewrite copy_short; [reflexivity|].
    change (N.to_nat 115) with 115%nat. pose proof (firstn_le_length 96 t). rewrite firstn_length. lia. }
  cbv zeta. rewrite X. reflexivity.
Qed.
Theorem second_refused bs m t : p_module bs = (Ok m, []) -> p_module (bs ++ x00 :: x61 :: x73 :: t) = (Err UnexpectedEndOfFile, skipn 96 t).
Proof.
  intros P. destruct (accepted_cut _ _ P) as (qs & (S & ->) & _).
  destruct (after_file qs m x00 (x61 :: x73 :: t) S P) as [st ->]. rewrite not_past.
  unfold bind. rewrite asm_section. reflexivity.
Qed.
Corollary twice_refused bs m t : p_module bs = (Ok m, []) -> p_module (bs ++ preamble ++ t) = (Err UnexpectedEndOfFile, skipn 91 t).
Proof. intros P. exact (second_refused bs m (x6d :: x01 :: x00 :: x00 :: x00 :: t) P). Qed.

(** ** Padding *)
Definition pad (k : nat) : list byte := x00 :: match k with O => [x01; x00] | S O => [x02; x00; x00] | _ => [x03; x00; x00; x00] end.
Lemma pad_section k : enc_section W (pad k) (S_Custom ([], match k with O => [] | S O => [x00] | _ => [x00; x00] end)).
Proof.
  assert (N0 : enc_name W [x00] []).
  { destruct (proj1 (exact_string [x00] [] []) eq_refl) as (p & E1 & H). rewrite app_nil_r in E1. subst p. exact H. }
  destruct k as [|[|k]]; eexists; (split; [reflexivity|]).
  - exists [x01], [x00]. split; [reflexivity|]. split; [|exists [x00]; split; [reflexivity|exact N0]].
    destruct (proj1 (exact_u32 [x01] 1%N []) eq_refl) as (p & E1 & H). rewrite app_nil_r in E1. subst p. exact H.
  - exists [x02], [x00; x00]. split; [reflexivity|]. split; [|exists [x00]; split; [reflexivity|exact N0]].
    destruct (proj1 (exact_u32 [x02] 2%N []) eq_refl) as (p & E1 & H). rewrite app_nil_r in E1. subst p. exact H.
  - exists [x03], [x00; x00; x00]. split; [reflexivity|]. split; [|exists [x00]; split; [reflexivity|exact N0]].
    destruct (proj1 (exact_u32 [x03] 3%N []) eq_refl) as (p & E1 & H). rewrite app_nil_r in E1. subst p. exact H.
Qed.
Lemma pads n : n = 0%nat \/ (3 <= n)%nat -> exists c cs, length c = n /\ enc_list (enc_section W) c (map S_Custom cs).
Proof.
  assert (G : forall k r, (r <= 2)%nat -> exists c cs, length c = (3 + r + 3 * k)%nat /\ enc_list (enc_section W) c (map S_Custom cs)).
  { intros k r R. induction k as [|k (c & cs & L & ch & F & ->)].
    - exists (pad r). eexists [_]. split; [destruct r as [|[|[|r]]]; try reflexivity; lia|].
      exists [pad r]. split; [|symmetry; apply app_nil_r]. constructor; [apply pad_section|constructor].
    - exists (pad 0 ++ concat ch). eexists (_ :: cs). split; [rewrite app_length, L; cbn [pad length]; lia|].
      exists (pad 0 :: ch). split; [|reflexivity]. constructor; [apply (pad_section 0)|exact F]. }
  intros [->|L].
  - exists [], []. split; [reflexivity|]. exists []. split; [constructor|reflexivity].
  - destruct (G ((n - 3) / 3)%nat ((n - 3) mod 3)%nat) as (c & cs & E & H).
    + pose proof (Nat.mod_upper_bound (n - 3) 3). lia.
    + exists c, cs. split; [|exact H]. rewrite E. pose proof (Nat.div_mod (n - 3) 3). lia.
Qed.
Theorem padding bs m n : p_module bs = (Ok m, []) ->
  ((exists ext, length ext = n /\ p_module (bs ++ ext) = (Ok m, [])) <-> n = 0%nat \/ (3 <= n)%nat).
Proof.
  intros P. split.
  - intros (ext & L & Q). destruct ext as [|b t]; [left; symmetry; exact L|]. destruct (accepted_cut _ _ P) as (qs & (S & ->) & _).
    destruct (le_lt_dec 3 n) as [G|G]; [right; exact G|]. exfalso. cbn in L.
    pose proof (short_refused qs m b t S P ltac:(lia)) as X. rewrite Q in X. discriminate X.
  - intros N. destruct (pads n N) as (c & cs & L & H). exists c. split; [exact L|].
    pose proof P as P2. apply module_exact in P2 as (_ & body & ss & -> & E & _).
    pose proof (custom_transparent body ss c cs [] E H) as T. rewrite !app_nil_r in T. rewrite <- app_assoc.
    destruct (p_module (preamble ++ body ++ c)) as [o r] eqn:R. cbn [fst snd] in *. rewrite P in T. cbn in T. subst o. apply module_exact in R as [-> _]. reflexivity.
Qed.
(** two bytes or fewer are never accepted, whatever module they would give *)
Theorem short_never bs m ext m' rest : p_module bs = (Ok m, []) -> p_module (bs ++ ext) = (Ok m', rest) -> ext = [] \/ (3 <= length ext)%nat.
Proof.
  intros P Q. destruct ext as [|b t]; [left; reflexivity|right]. destruct (accepted_cut _ _ P) as (qs & (S & ->) & _).
  destruct (le_lt_dec 2 (length t)) as [G|G]; [cbn; lia|]. exfalso.
  pose proof (short_refused qs m b t S P ltac:(lia)) as X. rewrite Q in X. discriminate X.
Qed.

(** ** Nothing of the module is lost *)
Lemma last_id_in secs k : ordered secs -> 0 < k -> (exists s, In s secs /\ section_id s = k) -> k <= last_id 0 secs.
Proof.
  intros O K (s & I & E). assert (C : is_custom s = false) by (destruct s; try reflexivity; cbn in E; lia). rewrite <- E. apply last_id_max; assumption.
Qed.
Lemma increasing_above lo ss : increasing lo (ids ss) -> forall s, In s ss -> is_custom s = false -> lo < section_id s.
Proof.
  revert lo. induction ss as [|x ss IH]; intros lo J s I C; [destruct I|]. unfold ids in J. cbn [filter] in J. destruct (is_custom x) eqn:X; cbn [negb map increasing] in J.
  - destruct I as [->|I]; [congruence|]. exact (IH lo J s I C).
  - destruct J as [L J]. destruct I as [->|I]; [exact L|]. pose proof (IH _ J s I C). lia.
Qed.
Lemma absent_all {A} (get : section -> list A) k ss : (forall s, section_id s <> k -> get s = []) -> (forall s, In s ss -> section_id s <> k) -> flat_map get ss = [].
Proof.
  intros G N. induction ss as [|s ss IH]; [reflexivity|]. cbn [flat_map]. rewrite (G s (N s (or_introl eq_refl))). apply IH. intros x I. apply N. right. exact I.
Qed.
Lemma kind_kept {A} (get : section -> list A) k ss ss' : (forall s, section_id s <> k -> get s = []) -> 0 < k -> ordered (ss ++ ss') ->
  flat_map get ss = [] \/ flat_map get ss' = [].
Proof.
  intros G K O. pose proof (proj1 (increasing_app 0 ss ss') O) as [O1 O2].
  destruct (Exists_dec (fun s => section_id s = k) ss (fun s => N.eq_dec (section_id s) k)) as [X|X].
  - right. apply Exists_exists in X. pose proof (last_id_in ss k O1 K X) as L. apply (absent_all get k); [exact G|]. intros s I E.
    assert (C : is_custom s = false) by (destruct s; try reflexivity; cbn in E; lia). pose proof (increasing_above _ _ O2 s I C). lia.
  - left. apply (absent_all get k); [exact G|]. intros s I E. apply X, Exists_exists. eauto.
Qed.
Lemma kept_app {A} (get : section -> list A) k ss ss' : (forall s, section_id s <> k -> get s = []) -> 0 < k -> ordered (ss ++ ss') ->
  kept (flat_map get ss) (flat_map get (ss ++ ss')).
Proof.
  intros G K O. unfold kept. rewrite flat_map_app. destruct (kind_kept get k ss ss' G K O) as [E|E]; [left; exact E|right]. rewrite E. apply app_nil_r.
Qed.
Lemma counts_prefix ss ss' : ordered (ss ++ ss') -> counts_match W (ss ++ ss') -> counts_match W ss.
Proof.
  intros O C. pose proof (proj1 (increasing_app 0 ss ss') O) as [O1 O2].
  destruct (Exists_dec (fun s => section_id s = 10) ss (fun s => N.eq_dec (section_id s) 10)) as [X|X].
  - apply Exists_exists in X. pose proof (last_id_in ss 10 O1 ltac:(lia) X) as L.
    assert (N : forall s, In s ss' -> section_id s <> 3 /\ section_id s <> 10).
    { intros s I. destruct (is_custom s) eqn:K; [destruct s; try discriminate K; split; discriminate|]. pose proof (increasing_above _ _ O2 s I K). lia. }
    destruct C as [C|[_ C]].
    + left. rewrite !flat_map_app in C. rewrite (absent_all sec_typeidxs 3 ss'), (absent_all sec_codes 10 ss'), !app_nil_r in C; [exact C|nothing|intros s I; apply N, I|nothing|intros s I; apply N, I].
    + exfalso. apply C. destruct X as (s & I & E). destruct s; try discriminate E. exists v. apply in_or_app. left. exact I.
  - right. split; [exact I|]. intros [v H]. apply X, Exists_exists. exists (S_Code v). split; [exact H|reflexivity].
Qed.
Theorem appended_grows bs ext m m' : p_module bs = (Ok m, []) -> p_module (bs ++ ext) = (Ok m', []) -> grows m m'.
Proof.
  intros P Q. destruct (accepted_cut _ _ P) as (qs & (S & ->) & _).
  destruct (proj1 (append_iff qs ext S) (ex_intro _ m' Q)) as (ps & S2 & -> & _). rewrite <- file_app in Q.
  apply file_parses in P as (ss & D & O & C & ->); [|exact S]. apply file_parses in Q as (st & D2 & O2 & C2 & ->); [|apply Forall_app; split; assumption].
  apply Forall2_app_inv_l in D2 as (s1 & s2 & D1 & D2 & ->).
  assert (O1 : ordered s1) by (apply (increasing_app 0 s1 s2), O2).
  assert (E : module_of ss = module_of s1).
  { assert (X : p_module (file qs) = (Ok (module_of s1), [])) by (apply file_parses; [exact S|]; exists s1; split; [exact D1|]; split; [exact O1|]; split; [exact (counts_prefix s1 s2 O2 C2)|reflexivity]).
    assert (Y : p_module (file qs) = (Ok (module_of ss), [])) by (apply file_parses; [exact S|]; exists ss; auto). congruence. }
  rewrite E. clear E ss D O C. rename s1 into ss. unfold grows, module_of. cbn [m_types m_imports m_funcs m_tables m_mems m_globals m_exports m_start m_elem m_data].
  split; [apply (kept_app sec_types 1 ss s2); [nothing|lia|exact O2]|]. split; [apply (kept_app sec_imports 2 ss s2); [nothing|lia|exact O2]|].
  split.
  { assert (T : kept (flat_map sec_typeidxs ss) (flat_map sec_typeidxs (ss ++ s2))) by (apply (kept_app sec_typeidxs 3 ss s2); [nothing|lia|exact O2]).
    assert (K : kept (flat_map sec_codes ss) (flat_map sec_codes (ss ++ s2))) by (apply (kept_app sec_codes 10 ss s2); [nothing|lia|exact O2]).
    destruct T as [T|T]; [left; rewrite T; reflexivity|]. destruct K as [K|K]; [left; rewrite K; unfold pair_funcs; rewrite combine_nil; reflexivity|]. right. rewrite T, K. reflexivity. }
  split; [apply (kept_app sec_tables 4 ss s2); [nothing|lia|exact O2]|]. split; [apply (kept_app sec_mems 5 ss s2); [nothing|lia|exact O2]|].
  split; [apply (kept_app sec_globals 6 ss s2); [nothing|lia|exact O2]|]. split; [apply (kept_app sec_exports 7 ss s2); [nothing|lia|exact O2]|].
  split.
  { destruct (kept_app sec_starts 8 ss s2) as [H|H]; [nothing|lia|exact O2| |]; rewrite H; [left; reflexivity|right; reflexivity]. }
  split; [apply (kept_app sec_elems 9 ss s2); [nothing|lia|exact O2]|]. apply (kept_app sec_datas 11 ss s2); [nothing|lia|exact O2].
Qed.
