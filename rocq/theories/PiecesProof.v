(** Files as sequences of sections. *)
From Coq Require Import Lia.
From Verif Require Import ParserModule SpecPieces LebProof SectionsProof SizeProof UniqueProof.
Open Scope N_scope.

(** ** Cutting *)
Lemma cut_unique ps : forall ps', Forall well_sized ps -> Forall well_sized ps' -> flat_map piece_bytes ps = flat_map piece_bytes ps' -> ps = ps'.
Proof.
  induction ps as [|[i n c] ps IH]; intros [|[i' n' c'] ps'] W W' E; try discriminate E; [reflexivity|].
  inversion W as [|? ? (L & V & _) W2]; subst. inversion W' as [|? ? (L' & V' & _) W2']; subst. cbn in *. injection E as <- E. rewrite <- !app_assoc in E.
  destruct (leb_prefix_unique _ _ _ _ L L' E) as [<- E2]. rewrite V in V'. apply Nat2N.inj in V'.
  assert (c = c').
  { apply (f_equal (firstn (length c))) in E2. rewrite firstn_app, Nat.sub_diag, firstn_all, firstn_O, app_nil_r in E2.
    rewrite V' in E2. rewrite firstn_app, Nat.sub_diag, firstn_all, firstn_O, app_nil_r in E2. exact E2. }
  subst c'. apply app_inv_head in E2. rewrite (IH ps' W2 W2' E2). reflexivity.
Qed.
Lemma file_unique ps ps' : Forall well_sized ps -> Forall well_sized ps' -> file ps = file ps' -> ps = ps'.
Proof. intros W W' E. apply app_inv_head in E. apply cut_unique; assumption. Qed.

(** ** Pieces and sections *)
Definition W := whasm_format.
Definition denotes (p : piece) (s : section) : Prop := well_sized p /\ Byte.to_N (pc_id p) = section_id s /\ enc_section W (piece_bytes p) s.
Lemma section_piece c s : enc_section W c s -> exists p, c = piece_bytes p /\ denotes p s.
Proof.
  intros H. assert (X : exists id n cont, c = id :: n ++ cont /\ Byte.to_N id = section_id s /\ enc_unsigned 32 n (N.of_nat (length cont))).
  { destruct s; destruct H as (b & -> & n & cont & -> & [N _] & _); eexists _, n, cont; (split; [reflexivity|split; [reflexivity|exact N]]). }
  destruct X as (id & n & cont & -> & I & N). exists (mkPiece id n cont). split; [reflexivity|]. split; [exact N|]. split; [exact I|exact H].
Qed.
Lemma sections_pieces cs ss : Forall2 (enc_section W) cs ss -> exists ps, concat cs = flat_map piece_bytes ps /\ Forall2 denotes ps ss.
Proof.
  induction 1 as [|c s cs ss H F (ps & E & D)].
  - exists []. split; [reflexivity|constructor].
  - destruct (section_piece c s H) as (p & -> & P). exists (p :: ps). split; [cbn; rewrite E; reflexivity|constructor; assumption].
Qed.
Lemma denote_sized ps ss : Forall2 denotes ps ss -> Forall well_sized ps.
Proof. induction 1 as [|p s ps ss D F IH]; constructor; [apply D|assumption]. Qed.
Lemma denote_enc ps ss : Forall2 denotes ps ss -> enc_list (enc_section W) (flat_map piece_bytes ps) ss.
Proof.
  intros F. exists (map piece_bytes ps). split; [|apply flat_map_concat_map].
  induction F as [|p s ps ss D F IH]; constructor; [apply D|assumption].
Qed.
(** what the parser makes of a file cut into pieces *)
Lemma file_parses ps m : Forall well_sized ps -> (p_module (file ps) = (Ok m, []) <->
  exists ss, Forall2 denotes ps ss /\ ordered ss /\ counts_match W ss /\ m = module_of ss).
Proof.
  intros S. rewrite module_exact. split.
  - intros (_ & body & ss & E & (cs & F & EC) & O & C & M). apply app_inv_head in E. subst body.
    destruct (sections_pieces cs ss F) as (ps' & E2 & D). rewrite <- EC in E2. apply cut_unique in E2; [|assumption|eapply denote_sized, D]. subst ps'. eauto.
  - intros (ss & D & O & C & M). split; [reflexivity|]. exists (flat_map piece_bytes ps), ss. split; [reflexivity|]. split; [apply denote_enc, D|auto].
Qed.
Theorem accepted_cut bs m : p_module bs = (Ok m, []) ->
  exists! ps, Forall well_sized ps /\ bs = file ps.
Proof.
  intros P. apply module_exact in P as (_ & body & ss & -> & (cs & F & ->) & _). destruct (sections_pieces cs ss F) as (ps & E & D).
  exists ps. assert (S : Forall well_sized ps) by (eapply denote_sized, D). split.
  - split; [exact S|]. rewrite E. reflexivity.
  - intros ps' [S' E']. rewrite E in E'. apply file_unique; assumption.
Qed.

(** ** Selecting by kind *)
Definition sec_kind (k : N) (ss : list section) : list section := filter (fun s => (section_id s =? k)) ss.
Lemma byte_eqb_N a b : Byte.eqb a b = (Byte.to_N a =? Byte.to_N b).
Proof.
  destruct (N.eqb_spec (Byte.to_N a) (Byte.to_N b)) as [E|E].
  - apply to_N_inj in E. subst. apply Byte.byte_dec_lb. reflexivity.
  - destruct (Byte.eqb a b) eqn:F; [|reflexivity]. apply Byte.byte_dec_bl in F. congruence.
Qed.
Lemma denote_kind id ps ss : Forall2 denotes ps ss -> Forall2 denotes (of_kind id ps) (sec_kind (Byte.to_N id) ss).
Proof.
  unfold of_kind, sec_kind. induction 1 as [|p s ps ss D F IH]; [constructor|]. cbn [filter]. rewrite byte_eqb_N, (proj1 (proj2 D)).
  destruct (_ =? _); [constructor; assumption|assumption].
Qed.
Definition mix_secs (pick : byte -> bool) (ss ss' : list section) : list section :=
  flat_map (fun id => sec_kind (Byte.to_N id) (if pick id then ss' else ss)) kinds.
Lemma denote_mix pick ps ps' ss ss' : Forall2 denotes ps ss -> Forall2 denotes ps' ss' ->
  Forall2 denotes (mix_pieces pick ps ps') (mix_secs pick ss ss').
Proof.
  intros D D'. unfold mix_pieces, mix_secs. induction kinds as [|k l IH]; [constructor|]. cbn [flat_map].
  apply Forall2_app; [|exact IH]. apply denote_kind. destruct (pick k); assumption.
Qed.
Lemma kind_ids k ss : forall lo, increasing lo (ids ss) -> 0 < k -> ids (sec_kind k ss) = [] \/ (lo < k /\ ids (sec_kind k ss) = [k]).
Proof.
  induction ss as [|s ss IH]; intros lo I K; [left; reflexivity|]. unfold ids, sec_kind in *. cbn [filter] in *.
  destruct (is_custom s) eqn:C; cbn [negb] in I.
  - replace (section_id s =? k) with false by (symmetry; apply N.eqb_neq; destruct s; try discriminate C; cbn; lia). apply IH; assumption.
  - destruct I as [J I]. destruct (N.eqb_spec (section_id s) k) as [E|E].
    + right. split; [lia|]. cbn [filter]. rewrite C. cbn [negb map]. rewrite E. f_equal. destruct (IH _ I K) as [->|[X _]]; [reflexivity|lia].
    + destruct (IH _ I K) as [IH'|[X Y]]; [left; exact IH'|right; split; [lia|exact Y]].
Qed.
Lemma kind_customs ss : ids (sec_kind 0 ss) = [].
Proof.
  induction ss as [|s ss IH]; [reflexivity|]. unfold sec_kind, ids in *. cbn [filter]. destruct s; cbn [section_id N.eqb filter is_custom negb]; exact IH.
Qed.
Lemma ids_app a b : ids (a ++ b) = ids a ++ ids b.
Proof. unfold ids. rewrite filter_app, map_app. reflexivity. Qed.
Lemma inc_step lo k x y : x = [] \/ x = [k] -> lo < k -> increasing k y -> increasing lo (x ++ y).
Proof. intros [->| ->] L I; [apply (increasing_le lo k); [exact I|lia]|]. split; assumption. Qed.
Lemma mix_ordered pick ss ss' : ordered ss -> ordered ss' -> ordered (mix_secs pick ss ss').
Proof.
  intros O O'. change (increasing 0 (ids ss)) in O. change (increasing 0 (ids ss')) in O'. change (increasing 0 (ids (mix_secs pick ss ss'))).
  assert (P : forall id, increasing 0 (ids (if pick id then ss' else ss))) by (intros id; destruct (pick id); assumption).
  unfold mix_secs, kinds. cbn [flat_map]. rewrite !ids_app. cbn [Byte.to_N]. rewrite kind_customs. cbn [app].
  assert (S : forall id k, 0 < k -> ids (sec_kind k (if pick id then ss' else ss)) = [] \/ ids (sec_kind k (if pick id then ss' else ss)) = [k]).
  { intros id k K. destruct (kind_ids k _ 0 (P id) K) as [E|[_ E]]; [left|right]; exact E. }
  repeat (eapply inc_step; [apply S; reflexivity|reflexivity|]). exact I.
Qed.
(** components *)
Lemma kind_component {A} (get : section -> list A) k ss : (forall s, section_id s <> k -> get s = []) -> flat_map get (sec_kind k ss) = flat_map get ss.
Proof.
  intros G. induction ss as [|s ss IH]; [reflexivity|]. unfold sec_kind in *. cbn [filter flat_map]. destruct (N.eqb_spec (section_id s) k) as [E|E]; cbn [flat_map]; rewrite IH; [reflexivity|].
  rewrite (G s E). reflexivity.
Qed.
Lemma kind_other {A} (get : section -> list A) k k' ss : (forall s, section_id s <> k -> get s = []) -> k <> k' -> flat_map get (sec_kind k' ss) = [].
Proof.
  intros G N. induction ss as [|s ss IH]; [reflexivity|]. unfold sec_kind in *. cbn [filter]. destruct (N.eqb_spec (section_id s) k') as [E|E]; [|exact IH].
  cbn [flat_map]. rewrite IH, G by congruence. reflexivity.
Qed.
Ltac nothing := let E := fresh in let s := fresh in intros s E; destruct s; try reflexivity; destruct E; reflexivity.
Ltac component get k := unfold mix_secs, kinds; cbn [flat_map]; rewrite !flat_map_app; cbn [flat_map Byte.to_N];
  repeat match goal with |- context [flat_map get (sec_kind ?j ?l)] =>
    first [rewrite (kind_component get k l) by nothing | rewrite (kind_other get k j l) by (nothing || discriminate)] end;
  cbn [app]; rewrite ?app_nil_r; reflexivity.
Definition components (pick : byte -> bool) (ss ss' : list section) (t : list section) : Prop :=
  flat_map sec_types t = flat_map sec_types (if pick x01 then ss' else ss) /\
  flat_map sec_imports t = flat_map sec_imports (if pick x02 then ss' else ss) /\
  flat_map sec_typeidxs t = flat_map sec_typeidxs (if pick x03 then ss' else ss) /\
  flat_map sec_tables t = flat_map sec_tables (if pick x04 then ss' else ss) /\
  flat_map sec_mems t = flat_map sec_mems (if pick x05 then ss' else ss) /\
  flat_map sec_globals t = flat_map sec_globals (if pick x06 then ss' else ss) /\
  flat_map sec_exports t = flat_map sec_exports (if pick x07 then ss' else ss) /\
  flat_map sec_starts t = flat_map sec_starts (if pick x08 then ss' else ss) /\
  flat_map sec_elems t = flat_map sec_elems (if pick x09 then ss' else ss) /\
  flat_map sec_codes t = flat_map sec_codes (if pick x0a then ss' else ss) /\
  flat_map sec_datas t = flat_map sec_datas (if pick x0b then ss' else ss).
Lemma mix_component pick ss ss' : components pick ss ss' (mix_secs pick ss ss').
Proof.
  split; [component sec_types 1|]. split; [component sec_imports 2|]. split; [component sec_typeidxs 3|]. split; [component sec_tables 4|].
  split; [component sec_mems 5|]. split; [component sec_globals 6|]. split; [component sec_exports 7|]. split; [component sec_starts 8|].
  split; [component sec_elems 9|]. split; [component sec_codes 10|]. component sec_datas 11.
Qed.
Lemma mix_has_code pick ss ss' : has_code (mix_secs pick ss ss') -> has_code (if pick x0a then ss' else ss).
Proof.
  intros [v I]. exists v. unfold mix_secs in I. apply in_flat_map in I as (id & K & I). unfold sec_kind in I. apply filter_In in I as [I E].
  cbn [section_id] in E. apply N.eqb_eq in E. change 10 with (Byte.to_N x0a) in E. apply to_N_inj in E. subst id. exact I.
Qed.
(** functions *)
Lemma pair_mix ts : forall cs ts' cs', length ts = length cs -> length ts' = length cs' -> length ts = length ts' ->
  mix_funcs (pair_funcs ts cs) (pair_funcs ts' cs') = pair_funcs ts cs'.
Proof.
  unfold mix_funcs, pair_funcs, retype. induction ts as [|t ts IH]; intros [|c cs] [|t' ts'] [|c' cs'] L1 L2 L3; try discriminate; [reflexivity|].
  cbn in *. rewrite IH by lia. reflexivity.
Qed.
Lemma retype_self fs : mix_funcs fs fs = fs.
Proof. unfold mix_funcs, retype. induction fs as [|[t l b] fs IH]; [reflexivity|]. cbn. rewrite IH. reflexivity. Qed.
Lemma pair_nonempty ts cs : pair_funcs ts cs <> [] -> cs <> [].
Proof. intros H ->. apply H. unfold pair_funcs. destruct ts; reflexivity. Qed.
Lemma counts_funcs ss : counts_match W ss -> m_funcs (module_of ss) <> [] ->
  length (flat_map sec_typeidxs ss) = length (flat_map sec_codes ss) /\ length (m_funcs (module_of ss)) = length (flat_map sec_codes ss).
Proof.
  intros [C|[_ C]] N; cbn [module_of m_funcs] in *.
  - split; [exact C|]. unfold pair_funcs. rewrite map_length, combine_length. lia.
  - exfalso. apply (pair_nonempty _ _ N), code_absent, C.
Qed.
Lemma assemble pick ss ss' t : components pick ss ss' t -> (has_code t -> has_code (if pick x0a then ss' else ss)) ->
  counts_match W ss -> counts_match W ss' -> compatible pick (module_of ss) (module_of ss') \/ ~ has_code t ->
  counts_match W t /\ mix_modules pick (module_of ss) (module_of ss') = module_of t.
Proof.
  intros (M1 & M2 & M3 & M4 & M5 & M6 & M7 & M8 & M9 & M10 & M11) HC C C' K.
  unfold counts_match, mix_modules.
  assert (X : forall b : bool, (if b then module_of ss' else module_of ss) = module_of (if b then ss' else ss)) by (intros []; reflexivity). rewrite !X. clear X.
  unfold module_of. cbn [m_types m_imports m_funcs m_tables m_mems m_globals m_exports m_start m_elem m_data].
  rewrite M1, M2, M3, M4, M5, M6, M7, M8, M9, M10, M11.
  assert (Y : (length (flat_map sec_typeidxs (if pick x03 then ss' else ss)) = length (flat_map sec_codes (if pick x0a then ss' else ss)) \/
    fd_missing_code W /\ ~ has_code t) /\
    pair_funcs (flat_map sec_typeidxs (if pick x03 then ss' else ss)) (flat_map sec_codes (if pick x0a then ss' else ss)) =
    mix_funcs (pair_funcs (flat_map sec_typeidxs (if pick x03 then ss' else ss)) (flat_map sec_codes (if pick x03 then ss' else ss)))
      (pair_funcs (flat_map sec_typeidxs (if pick x0a then ss' else ss)) (flat_map sec_codes (if pick x0a then ss' else ss)))).
  { destruct K as [[K|[K N]]|K].
    - rewrite K, retype_self. split; [|reflexivity]. assert (Z : counts_match W (if pick x0a then ss' else ss)) by (destruct (pick x0a); assumption).
      destruct Z as [Z|[Z1 Z2]]; [left; exact Z|right; split; [exact Z1|]]. intros H. apply Z2, HC, H.
    - assert (N' : m_funcs (module_of ss') <> []) by (intros E; rewrite E in K; destruct (m_funcs (module_of ss)); [congruence|discriminate K]).
      destruct (counts_funcs ss C N) as [A1 A2], (counts_funcs ss' C' N') as [B1 B2].
      split; [left; destruct (pick x03), (pick x0a); congruence|]. symmetry. apply pair_mix; destruct (pick x03), (pick x0a); congruence.
    - split; [right; split; [exact I|exact K]|]. rewrite <- M10, (code_absent _ K).
      assert (Z : forall ts, pair_funcs ts [] = []) by (intros [|]; reflexivity). rewrite !Z. unfold mix_funcs.
      destruct (pair_funcs _ _); reflexivity. }
  destruct Y as [Y1 Y2]. split; [exact Y1|]. rewrite Y2. f_equal.
Qed.
Theorem mix_parses pick ps ps' m m' : Forall well_sized ps -> Forall well_sized ps' ->
  p_module (file ps) = (Ok m, []) -> p_module (file ps') = (Ok m', []) -> compatible pick m m' ->
  p_module (file (mix_pieces pick ps ps')) = (Ok (mix_modules pick m m'), []).
Proof.
  intros S S' P P' K. apply file_parses in P as (ss & D & O & C & ->); [|exact S]. apply file_parses in P' as (ss' & D' & O' & C' & ->); [|exact S'].
  pose proof (denote_mix pick _ _ _ _ D D') as DM. apply file_parses; [eapply denote_sized, DM|]. exists (mix_secs pick ss ss').
  split; [exact DM|]. split; [apply mix_ordered; assumption|].
  apply assemble; try assumption; [apply mix_component|apply mix_has_code|left; assumption].
Qed.

(** ** Replacing a section where it is *)
Lemma kind_alone {A} (get : section -> list A) k a s b lo : 0 < k -> (forall s, section_id s <> k -> get s = []) -> section_id s = k ->
  increasing lo (ids (a ++ s :: b)) -> flat_map get (a ++ s :: b) = get s.
Proof.
  intros K G E I. rewrite <- (kind_component get k) by exact G. unfold sec_kind. rewrite filter_app. cbn [filter]. rewrite E, N.eqb_refl.
  assert (C : is_custom s = false) by (destruct s; try reflexivity; cbn in E; lia).
  assert (J : ids (filter (fun s => section_id s =? k) (a ++ s :: b)) =
    ids (filter (fun s => section_id s =? k) a) ++ k :: ids (filter (fun s => section_id s =? k) b)).
  { rewrite filter_app, ids_app. f_equal. cbn [filter]. rewrite E, N.eqb_refl. unfold ids. cbn [filter]. rewrite C. cbn [negb map]. rewrite E. reflexivity. }
  destruct (kind_ids k _ lo I K) as [Z|[_ Z]]; unfold sec_kind in Z; rewrite J in Z.
  - apply app_eq_nil in Z as [_ Z]. discriminate Z.
  - assert (Q : forall l, ids (filter (fun s => section_id s =? k) l) = [] -> flat_map get (filter (fun s => section_id s =? k) l) = []).
    { intros l. induction l as [|x l IH]; [reflexivity|]. cbn [filter]. destruct (N.eqb_spec (section_id x) k) as [F|F]; [|exact IH].
      unfold ids. cbn [filter]. assert (CX : is_custom x = false) by (destruct x; try reflexivity; cbn in F; lia). rewrite CX. discriminate. }
    assert (H1 : ids (filter (fun s => section_id s =? k) a) = [] /\ ids (filter (fun s => section_id s =? k) b) = []).
    { destruct (ids (filter (fun s => section_id s =? k) a)) as [|x [|y l]]; try discriminate Z. injection Z as Z. split; [reflexivity|exact Z]. }
    destruct H1 as [H1 H2]. rewrite flat_map_app. cbn [flat_map]. rewrite (Q a H1), (Q b H2), app_nil_r. reflexivity.
Qed.
Lemma replaced {A} (get : section -> list A) id a s b a' s' b' i : 0 < Byte.to_N id -> (forall s, section_id s <> Byte.to_N id -> get s = []) ->
  Byte.to_N i = section_id s -> section_id s = section_id s' -> ordered (a ++ s' :: b) -> ordered (a' ++ s' :: b') ->
  flat_map get (a ++ s' :: b) = flat_map get (if Byte.eqb i id then a' ++ s' :: b' else a ++ s :: b).
Proof.
  intros K G I E O O'. rewrite byte_eqb_N. destruct (N.eqb_spec (Byte.to_N i) (Byte.to_N id)) as [F|F].
  - rewrite (kind_alone get (Byte.to_N id) a s' b 0), (kind_alone get (Byte.to_N id) a' s' b' 0); try assumption; try congruence.
  - rewrite !flat_map_app. cbn [flat_map]. rewrite (G s), (G s') by congruence. reflexivity.
Qed.
Lemma same_ids a s s' b : section_id s = section_id s' -> ids (a ++ s :: b) = ids (a ++ s' :: b).
Proof.
  intros E. rewrite !ids_app. f_equal. unfold ids. cbn [filter]. assert (C : is_custom s = is_custom s') by (destruct s, s'; try reflexivity; discriminate E).
  rewrite C. destruct (is_custom s'); cbn [negb map]; congruence.
Qed.
Theorem replace_parses a p b a' p' b' m m' : Forall well_sized (a ++ p :: b) -> Forall well_sized (a' ++ p' :: b') ->
  p_module (file (a ++ p :: b)) = (Ok m, []) -> p_module (file (a' ++ p' :: b')) = (Ok m', []) ->
  pc_id p = pc_id p' -> compatible (Byte.eqb (pc_id p)) m m' ->
  p_module (file (a ++ p' :: b)) = (Ok (mix_modules (Byte.eqb (pc_id p)) m m'), []).
Proof.
  intros S S' P P' I K. apply file_parses in P as (ss & D & O & C & ->); [|exact S]. apply file_parses in P' as (ss' & D' & O' & C' & ->); [|exact S'].
  apply Forall2_app_inv_l in D as (sa & sb & DA & DB & ->). inversion DB as [|? s ? sb' DP DB']; subst.
  apply Forall2_app_inv_l in D' as (sa2 & sb2 & DA2 & DB2 & ->). inversion DB2 as [|? s' ? sb2' DP2 DB2']; subst.
  assert (E : section_id s = section_id s') by (rewrite <- (proj1 (proj2 DP)), <- (proj1 (proj2 DP2)), I; reflexivity).
  assert (DN : Forall2 denotes (a ++ p' :: b) (sa ++ s' :: sb')) by (apply Forall2_app; [exact DA|constructor; assumption]).
  apply file_parses; [eapply denote_sized, DN|]. exists (sa ++ s' :: sb'). split; [exact DN|].
  assert (ON : ordered (sa ++ s' :: sb')). { change (increasing 0 (ids (sa ++ s' :: sb'))). rewrite <- (same_ids sa s s' sb' E). exact O. }
  split; [exact ON|]. apply assemble; try assumption; [| |left; exact K].
  - unfold components. pose proof (proj1 (proj2 DP)) as PI.
    split; [apply (replaced sec_types x01); try assumption; [reflexivity|nothing]|].
    split; [apply (replaced sec_imports x02); try assumption; [reflexivity|nothing]|].
    split; [apply (replaced sec_typeidxs x03); try assumption; [reflexivity|nothing]|].
    split; [apply (replaced sec_tables x04); try assumption; [reflexivity|nothing]|].
    split; [apply (replaced sec_mems x05); try assumption; [reflexivity|nothing]|].
    split; [apply (replaced sec_globals x06); try assumption; [reflexivity|nothing]|].
    split; [apply (replaced sec_exports x07); try assumption; [reflexivity|nothing]|].
    split; [apply (replaced sec_starts x08); try assumption; [reflexivity|nothing]|].
    split; [apply (replaced sec_elems x09); try assumption; [reflexivity|nothing]|].
    split; [apply (replaced sec_codes x0a); try assumption; [reflexivity|nothing]|].
    apply (replaced sec_datas x0b); try assumption; [reflexivity|nothing].
  - intros [v H]. exists v. rewrite byte_eqb_N, (proj1 (proj2 DP)), E. apply in_app_or in H as [H|[H|H]].
    + destruct (N.eqb_spec (section_id s') (Byte.to_N x0a)) as [F|F]; [|apply in_or_app; left; exact H].
      exfalso. apply in_split in H as (x & y & ->). rewrite <- app_assoc in ON. apply before_code in ON as (_ & _ & ON). destruct s'; try discriminate F.
      clear - O E I DP. cbn in E. rewrite <- app_assoc in O. apply increasing_app in O as [_ O]. unfold ids in O. cbn [app filter is_custom negb map] in O.
      destruct O as [_ O]. change (increasing 10 (ids (y ++ s :: sb'))) in O.
      assert (J : In (section_id s) (ids (y ++ s :: sb'))) by (apply ids_in; [apply in_or_app; right; left; reflexivity|destruct s; try reflexivity; discriminate E]).
      apply (increasing_lt _ _ _ O) in J. lia.
    + subst s'. apply in_or_app. right. left. reflexivity.
    + destruct (N.eqb_spec (section_id s') (Byte.to_N x0a)) as [F|F]; [|apply in_or_app; right; right; exact H].
      exfalso. clear - O E F H. change (increasing 0 (ids (sa ++ s :: sb'))) in O. apply increasing_app in O as [_ O]. unfold ids in O. cbn [filter] in O.
      assert (CS : is_custom s = false) by (destruct s; try reflexivity; rewrite <- E in F; discriminate F). rewrite CS in O. cbn [negb map] in O. destruct O as [_ O].
      apply ids_in in H; [|reflexivity]. apply (increasing_lt _ _ _ O) in H. rewrite E, F in H. cbn in H. lia.
Qed.

(** ** Leaving out sections *)
Lemma left_out {A} (get : section -> list A) id i ss : (forall s, section_id s <> Byte.to_N id -> get s = []) ->
  flat_map get (filter (fun s => negb (section_id s =? Byte.to_N i)) ss) = flat_map get (if Byte.eqb i id then [] else ss).
Proof.
  intros G. rewrite byte_eqb_N. destruct (N.eqb_spec (Byte.to_N i) (Byte.to_N id)) as [E|E].
  - rewrite E. induction ss as [|s ss IH]; [reflexivity|]. cbn [filter]. destruct (N.eqb_spec (section_id s) (Byte.to_N id)) as [F|F]; cbn [negb]; [exact IH|]. cbn [flat_map]. rewrite IH, G by exact F. reflexivity.
  - induction ss as [|s ss IH]; [reflexivity|]. cbn [filter flat_map]. destruct (N.eqb_spec (section_id s) (Byte.to_N i)) as [F|F]; cbn [negb flat_map]; rewrite IH; [|reflexivity]. rewrite G by congruence. reflexivity.
Qed.
Lemma filter_increasing f ss : forall lo, increasing lo (ids ss) -> increasing lo (ids (filter f ss)).
Proof.
  induction ss as [|s ss IH]; intros lo I; [exact I|]. cbn [filter]. unfold ids in I. cbn [filter] in I. destruct (is_custom s) eqn:C; cbn [negb map] in I.
  - destruct (f s); [unfold ids; cbn [filter]; rewrite C; cbn [negb]|]; apply IH, I.
  - destruct I as [J I]. destruct (f s); [unfold ids; cbn [filter]; rewrite C; cbn [negb map]; split; [exact J|apply IH, I]|].
    apply IH. eapply increasing_le; [exact I|]. lia.
Qed.
Theorem drop_parses ps m id : Forall well_sized ps -> p_module (file ps) = (Ok m, []) -> id <> x03 ->
  p_module (file (filter (fun p => negb (Byte.eqb (pc_id p) id)) ps)) = (Ok (mix_modules (Byte.eqb id) m default_module), []).
Proof.
  intros S P N. apply file_parses in P as (ss & D & O & C & ->); [|exact S].
  set (t := filter (fun s => negb (section_id s =? Byte.to_N id)) ss).
  assert (DN : Forall2 denotes (filter (fun p => negb (Byte.eqb (pc_id p) id)) ps) t).
  { clear - D. unfold t. induction D as [|p s ps ss DP D IH]; [constructor|]. cbn [filter]. rewrite byte_eqb_N, (proj1 (proj2 DP)).
    destruct (_ =? _); cbn [negb]; [exact IH|constructor; assumption]. }
  apply file_parses; [eapply denote_sized, DN|]. exists t. split; [exact DN|]. split; [apply filter_increasing, O|].
  change default_module with (module_of []). apply assemble; try assumption.
  - unfold components, t.
    split; [apply (left_out sec_types x01); nothing|]. split; [apply (left_out sec_imports x02); nothing|].
    split; [apply (left_out sec_typeidxs x03); nothing|]. split; [apply (left_out sec_tables x04); nothing|].
    split; [apply (left_out sec_mems x05); nothing|]. split; [apply (left_out sec_globals x06); nothing|].
    split; [apply (left_out sec_exports x07); nothing|]. split; [apply (left_out sec_starts x08); nothing|].
    split; [apply (left_out sec_elems x09); nothing|]. split; [apply (left_out sec_codes x0a); nothing|]. apply (left_out sec_datas x0b); nothing.
  - intros [v H]. unfold t in H. apply filter_In in H as [H E]. rewrite byte_eqb_N, N.eqb_sym. cbn [section_id] in E. change (Byte.to_N x0a) with 10.
    rewrite (proj1 (negb_true_iff _) E). exists v. exact H.
  - left. reflexivity.
  - unfold compatible. destruct (Byte.eqb id x0a) eqn:E.
    + right. intros [v H]. unfold t in H. apply filter_In in H as [_ F]. apply Byte.byte_dec_bl in E. subst id. discriminate F.
    + left. left. destruct (Byte.eqb id x03) eqn:F; [|reflexivity]. apply Byte.byte_dec_bl in F. contradiction.
Qed.

(** ** Sections on their own *)
Definition about_s (s : section) : bool := (section_id s =? 3) || (section_id s =? 10).
Lemma denote_ids ps ss : Forall2 denotes ps ss -> map (fun p => Byte.to_N (pc_id p)) (filter (fun p => negb (Byte.eqb (pc_id p) x00)) ps) = ids ss.
Proof.
  induction 1 as [|p s ps ss (_ & I & _) F IH]; [reflexivity|]. unfold ids in *. cbn [filter]. rewrite byte_eqb_N, I.
  assert (C : (section_id s =? Byte.to_N x00) = is_custom s) by (destruct s; reflexivity). rewrite C. destruct (is_custom s); cbn [negb map]; rewrite IH; [reflexivity|]. rewrite I. reflexivity.
Qed.
Lemma about_same p s : denotes p s -> about_functions p = about_s s.
Proof. intros (_ & I & _). unfold about_functions, about_s. rewrite !byte_eqb_N, I. reflexivity. Qed.
Lemma denote_about ps ss : Forall2 denotes ps ss -> Forall2 denotes (filter about_functions ps) (filter about_s ss).
Proof.
  induction 1 as [|p s ps ss D F IH]; [constructor|]. cbn [filter]. rewrite (about_same p s D). destruct (about_s s); [constructor; assumption|assumption].
Qed.
Lemma about_counts ss : counts_match W (filter about_s ss) <-> counts_match W ss.
Proof.
  assert (T : forall {A} (get : section -> list A), (forall s, about_s s = false -> get s = []) -> flat_map get (filter about_s ss) = flat_map get ss).
  { intros A get G. induction ss as [|s l IH]; [reflexivity|]. cbn [filter flat_map]. destruct (about_s s) eqn:E; cbn [flat_map]; rewrite IH; [reflexivity|]. rewrite G by exact E. reflexivity. }
  unfold counts_match. rewrite (T _ sec_typeidxs), (T _ sec_codes) by (intros [] E; reflexivity || discriminate E).
  assert (H : has_code (filter about_s ss) <-> has_code ss).
  { unfold has_code. split; intros [v I]; exists v; [apply filter_In in I as [I _]; exact I|apply filter_In; split; [exact I|reflexivity]]. }
  rewrite H. reflexivity.
Qed.
Lemma alone p s : denotes p s -> section_id s <> 10 -> exists m, p_module (file [p]) = (Ok m, []).
Proof.
  intros D N. exists (module_of [s]). assert (F : Forall2 denotes [p] [s]) by (constructor; [exact D|constructor]).
  apply file_parses; [eapply denote_sized, F|]. exists [s]. split; [exact F|]. split; [|split; [|reflexivity]].
  - destruct s; cbn; try exact I; split; try reflexivity; exact I.
  - destruct s; try (left; reflexivity); [|destruct N; reflexivity]. right. split; [exact I|]. intros [w [H|[]]]. discriminate H.
Qed.
Theorem parsed_separately ps : Forall well_sized ps ->
  ((exists m, p_module (file ps) = (Ok m, [])) <->
   in_order ps /\ (forall p, In p ps -> about_functions p = false -> exists m, p_module (file [p]) = (Ok m, [])) /\
   exists m, p_module (file (filter about_functions ps)) = (Ok m, [])).
Proof.
  intros S. split.
  - intros [m P]. apply file_parses in P as (ss & D & O & C & ->); [|exact S]. split; [unfold in_order; rewrite (denote_ids _ _ D); exact O|]. split.
    + intros p IN A. clear O C. induction D as [|q s ps ss DP D IH]; [destruct IN|]. inversion S; subst. destruct IN as [<-|IN]; [|apply IH; assumption].
      apply (alone _ _ DP). rewrite (about_same _ _ DP) in A. intros E. unfold about_s in A. rewrite E in A. discriminate A.
    + exists (module_of (filter about_s ss)). pose proof (denote_about _ _ D) as DA. apply file_parses; [eapply denote_sized, DA|].
      exists (filter about_s ss). split; [exact DA|]. split; [apply filter_increasing, O|]. split; [apply about_counts, C|reflexivity].
  - intros (O & A & [m P]). apply file_parses in P as (s2 & D2 & _ & C2 & _); [|rewrite Forall_forall in *; intros p IN; apply filter_In in IN as [IN _]; auto].
    assert (X : exists ss, Forall2 denotes ps ss /\ filter about_s ss = s2).
    { clear O C2 m. revert s2 D2. induction ps as [|p ps IH]; intros s2 D2.
      - inversion D2; subst. exists []. split; [constructor|reflexivity].
      - inversion S; subst. cbn [filter] in D2. destruct (about_functions p) eqn:E.
        + inversion D2 as [|? s ? s2' DP D2']; subst. destruct (IH H2 (fun q IN => A q (or_intror IN)) s2' D2') as (ss & D & <-).
          exists (s :: ss). split; [constructor; assumption|]. cbn [filter]. rewrite <- (about_same _ _ DP), E. reflexivity.
        + destruct (A p (or_introl eq_refl) E) as [m P]. apply file_parses in P as (ss1 & D1 & _); [|constructor; [assumption|constructor]].
          inversion D1 as [|? s ? ? DP D1']; subst. destruct (IH H2 (fun q IN => A q (or_intror IN)) s2 D2) as (ss & D & <-).
          exists (s :: ss). split; [constructor; assumption|]. cbn [filter]. rewrite <- (about_same _ _ DP), E. reflexivity. }
    destruct X as (ss & D & <-). exists (module_of ss). apply file_parses; [exact S|]. exists ss. split; [exact D|].
    split; [unfold in_order in O; rewrite (denote_ids _ _ D) in O; exact O|]. split; [apply about_counts, C2|reflexivity].
Qed.
