(** The section loop and whole modules: binary/module.rs:13-72 *)
From Coq Require Import Lia ZifyN ZifyNat.
From Verif Require Import ParserModule SpecFormat ParserMeta TypesProof InstrProof ModuleProof.
Open Scope N_scope.

(** ** Safety of one section *)
Lemma assign_types_ok ts : forall fs, length fs = length ts ->
  exists r, assign_types (length ts) fs ts = Ok r.
Proof.
  induction ts as [|t ts IH]; intros [|f fs] L; try discriminate; [exists []; reflexivity|].
  cbn [assign_types length]. destruct (IH fs) as [r ->]; [cbn in L; lia|]. eauto.
Qed.
Lemma suffixing_section id s : suffixing (p_section id s).
Proof.
  pose proof suffixing_import; pose proof suffixing_export; pose proof suffixing_table; pose proof suffixing_mem;
  pose proof suffixing_global; pose proof suffixing_elem; pose proof suffixing_data; pose proof suffixing_start;
  pose proof suffixing_custom; pose proof suffixing_func.
  unfold p_section, p_typeidx.
  destruct id; try apply suffixing_fail; try solve [m_suffixing].
  rewrite unwrapping_vec. apply suffixing_bind; [m_suffixing|intros fs].
  destruct (negb _); [apply suffixing_fail|].
  destruct (assign_types _ _ _); first [apply suffixing_ret | intros bs; exists []; reflexivity].
Qed.
Lemma safe_section id s : safe (p_section id s).
Proof.
  pose proof safe_import; pose proof safe_export; pose proof safe_table; pose proof safe_mem;
  pose proof safe_global; pose proof safe_elem; pose proof safe_data; pose proof safe_start;
  pose proof safe_custom; pose proof safe_func.
  unfold p_section, p_typeidx.
  destruct id; try apply safe_fail; try solve [m_safe].
  rewrite unwrapping_vec. apply safe_bind; [m_safe|intros fs].
  destruct (Nat.eqb_spec (length fs) (length (ps_func_types s))) as [L|L]; cbn [negb]; [|apply safe_fail].
  destruct (assign_types_ok _ _ L) as [r ->]. apply safe_ret.
Qed.

(** ** The loop *)
Definition mark (s : pstate) (id : byte) : pstate :=
  if byte_is id 0x00 then s else mkPstate (ps_result s) (ps_func_types s) (Byte.to_N id).
Lemma sections_nil f s : p_sections (S f) s [] = (Ok s, []). Proof. reflexivity. Qed.
Lemma sections_cons f s id bs : p_sections (S f) s (id :: bs) =
  if negb (byte_is id 0x00) && (Byte.to_N id <=? ps_last_id s) then (Err (UnexpectedSectionId id), bs)
  else bind (p_section id (mark s id)) (p_sections f) bs.
Proof.
  cbn [p_sections]. unfold bind at 1. cbn [p_byte]. destruct (negb _ && _); reflexivity.
Qed.

Lemma suffixing_sections fuel : forall s, suffixing (p_sections fuel s).
Proof.
  induction fuel as [|f IH]; intros s bs; [exists []; reflexivity|].
  destruct bs as [|id bs]; [exists []; reflexivity|]. rewrite sections_cons.
  destruct (negb _ && _); [exists [id]; reflexivity|].
  assert (X : suffixing (bind (p_section id (mark s id)) (p_sections f)))
    by (apply suffixing_bind; [apply suffixing_section|assumption]).
  destruct (X bs) as [pre E]. exists (id :: pre). cbn. rewrite <- E. reflexivity.
Qed.
Lemma safe_sections fuel : forall s bs, (length bs < fuel)%nat ->
  fst (p_sections fuel s bs) <> Panic /\ fst (p_sections fuel s bs) <> OutOfFuel.
Proof.
  induction fuel as [|f IH]; intros s bs L; [lia|].
  destruct bs as [|id bs]; [rewrite sections_nil; split; discriminate|]. rewrite sections_cons.
  destruct (negb _ && _); [split; discriminate|].
  unfold bind. pose proof (safe_section id (mark s id) bs) as S.
  pose proof (suffixing_length _ bs (suffixing_section id (mark s id))) as SL.
  destruct (p_section id (mark s id) bs) as [[s'|e| |] r]; cbn [fst snd] in *; try tauto.
  - apply IH. cbn in L. lia.
Qed.
Lemma sections_fuel fuel : forall fuel' s bs, (length bs < fuel)%nat -> (length bs < fuel')%nat ->
  p_sections fuel s bs = p_sections fuel' s bs.
Proof.
  induction fuel as [|f IH]; intros [|f'] s bs L L'; try lia.
  destruct bs as [|id bs]; [reflexivity|]. rewrite !sections_cons.
  destruct (negb _ && _); [reflexivity|]. unfold bind.
  pose proof (suffixing_length _ bs (suffixing_section id (mark s id))) as SL.
  destruct (p_section id (mark s id) bs) as [[s'|e| |] r]; cbn [fst snd] in *; try reflexivity.
  cbn in L, L'. apply IH; lia.
Qed.

(** ** Runs over sections *)
Definition marks (s : pstate) (sec : section) : pstate :=
  if is_custom sec then s else mkPstate (ps_result s) (ps_func_types s) (section_id sec).
Inductive run : pstate -> list section -> pstate -> Prop :=
| run_nil s : run s [] s
| run_cons s sec secs s' :
    (is_custom sec = false -> ps_last_id s < section_id sec) -> sec_ok (marks s sec) sec ->
    run (step (marks s sec) sec) secs s' -> run s (sec :: secs) s'.

Lemma section_first fd bs sec : enc_section fd bs sec ->
  exists id r, bs = id :: r /\ Byte.to_N id = section_id sec /\ byte_is id 0x00 = is_custom sec.
Proof. intros H. destruct sec; destruct H as (b & -> & _); eexists _, b; repeat split. Qed.

Lemma sections_sound fuel : forall s bs s' rest, p_sections fuel s bs = (Ok s', rest) ->
  rest = [] /\ exists secs, enc_list (enc_section whasm_format) bs secs /\ run s secs s'.
Proof.
  induction fuel as [|f IH]; intros s bs s' rest H; [discriminate|].
  destruct bs as [|id bs].
  - rewrite sections_nil in H. injection H as <- <-. split; [reflexivity|]. exists [].
    split; [exists []; split; [constructor|reflexivity]|constructor].
  - rewrite sections_cons in H.
    destruct (negb (byte_is id 0) && (Byte.to_N id <=? ps_last_id s)) eqn:O; [discriminate|].
    apply bind_ok in H. destruct H as (s1 & r0 & H1 & H2).
    apply exact_section in H1. destruct H1 as (pre & -> & sec & E & OK & ->).
    apply IH in H2. destruct H2 as (-> & secs & (ch & F & ->) & R). split; [reflexivity|].
    destruct (section_first _ _ _ E) as (id' & r & E1 & E2 & E3). injection E1 as <- <-.
    assert (M : mark s id = marks s sec) by (unfold mark, marks; rewrite E3, E2; reflexivity).
    exists (sec :: secs). split.
    + exists ((id :: pre) :: ch). split; [constructor; assumption|reflexivity].
    + rewrite M in *. constructor; [|assumption|assumption]. intros C. rewrite E3, C in O. cbn in O.
      apply N.leb_gt in O. lia.
Qed.
Lemma sections_complete : forall bs secs, enc_list (enc_section whasm_format) bs secs ->
  forall fuel s s', run s secs s' -> (length bs < fuel)%nat -> p_sections fuel s bs = (Ok s', []).
Proof.
  intros bs secs (ch & F & ->). induction F as [|c sec ch secs E F IH]; intros fuel s s' R L.
  - inversion R; subst. destruct fuel; [lia|]. reflexivity.
  - inversion R as [|? ? ? ? O OK R']; subst. destruct fuel as [|f]; [lia|].
    destruct (section_first _ _ _ E) as (id & r & -> & E2 & E3). cbn [concat app] in *.
    rewrite sections_cons. rewrite E3, E2.
    assert (M : mark s id = marks s sec) by (unfold mark, marks; rewrite E3, E2; reflexivity).
    replace (negb (is_custom sec) && (section_id sec <=? ps_last_id s)) with false.
    2: { symmetry. destruct (is_custom sec); [reflexivity|]. cbn. apply N.leb_gt. auto. }
    apply bind_ok. exists (step (marks s sec) sec), (concat ch). split.
    + rewrite M. apply exact_section. eauto 10.
    + apply IH; [assumption|]. cbn in L. rewrite app_length in L. lia.
Qed.

(** ** The state after some sections *)
Fixpoint last_id (l : N) (secs : list section) : N :=
  match secs with
  | [] => l
  | s :: ss => last_id (if is_custom s then l else section_id s) ss
  end.
Definition state_of (secs : list section) : pstate :=
  mkPstate (module_of secs) (flat_map sec_typeidxs secs) (last_id 0 secs).
Definition below (secs : list section) : Prop := Forall (fun s => section_id s <= last_id 0 secs) secs.

Lemma last_id_app l a b : last_id l (a ++ b) = last_id (last_id l a) b.
Proof. revert l; induction a as [|s a IH]; intros l; [reflexivity|]. cbn. apply IH. Qed.
Lemma absent {A} (get : section -> list A) k secs : below secs -> last_id 0 secs < k ->
  (forall s, section_id s <> k -> get s = []) -> flat_map get secs = [].
Proof.
  intros B L G. unfold below in B. revert B. generalize (last_id 0 secs) L. clear L. intros m Lm B.
  induction B as [|s secs H B IH]; [reflexivity|]. cbn. rewrite IH, G; [reflexivity|]. cbn beta in H. lia.
Qed.
Lemma below_snoc secs sec : below secs -> (is_custom sec = false -> last_id 0 secs < section_id sec) ->
  below (secs ++ [sec]).
Proof.
  unfold below. intros B O. rewrite last_id_app. cbn [last_id].
  apply Forall_app. split.
  - eapply Forall_impl; [|exact B]. intros a H. cbn beta in *. destruct (is_custom sec) eqn:C; [assumption|].
    specialize (O eq_refl). lia.
  - constructor; [|constructor]. destruct sec; cbn; lia.
Qed.
Lemma step_state_of secs sec : below secs -> (is_custom sec = false -> last_id 0 secs < section_id sec) ->
  step (marks (state_of secs) sec) sec = state_of (secs ++ [sec]).
Proof.
  intros B O. unfold state_of, step, marks, with_result, module_of.
  rewrite last_id_app. rewrite !flat_map_app. cbn [flat_map].
  destruct sec; cbn [is_custom section_id sec_types sec_imports sec_typeidxs sec_tables sec_mems sec_globals
    sec_exports sec_starts sec_elems sec_codes sec_datas ps_result ps_func_types ps_last_id last_id
    set_types set_imports set_tables set_mems set_globals set_exports set_start set_elem set_funcs set_data
    m_types m_funcs m_tables m_mems m_globals m_elem m_data m_start m_imports m_exports];
  cbn [is_custom section_id] in O; rewrite ?app_nil_r; cbn [app];
  try specialize (O eq_refl);
  unfold set_types, set_imports, set_tables, set_mems, set_globals, set_exports, set_start, set_elem, set_funcs, set_data;
  cbn [m_types m_funcs m_tables m_mems m_globals m_elem m_data m_start m_imports m_exports ps_result].
  - reflexivity.
  - rewrite (absent sec_types 1); [reflexivity|assumption|assumption|]. intros [] H; cbn in *; congruence.
  - rewrite (absent sec_imports 2); [reflexivity|assumption|assumption|]. intros [] H; cbn in *; congruence.
  - rewrite (absent sec_typeidxs 3); [|assumption|assumption|intros [] H; cbn in *; congruence].
    rewrite (absent sec_codes 10); [|assumption|lia|intros [] H; cbn in *; congruence].
    unfold pair_funcs. destruct v; reflexivity.
  - rewrite (absent sec_tables 4); [reflexivity|assumption|assumption|]. intros [] H; cbn in *; congruence.
  - rewrite (absent sec_mems 5); [reflexivity|assumption|assumption|]. intros [] H; cbn in *; congruence.
  - rewrite (absent sec_globals 6); [reflexivity|assumption|assumption|]. intros [] H; cbn in *; congruence.
  - rewrite (absent sec_exports 7); [reflexivity|assumption|assumption|]. intros [] H; cbn in *; congruence.
  - rewrite (absent sec_starts 8); [reflexivity|assumption|assumption|]. intros [] H; cbn in *; congruence.
  - rewrite (absent sec_elems 9); [reflexivity|assumption|assumption|]. intros [] H; cbn in *; congruence.
  - rewrite (absent sec_codes 10); [reflexivity|assumption|assumption|]. intros [] H; cbn in *; congruence.
  - rewrite (absent sec_datas 11); [reflexivity|assumption|assumption|]. intros [] H; cbn in *; congruence.
Qed.

(** ** Runs from the initial state *)
Definition ids (secs : list section) : list N := map section_id (filter (fun s => negb (is_custom s)) secs).
Lemma increasing_le lo hi l : increasing hi l -> lo <= hi -> increasing lo l.
Proof. destruct l; cbn; [auto|]. intros [H1 H2] H. split; [lia|assumption]. Qed.
Lemma increasing_app lo secs rest : increasing lo (ids (secs ++ rest)) <->
  increasing lo (ids secs) /\ increasing (last_id lo secs) (ids rest).
Proof.
  revert lo. induction secs as [|s secs IH]; intros lo; cbn [app last_id]; [cbn; tauto|].
  unfold ids in *. cbn [filter]. destruct (is_custom s); cbn [negb map increasing]; rewrite IH; tauto.
Qed.

Lemma code_absent secs : ~ has_code secs -> flat_map sec_codes secs = [].
Proof.
  intros H. induction secs as [|s secs IH]; [reflexivity|]. cbn.
  rewrite IH; [|intros [v I]; apply H; exists v; right; assumption].
  destruct s; try reflexivity. contradiction H. exists v. left. reflexivity.
Qed.

(** the sections [rest] run after the sections [secs] *)
Lemma run_from secs : forall rest s', below secs -> run (state_of secs) rest s' ->
  s' = state_of (secs ++ rest) /\ increasing (last_id 0 secs) (ids rest) /\
  (forall a v b, rest = a ++ S_Code v :: b -> length v = length (flat_map sec_typeidxs (secs ++ a))).
Proof.
  intros rest. revert secs. induction rest as [|sec rest IH]; intros secs s' B R.
  - inversion R; subst. rewrite app_nil_r. split; [reflexivity|]. split; [exact I|].
    intros [|? ?] v b E; discriminate.
  - inversion R as [|? ? ? ? O OK R']; subst. cbn [ps_last_id state_of] in O.
    rewrite step_state_of in R' by assumption.
    apply IH in R'; [|apply below_snoc; assumption]. destruct R' as (-> & I & C).
    rewrite <- app_assoc in *. cbn [app] in *. split; [reflexivity|]. split.
    + rewrite last_id_app in I. cbn [last_id] in I. unfold ids in *. cbn [filter].
      destruct (is_custom sec); cbn [negb map increasing]; [assumption|]. split; [auto|assumption].
    + intros [|x a] v b E; injection E as -> E.
      * cbn in OK. rewrite app_nil_r. assumption.
      * apply C in E. rewrite E, <- app_assoc. reflexivity.
Qed.
Lemma run_to secs : forall rest, below secs -> increasing (last_id 0 secs) (ids rest) ->
  (forall a v b, rest = a ++ S_Code v :: b -> length v = length (flat_map sec_typeidxs (secs ++ a))) ->
  run (state_of secs) rest (state_of (secs ++ rest)).
Proof.
  intros rest. revert secs. induction rest as [|sec rest IH]; intros secs B I C.
  - rewrite app_nil_r. constructor.
  - assert (O : is_custom sec = false -> last_id 0 secs < section_id sec).
    { intros X. unfold ids in I. cbn [filter] in I. rewrite X in I. cbn in I. tauto. }
    constructor; [exact O| |].
    + destruct sec; cbn; auto. rewrite <- (app_nil_r secs). apply (C [] v rest eq_refl).
    + rewrite step_state_of by assumption.
      change (secs ++ sec :: rest) with (secs ++ [sec] ++ rest). rewrite app_assoc.
      apply IH; [apply below_snoc; assumption| |].
      * rewrite last_id_app. cbn [last_id]. unfold ids in *. cbn [filter] in I.
        destruct (is_custom sec); [exact I|]. cbn in I. tauto.
      * intros a v b ->. rewrite <- app_assoc. apply (C (sec :: a) v b eq_refl).
Qed.

(** in an ordered list the function section precedes the code section, and there is one of each *)
Lemma increasing_lt lo l x : increasing lo l -> In x l -> lo < x.
Proof.
  revert lo; induction l as [|y l IH]; intros lo I H; [destruct H|].
  cbn in I. destruct I as [I1 I2], H as [->|H]; [assumption|].
  apply IH in I2; [lia|assumption].
Qed.
Lemma ids_in s secs : In s secs -> is_custom s = false -> In (section_id s) (ids secs).
Proof. intros H C. unfold ids. apply in_map, filter_In. rewrite C. auto. Qed.
Lemma after_code lo b : increasing lo (ids b) -> 10 <= lo ->
  flat_map sec_typeidxs b = [] /\ flat_map sec_codes b = [].
Proof.
  intros I L. split.
  - assert (H : forall s, In s b -> sec_typeidxs s = []).
    { intros s IN. destruct s; try reflexivity. apply ids_in in IN; [|reflexivity].
      apply (increasing_lt _ _ _ I) in IN. cbn in IN. lia. }
    clear I. induction b as [|s b IH]; [reflexivity|]. cbn. rewrite H, IH; [reflexivity| |left; reflexivity].
    intros; apply H; right; assumption.
  - assert (H : forall s, In s b -> sec_codes s = []).
    { intros s IN. destruct s; try reflexivity. apply ids_in in IN; [|reflexivity].
      apply (increasing_lt _ _ _ I) in IN. cbn in IN. lia. }
    clear I. induction b as [|s b IH]; [reflexivity|]. cbn. rewrite H, IH; [reflexivity| |left; reflexivity].
    intros; apply H; right; assumption.
Qed.
Lemma last_id_ge lo a : increasing lo (ids a) -> lo <= last_id lo a.
Proof.
  revert lo; induction a as [|s a IH]; intros lo I; cbn [last_id]; [lia|].
  unfold ids in *. cbn [filter] in I. destruct (is_custom s); [apply IH, I|].
  cbn in I. destruct I as [I1 I2]. apply IH in I2. lia.
Qed.
Lemma before_code lo a v b : increasing lo (ids (a ++ S_Code v :: b)) ->
  flat_map sec_codes a = [] /\ flat_map sec_typeidxs b = [] /\ flat_map sec_codes b = [].
Proof.
  intros I. apply increasing_app in I. destruct I as [I1 I2].
  unfold ids in I2. cbn in I2. destruct I2 as [I2 I3]. split.
  - assert (H : forall s, In s a -> sec_codes s = []).
    { intros s IN. destruct s; try reflexivity. exfalso.
      apply in_split in IN. destruct IN as (x & y & ->).
      apply increasing_app in I1. destruct I1 as [_ I1]. unfold ids in I1. cbn in I1. destruct I1 as [_ I1].
      rewrite last_id_app in I2. cbn [last_id is_custom section_id] in I2. apply last_id_ge in I1.
      lia. }
    clear I1 I2 I3. induction a as [|s a IH]; [reflexivity|]. cbn. rewrite H, IH; [reflexivity| |left; reflexivity].
    intros; apply H; right; assumption.
  - apply (after_code 10); [assumption|lia].
Qed.
Lemma counts_iff secs : ordered secs ->
  (forall a v b, secs = a ++ S_Code v :: b -> length v = length (flat_map sec_typeidxs a)) <->
  (length (flat_map sec_typeidxs secs) = length (flat_map sec_codes secs) \/ ~ has_code secs) .
Proof.
  intros O. unfold ordered in O. fold (ids secs) in O. split.
  - intros H.
    assert (D : has_code secs \/ ~ has_code secs).
    { clear. induction secs as [|s secs [IH|IH]].
      - right. intros [v []].
      - left. destruct IH as [v H]. exists v. right. assumption.
      - destruct s; try (right; intros [v' [E|H]]; [discriminate|apply IH; exists v'; assumption]).
        left. exists v. left. reflexivity. }
    destruct D as [[v D]|D]; [left|right; assumption].
    apply in_split in D. destruct D as (a & b & ->). pose proof (H a v b eq_refl) as E.
    apply before_code in O. destruct O as (O1 & O2 & O3).
    rewrite !flat_map_app. cbn [flat_map sec_typeidxs sec_codes app]. rewrite O1, O2, O3. cbn [app].
    rewrite !app_nil_r. symmetry. assumption.
  - intros [E|N] a v b ->.
    + apply before_code in O. destruct O as (O1 & O2 & O3).
      rewrite !flat_map_app in E. cbn [flat_map sec_typeidxs sec_codes app] in E.
      rewrite O1, O2, O3 in E. cbn [app] in E. rewrite !app_nil_r in E. symmetry. assumption.
    + exfalso. apply N. exists v. apply in_or_app. right. left. reflexivity.
Qed.

Lemma below_nil : below []. Proof. constructor. Qed.
Lemma run_init secs s' : run (mkPstate default_module [] 0) secs s' <->
  ordered secs /\ counts_match whasm_format secs /\ s' = state_of secs.
Proof.
  change (mkPstate default_module [] 0) with (state_of []).
  assert (C : ordered secs -> ((forall a v b, secs = a ++ S_Code v :: b -> length v = length (flat_map sec_typeidxs ([] ++ a)))
    <-> counts_match whasm_format secs)).
  { intros O. rewrite (counts_iff secs O). unfold counts_match. cbn. tauto. }
  split.
  - intros R. apply run_from in R; [|apply below_nil]. destruct R as (-> & I & X).
    split; [exact I|]. split; [apply C; assumption|reflexivity].
  - intros (O & M & ->). apply (run_to [] secs below_nil); [exact O|]. apply C; assumption.
Qed.

(** ** Modules *)
Lemma run_init_ok bs secs : enc_list (enc_section whasm_format) bs secs -> ordered secs ->
  counts_match whasm_format secs -> forall fuel, (length bs < fuel)%nat ->
  p_sections fuel (mkPstate default_module [] 0) bs = (Ok (state_of secs), []).
Proof.
  intros E O C fuel L. apply (sections_complete bs secs); [assumption| |assumption].
  apply run_init. auto.
Qed.
Lemma bytes_are_iff l ns : bytes_are l ns = true <-> map Byte.to_N l = ns.
Proof.
  revert ns; induction l as [|b l IH]; intros [|n ns]; cbn [bytes_are map]; try (split; congruence).
  rewrite andb_true_iff, IH. unfold byte_is. rewrite N.eqb_eq. split; [intros [-> ->]; reflexivity|].
  intros [= -> ->]. auto.
Qed.
Lemma to_N_inj a b : Byte.to_N a = Byte.to_N b -> a = b.
Proof.
  intros H. pose proof (Byte.of_to_N a) as A. rewrite H, Byte.of_to_N in A. congruence.
Qed.
Lemma map_to_N_inj (l l' : list byte) : map Byte.to_N l = map Byte.to_N l' -> l = l'.
Proof.
  revert l'; induction l as [|b l IH]; intros [|b' l'] H; try discriminate; [reflexivity|].
  cbn in H. injection H as H1 H2. apply to_N_inj in H1. apply IH in H2. congruence.
Qed.
Lemma magic_iff l : bytes_are l [0x00; 0x61; 0x73; 0x6D] = true <-> l = [x00; x61; x73; x6d].
Proof.
  rewrite bytes_are_iff. change [0; 97; 115; 109] with (map Byte.to_N [x00; x61; x73; x6d]).
  split; [apply map_to_N_inj|intros ->; reflexivity].
Qed.
Lemma version_iff l : bytes_are l [1; 0; 0; 0] = true <-> l = [x01; x00; x00; x00].
Proof.
  rewrite bytes_are_iff. change [1; 0; 0; 0] with (map Byte.to_N [x01; x00; x00; x00]).
  split; [apply map_to_N_inj|intros ->; reflexivity].
Qed.
Lemma times_byte_ok n : forall w rest, length w = n -> p_times n p_byte (w ++ rest) = (Ok w, rest).
Proof.
  induction n as [|n IH]; intros [|b w] rest L; try discriminate; [reflexivity|].
  cbn [p_times app]. unfold bind. cbn [p_byte]. rewrite IH by (cbn in L; lia). reflexivity.
Qed.
Lemma times_byte_short n : forall bs, (length bs < n)%nat -> p_times n p_byte bs = (Err UnexpectedEndOfFile, []).
Proof.
  induction n as [|n IH]; intros bs L; [lia|]. cbn [p_times]. unfold bind.
  destruct bs as [|b bs]; [reflexivity|]. cbn [p_byte]. cbn in L. rewrite IH by lia. reflexivity.
Qed.
Definition p_body : parser pstate := fun bs => p_sections (S (length bs)) (mkPstate default_module [] 0) bs.
Lemma module_preamble body : p_module (preamble ++ body) = bind p_body (fun s => ret (ps_result s)) body.
Proof. reflexivity. Qed.
Lemma module_magic bs : (4 <= length bs)%nat -> firstn 4 bs <> [x00; x61; x73; x6d] ->
  p_module bs = (Err InvalidPreambleMagic, skipn 4 bs).
Proof.
  intros L M. rewrite <- (firstn_skipn 4 bs) at 1. unfold p_module, p_array. unfold bind at 1.
  rewrite times_byte_ok by (rewrite firstn_length; lia).
  destruct (bytes_are _ _) eqn:E; [apply magic_iff in E; contradiction|reflexivity].
Qed.
Lemma module_short bs : (length bs < 4)%nat -> p_module bs = (Err UnexpectedEndOfFile, []).
Proof. intros L. unfold p_module, p_array. unfold bind at 1. rewrite times_byte_short by assumption. reflexivity. Qed.
Lemma module_version bs : (4 <= length bs)%nat -> firstn 4 bs <> [x01; x00; x00; x00] ->
  p_module ([x00; x61; x73; x6d] ++ bs) = (Err InvalidPreambleVersion, skipn 4 bs).
Proof.
  intros L M. rewrite <- (firstn_skipn 4 bs) at 1. unfold p_module, p_array. unfold bind at 1.
  rewrite (times_byte_ok 4 [x00; x61; x73; x6d]) by reflexivity.
  change (bytes_are _ [0; 97; 115; 109]) with true. cbn [negb]. unfold bind at 1.
  rewrite times_byte_ok by (rewrite firstn_length; lia).
  destruct (bytes_are _ _) eqn:E; [apply version_iff in E; contradiction|reflexivity].
Qed.
Lemma module_version_short bs : (length bs < 4)%nat ->
  p_module ([x00; x61; x73; x6d] ++ bs) = (Err UnexpectedEndOfFile, []).
Proof.
  intros L. unfold p_module, p_array. unfold bind at 1.
  rewrite (times_byte_ok 4 [x00; x61; x73; x6d]) by reflexivity.
  change (bytes_are _ [0; 97; 115; 109]) with true. cbn [negb]. unfold bind at 1.
  rewrite times_byte_short by assumption. reflexivity.
Qed.
(** every input falls in one of these classes *)
Lemma preamble_cases bs :
  (length bs < 4)%nat \/ ((4 <= length bs)%nat /\ firstn 4 bs <> [x00; x61; x73; x6d]) \/
  (exists r, bs = [x00; x61; x73; x6d] ++ r /\
    ((length r < 4)%nat \/ ((4 <= length r)%nat /\ firstn 4 r <> [x01; x00; x00; x00]) \/
     exists body, bs = preamble ++ body)).
Proof.
  destruct (Nat.ltb_spec (length bs) 4) as [L|L]; [auto|right].
  destruct (list_eq_dec Byte.byte_eq_dec (firstn 4 bs) [x00; x61; x73; x6d]) as [E|E]; [|auto]. right.
  exists (skipn 4 bs). rewrite <- E, firstn_skipn. split; [reflexivity|].
  destruct (Nat.ltb_spec (length (skipn 4 bs)) 4) as [L'|L']; [auto|right].
  destruct (list_eq_dec Byte.byte_eq_dec (firstn 4 (skipn 4 bs)) [x01; x00; x00; x00]) as [E'|E']; [|auto]. right.
  exists (skipn 4 (skipn 4 bs)). rewrite <- (firstn_skipn 4 bs) at 1. rewrite E.
  rewrite <- (firstn_skipn 4 (skipn 4 bs)) at 1. rewrite E'. reflexivity.
Qed.

Theorem module_exact bs m rest : p_module bs = (Ok m, rest) <-> rest = [] /\ enc_module whasm_format bs m.
Proof.
  split.
  - intros H. destruct (preamble_cases bs) as [L|[[L M]|(r & E & [L|[[L M]|(body & ->)]])]].
    + rewrite module_short in H by assumption. discriminate.
    + rewrite module_magic in H by assumption. discriminate.
    + subst. rewrite module_version_short in H by assumption. discriminate.
    + subst. rewrite module_version in H by assumption. discriminate.
    + rewrite module_preamble in H. apply bind_ok in H. destruct H as (s & r' & H & K).
      injection K as <- <-. apply sections_sound in H. destruct H as (-> & secs & EL & R).
      split; [reflexivity|]. apply run_init in R. destruct R as (O & C & ->).
      exists body, secs. auto 10.
  - intros (-> & body & secs & -> & EL & O & C & ->). rewrite module_preamble.
    apply bind_ok. exists (state_of secs), []. split; [|reflexivity].
    apply run_init_ok; auto.
Qed.
Lemma safe_body : safe p_body.
Proof. intros bs. apply safe_sections. lia. Qed.
Lemma safe_module : safe p_module.
Proof.
  intros bs. destruct (preamble_cases bs) as [L|[[L M]|(r & E & [L|[[L M]|(body & ->)]])]]; subst;
    [rewrite module_short|rewrite module_magic|rewrite module_version_short|rewrite module_version|];
    try assumption; try (split; discriminate).
  rewrite module_preamble. apply (safe_bind p_body); [apply safe_body|]. intros s. apply safe_ret.
Qed.
Lemma suffixing_module : suffixing p_module.
Proof.
  intros bs. destruct (preamble_cases bs) as [L|[[L M]|(r & E & [L|[[L M]|(body & ->)]])]]; subst;
    [rewrite module_short|rewrite module_magic|rewrite module_version_short|rewrite module_version|]; try assumption.
  - exists bs. cbn. rewrite app_nil_r. reflexivity.
  - exists (firstn 4 bs). cbn [snd]. rewrite firstn_skipn. reflexivity.
  - exists ([x00; x61; x73; x6d] ++ r). cbn [snd]. rewrite app_nil_r. reflexivity.
  - exists ([x00; x61; x73; x6d] ++ firstn 4 r). cbn [snd]. rewrite <- app_assoc, firstn_skipn. reflexivity.
  - rewrite module_preamble.
    assert (X : suffixing (bind p_body (fun s => ret (ps_result s)))).
    { apply suffixing_bind; [|intros s; apply suffixing_ret]. intros b. apply suffixing_sections. }
    destruct (X body) as [pre E']. exists (preamble ++ pre). rewrite <- app_assoc. rewrite <- E'. reflexivity.
Qed.
