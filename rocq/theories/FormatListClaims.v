(** The four deviations from the binary format are independent; files with the official verdict (C80). *)
From Coq Require Import Lia.
From Verif Require Import ParserModule SpecParser SpecFormatList SpecEncoder SpecCode SpecDeviations SpecVerdict ParserMeta SectionsProof DialectProof ModuleClaims2 CanonProof DeviationProof FormatListProof.
Open Scope N_scope.
Open Scope list_scope.

Lemma files_both bs m : p_module bs = (Ok m, []) -> accepted m ->
  (enc_module wasm10_format bs m /\ valid_module wasm10_validity m <->
   (enc_module short_integers bs m /\ enc_module zero_reserved bs m /\ few_locals m /\ all_bodies bs) /\ unchecked m).
Proof. intros P A. rewrite <- (format_exact bs m P). rewrite (proj1 (files_exact bs m P) A). tauto. Qed.
Lemma official_files bs m : enc_module wasm10_format bs m -> valid_module wasm10_validity m ->
  (p_module bs = (Ok m, []) /\ accepted m <-> overchecked m).
Proof.
  intros E V. apply official_parses in E. rewrite (proj1 (proj2 (files_exact bs m E)) V). tauto.
Qed.

(** ** Witnesses *)
Definition one_type : list byte := [x01; x04; x01; x60; x00; x00].
Definition one_function : list byte := [x03; x02; x01; x00].
(** the size of a section written in six bytes *)
Definition long_size : list byte := preamble ++ [x00; x82; x80; x80; x80; x80; x00; x01; x61].
(** memory.size 1 *)
Definition other_memory : list byte := preamble ++ one_type ++ one_function ++ [x0a; x07; x01; x05; x00; x3f; x01; x1a; x0b].
(** two runs of locals, one of 2^32 - 1 and one of 1 *)
Definition many_locals : list byte := preamble ++ one_type ++ one_function ++
  [x0a; x0c; x01; x0a; x02; xff; xff; xff; xff; x0f; x7f; x01; x7f; x0b].
(** a function is declared *)
Definition no_bodies : list byte := preamble ++ one_type ++ one_function.

Section Small.
Variable d : fdialect.
Hypothesis D : fd_int_len d 32 1.
Lemma small b n : (Byte.to_N b <? 128) = true -> Byte.to_N b = n -> enc_u32 d [b] n.
Proof.
  intros L E. apply N.ltb_lt in L. split; [|exact D]. split; [apply leb_last, L|]. split.
  - cbn [uleb_val]. unfold payload. rewrite N.mod_small by exact L. lia.
  - unfold fits_u. apply (N.lt_trans _ 128); [lia|reflexivity].
Qed.
Lemma one_type_enc : enc_section d one_type (S_Type [mkFuncTy [] []]).
Proof.
  exists [x04; x01; x60; x00; x00]. split; [reflexivity|]. exists [x04], [x01; x60; x00; x00]. split; [reflexivity|].
  split; [apply small; reflexivity|]. exists [x01], [x60; x00; x00]. split; [reflexivity|]. split; [apply small; reflexivity|].
  exists [[x60; x00; x00]]. split; [|reflexivity]. constructor; [|constructor].
  exists [x00], [x00]. split; [reflexivity|]. split; exists [x00], []; (split; [reflexivity|]); (split; [apply small; reflexivity|]); exists []; (split; [constructor|reflexivity]).
Qed.
Lemma one_function_enc : enc_section d one_function (S_Function [0]).
Proof.
  exists [x02; x01; x00]. split; [reflexivity|]. exists [x02], [x01; x00]. split; [reflexivity|].
  split; [apply small; reflexivity|]. exists [x01], [x00]. split; [reflexivity|]. split; [apply small; reflexivity|].
  exists [[x00]]. split; [|reflexivity]. constructor; [|constructor]. apply small; reflexivity.
Qed.
End Small.

Lemma ints_file : enc_module any_integers long_size default_module.
Proof.
  exists [x00; x82; x80; x80; x80; x80; x00; x01; x61], [S_Custom ([x61], [])]. split; [reflexivity|].
  split; [|split; [exact I|split; [left; reflexivity|reflexivity]]].
  exists [[x00; x82; x80; x80; x80; x80; x00; x01; x61]]. split; [|reflexivity]. constructor; [|constructor].
  exists [x82; x80; x80; x80; x80; x00; x01; x61]. split; [reflexivity|].
  exists [x82; x80; x80; x80; x80; x00], [x01; x61]. split; [reflexivity|]. split.
  - split; [|exact I]. split; [|split; reflexivity]. repeat (apply leb_more; [discriminate|]). apply leb_last. reflexivity.
  - exists [x01; x61]. split; [reflexivity|]. split.
    + exists [x01], [x61]. split; [reflexivity|]. split; [apply small; [exact I|reflexivity..]|]. exists [[x61]]. split; [|reflexivity].
      constructor; [reflexivity|constructor].
    + exists [97]. split; [|reflexivity]. constructor; [left; reflexivity|constructor].
Qed.
Lemma ints_not m : ~ enc_module wasm10_format long_size m.
Proof.
  intros (body & secs & E & (ch & F & EB) & _). apply app_inv_head in E. rewrite <- E in EB. clear E.
  inversion F as [|c s ch' secs' H F']; subst; [discriminate|]. cbn [concat] in EB.
  assert (X : exists A (EE : format A) b v, c = x00 :: b /\ enc_sized wasm10_format EE b v).
  { destruct s; destruct H as (b & -> & H); try discriminate EB; eauto 6. }
  destruct X as (A & EE & b & v & -> & n & cont & -> & [N1 N2] & _). injection EB as EB.
  rewrite <- app_assoc in EB.
  assert (N0 : enc_unsigned 32 [x82; x80; x80; x80; x80; x00] 2).
  { split; [|split; reflexivity]. repeat (apply leb_more; [discriminate|]). apply leb_last. reflexivity. }
  destruct (exact_prefix_free _ _ (exact_unsigned 32 ltac:(discriminate)) _ _ [x01; x61] (cont ++ concat ch') _ _ N0 N1 EB) as [<- _].
  cbn in N2. destruct N2. reflexivity.
Qed.

Definition other_memory_secs : list section := [S_Type [mkFuncTy [] []]; S_Function [0]; S_Code [([], [I_MemSize 1; I_Drop])]].
Lemma reserved_file : enc_module any_reserved other_memory (module_of other_memory_secs).
Proof.
  exists (one_type ++ one_function ++ [x0a; x07; x01; x05; x00; x3f; x01; x1a; x0b]), other_memory_secs. split; [reflexivity|].
  split; [|split; [repeat (split; [reflexivity|]); exact I|split; [left; reflexivity|reflexivity]]].
  assert (D : fd_int_len any_reserved 32 1) by discriminate.
  exists [one_type; one_function; [x0a; x07; x01; x05; x00; x3f; x01; x1a; x0b]]. split; [|reflexivity].
  constructor; [apply one_type_enc, D|]. constructor; [apply one_function_enc, D|]. constructor; [|constructor].
  exists [x07; x01; x05; x00; x3f; x01; x1a; x0b]. split; [reflexivity|]. exists [x07], [x01; x05; x00; x3f; x01; x1a; x0b].
  split; [reflexivity|]. split; [apply small; [exact D|reflexivity..]|]. exists [x01], [x05; x00; x3f; x01; x1a; x0b].
  split; [reflexivity|]. split; [apply small; [exact D|reflexivity..]|]. exists [[x05; x00; x3f; x01; x1a; x0b]]. split; [|reflexivity].
  constructor; [|constructor]. exists [x05], [x00; x3f; x01; x1a; x0b]. split; [reflexivity|]. split; [apply small; [exact D|reflexivity..]|].
  exists [x00], [x3f; x01; x1a; x0b], []. split; [reflexivity|]. split; [|split; [reflexivity|split; [reflexivity|]]].
  - exists [x00], []. split; [reflexivity|]. split; [apply small; [exact D|reflexivity..]|]. exists []. split; [constructor|reflexivity].
  - exists [x3f; x01; x1a]. split; [reflexivity|]. apply (enc_instrs_cons _ _ _ [x3f; x01]).
    + apply enc_memory_size. split; [apply small; [exact D|reflexivity..]|exact I].
    + apply (enc_instrs_cons _ _ _ [x1a] []); [apply enc_plain; reflexivity|constructor].
Qed.
Lemma reserved_not : ~ enc_module wasm10_format other_memory (module_of other_memory_secs).
Proof.
  intros H. assert (X : exists bs, enc_module wasm10_format bs (module_of other_memory_secs)) by eauto.
  apply official_image in X as [_ Z]. specialize (Z [I_MemSize 1; I_Drop] (or_introl eq_refl) (I_MemSize 1)).
  specialize (Z (occurs_here (I_MemSize 1) [I_MemSize 1; I_Drop] (or_introl eq_refl))). discriminate Z.
Qed.

Definition locals_secs (runs : list (u32 * valty)) : list section :=
  [S_Type [mkFuncTy [] []]; S_Function [0]; S_Code [(expand_runs runs, [])]].
Definition many_runs : list (u32 * valty) := [(4294967295, T_I32); (1, T_I32)].
Lemma locals_file_any runs :
  enc_vec any_locals (enc_run any_locals) [x02; xff; xff; xff; xff; x0f; x7f; x01; x7f] runs ->
  enc_module any_locals many_locals (module_of (locals_secs runs)).
Proof.
  intros R.
  exists (one_type ++ one_function ++ [x0a; x0c; x01; x0a; x02; xff; xff; xff; xff; x0f; x7f; x01; x7f; x0b]), (locals_secs runs). split; [reflexivity|].
  split; [|split; [repeat (split; [reflexivity|]); exact I|split; [left; reflexivity|reflexivity]]].
  assert (D : fd_int_len any_locals 32 1) by discriminate.
  exists [one_type; one_function; [x0a; x0c; x01; x0a; x02; xff; xff; xff; xff; x0f; x7f; x01; x7f; x0b]]. split; [|reflexivity].
  constructor; [apply one_type_enc, D|]. constructor; [apply one_function_enc, D|]. constructor; [|constructor].
  exists [x0c; x01; x0a; x02; xff; xff; xff; xff; x0f; x7f; x01; x7f; x0b]. split; [reflexivity|].
  exists [x0c], [x01; x0a; x02; xff; xff; xff; xff; x0f; x7f; x01; x7f; x0b].
  split; [reflexivity|]. split; [apply small; [exact D|reflexivity..]|]. exists [x01], [x0a; x02; xff; xff; xff; xff; x0f; x7f; x01; x7f; x0b].
  split; [reflexivity|]. split; [apply small; [exact D|reflexivity..]|]. exists [[x0a; x02; xff; xff; xff; xff; x0f; x7f; x01; x7f; x0b]]. split; [|reflexivity].
  constructor; [|constructor]. exists [x0a], [x02; xff; xff; xff; xff; x0f; x7f; x01; x7f; x0b]. split; [reflexivity|]. split; [apply small; [exact D|reflexivity..]|].
  exists [x02; xff; xff; xff; xff; x0f; x7f; x01; x7f], [x0b], runs.
  split; [reflexivity|]. split; [exact R|split; [reflexivity|split; [exact I|]]]. exists []. split; [reflexivity|constructor].
Qed.
Lemma many_runs_enc : enc_vec any_locals (enc_run any_locals) [x02; xff; xff; xff; xff; x0f; x7f; x01; x7f] many_runs.
Proof.
  assert (D : fd_int_len any_locals 32 1) by discriminate.
  exists [x02], [xff; xff; xff; xff; x0f; x7f; x01; x7f]. split; [reflexivity|]. split; [apply small; [exact D|reflexivity..]|].
  exists [[xff; xff; xff; xff; x0f; x7f]; [x01; x7f]]. split; [|reflexivity]. constructor; [|constructor; [|constructor]].
  - exists [xff; xff; xff; xff; x0f], [x7f]. split; [reflexivity|]. split; [|reflexivity]. split; [|discriminate].
    split; [|split; reflexivity]. repeat (apply leb_more; [discriminate|]). apply leb_last. reflexivity.
  - exists [x01], [x7f]. split; [reflexivity|]. split; [apply small; [exact D|reflexivity..]|reflexivity].
Qed.
Lemma locals_few runs : enc_module wasm10_format many_locals (module_of (locals_secs runs)) -> N.of_nat (length (expand_runs runs)) < 2 ^ 32.
Proof.
  intros H. apply official_four in H as (_ & _ & H & _). apply bounded_exact in H as [_ H].
  exact (H (mkFunc 0 (expand_runs runs) []) (or_introl eq_refl)).
Qed.
Lemma runs_length : forall runs, N.of_nat (length (@expand_runs valty runs)) = fold_right N.add 0 (map fst runs).
Proof.
  induction runs as [|[n t] runs IH]; [reflexivity|]. unfold expand_runs in *. cbn [flat_map map fold_right fst snd].
  rewrite app_length, repeat_length, Nat2N.inj_add, N2Nat.id, IH. reflexivity.
Qed.
Lemma locals_file : enc_module any_locals many_locals (module_of (locals_secs many_runs)).
Proof. exact (locals_file_any many_runs many_runs_enc). Qed.
Lemma locals_not : ~ enc_module wasm10_format many_locals (module_of (locals_secs many_runs)).
Proof. intros H. apply locals_few in H. rewrite runs_length in H. discriminate H. Qed.
Definition no_bodies_secs : list section := [S_Type [mkFuncTy [] []]; S_Function [0]].
Lemma code_file : enc_module any_code no_bodies (module_of no_bodies_secs).
Proof.
  exists (one_type ++ one_function), no_bodies_secs. split; [reflexivity|].
  assert (D : fd_int_len any_code 32 1) by discriminate.
  split; [|split; [repeat (split; [reflexivity|]); exact I|split; [right|reflexivity]]].
  - exists [one_type; one_function]. split; [|reflexivity].
    constructor; [apply one_type_enc, D|]. constructor; [apply one_function_enc, D|constructor].
  - split; [exact I|]. intros (v & [C|[C|[]]]); discriminate C.
Qed.
Lemma code_not : ~ enc_module wasm10_format no_bodies (module_of no_bodies_secs).
Proof.
  intros (body & secs & E & L & _ & [C|[[] _]] & _). apply app_inv_head in E as <-.
  assert (D : fd_int_len any_code 32 1) by discriminate.
  assert (L' : enc_list (enc_section any_code) (one_type ++ one_function) no_bodies_secs).
  { exists [one_type; one_function]. split; [|reflexivity].
    constructor; [apply one_type_enc, D|]. constructor; [apply one_function_enc, D|constructor]. }
  destruct (meets_sections wasm10_format any_code _ _ _ L L') as [-> _]. discriminate C.
Qed.
Lemma independent :
  (exists bs m, enc_module any_integers bs m /\ ~ enc_module wasm10_format bs m) /\
  (exists bs m, enc_module any_reserved bs m /\ ~ enc_module wasm10_format bs m) /\
  (exists bs m, enc_module any_locals bs m /\ ~ enc_module wasm10_format bs m) /\
  (exists bs m, enc_module any_code bs m /\ ~ enc_module wasm10_format bs m).
Proof.
  repeat split.
  - exists long_size, default_module. split; [exact ints_file|apply ints_not].
  - exists other_memory, (module_of other_memory_secs). split; [exact reserved_file|exact reserved_not].
  - exists many_locals, (module_of (locals_secs many_runs)). split; [exact locals_file|exact locals_not].
  - exists no_bodies, (module_of no_bodies_secs). split; [exact code_file|exact code_not].
Qed.
(** what the relaxed dialects mean *)
Lemma relaxed bs m :
  (enc_module any_integers bs m <-> enc_module zero_reserved bs m /\ enc_module bounded_locals bs m /\ enc_module present_code bs m) /\
  (enc_module any_reserved bs m <-> enc_module short_integers bs m /\ enc_module bounded_locals bs m /\ enc_module present_code bs m) /\
  (enc_module any_locals bs m <-> enc_module short_integers bs m /\ enc_module zero_reserved bs m /\ enc_module present_code bs m) /\
  (enc_module any_code bs m <-> enc_module short_integers bs m /\ enc_module zero_reserved bs m /\ enc_module bounded_locals bs m).
Proof.
  assert (S1 : forall size len, N.of_nat len <= (size + 6) / 7 -> 7 * N.of_nat len < size + 7).
  { intros size len H. pose proof (N.mul_div_le (size + 6) 7 ltac:(discriminate)). lia. }
  assert (S2 : forall size len, 7 * N.of_nat len < size + 7 -> N.of_nat len <= (size + 6) / 7).
  { intros size len H. apply N.div_le_lower_bound; lia. }
  split; [|split; [|split]]; rewrite <- !meet_exact; split; apply w_module; cbn - [N.mul N.add N.div]; intros; intuition eauto.
Qed.
