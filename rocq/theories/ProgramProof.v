(** The program on a given host (C66). *)
From Coq Require Import String Lia.
From Verif Require Import ProgramHost SpecStack SpecRefs SpecVerdict HostProof ModuleClaims2 AllocProof StackProof SpecFormat SpecParser ParserMeta SectionsProof StorageProof StorageFileProof SpecStorage SpecAlloc.
Open Scope N_scope.

Lemma program_either allows overflows checks bits args fs :
  program_on allows overflows checks bits args fs = Crash \/ program_on allows overflows checks bits args fs = h_cli checks bits args fs.
Proof.
  unfold program_on, h_cli. destruct (config_new args) as [cfg|]; [|auto].
  destruct (fs (cfg_filename cfg)) as [| |bs]; auto.
  destruct (within_either allows bs) as [-> | ->]; auto. destruct (fst (p_module bs)) as [m|e| |]; auto.
  destruct (overflows Validating m); auto. rewrite validate_within_eq. destruct (forallb _ _); auto.
  destruct (h_validate checks bits m); auto. destruct (_ || _); auto.
Qed.
Lemma program_same h allows overflows checks bits args fs : copes h overflows ->
  (forall cfg bs, config_new args = Some cfg -> fs (cfg_filename cfg) = Contents bs -> parse_within allows bs = fst (p_module bs) /\ shallow h bs /\
    forall m, fst (p_module bs) = Ok m -> validate_within allows checks bits m = h_validate checks bits m) ->
  program_on allows overflows checks bits args fs = h_cli checks bits args fs.
Proof.
  intros HO H. unfold program_on, h_cli. destruct (config_new args) as [cfg|] eqn:E; [|auto].
  destruct (fs (cfg_filename cfg)) as [| |bs] eqn:F; auto. destruct (H _ _ eq_refl F) as (-> & S & V).
  destruct (p_module bs) as [[m|e| |] r] eqn:P; cbn [fst] in *; auto. rewrite (V m eq_refl).
  assert (O : forall p, overflows p m = false) by (intros p; apply HO; apply (shallow_within _ _ _ _ P); exact S).
  rewrite !O. rewrite Bool.andb_false_r. reflexivity.
Qed.
(** validation *)
Lemma locals_within bs m r f : p_module bs = (Ok m, r) -> In f (m_funcs m) -> 2 * count (fn_locals f) <= (2 ^ 32 - 1) * N.of_nat (List.length bs).
Proof.
  intros P F. destruct (proj2 (module_tracks _ _ _ P) f F) as [Z|I]; unfold locals_of, count in *; [rewrite Z; lia|]. apply requests_ok in I. exact I.
Qed.
Lemma validation_fits h allows checks bits bs m r : p_module bs = (Ok m, r) -> answers h allows ->
  (forall k, (2 * N.of_nat (List.length bs) + 8) * h_size h k <= h_limit h) ->
  (forall f, In f (m_funcs m) -> (N.of_nat (List.length bs) + N.of_nat (List.length (fn_locals f))) * h_size h V_Ref <= h_limit h) ->
  validate_within allows checks bits m = h_validate checks bits m.
Proof.
  intros P [_ HA] HS HF. rewrite validate_within_eq. replace (forallb allows (checking checks bits m)) with true; [reflexivity|]. symmetry. apply forallb_forall.
  intros e I. apply HA. apply (storage_file _ _ _ P) in I. destruct e as [k n|k n|n]; cbn [fits]; [| |destruct I].
  - assert (n <= N.of_nat (List.length bs) -> n * h_size h k <= h_limit h) as Z by (specialize (HS k); nia).
    destruct k; cbn [file_storage_ok] in I; try (exact (Z I)). destruct I as [I|(f & F & I)]; [exact (Z I)|]. specialize (HF f F). unfold count in I. nia.
  - cbn [file_storage_ok] in I. specialize (HS k). nia.
Qed.
Lemma program_64 h allows overflows checks args fs : host64 h -> answers h allows -> copes h overflows ->
  (forall f bs, fs f = Contents bs -> N.of_nat (List.length bs) < 2 ^ 29 /\ shallow h bs) ->
  program_on allows overflows checks 64 args fs = cli args fs.
Proof.
  intros Hh Ha Ho Hl. rewrite <- (host_cli_64 checks). apply (program_same h); [exact Ho|]. intros cfg bs _ F.
  destruct (Hl _ _ F) as [L S]. split; [apply (host64_same h allows bs Hh Ha); [lia|exact S]|]. split; [exact S|].
  intros m P. apply parsed_pair in P. destruct Hh as (HL & _ & HR & HS). apply (validation_fits h allows checks 64 bs m [] P Ha).
  - intros k. specialize (HS k). rewrite HL. change (2 ^ 63 - 1) with 9223372036854775807. change (2 ^ 29) with 536870912 in L. change (2 ^ 30) with 1073741824 in HS. nia.
  - intros f I. pose proof (locals_within _ _ _ _ P I) as LW. unfold count in LW. rewrite HL, HR. change (2 ^ 63 - 1) with 9223372036854775807. change (2 ^ 29) with 536870912 in L.
    change (2 ^ 32 - 1) with 4294967295 in LW. lia.
Qed.
Lemma program_any allows overflows checks bits args fs : bits = 64 \/ bits = 32 ->
  (forall f bs, fs f = Contents bs -> N.of_nat (List.length bs) < 2 ^ 32) ->
  program_on allows overflows checks bits args fs = Crash \/ program_on allows overflows checks bits args fs = cli args fs.
Proof.
  intros Hb Hl. destruct (program_either allows overflows checks bits args fs) as [H | H]; [auto|]. rewrite H.
  destruct Hb as [-> | ->]; [right; apply host_cli_64|].
  destruct (proj2 (host_cli_32 checks args fs Hl)); auto.
Qed.
Lemma program_32 h allows overflows checks args fs cfg bs msgs : answers h allows -> copes h overflows ->
  (forall f bs, fs f = Contents bs -> N.of_nat (List.length bs) < 2 ^ 32) ->
  config_new args = Some cfg -> fs (cfg_filename cfg) = Contents bs ->
  (forall k, (2 * N.of_nat (List.length bs) + 8) * h_size h k <= h_limit h) ->
  (forall m f, fst (p_module bs) = Ok m -> In f (m_funcs m) ->
    (2 * N.of_nat (List.length (fn_locals f)) + 8) * h_size h V_Val <= h_limit h /\
    (N.of_nat (List.length bs) + N.of_nat (List.length (fn_locals f))) * h_size h V_Ref <= h_limit h) ->
  (forall m, fst (p_module bs) = Ok m -> nested_within (h_safe h) m) ->
  cli args fs = Exit 0 msgs -> program_on allows overflows checks 32 args fs = Exit 0 msgs.
Proof.
  intros Ha Ho Hl E F Hk Hf Hn H.
  assert (Hm : exists m r, p_module bs = (Ok m, r)).
  { unfold cli in H. rewrite E, F in H. destruct (p_module bs) as [[m|e| |] r]; try discriminate. eauto. }
  destruct Hm as (m & r & Hm). rewrite Hm in Hf, Hn. cbn [fst] in Hf, Hn.
  assert (S : shallow h bs) by (apply (shallow_within _ _ _ _ Hm); apply Hn; reflexivity).
  rewrite (program_same h allows); [|exact Ho|].
  - apply (proj1 (host_cli_32 checks args fs Hl)). exact H.
  - intros cfg' bs' E' F'. rewrite E in E'. injection E' as <-. rewrite F in F'. injection F' as <-. rewrite Hm. split; [|split; [exact S|]].
    + refine (accepted_within h allows bs m r Hm Ha Hk _ S). intros f Hin. apply (Hf m f); [reflexivity|exact Hin].
    + intros m' [= <-]. apply (validation_fits h allows checks 32 bs m r Hm Ha Hk). intros f Hin. apply (Hf m f); [reflexivity|exact Hin].
Qed.
Lemma program_32_crash : exists name bs, List.length bs = 15%nat /\
  let fs := fun f => if String.eqb f name then Contents bs else CannotOpen in
  cli ["parser"; name]%string fs = Exit 1 [MsgParse UnexpectedEndOfFile] /\
  forall h allows overflows checks bits, host32 h -> answers h allows -> program_on allows overflows checks bits ["parser"; name]%string fs = Crash.
Proof.
  exists "a.wasm"%string, announcing. destruct host32_refutes as (H1 & H2 & H3). split; [exact H1|]. cbv zeta. split.
  - lazy. reflexivity.
  - intros h allows overflows checks bits Hh Ha. unfold program_on. cbn [config_new config_loop String.eqb Ascii.eqb Bool.eqb orb cfg_filename].
    change (config_new ["parser"; "a.wasm"]%string) with (Some (mkConfig "a.wasm" false)). cbn [cfg_filename].
    change (String.eqb "a.wasm" "a.wasm") with true. cbv iota. rewrite (H3 h allows Hh Ha). reflexivity.
Qed.
Lemma program_32_accepted : exists name bs, List.length bs = 30%nat /\
  let fs := fun f => if String.eqb f name then Contents bs else CannotOpen in
  cli ["parser"; name]%string fs = Exit 0 [] /\
  forall h allows overflows checks bits, host32 h -> answers h allows -> program_on allows overflows checks bits ["parser"; name]%string fs = Crash.
Proof.
  exists "a.wasm"%string, bomb. split; [reflexivity|]. cbv zeta.
  assert (E : config_new ["parser"; "a.wasm"]%string = Some (mkConfig "a.wasm" false)) by reflexivity.
  assert (F : String.eqb "a.wasm" "a.wasm" = true) by reflexivity.
  destruct bomb_read as (ls & L & P). unfold cli, program_on. rewrite E. cbn [cfg_filename cfg_print]. rewrite F. split.
  - rewrite P. cbn [fst]. match goal with |- match validate ?m with _ => _ end = _ => replace (validate m) with (VOk (mkModuleTypes [] [])) end;
      [reflexivity|]. clear. vm_compute. reflexivity.
  - intros h allows overflows checks bits Hh Ha. destruct (within_either allows bomb) as [W | W]; [rewrite W; reflexivity|].
    rewrite P in W. cbn [fst] in W. pose proof (within_needs h allows bomb _ Ha W _ (or_introl eq_refl)) as B. cbn [fn_locals] in B.
    destruct Hh as (HL & _ & _ & HS). rewrite L, HL in B. specialize (HS V_Val). change (2 ^ 32 - 1) with 4294967295 in B.
    change (2 ^ 31 - 1) with 2147483647 in B. nia.
Qed.

(** many local variables: 2^29 of them take up 2^29 bytes when they are read, and four times as much when they are checked *)
Definition crowd : list byte := preamble
  ++ [x01; x04; x01; x60; x00; x00] ++ [x03; x02; x01; x00] ++ [x0a; x0a; x01; x08; x01; x80; x80; x80; x80; x02; x7f; x0b].
Lemma crowd_read : exists ls, N.of_nat (List.length ls) = 2 ^ 29 /\
  p_module crowd = (Ok (mkModule [mkFuncTy [] []] [mkFunc 0 ls []] [] [] [] [] [] None [] []), []).
Proof.
  assert (L : exists ls, N.of_nat (List.length ls) = 2 ^ 29 /\ ls = expand_runs [(2 ^ 29, T_I32)]).
  { eexists. split; [|reflexivity]. unfold expand_runs. cbn [flat_map fst snd]. rewrite app_nil_r, repeat_length, N2Nat.id. reflexivity. }
  destruct L as (ls & L & E). exists ls. split; [exact L|].
  change (mkModule _ _ _ _ _ _ _ _ _ _) with (module_of [SpecFormat.S_Type [mkFuncTy [] []]; S_Function [0]; S_Code [(ls, [])]]).
  apply module_exact. split; [reflexivity|]. eexists. eexists. split; [reflexivity|]. split; [|split; [|split; [|reflexivity]]].
  2: { vm_compute. repeat split. }
  2: { left. reflexivity. }
  exists [[x01; x04; x01; x60; x00; x00]; [x03; x02; x01; x00]; [x0a; x0a; x01; x08; x01; x80; x80; x80; x80; x02; x7f; x0b]]. split; [|reflexivity].
  constructor; [|constructor; [|constructor; [|constructor]]].
  - eexists. split; [reflexivity|]. exists [x04], [x01; x60; x00; x00]. split; [reflexivity|]. split; [apply u32_run; reflexivity|].
    exists [x01], [x60; x00; x00]. split; [reflexivity|]. split; [apply u32_run; reflexivity|].
    exists [[x60; x00; x00]]. split; [|reflexivity]. constructor; [|constructor].
    exists [x00], [x00]. split; [reflexivity|].
    split; (exists [x00], []; split; [reflexivity|]; split; [apply u32_run; reflexivity|]; exists []; split; [constructor|reflexivity]).
  - eexists. split; [reflexivity|]. exists [x02], [x01; x00]. split; [reflexivity|]. split; [apply u32_run; reflexivity|].
    exists [x01], [x00]. split; [reflexivity|]. split; [apply u32_run; reflexivity|].
    exists [[x00]]. split; [|reflexivity]. constructor; [|constructor]. apply u32_run; reflexivity.
  - eexists. split; [reflexivity|]. exists [x0a], [x01; x08; x01; x80; x80; x80; x80; x02; x7f; x0b].
    split; [reflexivity|]. split; [apply u32_run; reflexivity|].
    exists [x01], [x08; x01; x80; x80; x80; x80; x02; x7f; x0b]. split; [reflexivity|]. split; [apply u32_run; reflexivity|].
    eexists. split; [constructor; [|constructor]|rewrite concat_cons, app_nil_r; reflexivity].
    exists [x08], [x01; x80; x80; x80; x80; x02; x7f; x0b]. split; [reflexivity|]. split; [apply u32_run; reflexivity|].
    exists [x01; x80; x80; x80; x80; x02; x7f], [x0b], [(2 ^ 29, T_I32)]. split; [reflexivity|].
    split; [|split; [exact E|split; [exact I|]]].
    + exists [x01], [x80; x80; x80; x80; x02; x7f]. split; [reflexivity|]. split; [apply u32_run; reflexivity|].
      exists [[x80; x80; x80; x80; x02; x7f]]. split; [|reflexivity]. constructor; [|constructor].
      exists [x80; x80; x80; x80; x02], [x7f]. split; [reflexivity|]. split; [apply u32_run; reflexivity|reflexivity].
    + exists []. split; [reflexivity|constructor].
Qed.
Lemma program_32_checking : exists name bs, List.length bs = 30%nat /\
  let fs := fun f => if String.eqb f name then Contents bs else CannotOpen in
  cli ["parser"; name]%string fs = Exit 0 [] /\
  forall h allows overflows checks bits, host32 h -> (forall k, h_size h k <= 2 ^ 24) -> answers h allows ->
    (exists m, parse_within allows bs = Ok m) /\ program_on allows overflows checks bits ["parser"; name]%string fs = Crash.
Proof.
  exists "a.wasm"%string, crowd. split; [reflexivity|]. cbv zeta.
  assert (E : config_new ["parser"; "a.wasm"]%string = Some (mkConfig "a.wasm" false)) by reflexivity.
  assert (F : String.eqb "a.wasm" "a.wasm" = true) by reflexivity.
  destruct crowd_read as (ls & L & P). unfold cli, program_on. rewrite E. cbn [cfg_filename cfg_print]. rewrite F.
  remember (mkModule [mkFuncTy [] []] [mkFunc 0 ls []] [] [] [] [] [] None [] []) as m eqn:M. split.
  - rewrite P. cbn [fst]. replace (validate m) with (VOk (mkModuleTypes [] [])); [reflexivity|]. rewrite M. clear. vm_compute. reflexivity.
  - intros h allows overflows checks bits (HL & HV & HR & HS) HU Ha.
    assert (W : parse_within allows crowd = Ok m).
    { apply (accepted_within h allows crowd m [] P Ha).
      - intros k. specialize (HU k). rewrite HL. change (2 * N.of_nat (List.length crowd) + 8) with 68. change (2 ^ 24) with 16777216 in HU. change (2 ^ 31 - 1) with 2147483647. lia.
      - rewrite M. intros f [<-|[]]. cbn [fn_locals]. rewrite HV, HL, L. change (2 ^ 29) with 536870912. change (2 ^ 31 - 1) with 2147483647. lia.
      - apply (shallow_within h crowd m [] P). rewrite M. intros e [<-|[]]. cbn. lia. }
    split; [exists m; exact W|]. rewrite W. destruct (overflows Validating m); [reflexivity|].
    assert (V : validate_within allows checks bits m = VPanic); [|rewrite V; reflexivity]. rewrite validate_within_eq.
    destruct (forallb allows (checking checks bits m)) eqn:A; [exfalso|reflexivity]. rewrite forallb_forall in A.
    assert (R : In (Reserve V_Ref (count ls)) (checking checks bits m)).
    { rewrite M. unfold checking. clear. right. right. left. reflexivity. }
    apply A in R. rewrite (proj1 Ha) in R; [discriminate|]. cbn [too_big]. unfold count. rewrite L, HL, HR. reflexivity.
Qed.

(** deeply nested code *)
Lemma program_short h allows overflows checks args fs : host64 h -> answers h allows -> copes h overflows ->
  (forall f bs, fs f = Contents bs -> N.of_nat (List.length bs) < 2 ^ 29 /\ N.of_nat (List.length bs) <= 2 * h_safe h + 1) ->
  program_on allows overflows checks 64 args fs = cli args fs.
Proof.
  intros Hh Ha Ho Hl. apply (program_64 h); try assumption. intros f bs F. destruct (Hl f bs F) as [L S]. split; [exact L|].
  apply short_shallow, S.
Qed.
Lemma program_tower h : 3 * h_levels h + 11 < 2 ^ 32 -> exists name bs, N.of_nat (List.length bs) <= 3 * h_levels h + 35 /\
  let fs := fun f => if String.eqb f name then Contents bs else CannotOpen in
  cli ["parser"; name]%string fs = Exit 0 [] /\
  forall allows overflows checks bits, answers h allows -> program_on allows overflows checks bits ["parser"; name]%string fs = Crash.
Proof.
  intros L. set (d := S (N.to_nat (h_levels h))). assert (D : N.of_nat (3 * d + 8) < 2 ^ 32) by (unfold d; lia).
  exists "a.wasm"%string, (encode (tower d)). split; [pose proof (t_length d D); unfold d in *; lia|]. cbv zeta.
  assert (E : config_new ["parser"; "a.wasm"]%string = Some (mkConfig "a.wasm" false)) by reflexivity.
  assert (F : String.eqb "a.wasm" "a.wasm" = true) by reflexivity.
  unfold cli, program_on. rewrite E. cbn [cfg_filename cfg_print]. rewrite F. split.
  - rewrite (t_read d D). cbn [fst]. rewrite t_valid. reflexivity.
  - intros allows overflows checks bits A. rewrite (tower_crashes h allows d A); [reflexivity|unfold d; lia|exact D].
Qed.
