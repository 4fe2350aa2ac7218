(** The call stack (C68). *)
From Coq Require Import Lia.
From Verif Require Import SpecStack AllocProof NestProof EncodeProof CodeProof ModuleClaims2 SpecParser.
Open Scope N_scope.

Lemma nest_bound bs n : In (Nest n) (requests bs) -> 2 * n <= N.of_nat (length bs).
Proof. intros I. exact (requests_ok _ _ I). Qed.
Lemma short_shallow h bs : N.of_nat (length bs) <= 2 * h_safe h + 1 -> shallow h bs.
Proof. intros L n I. apply nest_bound in I. lia. Qed.
Lemma shallow_within h bs m r : p_module bs = (Ok m, r) -> (shallow h bs <-> nested_within (h_safe h) m).
Proof.
  intros P. pose proof (nest_exact _ _ _ P) as E. split.
  - intros S e I. destruct (N.eq_dec (N.of_nat (depth_expr e)) 0) as [Z|Z]; [lia|]. apply S. apply E. split; [lia|]. exists e. split; [assumption|lia].
  - intros W n I. apply E in I. destruct I as (_ & e & I & L). specialize (W e I). lia.
Qed.
Lemma within_depth h allows bs m : answers h allows -> parse_within allows bs = Ok m -> nested_within (h_levels h) m.
Proof.
  intros [HT _] W e I. rewrite within_outcome in W. destruct (forallb _ _) eqn:E; [|discriminate].
  destruct (p_module bs) as [o r] eqn:P. cbn [fst] in W. subst o.
  destruct (N.le_gt_cases (N.of_nat (depth_expr e)) (h_levels h)) as [L|G]; [assumption|].
  assert (K : In (Nest (N.of_nat (depth_expr e))) (requests bs)).
  { apply (nest_exact _ _ _ P). split; [lia|]. exists e. split; [assumption|lia]. }
  rewrite forallb_forall in E. specialize (E _ K). rewrite (HT (Nest _) G) in E. discriminate.
Qed.

(** towers *)
Lemma occurs_nested d : forall j, occurs j (nested_blocks d) -> exists d', j = I_Block [] (nested_blocks d').
Proof.
  induction d as [|d IH]; intros j O; cbn [nested_blocks] in O.
  - inversion O as [e I|i sub e I]; subst; destruct I.
  - inversion O as [e I|i sub e I S O']; subst.
    + destruct I as [<-|[]]. exists d. reflexivity.
    + destruct I as [<-|[]]. destruct S as [<-|[]]. apply IH, O'.
Qed.
Lemma e_nested d : flat_map e_instr (nested_blocks d) = nested_bytes d.
Proof.
  induction d as [|d IH]; [reflexivity|]. cbn [nested_blocks flat_map nested_bytes]. rewrite app_nil_r. cbn [e_instr]. rewrite <- IH. reflexivity.
Qed.
Lemma e_body_length d : length (e_expr (nested_blocks d)) = (3 * d + 1)%nat.
Proof. unfold e_expr. rewrite e_nested, app_length, nested_length. reflexivity. Qed.
Lemma e_u32_length v : v < 2 ^ 32 -> (1 <= length (e_u32 v) <= 5)%nat.
Proof.
  intros L. apply (u_bytes_ok 5); [|lia]. change (2 ^ (7 * N.of_nat 5)) with 34359738368. change (2 ^ 32) with 4294967296 in L. lia.
Qed.
Definition t_code (d : nat) : list byte := e_vec e_code (m_funcs (tower d)).
Lemma t_code_eq d : t_code d = [x01] ++ e_u32 (N.of_nat (3 * d + 2)) ++ [x00] ++ e_expr (nested_blocks d).
Proof.
  unfold t_code, tower. cbn [m_funcs]. unfold e_vec. cbn [length flat_map]. rewrite app_nil_r. change (e_u32 (N.of_nat 1)) with [x01].
  unfold e_code, e_sized, e_func. cbn [fn_locals fn_body runs_of]. change (e_vec e_run []) with [x00]. f_equal. f_equal. f_equal. f_equal.
  rewrite app_length, e_body_length. cbn [length]. lia.
Qed.
Lemma t_code_length d : N.of_nat (3 * d + 2) < 2 ^ 32 -> (length (t_code d) <= 3 * d + 8)%nat.
Proof.
  intros L. rewrite t_code_eq, !app_length, e_body_length. pose proof (e_u32_length _ L). cbn [length]. lia.
Qed.
Lemma t_contents d : section_contents (tower d) = [(x01, [x01; x60; x00; x00]); (x03, [x01; x00]); (x0a, t_code d)].
Proof. reflexivity. Qed.
Lemma t_encode d : encode (tower d) = preamble ++ [x01; x04; x01; x60; x00; x00; x03; x02; x01; x00] ++
  x0a :: e_u32 (N.of_nat (length (t_code d))) ++ t_code d.
Proof. unfold encode. rewrite t_contents. cbn [flat_map fst snd]. unfold e_sized. cbn [length]. change (e_u32 (N.of_nat 4)) with [x04]. change (e_u32 (N.of_nat 2)) with [x02]. cbn [app]. rewrite app_nil_r. reflexivity. Qed.
Lemma t_length d : N.of_nat (3 * d + 8) < 2 ^ 32 -> (length (encode (tower d)) <= 3 * d + 32)%nat.
Proof.
  intros L. pose proof (t_code_length d) as T. assert (A : (length (t_code d) <= 3 * d + 8)%nat) by (apply T; lia).
  rewrite t_encode, !app_length. cbn [length]. rewrite app_length. pose proof (e_u32_length (N.of_nat (length (t_code d)))). change (length preamble) with 8%nat. lia.
Qed.
Lemma t_representable d : N.of_nat (3 * d + 8) < 2 ^ 32 -> representable (tower d).
Proof.
  intros L. split; [|split; [|split; [|split]]].
  - repeat constructor.
  - constructor.
  - intros e [<-|[]]. cbn [fn_body]. split.
    + repeat split.
      * intros O. apply occurs_nested in O. destruct O as [d' O]. discriminate.
      * intros O. apply occurs_nested in O. destruct O as [d' O]. discriminate.
      * intros j rt O B. apply occurs_nested in O. destruct O as [d' ->]. injection B as <-. cbn. lia.
    + intros j O. apply occurs_nested in O. destruct O as [d' ->]. split; [constructor|exact I].
  - intros f [<-|[]]. cbn. reflexivity.
  - rewrite t_contents. intros s [<-|[<-|[<-|[]]]]; cbn [snd]; try reflexivity. pose proof (t_code_length d) as T.
    assert (A : (length (t_code d) <= 3 * d + 8)%nat) by (apply T; lia). lia.
Qed.
Lemma t_read d : N.of_nat (3 * d + 8) < 2 ^ 32 -> p_module (encode (tower d)) = (Ok (tower d), []).
Proof. intros L. exact (round_trip _ (t_representable d L)). Qed.
Lemma v_nested c d : forall s, v_seq (v_instr c) (nested_blocks d) s = VOk s.
Proof.
  induction d as [|d IH]; intros s; [reflexivity|]. cbn [nested_blocks v_seq v_instr]. rewrite IH. cbn [vbind].
  unfold v_end, pop_frame, push_frame. cbn. rewrite Nat.eqb_refl. cbn. destruct s; reflexivity.
Qed.
Lemma t_func d cs : v_func {| fn_ty := 0; fn_locals := []; fn_body := nested_blocks d |} cs = v_func {| fn_ty := 0; fn_locals := []; fn_body := [] |} cs.
Proof.
  destruct cs as [c s]. unfold v_func. cbn [fn_ty fn_locals fn_body]. destruct (v_typeidx c 0) as [t| |]; [|reflexivity..]. cbn [vbind].
  unfold v_expr. rewrite v_nested. reflexivity.
Qed.
Lemma t_valid d : validate (tower d) = VOk (mkModuleTypes [] []).
Proof.
  transitivity (validate (tower 0)); [|reflexivity]. unfold validate, v_module.
  change (context_from (tower d)) with (context_from (tower 0)). destruct (context_from (tower 0)) as [c| |]; [|reflexivity..].
  unfold tower. cbn [vbind m_types m_funcs m_tables m_mems m_globals m_elem m_data m_start m_imports m_exports nested_blocks].
  destruct (v_each v_type_item [mkFuncTy [] []] (c, empty_stacks)) as [r| |]; [|reflexivity..]. cbn [vbind v_each]. rewrite t_func. reflexivity.
Qed.
Lemma tower_crashes h allows d : answers h allows -> h_levels h < N.of_nat d -> N.of_nat (3 * d + 8) < 2 ^ 32 ->
  parse_within allows (encode (tower d)) = Panic.
Proof.
  intros A G L. destruct (within_either allows (encode (tower d))) as [W|W]; [exact W|]. rewrite (t_read d L) in W. cbn [fst] in W.
  pose proof (within_depth _ _ _ _ A W (nested_blocks d) (or_introl eq_refl)) as B. rewrite nested_depth in B. lia.
Qed.
