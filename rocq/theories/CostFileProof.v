(** The steps of validation, in terms of the length of the file. *)
From Coq Require Import Lia.
From Verif Require Import SpecTyping SpecFormat SpecParser ParserMeta SectionsProof InstrProof CodeProof HostProof ModuleClaims2 EncodeProof StorageFileProof
  SpecEncoder ParserModule SpecCost ValidatorCost CostProof.
Open Scope list_scope.
Open Scope nat_scope.

(** Bytes that an instruction takes at least *)
Fixpoint bytes (i : instr) : nat :=
  match i with
  | I_Block _ b | I_Loop _ b => 3 + list_sum (map bytes b)
  | I_If _ b c => 3 + list_sum (map bytes b) + list_sum (map bytes c)
  | I_Br _ | I_BrIf _ | I_Call _ | I_CallIndirect _ _ => 2
  | I_BrTable xs _ => 2 + length xs
  | _ => 1
  end.
Lemma total_cons {A} (f : A -> nat) x xs : total f (x :: xs) = f x + total f xs.
Proof. reflexivity. Qed.
Lemma total_nil {A} (f : A -> nat) : total f [] = 0.
Proof. reflexivity. Qed.
Lemma total_app {A} (f : A -> nat) xs ys : total f (xs ++ ys) = total f xs + total f ys.
Proof. unfold total. rewrite map_app, list_sum_app. reflexivity. Qed.
Lemma total_flat {A B} (f : B -> nat) (g : A -> list B) xs : total f (flat_map g xs) = total (fun x => total f (g x)) xs.
Proof. induction xs as [|x xs IH]; [reflexivity|]. cbn [flat_map]. rewrite total_app, total_cons, IH. reflexivity. Qed.
Lemma total_plus {A} (f g : A -> nat) xs : total (fun x => f x + g x) xs = total f xs + total g xs.
Proof. induction xs as [|x xs IH]; [reflexivity|]. rewrite !total_cons, IH. lia. Qed.
Lemma total_le {A} (f g : A -> nat) xs : (forall x, In x xs -> f x <= g x) -> total f xs <= total g xs.
Proof. induction xs as [|x xs IH]; intros H; [apply le_n|]. rewrite !total_cons. pose proof (H x (or_introl eq_refl)). specialize (IH (fun y Y => H y (or_intror Y))). lia. Qed.
Lemma total_mul {A} k (f : A -> nat) xs : total (fun x => k * f x) xs = k * total f xs.
Proof. induction xs as [|x xs IH]; [symmetry; apply Nat.mul_0_r|]. rewrite !total_cons, IH. lia. Qed.

Notation fd := whasm_format.
Lemma bytes_lists : (forall bs i, enc_instr fd bs i -> bytes i <= length bs) /\ (forall bs is, enc_instrs fd bs is -> total bytes is <= length bs).
Proof.
  apply enc_instr_instrs_ind; intros.
  all: try (match goal with H : plain_opcode ?i = _ |- _ => destruct i; try discriminate H; cbn; lia end).
  all: try (match goal with H : index_opcode ?i = _ |- _ => match goal with U : enc_u32 _ _ _ |- _ => apply wordy_u32 in U end; destruct i; try discriminate H; cbn; lia end).
  all: try (match goal with H : memarg_opcode ?i = _ |- _ => destruct i; try discriminate H; cbn; lia end).
  all: unfold total in *; cbn [bytes length map list_sum fold_right]; change (fold_right Nat.add 0) with list_sum; rewrite ?app_length; cbn [length]; try lia.
  - match goal with H : enc_vec _ _ _ _ |- _ => apply vec_count in H; [|apply wordy_u32] end. unfold labelidx, u32 in *. lia.
  - match goal with H : enc_u32 _ _ _ |- _ => apply wordy_u32 in H end. lia.
  - match goal with H : enc_blockty _ _ |- _ => destruct H as [[-> _]|(t & -> & _)] end; cbn [length]; lia.
  - match goal with H : enc_blockty _ _ |- _ => destruct H as [[-> _]|(t & -> & _)] end; cbn [length]; lia.
  - match goal with H : enc_blockty _ _ |- _ => destruct H as [[-> _]|(t & -> & _)] end; cbn [length]; lia.
Qed.
Lemma bytes_expr b e : enc_expr fd b e -> 1 + total bytes e <= length b.
Proof. intros (isb & -> & H). apply bytes_lists in H. rewrite app_length. cbn [length]. lia. Qed.
Lemma list_weigh {A} (E : format A) (w : A -> nat) bs xs : (forall b x, E b x -> w x <= length b) -> enc_list E bs xs -> total w xs <= length bs.
Proof. intros W (ch & F & ->). induction F as [|c y ch xs H F IH]; cbn [concat length]; [apply le_n|]. rewrite app_length, total_cons. apply W in H. lia. Qed.
Lemma sized_weigh {A} (E : format A) (w : A -> nat) bs xs : (forall b x, E b x -> w x <= length b) -> enc_sized fd (enc_vec fd E) bs xs -> 2 + total w xs <= length bs.
Proof.
  intros W (n & es & -> & N & k & es2 & -> & K & H). apply wordy_u32 in N. apply wordy_u32 in K. apply (list_weigh _ w) in H; [|exact W]. rewrite !app_length. lia.
Qed.
Definition w_code (c : code) : nat := 2 + total bytes (snd c).
Definition w_glob (g : global) : nat := 2 + total bytes (glob_init g).
Definition w_elem' (e : elem) : nat := 1 + total bytes (el_offset e) + length (el_init e).
Definition w_data' (d : data) : nat := 1 + total bytes (da_offset d).
Definition load (s : section) : nat :=
  length (sec_types s) + 2 * length (sec_imports s) + total w_code (sec_codes s) + length (sec_tables s) + length (sec_mems s)
  + total w_glob (sec_globals s) + length (sec_exports s) + length (sec_starts s) + total w_elem' (sec_elems s) + total w_data' (sec_datas s).
Lemma total_len {A} k (xs : list A) : total (fun _ => k) xs = k * length xs.
Proof. apply total_const. Qed.
Lemma section_load bs s : enc_section fd bs s -> load s <= length bs.
Proof.
  destruct s; intros (b & -> & H); unfold load; cbn [sec_types sec_imports sec_codes sec_tables sec_mems sec_globals sec_exports sec_starts sec_elems sec_datas length];
    rewrite ?total_nil; try lia.
  - apply (sized_weigh _ (fun _ => 1)) in H; [rewrite total_len in H; lia|]. intros c x (ps & rs & -> & _). cbn. lia.
  - apply (sized_weigh _ (fun _ => 2)) in H; [rewrite total_len in H; lia|]. intros c x (mb & nb & db & -> & M & N & _). apply wordy_name in M. apply wordy_name in N. rewrite !app_length. lia.
  - apply (sized_weigh _ (fun _ => 1)) in H; [rewrite total_len in H; lia|]. intros c x (l & -> & _). cbn. lia.
  - apply (sized_weigh _ (fun _ => 1)) in H; [rewrite total_len in H; lia|]. intros c x. apply wordy_limits.
  - apply (sized_weigh _ w_glob) in H; [lia|]. intros c x (tb & eb & -> & -> & E). apply bytes_expr in E. rewrite app_length. unfold w_glob. cbn [length]. lia.
  - apply (sized_weigh _ (fun _ => 1)) in H; [rewrite total_len in H; lia|]. intros c x (nb & db & -> & M & _). apply wordy_name in M. rewrite app_length. lia.
  - apply (sized_weigh _ w_elem') in H; [lia|]. intros c x (xb & ob & ib & -> & X & O & V). apply wordy_u32 in X. apply bytes_expr in O. apply vec_count in V; [|apply wordy_u32].
    rewrite !app_length. unfold w_elem'. unfold funcidx, u32 in *. lia.
  - apply (sized_weigh _ w_code) in H; [lia|]. intros c x (n & es & -> & N & rb & eb & runs & -> & R & _ & _ & E). apply wordy_u32 in N. apply wordy_vec in R. apply bytes_expr in E.
    rewrite !app_length. unfold w_code. lia.
  - apply (sized_weigh _ w_data') in H; [lia|]. intros c x (xb & ob & ib & -> & X & O & V). apply wordy_u32 in X. apply bytes_expr in O.
    rewrite !app_length. unfold w_data'. lia.
Qed.

(** ** No more than so many steps for each byte *)
Definition below (W : nat) (ws : list nat) : Prop := forall x, entry ws x <= W.
Lemma below_cons W w ws : w <= W -> below W ws -> below W (w :: ws).
Proof. intros H B x. unfold entry. destruct (N.to_nat x) eqn:E; cbn [nth]; [exact H|]. specialize (B (N.of_nat n)). unfold entry in B. rewrite Nnat.Nat2N.id in B. exact B. Qed.
Lemma below_all W ws : (forall w, In w ws -> w <= W) -> below W ws.
Proof. intros H x. unfold entry. destruct (nth_in_or_default (N.to_nat x) ws 0) as [I| ->]; [apply H, I|lia]. Qed.
Lemma below_map {A} W (f : A -> nat) xs : (forall x, In x xs -> f x <= W) -> below W (map f xs).
Proof. intros H. apply below_all. intros w I. apply in_map_iff in I as (x & <- & I). apply H, I. Qed.
Lemma nested_in j e : well_nested e -> In j e -> well_nested [j].
Proof.
  assert (G : forall x, occurs x [j] -> In j e -> occurs x e).
  { intros x O J. remember [j] as l eqn:L. destruct O as [l I|i sub l I I2 O]; subst l; destruct I as [<-|[]].
    - apply occurs_here. exact J.
    - eapply occurs_inside; eassumption. }
  intros (A & B & C) J. split; [|split]; [intros O; apply A, G; assumption|intros O; apply B, G; assumption|].
  intros x rt O. apply C. apply G; assumption.
Qed.
Lemma nested_sub i sub : well_nested [i] -> In sub (children i) -> well_nested sub.
Proof.
  intros (A & B & C) J. split; [|split].
  - intros O. apply A. eapply occurs_inside; [left; reflexivity|exact J|exact O].
  - intros O. apply B. eapply occurs_inside; [left; reflexivity|exact J|exact O].
  - intros x rt O. apply C. eapply occurs_inside; [left; reflexivity|exact J|exact O].
Qed.
Lemma time_bytes W ts fs r i : below W ts -> below W fs -> r <= W -> well_nested [i] ->
  forall ls, below (S W) ls -> time ts fs r ls i <= (W + 5) * bytes i.
Proof.
  intros BT BF BR. induction i as [i IH] using instr_children_ind. intros WN ls BL.
  assert (SQ : forall sub, In sub (children i) -> forall ls, below (S W) ls -> list_sum (map (time ts fs r ls) sub) <= (W + 5) * list_sum (map bytes sub)).
  { intros sub I ls' B'. change (total (time ts fs r ls') sub <= (W + 5) * total bytes sub). rewrite <- total_mul. apply total_le. intros j J.
    pose proof (IH sub I) as IH'. rewrite Forall_forall in IH'. apply IH'; [exact J| |exact B']. eapply nested_in; [|exact J]. eapply nested_sub; eassumption. }
  assert (BK : forall rt, block_type i = Some rt -> length rt <= 1).
  { intros rt B. destruct WN as (_ & _ & C). eapply C; [|exact B]. apply occurs_here. left. reflexivity. }
  destruct (plain_type i) as [[t1 t2]|] eqn:P.
  { clear SQ IH. destruct i; try discriminate P; cbn [time bytes]; injection P as <- <-; cbn [plain_type length]; lia. }
  destruct i; try discriminate P; cbn [time bytes plain_type]; try lia.
  - pose proof (BK _ eq_refl). assert (B1 : below (S W) (length a :: ls)) by (apply below_cons; [lia|exact BL]). pose proof (SQ b (or_introl eq_refl) _ B1). nia.
  - pose proof (BK _ eq_refl). assert (B1 : below (S W) (0 :: ls)) by (apply below_cons; [lia|exact BL]). pose proof (SQ b (or_introl eq_refl) _ B1). nia.
  - pose proof (BK _ eq_refl). assert (B1 : below (S W) (length a :: ls)) by (apply below_cons; [lia|exact BL]). pose proof (SQ b (or_introl eq_refl) _ B1).
    pose proof (SQ c (or_intror (or_introl eq_refl)) _ B1). nia.
  - pose proof (BL a). lia.
  - pose proof (BL a). lia.
  - pose proof (BL b). nia.
  - pose proof (BF a). lia.
  - pose proof (BT a). lia.
Qed.
Lemma const_bytes W ts fs e : below W ts -> below W fs -> well_nested e -> const_time ts fs e <= 3 + (W + 6) * total bytes e.
Proof.
  intros BT BF WN. unfold const_time. rewrite total_plus. assert (X : total (fun _ : instr => 1) e <= total bytes e).
  { apply total_le. intros i _. destruct i; cbn [bytes]; lia. }
  assert (Y : total (time ts fs 0 [1]) e <= (W + 5) * total bytes e); [|lia].
  rewrite <- total_mul. apply total_le. intros i I. apply time_bytes; try assumption; [lia|eapply nested_in; eassumption|]. apply below_all. intros w [<-|[]]. lia.
Qed.
Lemma total_flat_len {A B} (g : A -> list B) xs : length (flat_map g xs) = total (fun x => length (g x)) xs.
Proof. rewrite <- (Nat.mul_1_l (length _)), <- total_len, total_flat. apply total_ext. intros x. rewrite total_len. apply Nat.mul_1_l. Qed.
Definition module_load (m : module) : nat :=
  length (m_types m) + 2 * length (m_imports m) + total (fun f => 2 + total bytes (fn_body f)) (m_funcs m) + length (m_tables m) + length (m_mems m)
  + total w_glob (m_globals m) + length (m_exports m) + match m_start m with Some _ => 1 | None => 0 end + total w_elem' (m_elem m) + total w_data' (m_data m).
Lemma pair_load ts : forall cs, total (fun f => 2 + total bytes (fn_body f)) (pair_funcs ts cs) <= total w_code cs.
Proof.
  unfold pair_funcs. induction ts as [|t ts IH]; intros [|c cs]; cbn [combine map]; try (rewrite total_nil; lia). rewrite !total_cons. specialize (IH cs). unfold w_code in *. cbn [fn_body fst snd] in *. lia.
Qed.
Lemma file_load bs m : enc_module fd bs m -> module_load m + 8 <= length bs.
Proof.
  intros (body & secs & -> & EL & _ & _ & ->). apply (list_weigh _ load) in EL; [|exact section_load]. rewrite app_length. cbn [preamble length].
  enough (module_load (module_of secs) <= total load secs) by lia. clear EL.
  unfold module_load. cbn [module_of m_types m_funcs m_tables m_mems m_globals m_elem m_data m_start m_imports m_exports].
  pose proof (pair_load (flat_map sec_typeidxs secs) (flat_map sec_codes secs)) as PL.
  assert (ST : match hd_error (flat_map sec_starts secs) with Some _ => 1 | None => 0 end <= length (flat_map sec_starts secs)).
  { destruct (flat_map sec_starts secs); cbn; lia. }
  generalize dependent (total (fun f => 2 + total bytes (fn_body f)) (pair_funcs (flat_map sec_typeidxs secs) (flat_map sec_codes secs))). intros x X.
  generalize dependent (match hd_error (flat_map sec_starts secs) with Some _ => 1 | None => 0 end). intros y Y.
  rewrite total_flat in X. rewrite total_flat_len in Y.
  rewrite !total_flat_len, !total_flat.
  unfold load. rewrite !total_plus, !total_mul. lia.
Qed.
Lemma turnover_file bs m t : enc_module fd bs m -> In t (m_types m) -> turnover t + 8 <= length bs.
Proof.
  intros (body & secs & -> & EL & _ & _ & ->) I. cbn [module_of m_types] in I. apply in_flat_map in I. destruct I as (s & I & J).
  destruct (enc_list_within _ _ _ _ EL I) as (b & B & L). destruct s; cbn [sec_types] in J; try destruct J. destruct B as (b' & -> & B).
  apply enc_sized_within in B as (b1 & B & L1). destruct (enc_vec_within _ _ _ _ _ B J) as (b2 & (ps & rs & -> & P & R) & L2).
  assert (V : wordy enc_valty) by (intros c y ->; cbn; lia).
  apply vec_count in P; [|exact V]. apply vec_count in R; [|exact V]. unfold turnover. rewrite !app_length in *. cbn [preamble length] in *. rewrite app_length in *. lia.
Qed.
Lemma module_time_load m W : (forall x, In x (module_exprs m) -> well_nested x) -> (forall t, In t (m_types m) -> turnover t <= W) ->
  module_time m <= (W + 6) * module_load m + declared m.
Proof.
  intros WN HW. unfold module_time. set (ts := type_widths m). set (fs := func_widths m).
  assert (BT : below W ts) by (apply below_map; exact HW).
  assert (BF : below W fs) by (apply below_map; intros x _; apply BT).
  assert (F : total (fun f => 3 + func_time m f) (m_funcs m) <= (W + 6) * total (fun f => 2 + total bytes (fn_body f)) (m_funcs m) + declared m).
  { unfold declared. rewrite <- total_mul, <- total_plus. apply total_le. intros f I. unfold func_time. fold ts fs.
    assert (X : forall x, entry (map (fun t => length (ft_results t)) (m_types m)) x + entry (map (fun t => length (ft_params t)) (m_types m)) x <= W).
    { intros x. unfold entry. destruct (nth_error (m_types m) (N.to_nat x)) as [t|] eqn:E.
      - rewrite (nth_error_nth _ _ 0 (map_nth_error (fun t => length (ft_results t)) _ _ E)), (nth_error_nth _ _ 0 (map_nth_error (fun t => length (ft_params t)) _ _ E)).
        apply nth_error_In in E. apply HW in E. unfold turnover in E. lia.
      - apply nth_error_None in E. rewrite !nth_overflow by (rewrite map_length; exact E). lia. }
    specialize (X (fn_ty f)). set (r := entry _ _) in *. set (p := entry _ _) in *.
    assert (T : total (time ts fs r [r]) (fn_body f) <= (W + 5) * total bytes (fn_body f)); [|nia].
    rewrite <- total_mul. apply total_le. intros i J. apply time_bytes; try assumption; [lia| |].
    - eapply nested_in; [|exact J]. apply WN. unfold module_exprs. apply in_or_app. left. apply in_map. exact I.
    - apply below_all. intros w [<-|[]]. lia. }
  assert (G : total (fun g => 3 + const_time ts fs (glob_init g)) (m_globals m) <= (W + 6) * total w_glob (m_globals m)).
  { rewrite <- total_mul. apply total_le. intros g I. unfold w_glob. pose proof (const_bytes W ts fs (glob_init g) BT BF) as C.
    assert (well_nested (glob_init g)) as N by (apply WN; unfold module_exprs; apply in_or_app; right; apply in_or_app; left; apply in_map; exact I). specialize (C N). nia. }
  assert (E : total (fun e => 2 + const_time ts fs (el_offset e) + length (el_init e)) (m_elem m) <= (W + 6) * total w_elem' (m_elem m)).
  { rewrite <- total_mul. apply total_le. intros e I. unfold w_elem'. pose proof (const_bytes W ts fs (el_offset e) BT BF) as C.
    assert (well_nested (el_offset e)) as N by (apply WN; unfold module_exprs; apply in_or_app; right; apply in_or_app; right; apply in_or_app; left; apply in_map; exact I). specialize (C N). nia. }
  assert (D : total (fun d => 2 + const_time ts fs (da_offset d)) (m_data m) <= (W + 6) * total w_data' (m_data m)).
  { rewrite <- total_mul. apply total_le. intros d I. unfold w_data'. pose proof (const_bytes W ts fs (da_offset d) BT BF) as C.
    assert (well_nested (da_offset d)) as N by (apply WN; unfold module_exprs; apply in_or_app; right; apply in_or_app; right; apply in_or_app; right; apply in_map; exact I). specialize (C N). nia. }
  assert (IM : length (flat_map imported_func (m_imports m)) <= length (m_imports m)).
  { rewrite total_flat_len, <- (Nat.mul_1_l (length (m_imports m))), <- total_len. apply total_le. intros x _. unfold imported_func. destruct (im_desc x); cbn; lia. }
  unfold module_load. rewrite !Nat.mul_add_distr_l.
  assert (ST : match m_start m with Some _ => 1 | None => 0 end <= (W + 6) * match m_start m with Some _ => 1 | None => 0 end) by (destruct (m_start m); lia).
  nia.
Qed.
Theorem steps_file bs m r : p_module bs = (Ok m, r) -> validation_steps m <= length bs * length bs + declared m.
Proof.
  intros P. assert (WN : forall x, In x (module_exprs m) -> well_nested x) by (intros x X; eapply parsed_module_nested; eassumption).
  apply module_exact in P as [_ P]. pose proof (file_load _ _ P) as L.
  assert (B : validation_steps m <= module_time m) by (apply steps_bound; intros x X; destruct (WN x X) as (A & B & _); split; assumption).
  assert (T : module_time m <= (length bs - 8 + 6) * module_load m + declared m).
  { apply module_time_load; [exact WN|]. intros t I. pose proof (turnover_file _ _ _ P I). lia. }
  assert ((length bs - 8 + 6) * module_load m <= length bs * length bs) by (apply Nat.mul_le_mono; lia). lia.
Qed.

(** ** The square is reached *)
Lemma u_bytes_length k : forall v, length (u_bytes k v) <= k.
Proof. induction k as [|k IH]; intros v; cbn [u_bytes length]; [lia|]. destruct (v <? 128)%N; cbn [length]; [lia|]. specialize (IH (v / 128)%N). lia. Qed.
Lemma flat_map_repeat {A B} (f : A -> list B) a k : length (flat_map f (repeat a k)) = k * length (f a).
Proof. induction k as [|k IH]; [reflexivity|]. cbn [repeat flat_map]. rewrite app_length, IH. lia. Qed.
Ltac short := unfold e_vec, e_code, e_func, e_sized, e_functy, e_expr, e_vec, e_u32; cbn [slow m_types m_funcs ft_params ft_results fn_locals fn_body flat_map fn_ty]; cbn [runs_of app];
    repeat (rewrite app_length || cbn [length flat_map]); rewrite ?flat_map_repeat; unfold e_u32;
    repeat match goal with |- context [u_bytes 5 ?v] => lazymatch goal with H : length (u_bytes 5 v) <= 5 |- _ => fail | _ => pose proof (u_bytes_length 5 v) end end.
Lemma slow_sections k : exists a b c, section_contents (slow k) = [a; b; c] /\ length (snd a) <= k + 16 /\ length (snd b) <= 10 /\ length (snd c) <= 2 * k + 17.
Proof.
  do 3 eexists. split; [reflexivity|]. cbn [snd]. split; [|split].
  - short. change (length (e_valty T_I32)) with 1. lia.
  - short. lia.
  - short. change (length (e_instr (I_Call 0%N))) with 2 in *. change (length (e_instr I_Unreachable)) with 1 in *. lia.
Qed.
Lemma slow_occurs k j : occurs j (I_Unreachable :: repeat (I_Call 0%N) k) -> j = I_Unreachable \/ j = I_Call 0%N.
Proof.
  intros O. assert (G : forall i, In i (I_Unreachable :: repeat (I_Call 0%N) k) -> i = I_Unreachable \/ i = I_Call 0%N).
  { intros i [<-|I]; [auto|]. apply repeat_spec in I. auto. }
  destruct O as [e I|i sub e I S O]; [apply G, I|]. destruct (G i I) as [-> | ->]; destruct S.
Qed.
Lemma slow_nested k : forall x, In x (module_exprs (slow k)) -> well_nested x.
Proof.
  intros x [<-|[]]. cbn [fn_body]. split; [|split].
  - intros O. apply slow_occurs in O as [O|O]; discriminate O.
  - intros O. apply slow_occurs in O as [O|O]; discriminate O.
  - intros j rt O. apply slow_occurs in O as [-> | ->]; discriminate.
Qed.
Lemma slow_representable k : (N.of_nat k < 2 ^ 30)%N -> representable (slow k).
Proof.
  intros K. split; [|split; [|split; [|split]]].
  - unfold module_u32s. cbn. repeat constructor.
  - constructor.
  - intros e E. split; [apply (slow_nested k), E|]. destruct E as [<-|[]]. intros j O. cbn [fn_body] in O. apply slow_occurs in O as [-> | ->]; split; try exact I; repeat constructor.
  - intros f [<-|[]]. reflexivity.
  - destruct (slow_sections k) as (a & b & c & -> & A & B & C). intros s [<-|[<-|[<-|[]]]]; lia.
Qed.
Lemma slow_length k : length (encode (slow k)) <= 3 * k + 69.
Proof.
  destruct (slow_sections k) as (a & b & c & E & A & B & C). unfold encode. rewrite E. cbn [flat_map]. unfold e_sized, e_u32. rewrite app_length. cbn [preamble length app].
  rewrite !app_length. cbn [length]. rewrite !app_length. cbn [length].
  pose proof (u_bytes_length 5 (N.of_nat (length (snd a)))). pose proof (u_bytes_length 5 (N.of_nat (length (snd b)))). pose proof (u_bytes_length 5 (N.of_nat (length (snd c)))). rewrite ?app_length. cbn [length]. lia.
Qed.
Lemma slow_pops ts : forall c, let s := mkStacks [] [mkFrame [] [] 0 true] in pop_operands ts s = VOk s /\ v_instr c I_Unreachable (mkStacks [] [mkFrame [] [] 0 false]) = VOk s.
Proof.
  intros c s. split; [|reflexivity]. unfold pop_operands. generalize (rev ts). intros l. induction l as [|t l IH]; [reflexivity|]. cbn [pop_all]. exact IH.
Qed.
Theorem slow_valid k : validate (slow k) = VOk (mkModuleTypes [] []).
Proof.
  unfold validate, v_module. set (t := mkFuncTy (repeat T_I32 k) []).
  change (context_from (slow k)) with (VOk (mkContext [t] [t] [] [] [] [] None)). cbn [vbind]. set (c := mkContext [t] [t] [] [] [] [] None).
  change (v_each v_type_item (m_types (slow k)) (c, empty_stacks)) with (VOk ([tt], (c, empty_stacks))). cbn [vbind snd].
  assert (F : v_each v_func (m_funcs (slow k)) (c, empty_stacks) = VOk ([t], (c, empty_stacks))).
  { cbn [slow m_funcs v_each]. unfold v_func. cbn [fn_ty]. change (v_typeidx c 0%N) with (VOk t). cbn [vbind fn_locals fn_body]. change (ft_results t) with (@nil valty).
    set (c' := set_locals _ _). change (push_frame [] [] empty_stacks) with (mkStacks [] [mkFrame [] [] 0 false]). unfold v_expr. cbn [v_seq].
    rewrite (proj2 (slow_pops [] c')). cbn [vbind].
    assert (S : v_seq (v_instr c') (repeat (I_Call 0%N) k) (mkStacks [] [mkFrame [] [] 0 true]) = VOk (mkStacks [] [mkFrame [] [] 0 true])).
    { generalize k. intros n. induction n as [|n IH]; [reflexivity|]. cbn [repeat v_seq v_instr]. change (v_funcidx c' 0%N) with (VOk t). cbn [vbind].
      rewrite (proj1 (slow_pops (ft_params t) c')). cbn [vbind]. change (push_operands (ft_results t)) with (fun s : stacks => s). cbn beta. exact IH. }
    rewrite S. cbn [vbind]. reflexivity. }
  rewrite F. reflexivity.
Qed.
Theorem slow_steps k : validation_steps (slow k) = k * k + 3 * k + 11.
Proof.
  rewrite (steps_exact (slow k)) with (mt := mkModuleTypes [] []).
  - unfold module_time, func_time, type_widths, func_widths, slow, turnover, total.
    cbn [m_types m_funcs m_imports m_tables m_mems m_globals m_elem m_data m_start m_exports flat_map map app fn_ty fn_body fn_locals ft_params ft_results entry nth N.to_nat list_sum fold_right time length].
    rewrite repeat_length. assert (S : forall ts fs r ls n, list_sum (map (time ts fs r ls) (repeat (I_Call 0%N) n)) = n * (2 + entry fs 0%N)).
    { intros ts fs r ls n. induction n as [|n IH]; [reflexivity|]. cbn [repeat map list_sum fold_right]. change (fold_right Nat.add 0) with list_sum. rewrite IH. cbn [time]. lia. }
    change (fold_right Nat.add 0) with list_sum. rewrite S. cbn. rewrite ?repeat_length. lia.
  - intros x X. destruct (slow_nested k x X) as (A & B & _). split; assumption.
  - apply slow_valid.
Qed.
Theorem slow_file k : (N.of_nat k < 2 ^ 30)%N ->
  p_module (encode (slow k)) = (Ok (slow k), []) /\ validate (slow k) = VOk (mkModuleTypes [] []) /\ declared (slow k) = 0 /\
  length (encode (slow k)) <= 3 * k + 69 /\ validation_steps (slow k) = k * k + 3 * k + 11.
Proof.
  intros K. split; [apply round_trip, slow_representable, K|]. split; [apply slow_valid|]. split; [reflexivity|]. split; [apply slow_length|apply slow_steps].
Qed.
Theorem not_linear c : (N.of_nat c < 2 ^ 20)%N -> exists bs m mt,
  p_module bs = (Ok m, []) /\ validate m = VOk mt /\ declared m = 0 /\ c * length bs < validation_steps m.
Proof.
  intros C. set (k := 3 * c + 70). assert (K : (N.of_nat k < 2 ^ 30)%N) by (unfold k; lia).
  destruct (slow_file k K) as (P & V & D & L & S). exists (encode (slow k)), (slow k), (mkModuleTypes [] []).
  repeat split; try assumption. rewrite S. apply (Nat.mul_le_mono_l _ _ c) in L. unfold k in *. nia.
Qed.
