(** The canonical encoder produces encodings. *)
From Coq Require Import Lia ZifyN ZifyNat.
From Verif Require Import SpecFormat SpecCode SpecEncoder ParserMeta InstrProof ModuleProof SectionsProof CodeProof.
Open Scope N_scope.

(** induction over instruction trees *)
Lemma instr_children_ind (P : instr -> Prop) :
  (forall i, (forall sub, In sub (children i) -> Forall P sub) -> P i) -> forall i, P i.
Proof.
  intros H. fix IH 1. intros i. apply H.
  assert (L : forall rt b, i = I_Block rt b \/ i = I_Loop rt b \/ (exists c, i = I_If rt b c \/ i = I_If rt c b) -> Forall P b).
  2: { clear IH. intros sub I. destruct i; cbn in I; try contradiction.
       - destruct I as [<-|[]]. eauto.
       - destruct I as [<-|[]]. eauto.
       - destruct I as [<-|[<-|[]]]; eauto 10. }
  destruct i; intros rt x Q;
  try (exfalso; clear - Q; destruct Q as [Q|[Q|(? & [Q|Q])]]; discriminate Q).
  - assert (B : Forall P b) by (clear Q; induction b as [|y b IHb]; [constructor|constructor; [apply IH|exact IHb]]).
    clear IH. destruct Q as [Q|[Q|(? & [Q|Q])]]; try discriminate Q. injection Q as <- <-. exact B.
  - assert (B : Forall P b) by (clear Q; induction b as [|y b IHb]; [constructor|constructor; [apply IH|exact IHb]]).
    clear IH. destruct Q as [Q|[Q|(? & [Q|Q])]]; try discriminate Q. injection Q as <- <-. exact B.
  - assert (B : Forall P b) by (clear Q; induction b as [|y b IHb]; [constructor|constructor; [apply IH|exact IHb]]).
    assert (C : Forall P c) by (clear Q; induction c as [|y c IHc]; [constructor|constructor; [apply IH|exact IHc]]).
    clear IH. destruct Q as [Q|[Q|(? & [Q|Q])]]; try discriminate Q; injection Q; intros; subst; assumption.
Qed.

(** ** Integers *)
Lemma to_byte_of n : n < 256 -> Byte.to_N (byte_of n) = n.
Proof.
  intros H. unfold byte_of. destruct (Byte.of_N n) as [b|] eqn:E.
  - apply Byte.to_of_N. assumption.
  - apply Byte.of_N_None_iff in E. lia.
Qed.
Lemma u_bytes_ok k : forall v, v < 2 ^ (7 * N.of_nat k) -> (1 <= k)%nat ->
  leb (u_bytes k v) /\ uleb_val (u_bytes k v) = v /\ (1 <= length (u_bytes k v) <= k)%nat.
Proof.
  induction k as [|k IH]; intros v B K; [lia|]. cbn [u_bytes].
  destruct (N.ltb_spec v 128) as [L|L].
  - split; [constructor; rewrite to_byte_of; lia|]. split; [|cbn; lia].
    cbn [uleb_val]. unfold payload. rewrite to_byte_of by lia. rewrite N.mod_small by lia. lia.
  - assert (M : v mod 128 < 128) by (apply N.mod_lt; lia).
    assert (K1 : (1 <= k)%nat).
    { destruct k; [|lia]. change (2 ^ (7 * N.of_nat 1)) with 128 in B. lia. }
    destruct (IH (v / 128)) as (I1 & I2 & I3); [|assumption|].
    { apply N.div_lt_upper_bound; [lia|]. change 128 with (2 ^ 7). rewrite <- N.pow_add_r.
      replace (7 + 7 * N.of_nat k) with (7 * N.of_nat (S k)) by lia. assumption. }
    split; [constructor; [rewrite to_byte_of; lia|assumption]|]. split; [|cbn [length]; lia].
    cbn [uleb_val]. unfold payload. rewrite to_byte_of by lia. rewrite I2.
    replace (v mod 128 + 128) with (v mod 128 + 1 * 128) by lia. rewrite N.mod_add by lia.
    rewrite N.mod_small by assumption. rewrite N.add_comm. symmetry. apply N.div_mod. lia.
Qed.
Lemma s_bytes_ok k : forall v, (1 <= k)%nat -> (- 2 ^ (7 * Z.of_nat k - 1) <= v < 2 ^ (7 * Z.of_nat k - 1))%Z ->
  leb (s_bytes k v) /\ sleb_val (s_bytes k v) = v /\ (1 <= length (s_bytes k v) <= k)%nat.
Proof.
  induction k as [|k IH]; intros v K B; [lia|]. cbn [s_bytes].
  assert (M : (0 <= v mod 128 < 128)%Z) by (apply Z.mod_pos_bound; lia).
  destruct (((-64 <=? v) && (v <? 64))%Z) eqn:C.
  - apply andb_true_iff in C. destruct C as [C1 C2]. apply Z.leb_le in C1. apply Z.ltb_lt in C2.
    split; [constructor; rewrite to_byte_of; lia|]. split; [|cbn; lia].
    cbn [sleb_val]. unfold payload7s, payload. rewrite to_byte_of by lia. rewrite N.mod_small by lia.
    rewrite Z2N.id by lia. pose proof (Z.div_mod v 128 ltac:(lia)) as D.
    destruct (N.ltb_spec (Z.to_N (v mod 128)) 64) as [E|E].
    + assert (v / 128 = 0 \/ v / 128 = -1)%Z by (pose proof (Z.div_le_lower_bound v 128 (-1) ltac:(lia) ltac:(lia)); pose proof (Z.div_lt_upper_bound v 128 1 ltac:(lia) ltac:(lia)); lia). lia.
    + assert (v / 128 = 0 \/ v / 128 = -1)%Z by (pose proof (Z.div_le_lower_bound v 128 (-1) ltac:(lia) ltac:(lia)); pose proof (Z.div_lt_upper_bound v 128 1 ltac:(lia) ltac:(lia)); lia). lia.
  - assert (K1 : (1 <= k)%nat).
    { destruct k; [|lia]. change (2 ^ (7 * Z.of_nat 1 - 1))%Z with 64%Z in B.
      destruct (Z.leb_spec (-64) v); destruct (Z.ltb_spec v 64); cbn in C; try discriminate; lia. }
    assert (P : (2 ^ (7 * Z.of_nat (S k) - 1) = 128 * 2 ^ (7 * Z.of_nat k - 1))%Z).
    { change 128%Z with (2 ^ 7)%Z. rewrite <- Z.pow_add_r by lia. f_equal. lia. }
    destruct (IH (v / 128)%Z K1) as (I1 & I2 & I3).
    { rewrite P in B. split; [apply Z.div_le_lower_bound; lia|apply Z.div_lt_upper_bound; lia]. }
    split; [constructor; [rewrite to_byte_of; lia|assumption]|]. split; [|cbn [length]; lia].
    rewrite sleb_val_cons by assumption. rewrite I2. unfold payload. rewrite to_byte_of by lia.
    replace (Z.to_N (v mod 128) + 128) with (Z.to_N (v mod 128) + 1 * 128) by lia. rewrite N.mod_add by lia.
    rewrite N.mod_small by lia. rewrite Z2N.id by lia. pose proof (Z.div_mod v 128 ltac:(lia)). lia.
Qed.
Lemma le_bytes_ok k : forall v, v < 256 ^ N.of_nat k -> enc_float k (le_bytes k v) v.
Proof.
  induction k as [|k IH]; intros v B.
  - split; [reflexivity|]. split; [assumption|]. intros [|i] b H; discriminate.
  - assert (M : v mod 256 < 256) by (apply N.mod_lt; lia).
    destruct (IH (v / 256)) as (I1 & I2 & I3).
    { apply N.div_lt_upper_bound; [lia|]. rewrite <- N.pow_succ_r'. rewrite Nat2N.inj_succ in B. assumption. }
    cbn [le_bytes]. split; [cbn [length]; lia|]. split; [assumption|]. intros [|i] b H.
    + injection H as <-. rewrite to_byte_of by assumption. change (256 ^ N.of_nat 0) with 1. rewrite N.div_1_r. reflexivity.
    + cbn [nth_error] in H. apply I3 in H. rewrite H, N.div_div by (try apply N.pow_nonzero; lia).
      rewrite Nat2N.inj_succ, N.pow_succ_r'. reflexivity.
Qed.

Definition small (bs : list byte) : Prop := N.of_nat (length bs) < 2 ^ 32.
Lemma small_app a b : small (a ++ b) -> small a /\ small b.
Proof. unfold small. rewrite app_length. lia. Qed.
Lemma small_cons x b : small (x :: b) -> small b.
Proof. unfold small. cbn [length]. lia. Qed.

Section Encode.
Variable fd : fdialect.
Hypothesis F_len : forall size len, N.of_nat len <= (size + 6) / 7 -> fd_int_len fd size len.
Hypothesis F_loc : forall n, N.of_nat n < 2 ^ 32 -> fd_locals fd n.
Definition reserved_ok (e : expr) : Prop :=
  forall j, occurs j e ->
    match j with I_CallIndirect _ x | I_MemSize x | I_MemGrow x => fd_reserved fd (e_u32 x) | _ => True end.

Lemma e_u32_ok v : v < 2 ^ 32 -> enc_u32 fd (e_u32 v) v.
Proof.
  intros H. assert (B : v < 2 ^ (7 * N.of_nat 5)) by (change (2 ^ (7 * N.of_nat 5)) with (2 ^ 35); lia).
  destruct (u_bytes_ok 5 v B ltac:(lia)) as (H1 & H2 & H3). split.
  - split; [assumption|]. split; assumption.
  - apply F_len. unfold e_u32. change ((32 + 6) / 7) with 5. lia.
Qed.
Lemma e_u32_pos v : v < 2 ^ 32 -> (1 <= length (e_u32 v))%nat.
Proof.
  intros H. assert (B : v < 2 ^ (7 * N.of_nat 5)) by (change (2 ^ (7 * N.of_nat 5)) with (2 ^ 35); lia).
  apply (u_bytes_ok 5 v B). lia.
Qed.
Lemma e_i32_ok v : (- 2 ^ 31 <= v < 2 ^ 31)%Z -> enc_s fd 32 (s_bytes 5 v) v.
Proof.
  intros H. destruct (s_bytes_ok 5 v ltac:(lia)) as (H1 & H2 & H3).
  { change (2 ^ (7 * Z.of_nat 5 - 1))%Z with (2 ^ 34)%Z. lia. }
  split; [split; [assumption|split; assumption]|]. apply F_len. change ((32 + 6) / 7) with 5. lia.
Qed.
Lemma e_i64_ok v : (- 2 ^ 63 <= v < 2 ^ 63)%Z -> enc_s fd 64 (s_bytes 10 v) v.
Proof.
  intros H. destruct (s_bytes_ok 10 v ltac:(lia)) as (H1 & H2 & H3).
  { change (2 ^ (7 * Z.of_nat 10 - 1))%Z with (2 ^ 69)%Z. lia. }
  split; [split; [assumption|split; assumption]|]. apply F_len. change ((64 + 6) / 7) with 10. lia.
Qed.

(** ** Vectors *)
Lemma flat_length {A} (e : A -> list byte) v : (forall x, In x v -> (1 <= length (e x))%nat) ->
  (length v <= length (flat_map e v))%nat.
Proof.
  induction v as [|x v IH]; intros H; [cbn; lia|]. cbn [flat_map length]. rewrite app_length.
  pose proof (H x (or_introl eq_refl)). specialize (IH (fun y I => H y (or_intror I))). lia.
Qed.
Lemma flat_small {A} (e : A -> list byte) v x : small (flat_map e v) -> In x v -> small (e x).
Proof.
  induction v as [|y v IH]; intros S I; [destruct I|]. cbn in S. apply small_app in S. destruct I as [<-|I]; [tauto|].
  apply IH; tauto.
Qed.
Lemma e_list_ok {A} (E : format A) (e : A -> list byte) v : (forall x, In x v -> E (e x) x) -> enc_list E (flat_map e v) v.
Proof.
  intros H. exists (map e v). split; [|rewrite flat_map_concat_map; reflexivity].
  induction v as [|x v IH]; constructor; [apply H; left; reflexivity|].
  apply IH. intros y I. apply H. right. assumption.
Qed.
Lemma e_vec_ok {A} (E : format A) (e : A -> list byte) v : small (e_vec e v) ->
  (forall x, In x v -> (1 <= length (e x))%nat) -> (forall x, In x v -> small (e x) -> E (e x) x) ->
  enc_vec fd E (e_vec e v) v.
Proof.
  intros S L H. unfold e_vec in S. apply small_app in S. destruct S as [_ S].
  exists (e_u32 (N.of_nat (length v))), (flat_map e v). split; [reflexivity|]. split.
  - apply e_u32_ok. pose proof (flat_length e v L). unfold small in S. lia.
  - apply e_list_ok. intros x I. apply H; [assumption|]. eapply flat_small; eassumption.
Qed.
Lemma e_vec_pos {A} (e : A -> list byte) v : small (e_vec e v) -> (forall x, In x v -> (1 <= length (e x))%nat) ->
  (1 <= length (e_vec e v))%nat.
Proof.
  intros S L. pose proof (flat_length e v L) as F. unfold e_vec in *. apply small_app in S. destruct S as [_ S].
  rewrite app_length. pose proof (e_u32_pos (N.of_nat (length v))). unfold small in S. lia.
Qed.
Lemma e_vec_map {A B} (E : format B) (e : A -> list byte) (f : A -> B) v : small (e_vec e v) ->
  (forall x, In x v -> (1 <= length (e x))%nat) -> (forall x, In x v -> small (e x) -> E (e x) (f x)) ->
  enc_vec fd E (e_vec e v) (map f v).
Proof.
  intros S L H. unfold e_vec in S. apply small_app in S. destruct S as [_ S].
  exists (e_u32 (N.of_nat (length v))), (flat_map e v). split; [reflexivity|]. rewrite map_length. split.
  - apply e_u32_ok. pose proof (flat_length e v L). unfold small in S. lia.
  - exists (map e v). split; [|rewrite flat_map_concat_map; reflexivity].
    assert (H' : forall x, In x v -> E (e x) (f x)) by (intros x I; apply H; [assumption|]; eapply flat_small; eassumption).
    clear S L H. induction v as [|x v IH]; constructor; [apply H'; left; reflexivity|].
    apply IH. intros y I. apply H'. right. assumption.
Qed.

(** ** Types and names *)
Lemma e_name_ok n : small (e_name n) -> utf8 n -> enc_name fd (e_name n) n.
Proof. intros S U. split; [|assumption]. apply e_vec_ok; [assumption|intros; cbn; lia|reflexivity]. Qed.
Lemma e_functy_ok t : small (e_functy t) -> enc_functy fd (e_functy t) t.
Proof.
  intros S. apply small_cons, small_app in S. eexists _, _. split; [reflexivity|].
  split; (apply e_vec_ok; [tauto|intros; cbn; lia|reflexivity]).
Qed.
Lemma e_limits_ok l : Forall (fun n => n < 2 ^ 32) (limits_u32s l) -> enc_limits fd (e_limits l) l.
Proof.
  unfold limits_u32s, enc_limits, e_limits. intros H. inversion H as [|? ? H1 H2]; subst.
  destruct (lim_max l) as [mx|].
  - inversion H2 as [|? ? H3 _]; subst. eexists _, _. split; [reflexivity|]. split; apply e_u32_ok; assumption.
  - eexists. split; [reflexivity|apply e_u32_ok; assumption].
Qed.
Lemma e_limits_pos l : (1 <= length (e_limits l))%nat.
Proof. unfold e_limits. destruct (lim_max l); cbn [length]; lia. Qed.
Lemma e_tablety_ok t : Forall (fun n => n < 2 ^ 32) (limits_u32s (tt_lim t)) -> enc_tablety fd (e_tablety t) t.
Proof.
  intros H. eexists. split; [reflexivity|]. split; [destruct (tt_elem t); reflexivity|apply e_limits_ok; assumption].
Qed.
Lemma e_blockty_ok rt : (length rt <= 1)%nat -> enc_blockty (e_blockty rt) rt.
Proof. destruct rt as [|t [|u rt]]; intros H; cbn in *; [left; auto|right; eauto|lia]. Qed.

(** ** Instructions *)
Definition good (e : expr) : Prop := well_nested e /\ code_in_range e /\ reserved_ok e.
Lemma good_sub e e' : (forall j, occurs j e' -> occurs j e) -> good e -> good e'.
Proof.
  intros S ((W1 & W2 & W3) & R & Z). split; [|split].
  - split; [|split]; [intros O; apply W1, S, O|intros O; apply W2, S, O|intros j rt O; apply W3; auto].
  - intros j O. apply R, S, O.
  - intros j O. apply Z, S, O.
Qed.
Lemma good_child i sub : good [i] -> In sub (children i) -> good sub.
Proof.
  intros G I. eapply good_sub; [|exact G]. intros j O. eapply occurs_inside; [left; reflexivity|eassumption|assumption].
Qed.
Lemma good_in e i : good e -> In i e -> good [i].
Proof.
  intros G I. eapply good_sub; [|exact G]. intros j O. inversion O as [? X|? sub ? X Y Z]; subst.
  - destruct X as [->|[]]. apply occurs_here. assumption.
  - destruct X as [->|[]]. eapply occurs_inside; eassumption.
Qed.
Lemma e_instrs_ok e : Forall (fun i => good [i] -> small (e_instr i) -> enc_instr fd (e_instr i) i) e ->
  good e -> small (flat_map e_instr e) -> enc_instrs fd (flat_map e_instr e) e.
Proof.
  induction 1 as [|i e H F IH]; intros G S; [constructor|]. cbn [flat_map] in *. apply small_app in S.
  constructor.
  - apply H; [|tauto]. eapply good_in; [eassumption|left; reflexivity].
  - apply IH; [|tauto]. eapply good_sub; [|exact G]. intros j O. inversion O as [? X|? sub ? X Y Z]; subst.
    + apply occurs_here. right. assumption.
    + eapply occurs_inside; [right; eassumption|eassumption|assumption].
Qed.
Lemma good_block i rt : good [i] -> block_type i = Some rt -> enc_blockty (e_blockty rt) rt.
Proof.
  intros ((_ & _ & W) & _) B. apply e_blockty_ok. eapply W; [|eassumption]. apply occurs_here. left. reflexivity.
Qed.
Lemma good_imm i : good [i] -> Forall (fun n => n < 2 ^ 32) (u32_immediates i) /\ constant_in_range i.
Proof. intros (_ & R & _). apply R. apply occurs_here. left. reflexivity. Qed.
Lemma good_reserved i : good [i] ->
  match i with I_CallIndirect _ x | I_MemSize x | I_MemGrow x => fd_reserved fd (e_u32 x) | _ => True end.
Proof. intros (_ & _ & R). apply R. apply occurs_here. left. reflexivity. Qed.

Lemma e_instr_ok i : good [i] -> small (e_instr i) -> enc_instr fd (e_instr i) i.
Proof.
  induction i as [i IH] using instr_children_ind. intros G S.
  assert (SUB : forall sub, In sub (children i) -> small (flat_map e_instr sub) -> enc_instrs fd (flat_map e_instr sub) sub).
  { intros sub I SS. apply e_instrs_ok; [apply IH; assumption|eapply good_child; eassumption|assumption]. }
  destruct (good_imm _ G) as [GI GC]. pose proof (good_reserved _ G) as GR.
  assert (PL : forall op, plain_opcode i = Some op -> enc_instr fd [op] i) by (intros; apply enc_plain; assumption).
  assert (IX : forall op x, index_opcode i = Some (op, x) -> x < 2 ^ 32 -> enc_instr fd (op :: e_u32 x) i)
    by (intros; eapply enc_index; [eassumption|apply e_u32_ok; assumption]).
  assert (MA : forall op a b, memarg_opcode i = Some (op, a, b) -> a < 2 ^ 32 -> b < 2 ^ 32 -> enc_instr fd (op :: e_u32 a ++ e_u32 b) i)
    by (intros; eapply enc_memarg; [eassumption|apply e_u32_ok; assumption..]).
  destruct i;
  try (apply PL; reflexivity);
  try (cbn [u32_immediates] in GI; inversion GI as [|? ? G1 G2]; subst; apply IX; [reflexivity|assumption]);
  try (cbn [u32_immediates] in GI; inversion GI as [|? ? G1 G2]; inversion G2 as [|? ? G3 G4]; subst; apply MA; [reflexivity|assumption|assumption]).
  - cbn [e_instr] in *. apply small_cons, small_app in S. destruct S as [_ S]. apply small_app in S.
    apply enc_block; [eapply good_block; [eassumption|reflexivity]|]. apply SUB; [left; reflexivity|tauto].
  - cbn [e_instr] in *. apply small_cons, small_app in S. destruct S as [_ S]. apply small_app in S.
    apply enc_loop; [eapply good_block; [eassumption|reflexivity]|]. apply SUB; [left; reflexivity|tauto].
  - assert (BT : enc_blockty (e_blockty a) a) by (eapply good_block; [eassumption|reflexivity]).
    destruct c as [|x c].
    + cbn [e_instr] in *. apply small_cons, small_app in S. destruct S as [_ S]. apply small_app in S.
      apply enc_if; [assumption|]. apply SUB; [left; reflexivity|tauto].
    + change (e_instr (I_If a b (x :: c))) with
        (x04 :: e_blockty a ++ flat_map e_instr b ++ [x05] ++ flat_map e_instr (x :: c) ++ [x0b]) in *.
      apply small_cons, small_app in S. destruct S as [_ S]. apply small_app in S. destruct S as [S1 S].
      apply small_app in S. destruct S as [_ S]. apply small_app in S. destruct S as [S2 _].
      apply enc_if_else; [assumption| |]; apply SUB; cbn; auto.
  - exfalso. destruct G as ((_ & W & _) & _). apply W, occurs_here. left. reflexivity.
  - exfalso. destruct G as ((W & _) & _). apply W, occurs_here. left. reflexivity.
  - cbn [e_instr] in *. apply small_cons, small_app in S. cbn [u32_immediates] in GI. apply Forall_app in GI.
    destruct GI as [G1 G2]. inversion G2; subst. apply enc_br_table; [|apply e_u32_ok; assumption].
    rewrite Forall_forall in G1. apply e_vec_ok; [tauto|intros; apply e_u32_pos; auto|intros; apply e_u32_ok; auto].
  - cbn [u32_immediates] in GI; inversion GI as [|? ? G1 G2]; inversion G2 as [|? ? G3 G4]; subst.
    apply enc_call_indirect; [apply e_u32_ok; assumption|]. split; [apply e_u32_ok; assumption|assumption].
  - cbn [u32_immediates] in GI; inversion GI as [|? ? G1 G2]; subst.
    apply enc_memory_size. split; [apply e_u32_ok; assumption|assumption].
  - cbn [u32_immediates] in GI; inversion GI as [|? ? G1 G2]; subst.
    apply enc_memory_grow. split; [apply e_u32_ok; assumption|assumption].
  - apply enc_i32_const, e_i32_ok, GC.
  - apply enc_i64_const, e_i64_ok, GC.
  - apply enc_f32_const, le_bytes_ok, GC.
  - apply enc_f64_const, le_bytes_ok, GC.
Qed.
Lemma e_expr_ok e : good e -> small (e_expr e) -> enc_expr fd (e_expr e) e.
Proof.
  intros G S. apply small_app in S. eexists. split; [reflexivity|]. apply e_instrs_ok; [|assumption|tauto].
  apply Forall_forall. intros i _. apply e_instr_ok.
Qed.

(** ** Locals *)
Lemma valty_eqb_eq a b : valty_eqb a b = true <-> a = b.
Proof. destruct a, b; cbn; split; congruence. Qed.
Lemma runs_expand l : expand_runs (runs_of l) = l.
Proof.
  induction l as [|t l IH]; [reflexivity|]. cbn [runs_of]. destruct (runs_of l) as [|[n t'] rs].
  - cbn in *. subst. reflexivity.
  - destruct (valty_eqb t t') eqn:E.
    + apply valty_eqb_eq in E. subst t'. unfold expand_runs in *. cbn [flat_map fst snd] in *.
      rewrite N2Nat.inj_add, Nat.add_1_r. cbn [repeat app]. rewrite IH. reflexivity.
    + unfold expand_runs in *. cbn [flat_map fst snd] in *. change (N.to_nat 1) with 1%nat. cbn [repeat app].
      rewrite IH. reflexivity.
Qed.
Lemma runs_bound l r : In r (runs_of l) -> fst r <= N.of_nat (length l).
Proof.
  intros I. pose proof (runs_expand l) as E. apply in_split in I. destruct I as (a & b & I).
  rewrite I in E. unfold expand_runs in E. rewrite flat_map_app in E. cbn [flat_map] in E.
  apply (f_equal (@length valty)) in E. rewrite !app_length, repeat_length in E. unfold u32 in *. lia.
Qed.
Lemma e_func_ok f : N.of_nat (length (fn_locals f)) < 2 ^ 32 -> good (fn_body f) -> small (e_func f) ->
  enc_func fd (e_func f) (fn_locals f, fn_body f).
Proof.
  intros L G S. apply small_app in S. exists (e_vec e_run (runs_of (fn_locals f))), (e_expr (fn_body f)), (runs_of (fn_locals f)).
  split; [reflexivity|]. split; [|split; [|split]].
  - apply e_vec_ok; [tauto|intros; unfold e_run; rewrite app_length; cbn [length e_valty]; lia|].
    intros r I _. exists (e_u32 (fst r)), (e_valty (snd r)). split; [reflexivity|]. split; [|reflexivity].
    apply e_u32_ok. apply runs_bound in I. lia.
  - symmetry. apply runs_expand.
  - apply F_loc. assumption.
  - apply e_expr_ok; tauto.
Qed.
Lemma e_sized_ok {A} (E : format A) c x : small c -> E c x -> enc_sized fd E (e_sized c) x.
Proof. intros S H. eexists _, _. split; [reflexivity|]. split; [apply e_u32_ok; exact S|assumption]. Qed.

(** ** Module components *)
Lemma e_expr_pos e : (1 <= length (e_expr e))%nat.
Proof. unfold e_expr. rewrite app_length. cbn. lia. Qed.

Lemma e_importdesc_ok d : Forall (fun n => n < 2 ^ 32) (importdesc_u32s d) -> enc_importdesc fd (e_importdesc d) d.
Proof.
  destruct d as [x|t|t|t]; cbn; intros H; (eexists; split; [reflexivity|]).
  - inversion H; subst. apply e_u32_ok. assumption.
  - apply e_tablety_ok. assumption.
  - apply e_limits_ok. assumption.
  - reflexivity.
Qed.
Lemma e_exportdesc_ok d : Forall (fun n => n < 2 ^ 32) (exportdesc_u32s d) -> enc_exportdesc fd (e_exportdesc d) d.
Proof.
  destruct d as [x|x|x|x]; cbn; intros H; (eexists; split; [reflexivity|]);
  inversion H; subst; apply e_u32_ok; assumption.
Qed.

Lemma in_module_u32s (P : u32 -> Prop) m : Forall P (module_u32s m) ->
  (forall f, In f (m_funcs m) -> P (fn_ty f)) /\
  (forall t, In t (m_tables m) -> Forall P (limits_u32s (tt_lim (tab_ty t)))) /\
  (forall t, In t (m_mems m) -> Forall P (limits_u32s (mt_lim (mem_ty t)))) /\
  (forall e, In e (m_elem m) -> P (el_table e) /\ Forall P (el_init e)) /\
  (forall d, In d (m_data m) -> P (da_mem d)) /\
  (forall s, m_start m = Some s -> P (st_func s)) /\
  (forall i, In i (m_imports m) -> Forall P (importdesc_u32s (im_desc i))) /\
  (forall e, In e (m_exports m) -> Forall P (exportdesc_u32s (ex_desc e))).
Proof.
  unfold module_u32s. rewrite !Forall_app. intros (H1 & H2 & H3 & H4 & H5 & H6 & H7 & H8).
  assert (FM : forall A (f : A -> list u32) l, Forall P (flat_map f l) -> forall x, In x l -> Forall P (f x)).
  { intros A f l F x I. rewrite Forall_forall in F |- *. intros y J. apply F, in_flat_map. eauto. }
  assert (MM : forall A (f : A -> u32) l, Forall P (map f l) -> forall x, In x l -> P (f x)).
  { intros A f l F x I. rewrite Forall_forall in F. apply F, in_map, I. }
  repeat split; intros.
  - eapply MM in H1; eassumption.
  - eapply FM in H2; eassumption.
  - eapply FM in H3; eassumption.
  - eapply FM in H4; [|eassumption]. cbn beta in H4. inversion H4; assumption.
  - eapply FM in H4; [|eassumption]. cbn beta in H4. inversion H4; assumption.
  - eapply MM in H5; eassumption.
  - match goal with E : m_start m = _ |- _ => rewrite E in H6 end. inversion H6; assumption.
  - eapply FM in H7; eassumption.
  - eapply FM in H8; eassumption.
Qed.

(** ** The sections *)
Definition section_list {A} (mk : A -> list section) (empty : bool) (x : A) : list section :=
  if empty then [] else mk x.
Definition no {A} (l : list A) : bool := match l with [] => true | _ => false end.
Definition sections_of (m : module) : list section :=
  section_list (fun v => [S_Type v]) (no (m_types m)) (m_types m)
  ++ section_list (fun v => [S_Import v]) (no (m_imports m)) (m_imports m)
  ++ section_list (fun v => [S_Function (map fn_ty v)]) (no (m_funcs m)) (m_funcs m)
  ++ section_list (fun v => [S_Table v]) (no (m_tables m)) (m_tables m)
  ++ section_list (fun v => [S_Memory v]) (no (m_mems m)) (m_mems m)
  ++ section_list (fun v => [S_Global v]) (no (m_globals m)) (m_globals m)
  ++ section_list (fun v => [S_Export v]) (no (m_exports m)) (m_exports m)
  ++ match m_start m with Some s => [S_Start s] | None => [] end
  ++ section_list (fun v => [S_Element v]) (no (m_elem m)) (m_elem m)
  ++ section_list (fun v => [S_Code (map (fun f => (fn_locals f, fn_body f)) v)]) (no (m_funcs m)) (m_funcs m)
  ++ section_list (fun v => [S_Data v]) (no (m_data m)) (m_data m).

Definition sec_bytes (s : byte * list byte) : list byte := fst s :: e_sized (snd s).
Lemma sections_app a b sa sb : enc_list (enc_section fd) (flat_map sec_bytes a) sa ->
  enc_list (enc_section fd) (flat_map sec_bytes b) sb -> enc_list (enc_section fd) (flat_map sec_bytes (a ++ b)) (sa ++ sb).
Proof.
  intros (ca & Fa & Ea) (cb & Fb & Eb). exists (ca ++ cb). split; [apply Forall2_app; assumption|].
  rewrite flat_map_app, concat_app, Ea, Eb. reflexivity.
Qed.
Lemma section_one {A} id (e : A -> list byte) v s :
  (v <> [] -> small (e_vec e v) -> enc_section fd (id :: e_sized (e_vec e v)) s) ->
  (forall c, In c (section_if id e v) -> N.of_nat (length (snd c)) < 2 ^ 32) ->
  enc_list (enc_section fd) (flat_map sec_bytes (section_if id e v)) (if no v then [] else [s]).
Proof.
  intros H S. destruct v as [|x v]; cbn [section_if no].
  - exists []. split; [constructor|reflexivity].
  - exists [id :: e_sized (e_vec e (x :: v))]. split; [|reflexivity].
    constructor; [|constructor]. apply H; [discriminate|]. apply (S (id, e_vec e (x :: v))). left. reflexivity.
Qed.
Lemma section_vec {A B} (E : format B) id (e : A -> list byte) (f : A -> B) v (mk : list B -> section) :
  (forall bs w, enc_section fd (id :: bs) (mk w) <-> exists b, id :: bs = id :: b /\ enc_sized fd (enc_vec fd E) b w) ->
  (forall x, In x v -> (1 <= length (e x))%nat) ->
  (forall x, In x v -> small (e x) -> E (e x) (f x)) ->
  (forall c, In c (section_if id e v) -> N.of_nat (length (snd c)) < 2 ^ 32) ->
  enc_list (enc_section fd) (flat_map sec_bytes (section_if id e v)) (if no v then [] else [mk (map f v)]).
Proof.
  intros M P H S. apply section_one; [|assumption]. intros _ SM. apply M. eexists. split; [reflexivity|].
  apply e_sized_ok; [assumption|]. apply e_vec_map; assumption.
Qed.
Lemma section_plain {A} (E : format A) id (e : A -> list byte) v (mk : list A -> section) :
  (forall bs w, enc_section fd (id :: bs) (mk w) <-> exists b, id :: bs = id :: b /\ enc_sized fd (enc_vec fd E) b w) ->
  (forall x, In x v -> (1 <= length (e x))%nat) ->
  (forall x, In x v -> small (e x) -> E (e x) x) ->
  (forall c, In c (section_if id e v) -> N.of_nat (length (snd c)) < 2 ^ 32) ->
  enc_list (enc_section fd) (flat_map sec_bytes (section_if id e v)) (if no v then [] else [mk v]).
Proof.
  intros M P H S. rewrite <- (map_id v) at 3. eapply section_vec; eassumption.
Qed.

Lemma sections_of_enc m : representable m -> (forall e, In e (module_exprs m) -> reserved_ok e) ->
  enc_list (enc_section fd) (flat_map sec_bytes (section_contents m)) (sections_of m).
Proof.
  intros (R1 & R2 & R3 & R4 & R5) Z.
  assert (G : forall e, In e (module_exprs m) -> good e).
  { intros e I. destruct (R3 e I). split; [assumption|split; [assumption|auto]]. }
  clear R3 Z. unfold module_exprs in G.
  apply in_module_u32s in R1. destruct R1 as (UF & UT & UM & UE & UD & US & UI & UX).
  rewrite Forall_forall in R2. unfold module_names in R2.
  unfold section_contents in *. unfold sections_of.
  repeat (apply sections_app).
  - apply (section_plain (enc_functy fd)); [reflexivity|intros; cbn; lia|intros; apply e_functy_ok; assumption|].
    intros c I. apply R5. rewrite !in_app_iff. tauto.
  - apply (section_plain (enc_import fd)); [reflexivity| | |intros c I; apply R5; rewrite !in_app_iff; tauto].
    + intros x I. unfold e_import. rewrite !app_length. destruct (im_desc x); cbn [e_importdesc length]; lia.
    + intros x I S. unfold e_import in S. apply small_app in S. destruct S as [S1 S]. apply small_app in S.
      eexists _, _, _. split; [reflexivity|].
      split; [apply e_name_ok; [assumption|]|split; [apply e_name_ok; [tauto|]|apply e_importdesc_ok; auto]];
      apply R2; apply in_or_app; left; apply in_flat_map; exists x; cbn; auto.
  - apply (section_vec (enc_u32 fd) _ _ fn_ty); [reflexivity|intros; apply e_u32_pos; auto|intros; apply e_u32_ok; auto|].
    intros c I; apply R5; rewrite !in_app_iff; tauto.
  - apply (section_plain (enc_table fd)); [reflexivity|intros; cbn; lia|intros; apply e_tablety_ok; auto|].
    intros c I; apply R5; rewrite !in_app_iff; tauto.
  - apply (section_plain (enc_mem fd)); [reflexivity|intros; apply e_limits_pos|intros; apply e_limits_ok; auto|].
    intros c I; apply R5; rewrite !in_app_iff; tauto.
  - apply (section_plain (enc_global fd)); [reflexivity|intros; cbn; lia| |intros c I; apply R5; rewrite !in_app_iff; tauto].
    intros x I S. unfold e_global in S. apply small_app in S. eexists _, _. split; [reflexivity|]. split; [reflexivity|].
    apply e_expr_ok; [|tauto]. apply G. rewrite !in_app_iff. right. left. apply in_map, I.
  - apply (section_plain (enc_export fd)); [reflexivity| | |intros c I; apply R5; rewrite !in_app_iff; tauto].
    + intros x I. unfold e_export. rewrite !app_length. destruct (ex_desc x); cbn [e_exportdesc length]; lia.
    + intros x I S. unfold e_export in S. apply small_app in S. eexists _, _. split; [reflexivity|].
      split; [apply e_name_ok; [tauto|]|apply e_exportdesc_ok; auto].
      apply R2. apply in_or_app. right. apply in_map, I.
  - destruct (m_start m) as [s|] eqn:E.
    + exists [x08 :: e_sized (e_start s)]. split; [|reflexivity]. constructor; [|constructor].
      eexists. split; [reflexivity|]. apply e_sized_ok; [|apply e_u32_ok; auto].
      apply (R5 (x08, e_start s)). rewrite !in_app_iff. cbn. tauto.
    + exists []. split; [constructor|reflexivity].
  - apply (section_plain (enc_elem fd)); [reflexivity| | |intros c I; apply R5; rewrite !in_app_iff; tauto].
    + intros x I. unfold e_elem. rewrite !app_length. pose proof (e_expr_pos (el_offset x)). lia.
    + intros x I S. unfold e_elem in S. apply small_app in S. destruct S as [_ S]. apply small_app in S.
      destruct (UE x I) as [U1 U2]. rewrite Forall_forall in U2.
      eexists _, _, _. split; [reflexivity|]. split; [apply e_u32_ok; assumption|]. split.
      * apply e_expr_ok; [|tauto]. apply G. rewrite !in_app_iff. right. right. left. apply in_map, I.
      * apply e_vec_ok; [tauto|intros; apply e_u32_pos; auto|intros; apply e_u32_ok; auto].
  - apply (section_vec (enc_code fd) _ _ (fun f => (fn_locals f, fn_body f)));
      [reflexivity| | |intros c I; apply R5; rewrite !in_app_iff; tauto].
    + intros x I. unfold e_code, e_sized. rewrite app_length. unfold e_func. rewrite app_length.
      pose proof (e_expr_pos (fn_body x)). lia.
    + intros x I S. unfold e_code, e_sized in S. apply small_app in S. apply e_sized_ok; [tauto|].
      apply e_func_ok; [auto| |tauto]. apply G. rewrite !in_app_iff. left. apply in_map, I.
  - apply (section_plain (enc_data fd)); [reflexivity| | |intros c I; apply R5; rewrite !in_app_iff; tauto].
    + intros x I. unfold e_data. rewrite !app_length. pose proof (e_expr_pos (da_offset x)). lia.
    + intros x I S. unfold e_data in S. apply small_app in S. destruct S as [_ S]. apply small_app in S.
      eexists _, _, _. split; [reflexivity|]. split; [apply e_u32_ok; auto|]. split.
      * apply e_expr_ok; [|tauto]. apply G. rewrite !in_app_iff. right. right. right. apply in_map, I.
      * apply e_vec_ok; [tauto|intros; cbn; lia|reflexivity].
Qed.

Lemma flat_section {A B} (g : section -> list B) (mk : list A -> section) v : g (mk []) = [] ->
  flat_map g (section_list (fun v => [mk v]) (no v) v) = g (mk v).
Proof. intros E. destruct v; cbn [no section_list flat_map]; [symmetry; exact E|apply app_nil_r]. Qed.
Lemma pair_funcs_map fs : pair_funcs (map fn_ty fs) (map (fun f => (fn_locals f, fn_body f)) fs) = fs.
Proof.
  unfold pair_funcs. induction fs as [|[t l b] fs IH]; [reflexivity|]. cbn [map combine fst snd]. rewrite IH. reflexivity.
Qed.
Lemma sections_of_get {B} (g : section -> list B) m :
  g (S_Type []) = [] -> g (S_Import []) = [] -> g (S_Function []) = [] -> g (S_Table []) = [] -> g (S_Memory []) = [] ->
  g (S_Global []) = [] -> g (S_Export []) = [] -> g (S_Element []) = [] -> g (S_Code []) = [] -> g (S_Data []) = [] ->
  flat_map g (sections_of m) =
    g (S_Type (m_types m)) ++ g (S_Import (m_imports m)) ++ g (S_Function (map fn_ty (m_funcs m)))
    ++ g (S_Table (m_tables m)) ++ g (S_Memory (m_mems m)) ++ g (S_Global (m_globals m)) ++ g (S_Export (m_exports m))
    ++ match m_start m with Some s => g (S_Start s) | None => [] end
    ++ g (S_Element (m_elem m)) ++ g (S_Code (map (fun f => (fn_locals f, fn_body f)) (m_funcs m))) ++ g (S_Data (m_data m)).
Proof.
  intros H1 H2 H3 H4 H5 H6 H7 H8 H9 H10. unfold sections_of. rewrite !flat_map_app.
  rewrite (flat_section g S_Type), (flat_section g S_Import), (flat_section g (fun v => S_Function (map fn_ty v))),
    (flat_section g S_Table), (flat_section g S_Memory), (flat_section g S_Global), (flat_section g S_Export),
    (flat_section g S_Element), (flat_section g (fun v => S_Code (map (fun f => (fn_locals f, fn_body f)) v))),
    (flat_section g S_Data) by assumption.
  destruct (m_start m); cbn [flat_map]; rewrite ?app_nil_r; reflexivity.
Qed.
Lemma sections_of_module m : module_of (sections_of m) = m.
Proof.
  unfold module_of.
  rewrite (sections_of_get sec_types), (sections_of_get sec_imports), (sections_of_get sec_typeidxs), (sections_of_get sec_tables),
    (sections_of_get sec_mems), (sections_of_get sec_globals), (sections_of_get sec_exports), (sections_of_get sec_starts),
    (sections_of_get sec_elems), (sections_of_get sec_codes), (sections_of_get sec_datas) by (try reflexivity; auto).
  cbn [sec_types sec_imports sec_typeidxs sec_tables sec_mems sec_globals sec_exports sec_starts sec_elems sec_codes sec_datas app].
  destruct m as [ty fu ta me gl el da st im ex];
  cbn [m_types m_funcs m_tables m_mems m_globals m_elem m_data m_start m_imports m_exports].
  destruct st; cbn [app]; rewrite ?app_nil_r, pair_funcs_map; reflexivity.
Qed.
Lemma increasing_skip {A} lo (mk : A -> section) b x rest : is_custom (mk x) = false -> lo < section_id (mk x) ->
  increasing (section_id (mk x)) (ids rest) -> increasing lo (ids (section_list (fun v => [mk v]) b x ++ rest)).
Proof.
  intros C L I. unfold section_list. destruct b; cbn [app].
  - eapply increasing_le; [exact I|lia].
  - unfold ids in *. cbn [filter]. rewrite C. cbn [negb map increasing]. auto.
Qed.
Lemma sections_of_ordered m : ordered (sections_of m).
Proof.
  unfold ordered. fold (ids (sections_of m)). unfold sections_of.
  apply (increasing_skip _ S_Type); [reflexivity|reflexivity|].
  apply (increasing_skip _ S_Import); [reflexivity|reflexivity|].
  apply (increasing_skip _ (fun v => S_Function (map fn_ty v))); [reflexivity|reflexivity|].
  apply (increasing_skip _ S_Table); [reflexivity|reflexivity|].
  apply (increasing_skip _ S_Memory); [reflexivity|reflexivity|].
  apply (increasing_skip _ S_Global); [reflexivity|reflexivity|].
  apply (increasing_skip _ S_Export); [reflexivity|reflexivity|].
  cbn [section_id].
  assert (X : increasing 8 (ids (section_list (fun v => [S_Element v]) (no (m_elem m)) (m_elem m)
    ++ section_list (fun v => [S_Code (map (fun f => (fn_locals f, fn_body f)) v)]) (no (m_funcs m)) (m_funcs m)
    ++ section_list (fun v => [S_Data v]) (no (m_data m)) (m_data m)))).
  { apply (increasing_skip _ S_Element); [reflexivity|reflexivity|].
    apply (increasing_skip _ (fun v => S_Code (map (fun f => (fn_locals f, fn_body f)) v))); [reflexivity|reflexivity|].
    rewrite <- (app_nil_r (section_list _ _ _)). apply (increasing_skip _ S_Data); [reflexivity|reflexivity|exact I]. }
  destruct (m_start m); cbn [app].
  - unfold ids in *. cbn [filter is_custom negb map increasing section_id]. split; [lia|exact X].
  - eapply increasing_le; [exact X|lia].
Qed.
Lemma encode_enc m : representable m -> (forall e, In e (module_exprs m) -> reserved_ok e) ->
  enc_module fd (encode m) m.
Proof.
  intros R Z. eexists _, (sections_of m). split; [reflexivity|].
  split; [apply sections_of_enc; assumption|]. split; [apply sections_of_ordered|].
  split; [|symmetry; apply sections_of_module]. left.
  rewrite (sections_of_get sec_typeidxs), (sections_of_get sec_codes) by (try reflexivity; auto).
  cbn [sec_typeidxs sec_codes app]. destruct (m_start m); cbn [app]; rewrite ?app_nil_r, !map_length; reflexivity.
Qed.
End Encode.

Lemma encode_whasm m : representable m -> enc_module whasm_format (encode m) m.
Proof.
  intros R. apply encode_enc; [cbn; auto|cbn; auto|assumption|].
  intros e _ j _. destruct j; exact I.
Qed.
Lemma encode_official m : representable m -> (forall e, In e (module_exprs m) -> reserved_zero e) ->
  enc_module wasm10_format (encode m) m.
Proof.
  intros R Z. apply encode_enc; [cbn; auto|cbn; auto|assumption|].
  intros e I j O. specialize (Z e I j O). destruct j; try exact Logic.I; subst; reflexivity.
Qed.
