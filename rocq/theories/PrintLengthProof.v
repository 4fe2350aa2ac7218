(** The length of the printout. *)
From Coq Require Import String Ascii Lia DecimalString.
From Coq Require DecimalN DecimalZ DecimalFacts HexadecimalN HexadecimalFacts HexadecimalString.
From Verif Require Import SpecTyping SpecFormat SpecParser ParserMeta SectionsProof InstrProof CodeProof HostProof ModuleClaims2 EncodeProof StorageFileProof
  SpecEncoder NestProof SpecStack StackProof DebugText SpecDebug DebugLayout DebugProof DebugClaims SpecCost CostProof CostFileProof SpecPrintSize PrintSizeProof.
Open Scope list_scope.
Open Scope nat_scope.

(** ** Digits *)
Lemma acc_dec u : forall a, (Npos a * 10 ^ N.of_nat (Decimal.nb_digits u) <= Npos (Pos.of_uint_acc u a))%N.
Proof.
  induction u as [|u IH|u IH|u IH|u IH|u IH|u IH|u IH|u IH|u IH|u IH]; intros a; cbn [Decimal.nb_digits Pos.of_uint_acc]; [cbn; lia|..];
    rewrite Nnat.Nat2N.inj_succ, N.pow_succ_r'; (eapply N.le_trans; [|apply IH]); rewrite N.mul_assoc; apply N.mul_le_mono_r; lia.
Qed.
Lemma dec_digits n k : (n < 10 ^ N.of_nat k)%N -> 1 <= k -> Decimal.nb_digits (N.to_uint n) <= k.
Proof.
  intros L K. pose proof (DecimalN.Unsigned.of_to n) as V. pose proof (DecimalN.Unsigned.to_of (N.to_uint n)) as U. rewrite V in U.
  assert (Z : forall u, N.to_uint n = Decimal.D0 u -> u = Decimal.Nil).
  { intros u E. rewrite E in U. unfold Decimal.unorm in U. destruct (Decimal.nzhead (Decimal.D0 u)) eqn:H; try discriminate U.
    - injection U as ->. reflexivity.
    - destruct (DecimalFacts.nzhead_nonzero _ _ H). }
  destruct (Nat.le_gt_cases (Decimal.nb_digits (N.to_uint n)) k) as [|G]; [assumption|exfalso].
  assert (X : forall p u, Decimal.nb_digits (N.to_uint n) = S (Decimal.nb_digits u) -> n = Npos (Pos.of_uint_acc u p) -> False).
  { intros p u E ->. pose proof (acc_dec u p) as A. rewrite E in G.
    assert (B : (10 ^ N.of_nat k <= 10 ^ N.of_nat (Decimal.nb_digits u))%N) by (apply N.pow_le_mono_r; lia). nia. }
  destruct (N.to_uint n) as [|u|u|u|u|u|u|u|u|u|u] eqn:E; [cbn in G; lia|rewrite (Z u eq_refl) in G; cbn in G; lia|..]; exact (X _ u eq_refl (eq_sym V)).
Qed.
Lemma dec_length d : String.length (NilZero.string_of_uint d) <= Nat.max 1 (Decimal.nb_digits d).
Proof.
  assert (A : forall d, String.length (NilEmpty.string_of_uint d) = Decimal.nb_digits d) by (induction d0; cbn; congruence).
  destruct d; unfold NilZero.string_of_uint; rewrite ?A; cbn [Decimal.nb_digits String.length]; lia.
Qed.
Lemma num_length n k : (n < 10 ^ N.of_nat k)%N -> 1 <= k -> String.length (NilZero.string_of_uint (N.to_uint n)) <= k.
Proof. intros L K. pose proof (dec_length (N.to_uint n)). pose proof (dec_digits n k L K). lia. Qed.
Lemma u32_length n : (n < 2 ^ 32)%N -> String.length (NilZero.string_of_uint (N.to_uint n)) <= 10.
Proof. intros L. apply num_length; [|lia]. eapply N.lt_trans; [exact L|]. reflexivity. Qed.
Lemma u8_length b : String.length (show_u8 b) <= 3.
Proof. destruct b; vm_compute; repeat constructor. Qed.
Lemma int_length z : (- 2 ^ 63 <= z < 2 ^ 63)%Z -> String.length (NilZero.string_of_int (Z.to_int z)) <= 20.
Proof.
  intros R. destruct z as [|p|p]; [cbn; lia| |]; cbn [Z.to_int NilZero.string_of_int].
  - change (Pos.to_uint p) with (N.to_uint (Npos p)). assert (X : String.length (NilZero.string_of_uint (N.to_uint (N.pos p))) <= 19); [|lia].
    apply num_length; [|lia]. change (10 ^ N.of_nat 19)%N with 10000000000000000000%N. lia.
  - change (Pos.to_uint p) with (N.to_uint (Npos p)). cbn [String.length]. assert (X : String.length (NilZero.string_of_uint (N.to_uint (N.pos p))) <= 19); [|lia].
    apply num_length; [|lia]. change (10 ^ N.of_nat 19)%N with 10000000000000000000%N. lia.
Qed.
(** sixteen digits *)
Lemma acc_hex u : forall a, (Npos a * 16 ^ N.of_nat (Hexadecimal.nb_digits u) <= Npos (Pos.of_hex_uint_acc u a))%N.
Proof.
  induction u as [|u IH|u IH|u IH|u IH|u IH|u IH|u IH|u IH|u IH|u IH|u IH|u IH|u IH|u IH|u IH|u IH]; intros a; cbn [Hexadecimal.nb_digits Pos.of_hex_uint_acc]; [cbn; lia|..];
    rewrite Nnat.Nat2N.inj_succ, N.pow_succ_r'; (eapply N.le_trans; [|apply IH]); rewrite N.mul_assoc; apply N.mul_le_mono_r; lia.
Qed.
Lemma hex_digits n k : (n < 16 ^ N.of_nat k)%N -> 1 <= k -> Hexadecimal.nb_digits (N.to_hex_uint n) <= k.
Proof.
  intros L K. pose proof (HexadecimalN.Unsigned.of_to n) as V. pose proof (HexadecimalN.Unsigned.to_of (N.to_hex_uint n)) as U. rewrite V in U.
  assert (Z : forall u, N.to_hex_uint n = Hexadecimal.D0 u -> u = Hexadecimal.Nil).
  { intros u E. rewrite E in U. unfold Hexadecimal.unorm in U. destruct (Hexadecimal.nzhead (Hexadecimal.D0 u)) eqn:H; try discriminate U.
    - injection U as ->. reflexivity.
    - destruct (HexadecimalFacts.nzhead_nonzero _ _ H). }
  destruct (Nat.le_gt_cases (Hexadecimal.nb_digits (N.to_hex_uint n)) k) as [|G]; [assumption|exfalso].
  assert (X : forall p u, Hexadecimal.nb_digits (N.to_hex_uint n) = S (Hexadecimal.nb_digits u) -> n = Npos (Pos.of_hex_uint_acc u p) -> False).
  { intros p u E ->. pose proof (acc_hex u p) as A. rewrite E in G.
    assert (B : (16 ^ N.of_nat k <= 16 ^ N.of_nat (Hexadecimal.nb_digits u))%N) by (apply N.pow_le_mono_r; lia). nia. }
  destruct (N.to_hex_uint n) as [|u|u|u|u|u|u|u|u|u|u|u|u|u|u|u|u] eqn:E; [cbn in G; lia|rewrite (Z u eq_refl) in G; cbn in G; lia|..];
    exact (X _ u eq_refl (eq_sym V)).
Qed.
Lemma hex_length n k : (n < 16 ^ N.of_nat k)%N -> 1 <= k -> String.length (HexadecimalString.NilZero.string_of_uint (N.to_hex_uint n)) <= k.
Proof.
  intros L K. assert (A : forall d, String.length (HexadecimalString.NilEmpty.string_of_uint d) = Hexadecimal.nb_digits d) by (induction d; cbn; congruence).
  pose proof (hex_digits n k L K) as D. destruct (N.to_hex_uint n); unfold HexadecimalString.NilZero.string_of_uint; rewrite ?A; cbn [Hexadecimal.nb_digits String.length] in *; lia.
Qed.

(** ** The length of a tree *)
Notation len := String.length.
Lemma len_app a b : len (a ++ b)%string = len a + len b.
Proof. induction a as [|c a IH]; [reflexivity|]. cbn [append String.length]. rewrite IH. reflexivity. Qed.
Lemma len_sp d : len (sp d) = d.
Proof. induction d as [|d IH]; [reflexivity|]. cbn [sp String.length]. rewrite IH. reflexivity. Qed.
Lemma len_entries {A} (h : A -> string) l : len (entries h l) = total (fun x => len (h x)) l.
Proof. induction l as [|x l IH]; [reflexivity|]. unfold entries in *. cbn [map]. rewrite DebugLayout.concat_cons, len_app, IH. reflexivity. Qed.
(** [within W d lead t]: no line of [t] is longer than [W], when [t] comes after [lead] characters at the indentation [d] and before a comma *)
Inductive within (W : nat) : nat -> nat -> dtree -> Prop :=
| w_leaf d lead s : d + lead + len s + 2 <= W -> within W d lead (D_leaf s)
| w_struct d lead nm fs : d + lead + len nm + 3 <= W -> Forall (fun f => within W (d + 4) (len (fst f) + 2) (snd f)) fs -> within W d lead (D_struct nm fs)
| w_tuple d lead nm ts : d + lead + len nm + 3 <= W -> Forall (within W (d + 4) 0) ts -> within W d lead (D_tuple nm ts)
| w_list d lead ts : d + lead + 4 <= W -> Forall (within W (d + 4) 0) ts -> within W d lead (D_list ts).
Lemma within_items W d ts : Forall (fun u => wf u -> forall d lead, within W d lead u -> d + lead + len (pr d u) + 2 <= tlines u * W) ts -> Forall wf ts ->
  Forall (within W d 0) ts -> len (entries (item_text d) ts) <= list_sum (map tlines ts) * W.
Proof.
  intros IH F V. rewrite len_entries. change (list_sum (map tlines ts)) with (total tlines ts). rewrite Nat.mul_comm, <- total_mul. apply total_le.
  intros u I. rewrite Forall_forall in *. specialize (IH u I (F u I) d 0 (V u I)). unfold item_text. rewrite !len_app, len_sp. change (len (String "," newline)) with 2. lia.
Qed.
Lemma within_pr W t : wf t -> forall d lead, within W d lead t -> d + lead + len (pr d t) + 2 <= tlines t * W.
Proof.
  induction t as [s|nm fs IH|nm ts IH|ts IH] using dtree_rec'; intros H d lead V.
  - inversion H as [s' [F _] _| | |]; subst. inversion V; subst. unfold pr. cbn [pretty tlines]. rewrite wpad_free by exact F. lia.
  - rewrite pr_struct by exact H. inversion H as [|n f P N F| |]; subst. inversion V as [|? ? ? ? L G| |]; subst. cbn [tlines].
    rewrite !len_app. cbn [String.length]. rewrite !len_app, len_sp, len_entries. change (len "}") with 1.
    assert (X : total (fun f => len (field_text (d + 4) f)) fs <= list_sum (map (fun f => tlines (snd f)) fs) * W); [|lia].
    change (list_sum (map (fun f => tlines (snd f)) fs)) with (total (fun f => tlines (snd f)) fs). rewrite Nat.mul_comm, <- total_mul. apply total_le.
    intros f I. rewrite Forall_forall in IH, F, G. destruct (F f I) as (_ & _ & B). specialize (IH f I B _ _ (G f I)).
    unfold field_text. rewrite !len_app, len_sp. change (len ": ") with 2. change (len (String "," newline)) with 2. lia.
  - rewrite pr_tuple by exact H. inversion H as [| |n f P N F|]; subst. inversion V as [| |? ? ? ? L G|]; subst. cbn [tlines].
    rewrite !len_app. cbn [String.length]. rewrite !len_app, len_sp. pose proof (within_items _ _ _ IH F G). change (len ")") with 1. lia.
  - inversion V as [| | |? ? ? L G]; subst. destruct ts as [|u ts]; [change (len (pr d (D_list []))) with 2; cbn [tlines]; lia|]. rewrite pr_list by exact H. inversion H as [| | |f F]; subst.
    pose proof (within_items _ _ _ IH F G). cbn [tlines]. rewrite !len_app. cbn [String.length]. rewrite !len_app, len_sp. change (len "]") with 1. lia.
Qed.

(** ** Names *)
Lemma string_of_list_length g : len (string_of_list_byte g) = length g.
Proof. induction g as [|b g IH]; [reflexivity|]. cbn. f_equal. exact IH. Qed.
Lemma to_N_256 b : (Byte.to_N b < 256)%N.
Proof. destruct b; reflexivity. Qed.
Lemma char_length std g : g <> [] -> len (show_char std g) <= 6 * length g.
Proof.
  intros NE. unfold show_char. assert (L : 1 <= length g) by (destruct g; [congruence|cbn; lia]).
  repeat match goal with |- context [if ?c then _ else _] => destruct c end; cbn [String.length]; try (cbn; lia).
  2:{ rewrite string_of_list_length. lia. }
  rewrite !len_app. change (len "u{") with 2. change (len "}") with 1.
  destruct g as [|a [|b [|c [|e [|f g]]]]]; [congruence|..]; unfold code_point; cbn [map length].
  - pose proof (hex_length (Byte.to_N a) 2 (to_N_256 a)). lia.
  - pose proof (N.mod_lt (Byte.to_N a) 32). pose proof (N.mod_lt (Byte.to_N b) 64).
    assert (X : (Byte.to_N a mod 32 * 64 + Byte.to_N b mod 64 < 16 ^ N.of_nat 3)%N) by (change (16 ^ N.of_nat 3)%N with 4096%N; lia). pose proof (hex_length _ _ X). lia.
  - pose proof (N.mod_lt (Byte.to_N a) 16). pose proof (N.mod_lt (Byte.to_N b) 64). pose proof (N.mod_lt (Byte.to_N c) 64).
    assert (X : (Byte.to_N a mod 16 * 4096 + Byte.to_N b mod 64 * 64 + Byte.to_N c mod 64 < 16 ^ N.of_nat 4)%N) by (change (16 ^ N.of_nat 4)%N with 65536%N; lia). pose proof (hex_length _ _ X). lia.
  - pose proof (N.mod_lt (Byte.to_N a) 8). pose proof (N.mod_lt (Byte.to_N b) 64). pose proof (N.mod_lt (Byte.to_N c) 64). pose proof (N.mod_lt (Byte.to_N e) 64).
    assert (X : (Byte.to_N a mod 8 * 262144 + Byte.to_N b mod 64 * 4096 + Byte.to_N c mod 64 * 64 + Byte.to_N e mod 64 < 16 ^ N.of_nat 6)%N) by (change (16 ^ N.of_nat 6)%N with 16777216%N; lia). pose proof (hex_length _ _ X). lia.
  - change (len (HexadecimalString.NilZero.string_of_uint (N.to_hex_uint 0))) with 1. lia.
Qed.
Lemma chars_spec bs : Forall (fun g => g <> []) (chars bs) /\ total (@length byte) (chars bs) = length bs.
Proof.
  induction bs as [|b r [F E]]; [split; [constructor|reflexivity]|]. cbn [chars]. destruct (chars r) as [|[|c g] gs].
  - cbn in *. split; [repeat constructor; discriminate|lia].
  - inversion F. congruence.
  - inversion F as [|? ? A B]; subst. destruct (continues c).
    + split; [constructor; [discriminate|exact B]|]. rewrite total_cons in *. cbn [length] in *. lia.
    + split; [constructor; [discriminate|constructor; [discriminate|exact B]]|]. rewrite total_cons. cbn [length]. lia.
Qed.
Lemma name_length std n : exists s, d_name std n = D_leaf s /\ len s <= 2 + 6 * length n.
Proof.
  eexists. split; [reflexivity|]. rewrite !len_app. unfold quote. cbn [String.length]. change (len (String.concat "" (map (show_char std) (chars n)))) with (len (entries (show_char std) (chars n))).
  rewrite len_entries. destruct (chars_spec n) as [F E]. rewrite <- E, <- total_mul.
  assert (X : total (fun x => len (show_char std x)) (chars n) <= total (fun x => 6 * length x) (chars n)); [|lia].
  apply total_le. intros g I. apply char_length. rewrite Forall_forall in F. apply F, I.
Qed.

(** ** The longest line *)
Section Width.
Variable std : std_texts.
Variable K W : nat.
Hypothesis f32s : forall x, len (std_f32 std x) <= K.
Hypothesis f64s : forall x, len (std_f64 std x) <= K.
Local Notation small n := (n < 2 ^ 32)%N.

Lemma w_u32 d lead n : small n -> d + lead + 12 <= W -> within W d lead (d_u32 n).
Proof. intros S L. apply w_leaf. pose proof (u32_length n S). lia. Qed.
Lemma w_idx d lead nm n : small n -> len nm <= 6 -> d + lead + 9 <= W -> d + 16 <= W -> within W d lead (d_idx nm n).
Proof. intros S N L M. apply w_tuple; [lia|]. constructor; [apply w_u32; [exact S|lia]|constructor]. Qed.
Lemma w_valty d lead t : d + lead + 5 <= W -> within W d lead (d_valty t).
Proof. intros L. apply w_leaf. destruct t; cbn; lia. Qed.
Lemma w_vec {A} d lead (f : A -> dtree) l : d + lead + 4 <= W -> (forall x, In x l -> within W (d + 4) 0 (f x)) -> within W d lead (d_vec f l).
Proof. intros L H. apply w_list; [exact L|]. apply Forall_forall. intros u I. apply in_map_iff in I as (x & <- & I). apply H, I. Qed.
Lemma w_valtys d lead l : d + lead + 4 <= W -> d + 9 <= W -> within W d lead (d_vec d_valty l).
Proof. intros L M. apply w_vec; [exact L|]. intros x _. apply w_valty. lia. Qed.
Lemma range_child i sub : code_in_range [i] -> In sub (children i) -> code_in_range sub.
Proof. intros R I j O. apply R. eapply occurs_inside; [left; reflexivity|exact I|exact O]. Qed.
Lemma range_in i e : code_in_range e -> In i e -> code_in_range [i].
Proof.
  intros R I j O. apply R. remember [i] as l eqn:L. destruct O as [l J|k sub l J J2 O]; subst l; destruct J as [<-|[]].
  - apply occurs_here. exact I.
  - eapply occurs_inside; eassumption.
Qed.
Lemma w_instr i : code_in_range [i] -> forall d, d + 12 * depth i + 26 + K <= W -> within W d 0 (d_instr std i).
Proof.
  induction i as [i IH] using instr_children_ind. intros R d L.
  assert (RI : Forall (fun n => small n) (u32_immediates i) /\ constant_in_range i) by (apply R, occurs_here; left; reflexivity). destruct RI as [RU RC].
  assert (C : forall b, In b (children i) -> within W (d + 4) 0 (D_tuple "Expr" [D_list (map (d_instr std) b)])).
  { intros b I. apply w_tuple; [cbn; lia|]. constructor; [|constructor]. pose proof (child_depth i b I) as D. apply (w_vec (d + 4 + 4)); [lia|]. intros x J.
    specialize (IH b I). rewrite Forall_forall in IH. apply (IH x J); [eapply range_in; [eapply range_child; eassumption|exact J]|]. pose proof (depth_in _ _ J). lia. }
  assert (RT : forall r, children i <> [] -> within W (d + 4) 0 (d_retval r)).
  { intros r NE. destruct (children i) as [|b l] eqn:E; [congruence|]. pose proof (child_depth i b) as D. rewrite E in D. specialize (D (or_introl eq_refl)).
    apply w_tuple; [cbn; lia|]. constructor; [|constructor]. apply w_valtys; lia. }
  destruct i; cbn [d_instr] in *; cbn [depth u32_immediates] in *;
    try (apply w_leaf; cbn [String.length]; lia);
    try (inversion RU as [|? ? A ?]; subst; apply w_tuple; [cbn [String.length]; lia|constructor; [apply w_idx; [exact A|cbn; lia|lia|lia]|constructor]]; fail);
    try (inversion RU as [|? ? A RU']; subst; inversion RU' as [|? ? B ?]; subst; apply w_tuple; [cbn [String.length]; lia|
           constructor; [first [apply w_u32; [exact A|lia]|apply w_idx; [exact A|cbn; lia|lia|lia]]|constructor; [first [apply w_u32; [exact B|lia]|apply w_idx; [exact B|cbn; lia|lia|lia]]|constructor]]]; fail).
  - apply w_tuple; [cbn [String.length]; lia|]. constructor; [apply RT; discriminate|constructor; [apply C; left; reflexivity|constructor]].
  - apply w_tuple; [cbn [String.length]; lia|]. constructor; [apply RT; discriminate|constructor; [apply C; left; reflexivity|constructor]].
  - apply w_tuple; [cbn [String.length]; lia|]. constructor; [apply RT; discriminate|constructor; [apply C; left; reflexivity|constructor; [apply C; right; left; reflexivity|constructor]]].
  - apply Forall_app in RU as [RA RB]. inversion RB as [|? ? B ?]; subst. apply w_tuple; [cbn [String.length]; lia|]. constructor; [|constructor; [apply w_idx; [exact B|cbn; lia|lia|lia]|constructor]].
    apply (w_vec (d + 4)); [lia|]. intros x I. rewrite Forall_forall in RA. apply w_idx; [apply RA, I|cbn; lia|lia|lia].
  - apply w_tuple; [cbn [String.length]; lia|]. constructor; [|constructor]. apply w_leaf. cbn [constant_in_range] in RC. pose proof (int_length a). lia.
  - apply w_tuple; [cbn [String.length]; lia|]. constructor; [|constructor]. apply w_leaf. cbn [constant_in_range] in RC. pose proof (int_length a). lia.
  - apply w_tuple; [cbn [String.length]; lia|]. constructor; [|constructor]. apply w_leaf. pose proof (f32s a). lia.
  - apply w_tuple; [cbn [String.length]; lia|]. constructor; [|constructor]. apply w_leaf. pose proof (f64s a). lia.
Qed.
Lemma w_code d lead nm e : code_in_range e -> len nm <= 9 -> d + lead + 12 <= W -> d + 12 * depth_expr e + 34 + K <= W -> within W d lead (D_tuple nm [d_vec (d_instr std) e]).
Proof.
  intros R N L M. apply w_tuple; [lia|]. constructor; [|constructor]. apply w_vec; [lia|]. intros i I. apply w_instr; [eapply range_in; eassumption|]. pose proof (depth_in _ _ I). lia.
Qed.
Lemma w_name d lead n : d + lead + 4 + 6 * length n <= W -> within W d lead (d_name std n).
Proof. intros L. destruct (name_length std n) as (s & -> & S). apply w_leaf. lia. Qed.
Lemma w_limits d lead l : Forall (fun n => small n) (limits_u32s l) -> d + lead + 9 <= W -> d + 26 <= W -> within W d lead (d_limits l).
Proof.
  intros R L M. unfold limits_u32s in R. inversion R as [|? ? A B]; subst. apply w_struct; [cbn; lia|]. constructor; [apply w_u32; [exact A|cbn; lia]|constructor; [|constructor]].
  cbn [snd fst String.length]. destruct (lim_max l) as [x|]; [|apply w_leaf; cbn; lia]. inversion B as [|? ? C ?]; subst. apply w_tuple; [cbn; lia|]. constructor; [apply w_u32; [exact C|lia]|constructor].
Qed.
Lemma w_tablety d lead t : Forall (fun n => small n) (limits_u32s (tt_lim t)) -> d + lead + 8 <= W -> d + 30 <= W -> within W d lead (d_tablety t).
Proof.
  intros R L M. apply w_struct; [cbn; lia|]. constructor; [apply w_limits; [exact R|cbn; lia|lia]|]. constructor; [|constructor]. destruct (tt_elem t). apply w_leaf. cbn. lia.
Qed.
Lemma w_memty d lead t : Forall (fun n => small n) (limits_u32s (mt_lim t)) -> d + lead + 8 <= W -> d + 30 <= W -> within W d lead (d_memty t).
Proof. intros R L M. apply w_struct; [cbn; lia|]. constructor; [apply w_limits; [exact R|cbn; lia|lia]|constructor]. Qed.
Lemma w_globalty d lead t : d + lead + 9 <= W -> d + 30 <= W -> within W d lead (d_globalty t).
Proof.
  intros L M. apply w_struct; [cbn; lia|]. constructor; [|constructor; [apply w_valty; cbn; lia|constructor]]. apply w_leaf. destruct (gt_mut t); cbn; lia.
Qed.
Lemma w_module m n : 6 * n + 46 + K <= W -> Forall (fun n => small n) (module_u32s m) -> (forall e, In e (module_exprs m) -> code_in_range e /\ 2 * depth_expr e <= n) ->
  (forall x, In x (module_names m) -> length x + 2 <= n) -> within W 0 0 (d_module std m).
Proof.
  intros HW U E N. unfold module_u32s in U. rewrite !Forall_app in U. destruct U as (U1 & U2 & U3 & U4 & U5 & U6 & U7 & U8).
  rewrite Forall_map in U1, U5. rewrite Forall_flat_map in U2, U3, U4, U7, U8. rewrite Forall_forall in U1, U2, U3, U4, U5, U7, U8.
  assert (E1 : forall f, In f (m_funcs m) -> code_in_range (fn_body f) /\ 2 * depth_expr (fn_body f) <= n).
  { intros f I. apply E. unfold module_exprs. apply in_or_app. left. apply in_map, I. }
  assert (E2 : forall f, In f (m_globals m) -> code_in_range (glob_init f) /\ 2 * depth_expr (glob_init f) <= n).
  { intros f I. apply E. unfold module_exprs. apply in_or_app. right. apply in_or_app. left. apply in_map, I. }
  assert (E3 : forall f, In f (m_elem m) -> code_in_range (el_offset f) /\ 2 * depth_expr (el_offset f) <= n).
  { intros f I. apply E. unfold module_exprs. do 2 (apply in_or_app; right). apply in_or_app. left. apply in_map, I. }
  assert (E4 : forall f, In f (m_data m) -> code_in_range (da_offset f) /\ 2 * depth_expr (da_offset f) <= n).
  { intros f I. apply E. unfold module_exprs. do 3 (apply in_or_app; right). apply in_map, I. }
  apply w_struct; [cbn; lia|]. repeat (apply Forall_cons; [cbn [fst snd String.length]|]); [..|apply Forall_nil]; try (apply w_vec; [lia|]; intros x I).
  - apply w_struct; [cbn; lia|]. repeat (apply Forall_cons; [cbn [fst snd String.length]|]); [..|apply Forall_nil]; apply w_valtys; lia.
  - destruct (E1 x I) as [R D]. apply w_struct; [cbn; lia|]. repeat (apply Forall_cons; [cbn [fst snd String.length]|]); [..|apply Forall_nil].
    + apply w_idx; [apply U1, I|cbn; lia|lia|lia].
    + apply w_valtys; lia.
    + apply w_code; [exact R|cbn; lia|lia|lia].
  - apply w_struct; [cbn; lia|]. constructor; [|constructor]. apply w_tablety; [apply U2, I|cbn; lia|lia].
  - apply w_struct; [cbn; lia|]. constructor; [|constructor]. apply w_memty; [apply U3, I|cbn; lia|lia].
  - destruct (E2 x I) as [R D]. apply w_struct; [cbn; lia|]. repeat (apply Forall_cons; [cbn [fst snd String.length]|]); [..|apply Forall_nil].
    + apply w_globalty; lia.
    + apply w_code; [exact R|cbn; lia|lia|lia].
  - destruct (E3 x I) as [R D]. specialize (U4 x I). inversion U4 as [|? ? A B]; subst. rewrite Forall_forall in B.
    apply w_struct; [cbn; lia|]. repeat (apply Forall_cons; [cbn [fst snd String.length]|]); [..|apply Forall_nil].
    + apply w_idx; [exact A|cbn; lia|lia|lia].
    + apply w_code; [exact R|cbn; lia|lia|lia].
    + apply w_vec; [lia|]. intros y J. apply w_idx; [apply B, J|cbn; lia|lia|lia].
  - destruct (E4 x I) as [R D]. apply w_struct; [cbn; lia|]. repeat (apply Forall_cons; [cbn [fst snd String.length]|]); [..|apply Forall_nil].
    + apply w_idx; [apply U5, I|cbn; lia|lia|lia].
    + apply w_code; [exact R|cbn; lia|lia|lia].
    + apply w_vec; [lia|]. intros y J. apply w_leaf. pose proof (u8_length y). lia.
  - destruct (m_start m) as [s|]; [|apply w_leaf; cbn; lia]. inversion U6 as [|? ? A ?]; subst. apply w_tuple; [cbn; lia|]. constructor; [|constructor].
    apply w_struct; [cbn; lia|]. constructor; [|constructor]. apply w_idx; [exact A|cbn; lia|cbn; lia|lia].
  - assert (N1 : length (im_module x) + 2 <= n) by (apply N; unfold module_names; apply in_or_app; left; apply in_flat_map; exists x; split; [exact I|left; reflexivity]).
    assert (N2 : length (im_name x) + 2 <= n) by (apply N; unfold module_names; apply in_or_app; left; apply in_flat_map; exists x; split; [exact I|right; left; reflexivity]).
    specialize (U7 x I). apply w_struct; [cbn; lia|]. repeat (apply Forall_cons; [cbn [fst snd String.length]|]); [..|apply Forall_nil].
    + apply w_name. unfold name in *. lia.
    + apply w_name. unfold name in *. lia.
    + destruct (im_desc x); cbn [importdesc_u32s d_importdesc] in *; (apply w_tuple; [cbn; lia|]; constructor; [|constructor]).
      * inversion U7 as [|? ? A ?]; subst. apply w_idx; [exact A|cbn; lia|lia|lia].
      * apply w_tablety; [exact U7|lia|lia].
      * apply w_memty; [exact U7|lia|lia].
      * apply w_globalty; lia.
  - assert (N1 : length (ex_name x) + 2 <= n) by (apply N; unfold module_names; apply in_or_app; right; apply in_map, I).
    specialize (U8 x I). apply w_struct; [cbn; lia|]. repeat (apply Forall_cons; [cbn [fst snd String.length]|]); [..|apply Forall_nil].
    + apply w_name. unfold name in *. lia.
    + destruct (ex_desc x); cbn [exportdesc_u32s d_exportdesc] in *; (apply w_tuple; [cbn; lia|]; constructor; [|constructor]); inversion U8 as [|? ? A ?]; subst; (apply w_idx; [exact A|cbn; lia|lia|lia]).
Qed.
End Width.

(** ** Files *)
Lemma name_bytes b n : enc_name fd b n -> length n < length b.
Proof. intros [H _]. apply vec_count in H; [exact H|]. intros c x ->. cbn. lia. Qed.
Lemma name_file bs m x : enc_module fd bs m -> In x (module_names m) -> length x + 2 <= length bs.
Proof.
  intros (body & secs & -> & EL & _ & _ & ->) I. rewrite app_length. cbn [preamble length]. unfold module_names in I. apply in_app_or in I. cbn [module_of m_imports m_exports] in I.
  enough (length x <= length body) by lia. destruct I as [I|I].
  - apply in_flat_map in I as (im & I & J). apply in_flat_map in I as (s & I & S). destruct (enc_list_within _ _ _ _ EL I) as (b & B & L).
    destruct s; cbn [sec_imports] in S; try destruct S. destruct B as (b' & -> & B). apply enc_sized_within in B as (b1 & B & L1).
    assert (J2 : In im v) by exact S. destruct (enc_vec_within _ _ _ _ _ B J2) as (b2 & (mb & nb & db & -> & M & N & _) & L2). apply name_bytes in M. apply name_bytes in N.
    rewrite !app_length in L2. cbn [length] in L. destruct J as [<-|[<-|[]]]; lia.
  - apply in_map_iff in I as (ex & <- & I). apply in_flat_map in I as (s & I & S). destruct (enc_list_within _ _ _ _ EL I) as (b & B & L).
    destruct s; cbn [sec_exports] in S; try destruct S. destruct B as (b' & -> & B). apply enc_sized_within in B as (b1 & B & L1).
    assert (J2 : In ex v) by exact S. destruct (enc_vec_within _ _ _ _ _ B J2) as (b2 & (nb & db & -> & N & _) & L2). apply name_bytes in N.
    rewrite !app_length in L2. cbn [length] in L. lia.
Qed.
Lemma depth_file bs m e : p_module bs = (Ok m, []) -> In e (module_exprs m) -> 2 * depth_expr e <= length bs.
Proof.
  intros P I. destruct (depth_expr e) as [|k] eqn:D; [lia|]. assert (X : In (Nest (N.of_nat (S k))) (requests bs)).
  { apply (nest_exact _ _ _ P). split; [lia|]. exists e. split; [exact I|]. rewrite D. apply N.le_refl. }
  apply nest_bound in X. lia.
Qed.
Theorem length_file std k bs m : honest std -> (forall x, len (std_f32 std x) <= k) -> (forall x, len (std_f64 std x) <= k) ->
  p_module bs = (Ok m, []) -> len (show_module std m) <= module_lines m * (6 * length bs + 46 + k).
Proof.
  intros H F1 F2 P. pose proof P as Q. apply module_exact in Q as [_ Q]. destruct (module_range _ _ _ Q) as (U & N & R). set (W := 6 * length bs + 46 + k).
  assert (V : within W 0 0 (d_module std m)).
  { apply (w_module std k W F1 F2 m (length bs)); [apply le_n|exact U| |].
    - intros e I. split; [apply R, I|]. eapply depth_file; eassumption.
    - intros x I. eapply name_file; eassumption. }
  apply (within_pr W _ (module_wf std H m N)) in V. rewrite tlines_module in V. unfold show_module, println. rewrite len_app. change (len newline) with 1.
  unfold pr in V. rewrite wpad_0 in V. lia.
Qed.

(** ** The square is reached *)
Definition body_tree (std : std_texts) (k : nat) : dtree := D_list (map (d_instr std) (nested_blocks k)).
Lemma body_wf std k : honest std -> wf (body_tree std k).
Proof. intros H. apply (vec_wf (d_instr std)). intros x _. apply instr_wf, H. Qed.
Lemma len_item d u : len (item_text d u) = d + len (pr d u) + 2.
Proof. unfold item_text. rewrite !len_app, len_sp. change (len (String "," newline)) with 2. lia. Qed.
Lemma len_tuple d nm ts : wf (D_tuple nm ts) -> len (pr d (D_tuple nm ts)) = len nm + 3 + total (fun u => d + 4 + len (pr (d + 4) u) + 2) ts + d.
Proof.
  intros H. rewrite pr_tuple by exact H. rewrite !len_app. cbn [String.length]. rewrite !len_app, len_sp, len_entries. change (len ")") with 1.
  rewrite (total_in _ (fun u => d + 4 + len (pr (d + 4) u) + 2)) by (intros u _; apply len_item). lia.
Qed.
Lemma len_list d t ts : wf (D_list (t :: ts)) -> len (pr d (D_list (t :: ts))) = 3 + total (fun u => d + 4 + len (pr (d + 4) u) + 2) (t :: ts) + d.
Proof.
  intros H. rewrite pr_list by exact H. rewrite !len_app. cbn [String.length]. rewrite !len_app, len_sp, len_entries. change (len "]") with 1.
  rewrite (total_in _ (fun u => d + 4 + len (pr (d + 4) u) + 2)) by (intros u _; apply len_item). lia.
Qed.
Lemma body_length std k : honest std -> forall d, 54 * k * k + 9 * k * d <= len (pr d (body_tree std k)).
Proof.
  intros H. induction k as [|k IH]; intros d; [lia|]. pose proof (body_wf std (S k) H) as W. unfold body_tree in *. cbn [nested_blocks map] in *. rewrite len_list by exact W.
  inversion W as [| | |? F]; subst. inversion F as [|? ? B _]; subst. cbn [d_instr] in *. rewrite total_cons, total_nil, len_tuple by exact B.
  inversion B as [| |? ? _ _ G|]; subst. inversion G as [|? ? RV G']; subst. inversion G' as [|? ? EX _]; subst. rewrite !total_cons, total_nil. unfold d_retval in *.
  rewrite (len_tuple _ "RetVal") by exact RV. rewrite (len_tuple _ "Expr") by exact EX. rewrite !total_cons, !total_nil. specialize (IH (d + 4 + 4 + 4)). 
  change (len "Block") with 5. change (len "RetVal") with 6. change (len "Expr") with 4. lia.
Qed.
Lemma in_entries {A} (h : A -> string) x l : In x l -> len (h x) <= len (entries h l).
Proof. rewrite len_entries. induction l as [|y l IH]; intros I; [destruct I|]. destruct I as [->|I]; rewrite total_cons; [lia|]. apply IH in I. lia. Qed.
Lemma part_struct d nm fs f : wf (D_struct nm fs) -> In f fs -> len (pr (d + 4) (snd f)) <= len (pr d (D_struct nm fs)).
Proof.
  intros H I. rewrite pr_struct by exact H. apply (in_entries (field_text (d + 4))) in I. unfold field_text in I at 1. rewrite !len_app in *. cbn [String.length]. rewrite !len_app in *. lia.
Qed.
Lemma part_tuple d nm ts u : wf (D_tuple nm ts) -> In u ts -> len (pr (d + 4) u) <= len (pr d (D_tuple nm ts)).
Proof.
  intros H I. rewrite pr_tuple by exact H. apply (in_entries (item_text (d + 4))) in I. rewrite len_item in I. rewrite !len_app in *. cbn [String.length]. rewrite !len_app in *. lia.
Qed.
Lemma part_list d ts u : wf (D_list ts) -> In u ts -> len (pr (d + 4) u) <= len (pr d (D_list ts)).
Proof.
  intros H I. destruct ts as [|t ts]; [destruct I|]. rewrite pr_list by exact H. apply (in_entries (item_text (d + 4))) in I. rewrite len_item in I. rewrite !len_app in *. cbn [String.length]. rewrite !len_app in *. lia.
Qed.
Lemma wf_field nm fs f : wf (D_struct nm fs) -> In f fs -> wf (snd f).
Proof. intros H I. inversion H as [|? ? _ _ F| |]; subst. rewrite Forall_forall in F. apply (F f I). Qed.
Lemma wf_item nm ts u : wf (D_tuple nm ts) -> In u ts -> wf u.
Proof. intros H I. inversion H as [| |? ? _ _ F|]; subst. rewrite Forall_forall in F. apply (F u I). Qed.
Lemma wf_element ts u : wf (D_list ts) -> In u ts -> wf u.
Proof. intros H I. inversion H as [| | |? F]; subst. rewrite Forall_forall in F. apply (F u I). Qed.
Theorem length_square std k : honest std -> (N.of_nat k < 2 ^ 29)%N ->
  p_module (encode (tower k)) = (Ok (tower k), []) /\ validate (tower k) = VOk (mkModuleTypes [] []) /\ declared (tower k) = 0 /\
  length (encode (tower k)) <= 3 * k + 32 /\ 54 * k * k <= len (show_module std (tower k)).
Proof.
  intros H L. split; [apply t_read; lia|]. split; [apply t_valid|]. split; [reflexivity|]. split; [apply t_length; lia|].
  assert (W0 : wf (d_module std (tower k))) by (apply module_wf; [exact H|constructor]).
  unfold show_module, println. rewrite len_app, <- (wpad_0 false (pretty _)). change (wpad 0 false (pretty (d_module std (tower k)))) with (pr 0 (d_module std (tower k))).
  set (fn := d_func std {| fn_ty := 0%N; fn_locals := []; fn_body := nested_blocks k |}).
  assert (I0 : In ("funcs"%string, D_list [fn]) (match d_module std (tower k) with D_struct _ fs => fs | _ => [] end)) by (right; left; reflexivity).
  pose proof (part_struct 0 _ _ _ W0 I0) as P0. pose proof (wf_field _ _ _ W0 I0) as W1. cbn [snd] in P0, W1.
  assert (I1 : In fn [fn]) by (left; reflexivity). pose proof (part_list (0 + 4) _ _ W1 I1) as P1. pose proof (wf_element _ _ W1 I1) as W2.
  assert (I2 : In ("body"%string, d_expr std (nested_blocks k)) (match fn with D_struct _ fs => fs | _ => [] end)) by (right; right; left; reflexivity).
  pose proof (part_struct (0 + 4 + 4) _ _ _ W2 I2) as P2. pose proof (wf_field _ _ _ W2 I2) as W3. cbn [snd] in P2, W3.
  assert (I3 : In (body_tree std k) [body_tree std k]) by (left; reflexivity). pose proof (part_tuple (0 + 4 + 4 + 4) _ _ _ W3 I3) as P3.
  pose proof (body_length std k H (0 + 4 + 4 + 4 + 4)) as B.
  change (D_tuple "Expr" [body_tree std k]) with (d_expr std (nested_blocks k)) in P3.
  eapply Nat.le_trans; [|apply Nat.le_add_r]. eapply Nat.le_trans; [|exact P0]. eapply Nat.le_trans; [|exact P1]. eapply Nat.le_trans; [|exact P2]. eapply Nat.le_trans; [|exact P3]. lia.
Qed.
