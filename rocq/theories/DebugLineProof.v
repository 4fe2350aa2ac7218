(** The one-line form of a debug tree determines the tree. *)
From Coq Require Import String Ascii Lia DecimalString.
From Verif Require Import DebugLine SpecLine SpecErrors ErrorsProof SpecDebug SpecUtf8 SpecCode DebugLayout DebugNames DebugProof DisplayProof EncodeProof.
Open Scope string_scope.

(** words: letters, digits, [+], [-], [.] and [_] *)
Definition wordy (c : ascii) : bool := float_char c || Ascii.eqb c "_".
Fixpoint all_wordy (s : string) : bool := match s with "" => true | String c r => wordy c && all_wordy r end.
Definition aword (s : string) : Prop := s <> "" /\ all_wordy s = true.
(** what follows a text in the one-line form *)
Definition after (r : string) : Prop :=
  r = "" \/ exists s, r = String "," s \/ r = String ")" s \/ r = String "]" s \/ r = String " " (String "}" s).
Definition wordless (r : string) : Prop := match r with "" => True | String c _ => wordy c = false end.
Lemma after_wordless r : after r -> wordless r.
Proof. intros [->|(s & [->|[->|[->| ->]]])]; reflexivity || exact I. Qed.
Lemma word_cut a b r1 r2 : all_wordy a = true -> all_wordy b = true -> wordless r1 -> wordless r2 ->
  (a ++ r1 = b ++ r2)%string -> a = b /\ r1 = r2.
Proof.
  revert b. induction a as [|x a IH]; intros [|y b] A B W1 W2 H; cbn in *.
  - auto.
  - subst r1. cbn in W1. rewrite W1 in B. discriminate B.
  - subst r2. cbn in W2. rewrite W2 in A. discriminate A.
  - injection H as -> H. apply andb_prop in A, B. destruct A as [_ A], B as [_ B]. destruct (IH b A B W1 W2 H) as [-> ->]. auto.
Qed.

(** strings in quotes *)
Lemma shows_cut std gs1 gs2 r1 r2 : goods gs1 -> goods gs2 ->
  (String.concat "" (map (show_char std) gs1) ++ quote ++ r1 = String.concat "" (map (show_char std) gs2) ++ quote ++ r2)%string -> gs1 = gs2 /\ r1 = r2.
Proof.
  intros F1. revert gs2. induction F1 as [|g1 gs1 (c1 & G1) F1 IH]; intros gs2 F2 H; destruct F2 as [|g2 gs2 (c2 & G2) F2].
  - cbn in H. injection H as H. auto.
  - cbn [map] in H. rewrite concat_cons in H. destruct (show_not_quote std g2 c2 G2) as (x & r & X & N). rewrite X in H. cbn in H.
    injection H as <- _. destruct (N eq_refl).
  - cbn [map] in H. rewrite concat_cons in H. destruct (show_not_quote std g1 c1 G1) as (x & r & X & N). rewrite X in H. cbn in H.
    injection H as -> _. destruct (N eq_refl).
  - cbn [map] in H. rewrite !concat_cons, !sapp_assoc in H. pose proof (show_one_inj std g1 g2 c1 c2 _ _ G1 G2 H). subst g2.
    apply sapp_inv in H. destruct (IH gs2 F2 H) as [-> ->]. auto.
Qed.

Section Std.
Context (std : std_texts).
Inductive lwf : dtree -> Prop :=
| lwf_word s : aword s -> lwf (D_leaf s)
| lwf_name n : utf8 n -> lwf (d_name std n)
| lwf_struct nm fs : aword nm -> fs <> [] -> Forall (fun f => aword (fst f) /\ lwf (snd f)) fs -> lwf (D_struct nm fs)
| lwf_tuple nm ts : aword nm -> ts <> [] -> Forall lwf ts -> lwf (D_tuple nm ts)
| lwf_list ts : Forall lwf ts -> lwf (D_list ts).

Definition field_line (f : string * dtree) : string := fst f ++ ": " ++ line (snd f).
Lemma line_struct nm fs : fs <> [] -> line (D_struct nm fs) = nm ++ " { " ++ String.concat ", " (map field_line fs) ++ " }".
Proof. destruct fs; [congruence|reflexivity]. Qed.
Lemma line_tuple nm ts : ts <> [] -> line (D_tuple nm ts) = nm ++ "(" ++ String.concat ", " (map line ts) ++ ")".
Proof. destruct ts; [congruence|reflexivity]. Qed.
Lemma name_line n : utf8 n -> exists gs, goods gs /\ n = List.concat gs /\ line (d_name std n) = String "034" (String.concat "" (map (show_char std) gs) ++ quote).
Proof.
  intros U. destruct (utf8_groups n U) as (gs & F & ->). exists gs. split; [exact F|]. split; [reflexivity|].
  unfold d_name. rewrite chars_concat by exact F. reflexivity.
Qed.

Lemma line_head t : lwf t -> exists c r, line t = String c r /\ (wordy c = true \/ c = "034"%char \/ c = "["%char).
Proof.
  assert (W : forall s r, aword s -> exists c q, (s ++ r)%string = String c q /\ (wordy c = true \/ c = "034"%char \/ c = "["%char)).
  { intros s r [N A]. destruct s as [|c s]; [congruence|]. cbn in A. apply andb_prop in A. destruct A as [A _]. do 2 eexists. split; [reflexivity|]. auto. }
  intros L. destruct L as [s A|n U|nm fs A N F|nm ts A N F|ts F].
  - cbn [line]. rewrite <- (sapp_nil s). apply W, A.
  - destruct (name_line n U) as (gs & _ & _ & ->). do 2 eexists. split; [reflexivity|]. auto.
  - rewrite line_struct by exact N. apply W, A.
  - rewrite line_tuple by exact N. apply W, A.
  - cbn [line]. do 2 eexists. split; [reflexivity|]. auto.
Qed.

Definition legible (t1 : dtree) : Prop := forall t2 r1 r2, lwf t1 -> lwf t2 -> after r1 -> after r2 ->
  (line t1 ++ r1 = line t2 ++ r2)%string -> t1 = t2 /\ r1 = r2.

Lemma join_cons x l : l <> [] -> String.concat ", " (x :: l) = (x ++ ", " ++ String.concat ", " l)%string.
Proof. destruct l; [congruence|reflexivity]. Qed.
Lemma join_two x y l : String.concat ", " (x :: y :: l) = (x ++ ", " ++ String.concat ", " (y :: l))%string.
Proof. reflexivity. Qed.
(** a closing text: one bracket, or a blank and a brace *)
Definition closing (q : string) : Prop := q = ")" \/ q = "]" \/ q = " }".
Lemma closing_after q r : closing q -> after (q ++ r).
Proof. intros [->|[->| ->]]; right; exists r; cbn; auto. Qed.
Lemma comma_after r : after (", " ++ r).
Proof. right. eexists. left. reflexivity. Qed.
Lemma comma_closing q r s : closing q -> (", " ++ r = q ++ s)%string -> False.
Proof. intros [->|[->| ->]]; discriminate. Qed.
Lemma head_closing t q r s : lwf t -> closing q -> (line t ++ r = q ++ s)%string -> False.
Proof.
  intros L C H. destruct (line_head t L) as (c & u & E & K). rewrite E in H. cbn [append] in H.
  destruct C as [->|[->| ->]]; cbn in H; injection H as -> _; destruct K as [K|[K|K]]; discriminate K.
Qed.
Lemma items_cut q ts1 ts2 r1 r2 : closing q -> Forall legible ts1 -> Forall lwf ts1 -> Forall lwf ts2 ->
  (String.concat ", " (map line ts1) ++ q ++ r1 = String.concat ", " (map line ts2) ++ q ++ r2)%string -> ts1 = ts2 /\ r1 = r2.
Proof.
  intros C. revert ts2. induction ts1 as [|t1 ts1 IH]; intros [|t2 ts2] Q L1 L2 H.
  - cbn in H. apply sapp_inv in H. auto.
  - exfalso. inversion L2; subst. destruct ts2.
    + cbn [map String.concat] in H. cbn [append] in H. symmetry in H. eapply head_closing; [..|exact H]; assumption.
    + cbn [map] in H. rewrite join_two, sapp_assoc in H. symmetry in H. cbn [String.concat append] in H. eapply head_closing; [..|exact H]; assumption.
  - exfalso. inversion L1; subst. destruct ts1.
    + cbn [map String.concat] in H. cbn [append] in H. eapply head_closing; [..|exact H]; assumption.
    + cbn [map] in H. rewrite join_two, sapp_assoc in H. cbn [String.concat append] in H. eapply head_closing; [..|exact H]; assumption.
  - inversion L1; inversion L2; inversion Q; subst. destruct ts1 as [|u1 ts1], ts2 as [|u2 ts2].
    + cbn [map String.concat] in H. match goal with X : legible t1 |- _ => apply X in H end; try assumption; try (apply closing_after; assumption).
      destruct H as [-> H]. apply sapp_inv in H. auto.
    + cbn [map] in H. rewrite (join_two (line t2)), sapp_assoc in H. cbn [String.concat] in H.
      match goal with X : legible t1 |- _ => apply X in H end; try assumption; try (apply closing_after; assumption); [|rewrite sapp_assoc; apply comma_after].
      destruct H as [_ H]. rewrite sapp_assoc in H. symmetry in H. destruct (comma_closing _ _ _ C H).
    + cbn [map] in H. rewrite (join_two (line t1)), sapp_assoc in H. cbn [String.concat] in H.
      match goal with X : legible t1 |- _ => apply X in H end; try assumption; try (apply closing_after; assumption); [|rewrite sapp_assoc; apply comma_after].
      destruct H as [_ H]. rewrite sapp_assoc in H. destruct (comma_closing _ _ _ C H).
    + cbn [map] in H. rewrite !join_two, !sapp_assoc in H.
      match goal with X : legible t1 |- _ => apply X in H end; try assumption; try apply comma_after.
      destruct H as [-> H]. apply sapp_inv in H. destruct (IH (u2 :: ts2)) as [E ->]; try assumption. rewrite E. auto.
Qed.
Lemma field_cut f1 f2 r1 r2 : aword (fst f1) -> aword (fst f2) -> lwf (snd f1) -> lwf (snd f2) -> legible (snd f1) -> after r1 -> after r2 ->
  (field_line f1 ++ r1 = field_line f2 ++ r2)%string -> f1 = f2 /\ r1 = r2.
Proof.
  intros [_ A1] [_ A2] L1 L2 Q T1 T2 H. unfold field_line in H. rewrite !sapp_assoc in H. apply word_cut in H; [|assumption..|reflexivity|reflexivity].
  destruct H as [E H]. apply sapp_inv in H. apply Q in H; try assumption. destruct H as [E' ->].
  destruct f1, f2. cbn in *. subst. auto.
Qed.
Lemma fields_cut q fs1 fs2 r1 r2 : closing q -> fs1 <> [] -> fs2 <> [] -> Forall (fun f => legible (snd f)) fs1 ->
  Forall (fun f => aword (fst f) /\ lwf (snd f)) fs1 -> Forall (fun f => aword (fst f) /\ lwf (snd f)) fs2 ->
  (String.concat ", " (map field_line fs1) ++ q ++ r1 = String.concat ", " (map field_line fs2) ++ q ++ r2)%string -> fs1 = fs2 /\ r1 = r2.
Proof.
  intros C. revert fs2. induction fs1 as [|t1 ts1 IH]; intros [|t2 ts2] N1 N2 Q L1 L2 H; try congruence.
  inversion L1 as [|? ? [A1 B1] M1]; inversion L2 as [|? ? [A2 B2] M2]; inversion Q; subst. destruct ts1 as [|u1 ts1], ts2 as [|u2 ts2].
  - cbn [map String.concat] in H. apply field_cut in H; try assumption; try (apply closing_after; assumption).
    destruct H as [-> H]. apply sapp_inv in H. auto.
  - cbn [map] in H. rewrite (join_two (field_line t2)), sapp_assoc in H. cbn [String.concat] in H.
    apply field_cut in H; try assumption; try (apply closing_after; assumption); [|rewrite sapp_assoc; apply comma_after].
    destruct H as [_ H]. rewrite sapp_assoc in H. symmetry in H. destruct (comma_closing _ _ _ C H).
  - cbn [map] in H. rewrite (join_two (field_line t1)), sapp_assoc in H. cbn [String.concat] in H.
    apply field_cut in H; try assumption; try (apply closing_after; assumption); [|rewrite sapp_assoc; apply comma_after].
    destruct H as [_ H]. rewrite sapp_assoc in H. destruct (comma_closing _ _ _ C H).
  - cbn [map] in H. rewrite !join_two, !sapp_assoc in H.
    apply field_cut in H; try assumption; try apply comma_after.
    destruct H as [-> H]. apply sapp_inv in H. destruct (IH (u2 :: ts2)) as [E ->]; try assumption; try discriminate. rewrite E. auto.
Qed.

(** every text is of the form: word and rest, quoted text, or list *)
Definition text_kind (t : dtree) (r : string) : Prop :=
  match t with
  | D_struct nm fs => fs <> [] /\ aword nm /\ (line t ++ r = nm ++ String " " (String "{" (String " " (String.concat ", " (map field_line fs) ++ " }" ++ r))))%string
  | D_tuple nm ts => ts <> [] /\ aword nm /\ (line t ++ r = nm ++ String "(" (String.concat ", " (map line ts) ++ ")" ++ r))%string
  | D_list ts => (line t ++ r = String "[" (String.concat ", " (map line ts) ++ "]" ++ r))%string
  | D_leaf s => aword s \/ exists gs, goods gs /\ s = String "034" (String.concat "" (map (show_char std) gs) ++ quote)
  end.
Lemma kind_ok t r : lwf t -> text_kind t r.
Proof.
  intros L. destruct L as [s A|n U|nm fs A N F|nm ts A N F|ts F]; unfold text_kind.
  - auto.
  - destruct (name_line n U) as (gs & F & _ & E). unfold d_name in *. right. exists gs. split; [exact F|exact E].
  - split; [exact N|]. split; [exact A|]. rewrite line_struct by exact N. rewrite !sapp_assoc. reflexivity.
  - split; [exact N|]. split; [exact A|]. rewrite line_tuple by exact N. rewrite !sapp_assoc. reflexivity.
  - cbn [line]. rewrite !sapp_assoc. reflexivity.
Qed.
Lemma word_not c s r q : aword s -> wordy c = false -> (s ++ r = String c q)%string -> False.
Proof. intros [N A] W H. destruct s as [|d s]; [congruence|]. cbn in *. injection H as -> _. rewrite W in A. discriminate A. Qed.
Lemma after_brace r s : after r -> r = String " " (String "{" s) -> False.
Proof. intros [->|(x & [->|[->|[->| ->]]])]; discriminate. Qed.
Lemma after_paren r s : after r -> r = String "(" s -> False.
Proof. intros [->|(x & [->|[->|[->| ->]]])]; discriminate. Qed.

Lemma all_legible t : legible t.
Proof.
  induction t as [s|nm fs IH|nm ts IH|ts IH] using dtree_rec'; intros t2 r1 r2 L1 L2 T1 T2 H;
    pose proof (kind_ok _ r1 L1) as K1; pose proof (kind_ok _ r2 L2) as K2; destruct t2 as [s2|nm2 fs2|nm2 ts2|ts2]; cbn [text_kind] in K1, K2.
  - cbn [line] in H. destruct K1 as [A1|(gs1 & G1 & ->)], K2 as [A2|(gs2 & G2 & ->)].
    + destruct A1 as [_ A1], A2 as [_ A2]. apply word_cut in H; try assumption; try (apply after_wordless; assumption). destruct H as [-> ->]. auto.
    + exfalso. eapply word_not; [exact A1| |exact H]. reflexivity.
    + exfalso. symmetry in H. eapply word_not; [exact A2| |exact H]. reflexivity.
    + cbn [append] in H. injection H as H. rewrite !sapp_assoc in H. apply shows_cut in H; try assumption. destruct H as [-> ->]. auto.
  - destruct K2 as (N2 & A2 & E2). rewrite E2 in H. cbn [line] in H. exfalso. destruct K1 as [A1|(gs1 & G1 & ->)].
    + destruct A1 as [_ A1], A2 as [_ A2]. apply word_cut in H; try assumption; [|apply after_wordless; assumption|reflexivity].
      destruct H as [_ H]. eapply after_brace; [exact T1|exact H].
    + symmetry in H. eapply word_not; [exact A2| |exact H]. reflexivity.
  - destruct K2 as (N2 & A2 & E2). rewrite E2 in H. cbn [line] in H. exfalso. destruct K1 as [A1|(gs1 & G1 & ->)].
    + destruct A1 as [_ A1], A2 as [_ A2]. apply word_cut in H; try assumption; [|apply after_wordless; assumption|reflexivity].
      destruct H as [_ H]. eapply after_paren; [exact T1|exact H].
    + symmetry in H. eapply word_not; [exact A2| |exact H]. reflexivity.
  - rewrite K2 in H. cbn [line] in H. exfalso. destruct K1 as [A1|(gs1 & G1 & ->)]; [|discriminate H].
    eapply word_not; [exact A1| |exact H]. reflexivity.
  - destruct K1 as (N1 & A1 & E1). rewrite E1 in H. cbn [line] in H. exfalso. destruct K2 as [A2|(gs2 & G2 & ->)].
    + destruct A1 as [_ A1], A2 as [_ A2]. apply word_cut in H; try assumption; [|reflexivity|apply after_wordless; assumption].
      destruct H as [_ H]. eapply after_brace; [exact T2|symmetry; exact H].
    + eapply word_not; [exact A1| |exact H]. reflexivity.
  - destruct K1 as (N1 & A1 & E1), K2 as (N2 & A2 & E2). rewrite E1, E2 in H. destruct A1 as [_ A1], A2 as [_ A2].
    apply word_cut in H; try assumption; try reflexivity. destruct H as [-> H]. injection H as H.
    inversion L1; subst; try discriminate. inversion L2; subst; try discriminate.
    apply (fields_cut " }") in H; try assumption; [|right; right; reflexivity]. destruct H as [-> ->]. auto.
  - destruct K1 as (N1 & A1 & E1), K2 as (N2 & A2 & E2). rewrite E1, E2 in H. destruct A1 as [_ A1], A2 as [_ A2].
    apply word_cut in H; try assumption; try reflexivity. destruct H as [_ H]. discriminate H.
  - destruct K1 as (N1 & A1 & E1). rewrite E1, K2 in H. exfalso. eapply word_not; [exact A1| |exact H]. reflexivity.
  - destruct K1 as (N1 & A1 & E1). rewrite E1 in H. cbn [line] in H. exfalso. destruct K2 as [A2|(gs2 & G2 & ->)].
    + destruct A1 as [_ A1], A2 as [_ A2]. apply word_cut in H; try assumption; [|reflexivity|apply after_wordless; assumption].
      destruct H as [_ H]. eapply after_paren; [exact T2|symmetry; exact H].
    + eapply word_not; [exact A1| |exact H]. reflexivity.
  - destruct K1 as (N1 & A1 & E1), K2 as (N2 & A2 & E2). rewrite E1, E2 in H. destruct A1 as [_ A1], A2 as [_ A2].
    apply word_cut in H; try assumption; try reflexivity. destruct H as [_ H]. discriminate H.
  - destruct K1 as (N1 & A1 & E1), K2 as (N2 & A2 & E2). rewrite E1, E2 in H. destruct A1 as [_ A1], A2 as [_ A2].
    apply word_cut in H; try assumption; try reflexivity. destruct H as [-> H]. injection H as H.
    inversion L1; subst; try discriminate. inversion L2; subst; try discriminate.
    apply (items_cut ")") in H; try assumption; [|left; reflexivity]. destruct H as [-> ->]. auto.
  - destruct K1 as (N1 & A1 & E1). rewrite E1, K2 in H. exfalso. eapply word_not; [exact A1| |exact H]. reflexivity.
  - rewrite K1 in H. cbn [line] in H. exfalso. destruct K2 as [A2|(gs2 & G2 & ->)]; [|discriminate H].
    symmetry in H. eapply word_not; [exact A2| |exact H]. reflexivity.
  - destruct K2 as (N2 & A2 & E2). rewrite E2, K1 in H. exfalso. symmetry in H. eapply word_not; [exact A2| |exact H]. reflexivity.
  - destruct K2 as (N2 & A2 & E2). rewrite E2, K1 in H. exfalso. symmetry in H. eapply word_not; [exact A2| |exact H]. reflexivity.
  - rewrite K1, K2 in H. injection H as H. inversion L1; subst; try discriminate. inversion L2; subst; try discriminate.
    apply (items_cut "]") in H; try assumption; [|right; left; reflexivity]. destruct H as [-> ->]. auto.
Qed.
Lemma line_inj t1 t2 : lwf t1 -> lwf t2 -> line t1 = line t2 -> t1 = t2.
Proof.
  intros L1 L2 H. apply (all_legible t1 t2 "" ""); try assumption; try (left; reflexivity). rewrite H. reflexivity.
Qed.

(** well-formedness *)
Ltac aw := split; [discriminate|reflexivity].
Lemma uint_word d : d <> Decimal.Nil -> aword (NilZero.string_of_uint d).
Proof.
  intros N. assert (H : forall d, all_wordy (NilEmpty.string_of_uint d) = true) by (clear; induction d; cbn; auto).
  split; [destruct d; cbn; congruence|]. unfold NilZero.string_of_uint. destruct d; try apply H. reflexivity.
Qed.
Lemma u32_lwf n : lwf (d_u32 n).
Proof. constructor. apply uint_word, uint_nonnil. Qed.
Lemma u8_lwf b : lwf (d_u8 b).
Proof. constructor. apply uint_word, uint_nonnil. Qed.
Lemma int_lwf z : lwf (D_leaf (NilZero.string_of_int (Z.to_int z))).
Proof.
  constructor; destruct z as [|p|p]; cbn [Z.to_int NilZero.string_of_int].
  - apply uint_word. discriminate.
  - apply uint_word, pos_nonnil.
  - split; [discriminate|]. cbn. apply uint_word, pos_nonnil.
Qed.
Lemma byte_lwf b : lwf (d_byte b).
Proof. constructor. split; [discriminate|]. destruct b; reflexivity. Qed.
Lemma float_word s : float_text s -> aword s.
Proof.
  intros [N F]. split; [exact N|]. clear N. induction s as [|c s IH]; [reflexivity|]. cbn [list_ascii_of_string] in F. inversion F; subst.
  cbn. unfold wordy. match goal with X : float_char c = true |- _ => rewrite X end. cbn. auto.
Qed.
Lemma tuple1_lwf nm t : aword nm -> lwf t -> lwf (D_tuple nm [t]).
Proof. intros. apply lwf_tuple; [assumption|discriminate|repeat constructor; assumption]. Qed.
Lemma tuple2_lwf nm t u : aword nm -> lwf t -> lwf u -> lwf (D_tuple nm [t; u]).
Proof. intros. apply lwf_tuple; [assumption|discriminate|repeat constructor; assumption]. Qed.
Lemma tuple3_lwf nm t u v : aword nm -> lwf t -> lwf u -> lwf v -> lwf (D_tuple nm [t; u; v]).
Proof. intros. apply lwf_tuple; [assumption|discriminate|repeat constructor; assumption]. Qed.
Lemma vec_lwf {A} (d : A -> dtree) l : (forall x, In x l -> lwf (d x)) -> lwf (d_vec d l).
Proof. intros H. apply lwf_list. apply Forall_forall. intros t I. apply in_map_iff in I. destruct I as (x & <- & I). auto. Qed.
Lemma option_lwf {A} (d : A -> dtree) o : (forall x, lwf (d x)) -> lwf (d_option d o).
Proof. intros H. destruct o; cbn [d_option]; [apply tuple1_lwf; [aw|apply H]|constructor; aw]. Qed.
Lemma idx_lwf nm n : aword nm -> lwf (d_idx nm n).
Proof. intros P. apply tuple1_lwf; [exact P|apply u32_lwf]. Qed.
Lemma valty_lwf t : lwf (d_valty t).
Proof. destruct t; constructor; aw. Qed.
Lemma valtys_lwf l : lwf (d_vec d_valty l).
Proof. apply vec_lwf. intros x _. apply valty_lwf. Qed.
Ltac lfield := split; [aw|cbn [snd] ].
Ltac lrecord := apply lwf_struct; [aw|discriminate|repeat (apply Forall_cons; [lfield|]); try apply Forall_nil].
Lemma limits_lwf l : lwf (d_limits l).
Proof. lrecord; [apply u32_lwf|apply option_lwf, u32_lwf]. Qed.
Lemma functy_lwf t : lwf (d_functy t).
Proof. lrecord; apply valtys_lwf. Qed.
Lemma tablety_lwf t : lwf (d_tablety t).
Proof. lrecord; [apply limits_lwf|]. destruct (tt_elem t). constructor; aw. Qed.
Lemma memty_lwf t : lwf (d_memty t).
Proof. lrecord. apply limits_lwf. Qed.
Lemma globalty_lwf t : lwf (d_globalty t).
Proof. lrecord; [destruct (gt_mut t); constructor; aw|apply valty_lwf]. Qed.
Context (hon : honest std).
Lemma instr_lwf i : lwf (d_instr std i).
Proof.
  induction i as [i IH] using instr_children_ind.
  assert (C : forall b, In b (children i) -> lwf (D_tuple "Expr" [D_list (map (d_instr std) b)])).
  { intros b I. apply tuple1_lwf; [aw|]. apply (vec_lwf (d_instr std)). intros x J. specialize (IH b I). rewrite Forall_forall in IH. apply IH, J. }
  destruct i; cbn [d_instr];
    first [ apply lwf_word; aw
          | apply tuple1_lwf; [aw|first [apply idx_lwf; aw|apply int_lwf|apply lwf_word; apply float_word; first [apply (chars32 _ hon)|apply (chars64 _ hon)]]]
          | apply tuple2_lwf; [aw|first [apply idx_lwf; aw|apply u32_lwf]|first [apply idx_lwf; aw|apply u32_lwf]]
          | idtac ].
  - apply tuple2_lwf; [aw| |apply C; left; reflexivity]. apply tuple1_lwf; [aw|apply valtys_lwf].
  - apply tuple2_lwf; [aw| |apply C; left; reflexivity]. apply tuple1_lwf; [aw|apply valtys_lwf].
  - apply tuple3_lwf; [aw| |apply C; left; reflexivity|apply C; right; left; reflexivity]. apply tuple1_lwf; [aw|apply valtys_lwf].
  - apply tuple2_lwf; [aw| |apply idx_lwf; aw]. apply (vec_lwf (d_idx "Label")). intros x _. apply idx_lwf. aw.
Qed.
Lemma exprs_lwf nm e : aword nm -> lwf (D_tuple nm [d_vec (d_instr std) e]).
Proof. intros P. apply tuple1_lwf; [exact P|]. apply vec_lwf. intros x _. apply instr_lwf. Qed.
Lemma module_lwf m : Forall utf8 (module_names m) -> lwf (d_module std m).
Proof.
  intros U. lrecord; try (apply vec_lwf; intros x I).
  - apply functy_lwf.
  - lrecord; [apply idx_lwf; aw|apply valtys_lwf|apply exprs_lwf; aw].
  - lrecord. apply tablety_lwf.
  - lrecord. apply memty_lwf.
  - lrecord; [apply globalty_lwf|apply exprs_lwf; aw].
  - lrecord; [apply idx_lwf; aw|apply exprs_lwf; aw|]. apply vec_lwf. intros y _. apply idx_lwf. aw.
  - lrecord; [apply idx_lwf; aw|apply exprs_lwf; aw|]. apply vec_lwf. intros y _. apply u8_lwf.
  - apply option_lwf. intros x. lrecord. apply idx_lwf. aw.
  - apply (names_import _ _ U) in I. destruct I. lrecord; [apply lwf_name; assumption..|].
    destruct (im_desc x); (apply tuple1_lwf; [aw|]); [apply idx_lwf; aw|apply tablety_lwf|apply memty_lwf|apply globalty_lwf].
  - apply (names_export _ _ U) in I. lrecord; [apply lwf_name; assumption|].
    destruct (ex_desc x); (apply tuple1_lwf; [aw|]); apply idx_lwf; aw.
Qed.
Lemma line_module_exact m1 m2 : Forall utf8 (module_names m1) -> Forall utf8 (module_names m2) ->
  line (d_module std m1) = line (d_module std m2) <-> module_one_nan m1 = module_one_nan m2.
Proof.
  intros U1 U2. rewrite <- (module_inj std hon) by assumption. split; [|intros ->; reflexivity].
  apply line_inj; apply module_lwf; assumption.
Qed.
End Std.

(** no line end *)
Lemma word_free s : all_wordy s = true -> free "010" s.
Proof. induction s as [|c s IH]; intros A; [exact I|]. cbn in A. apply andb_prop in A. destruct A as [A B]. split; [|auto]. intros ->. discriminate A. Qed.
Lemma join_free l : Forall (free "010") l -> free "010" (String.concat ", " l).
Proof.
  induction l as [|x l IH]; intros F; [exact I|]. inversion F; subst. destruct l as [|y l]; [assumption|].
  rewrite join_two. apply free_app. split; [assumption|]. apply free_app. split; [cbn; repeat split; discriminate|auto].
Qed.
Lemma line_free std t : lwf std t -> free "010" (line t).
Proof.
  induction t as [s|nm fs IH|nm ts IH|ts IH] using dtree_rec'; intros L.
  - inversion L as [? A|n U| | |]; subst; [apply word_free, A|]. destruct (name_line std n U) as (gs & F & _ & E').
    change (free "010" (line (d_name std n))). rewrite E'. split; [discriminate|]. apply free_app. split; [|cbn; split; [discriminate|exact I]].
    clear - F. induction F as [|g gs (c & G) F IH]; [exact I|]. cbn [map]. rewrite concat_cons. apply free_app. split; [eapply show_free, G|exact IH].
  - inversion L as [| |? ? A N F| |]; subst. rewrite line_struct by exact N. destruct A as [_ A].
    repeat (apply free_app; split); [apply word_free, A|cbn; repeat split; discriminate| |cbn; repeat split; discriminate].
    apply join_free. apply Forall_map. rewrite Forall_forall in *. intros f I. specialize (IH f I). specialize (F f I). destruct F as [[_ B] F]. unfold field_line.
    repeat (apply free_app; split); [apply word_free, B|cbn; repeat split; discriminate|apply IH, F].
  - inversion L as [| | |? ? A N F|]; subst. rewrite line_tuple by exact N. destruct A as [_ A].
    repeat (apply free_app; split); [apply word_free, A|cbn; repeat split; discriminate| |cbn; repeat split; discriminate].
    apply join_free. apply Forall_map. rewrite Forall_forall in *. intros f I. apply (IH f I), F, I.
  - inversion L as [| | | |? F]; subst. cbn [line].
    repeat (apply free_app; split); [cbn; repeat split; discriminate| |cbn; repeat split; discriminate].
    apply join_free. apply Forall_map. rewrite Forall_forall in *. intros f I. apply (IH f I), F, I.
Qed.
Lemma free_in c s : free c s <-> ~ In c (list_ascii_of_string s).
Proof. induction s as [|d s IH]; cbn; [tauto|]. rewrite IH. intuition congruence. Qed.
Lemma module_line std m : honest std -> Forall utf8 (module_names m) -> ~ In "010"%char (list_ascii_of_string (line (d_module std m))).
Proof. intros H U. apply free_in, (line_free std), module_lwf; assumption. Qed.

(** errors *)
Ltac aw := split; [discriminate|reflexivity].
Ltac lrecord := apply lwf_struct; [aw|discriminate|repeat (apply Forall_cons; [split; [aw|cbn [snd] ]|]); try apply Forall_nil].
Ltac word := split; [cbn; repeat split; discriminate|cbn; discriminate].
Ltac record := constructor; [word|discriminate|repeat (apply Forall_cons; [split; [word|split; [cbn; repeat split; discriminate|cbn [snd] ] ]|]); try apply Forall_nil].
Ltac bytes := match goal with H : Byte.to_N ?a = Byte.to_N ?b |- _ => apply (f_equal Byte.of_N) in H; rewrite !Byte.of_to_N in H; injection H as H end.
Lemma byte_eq_iff a b : byte_eq a b = true <-> a = b.
Proof. unfold byte_eq. rewrite N.eqb_eq. split; [intros H; bytes; exact H|intros ->; reflexivity]. Qed.
Lemma perror_eq_iff e1 e2 : perror_eq e1 e2 = true <-> e1 = e2.
Proof.
  split.
  - destruct e1, e2; cbn; try discriminate; intros H; try reflexivity.
    + apply andb_prop in H. destruct H as [A B]. apply N.eqb_eq in A. apply String.eqb_eq in B. bytes. congruence.
    + apply String.eqb_eq in H. congruence.
    + apply byte_eq_iff in H. congruence.
    + apply byte_eq_iff in H. congruence.
    + apply byte_eq_iff in H. congruence.
  - intros ->. destruct e2; cbn; try reflexivity; try (apply byte_eq_iff; reflexivity); rewrite ?N.eqb_refl, ?String.eqb_refl; reflexivity.
Qed.
Lemma str_inj std s1 s2 : utf8 (list_byte_of_string s1) -> utf8 (list_byte_of_string s2) -> d_str std s1 = d_str std s2 -> s1 = s2.
Proof.
  intros U1 U2 H. apply name_inj in H; try assumption. apply (f_equal string_of_list_byte) in H. rewrite !string_of_list_byte_of_string in H. exact H.
Qed.
Lemma byte_text_inj a b : d_byte a = d_byte b -> a = b.
Proof. intros H. apply show_byte_inj. unfold d_byte in H. congruence. Qed.
Lemma perror_inj std e1 e2 : Forall utf8 (error_strings e1) -> Forall utf8 (error_strings e2) -> d_perror std e1 = d_perror std e2 -> e1 = e2.
Proof.
  intros U1 U2 H. destruct e1, e2; cbn [error_strings] in U1, U2; cbn [d_perror] in H; try discriminate H; try reflexivity.
  - inversion U1; inversion U2; subst. assert (A : d_u8 id = d_u8 id0) by congruence. assert (B : d_str std ty = d_str std ty0) by congruence.
    apply u8_inj in A. apply str_inj in B; try assumption. congruence.
  - inversion U1; inversion U2; subst. assert (B : d_str std ins = d_str std ins0) by congruence. apply str_inj in B; try assumption. congruence.
  - assert (A : d_byte id = d_byte id0) by congruence. apply byte_text_inj in A. congruence.
  - assert (A : d_byte id = d_byte id0) by congruence. apply byte_text_inj in A. congruence.
  - assert (A : d_byte id = d_byte id0) by congruence. apply byte_text_inj in A. congruence.
Qed.
Lemma perror_lwf std e : Forall utf8 (error_strings e) -> lwf std (d_perror std e).
Proof.
  intros U. destruct e; cbn [error_strings] in U; cbn [d_perror]; try (apply lwf_word; aw); lrecord; try apply byte_lwf.
  - apply u8_lwf.
  - inversion U. apply lwf_name. assumption.
  - inversion U. apply lwf_name. assumption.
Qed.
Lemma byte_wf b : wf (d_byte b).
Proof. apply leaf_wf; [split|]; destruct b; cbn; try discriminate; repeat split; discriminate. Qed.
Lemma perror_wf std e : Forall utf8 (error_strings e) -> wf (d_perror std e).
Proof.
  intros U. destruct e; cbn [error_strings] in U; cbn [d_perror]; try (apply leaf_wf; [word|discriminate]); record; try apply byte_wf.
  - apply u8_wf.
  - inversion U. apply name_wf. assumption.
  - inversion U. apply name_wf. assumption.
Qed.
Lemma perror_texts std e1 e2 : Forall utf8 (error_strings e1) -> Forall utf8 (error_strings e2) ->
  (line (d_perror std e1) = line (d_perror std e2) <-> e1 = e2) /\ (pretty (d_perror std e1) = pretty (d_perror std e2) <-> e1 = e2).
Proof.
  intros U1 U2. split; (split; [|intros ->; reflexivity]); intros H; apply (perror_inj std); try assumption.
  - eapply line_inj; [..|exact H]; apply perror_lwf; assumption.
  - eapply pretty_inj; [..|exact H]; apply perror_wf; assumption.
Qed.
Lemma ascii_utf8 bs : Forall (fun b => (Byte.to_N b < 128)%N) bs -> utf8 bs.
Proof.
  intros F. exists (map Byte.to_N bs). split.
  - apply Forall_map. apply Forall_forall. intros b I. rewrite Forall_forall in F. specialize (F b I). left. lia.
  - induction F as [|b bs B F IH]; [reflexivity|]. cbn [map flat_map]. rewrite <- IH. unfold utf8_bytes. rewrite (proj2 (N.ltb_lt _ _) B). reflexivity.
Qed.
Lemma possible_utf8 e : possible_error e -> Forall utf8 (error_strings e).
Proof.
  destruct e; cbn [possible_error error_strings]; intros H; try constructor; try constructor.
  - destruct H as [H|[H|[H|[H|[H|[H|[H|H]]]]]]]; destruct H as [-> _]; apply ascii_utf8; repeat constructor.
  - destruct H as [->| ->]; apply ascii_utf8; repeat constructor.
Qed.
Lemma file_error_texts std bs1 bs2 e1 e2 r1 r2 : p_module bs1 = (Err e1, r1) -> p_module bs2 = (Err e2, r2) ->
  (line (d_perror std e1) = line (d_perror std e2) <-> e1 = e2) /\ (pretty (d_perror std e1) = pretty (d_perror std e2) <-> e1 = e2).
Proof.
  intros H1 H2. apply perror_texts; apply possible_utf8, possible_errors; eauto.
Qed.
Lemma byte_comparisons b : (forall n, byte_eq_u8 b n = true <-> n = u8_from_byte b) /\ (forall c, byte_eq_char b c = true <-> c = char_from_byte b) /\
  (forall b', byte_eq b b' = true <-> b' = b) /\ Byte.of_N (u8_from_byte b) = Some b /\ char_from_byte b = u8_from_byte b.
Proof.
  unfold byte_eq_u8, byte_eq_char, u8_from_byte, char_from_byte. repeat split; intros; rewrite ?N.eqb_eq in *; auto.
  - apply byte_eq_iff in H. auto.
  - apply byte_eq_iff. auto.
  - apply Byte.of_to_N.
Qed.

Lemma sized_comparisons {A} (eq : A -> A -> bool) : (forall x y, eq x y = true <-> x = y) ->
  forall x y, (sized_eq eq x y = true <-> x = y) /\ (sized_eq_inner eq x y = true <-> x = y).
Proof. intros H x y. split; apply H. Qed.
Lemma sized_text {A} (d : A -> dtree) x : line (d_sized d x) = "Sized(" ++ line (d x) ++ ")".
Proof. reflexivity. Qed.
Lemma validation_error_text std : line d_verror = line (d_perror std UnexpectedEndOfFile) /\ forall e, line d_verror = line (d_perror std e) -> e = UnexpectedEndOfFile.
Proof. split; [reflexivity|]. intros e. destruct e; cbn; intros H; try discriminate H; reflexivity. Qed.
