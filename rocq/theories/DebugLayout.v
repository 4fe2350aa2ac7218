(** The pretty form of a debug tree determines the tree. *)
From Coq Require Import String Ascii Lia.
From Verif Require Import DebugText.
Open Scope string_scope.

(** strings *)
Lemma sapp_assoc a b c : ((a ++ b) ++ c = a ++ b ++ c)%string.
Proof. induction a as [|x a IH]; cbn; [reflexivity|]. rewrite IH. reflexivity. Qed.
Lemma sapp_nil a : (a ++ "" = a)%string.
Proof. induction a as [|x a IH]; cbn; [reflexivity|]. rewrite IH. reflexivity. Qed.
Lemma sapp_inv a b c : (a ++ b = a ++ c)%string -> b = c.
Proof. induction a as [|x a IH]; cbn; intros H; [exact H|]. injection H as H. auto. Qed.
Fixpoint free (c : ascii) (s : string) : Prop :=
  match s with "" => True | String d s' => d <> c /\ free c s' end.
Lemma free_app c a b : free c (a ++ b) <-> free c a /\ free c b.
Proof. induction a as [|x a IH]; cbn; [tauto|]. rewrite IH. tauto. Qed.
(** cutting at the first occurrence of a character *)
Lemma cut c a b r r' : free c a -> free c b -> (a ++ String c r = b ++ String c r')%string -> a = b /\ r = r'.
Proof.
  revert b. induction a as [|x a IH]; intros [|y b] A B H; cbn in *.
  - injection H as H. auto.
  - injection H as -> _. destruct B. congruence.
  - injection H as -> _. destruct A. congruence.
  - injection H as -> H. destruct A as [_ A], B as [_ B]. destruct (IH b A B H) as [-> ->]. auto.
Qed.
Lemma snoc_inv a b c d : (a ++ String c "" = b ++ String d "")%string -> a = b /\ c = d.
Proof.
  revert b. induction a as [|x a IH]; intros [|y b] H; cbn in *.
  - injection H as ->. auto.
  - injection H as -> H. destruct b; discriminate H.
  - injection H as -> H. destruct a; discriminate H.
  - injection H as -> H. destruct (IH b H) as [-> ->]. auto.
Qed.
Lemma concat_cons x l : String.concat "" (x :: l) = (x ++ String.concat "" l)%string.
Proof. cbn. destruct l; [now rewrite sapp_nil|reflexivity]. Qed.

(** padding by any width *)
Fixpoint sp (w : nat) : string := match w with O => "" | S w' => String " " (sp w') end.
Lemma sp_add v w : sp (v + w) = (sp v ++ sp w)%string.
Proof. induction v as [|v IH]; cbn; [reflexivity|]. rewrite IH. reflexivity. Qed.
Fixpoint wpad (w : nat) (nl : bool) (s : string) : string :=
  match s with
  | "" => ""
  | String c s' => (if nl then sp w else "") ++ String c (wpad w (Ascii.eqb c "010") s')
  end.
Lemma pad_wpad nl s : pad nl s = wpad 4 nl s.
Proof. revert nl. induction s as [|c s IH]; intros nl; cbn [pad wpad]; [reflexivity|]. rewrite IH. reflexivity. Qed.
Lemma wpad_0 nl s : wpad 0 nl s = s.
Proof. revert nl. induction s as [|c s IH]; intros nl; cbn [wpad sp]; [reflexivity|]. rewrite IH. destruct nl; reflexivity. Qed.
Lemma wpad_sp w v c r : wpad w false (sp v ++ String c r) = (sp v ++ String c (wpad w (Ascii.eqb c "010") r))%string.
Proof. induction v as [|v IH]; [reflexivity|]. cbn [sp append wpad]. cbn. rewrite IH. reflexivity. Qed.
Lemma wpad_wpad w v nl s : wpad w nl (wpad v nl s) = wpad (w + v) nl s.
Proof.
  revert nl. induction s as [|c s IH]; intros nl; [reflexivity|]. destruct nl.
  - change (wpad v true (String c s)) with (sp v ++ String c (wpad v (Ascii.eqb c "010") s))%string.
    change (wpad (w + v) true (String c s)) with (sp (w + v) ++ String c (wpad (w + v) (Ascii.eqb c "010") s))%string.
    rewrite <- IH, sp_add, sapp_assoc. destruct v as [|v]; [reflexivity|].
    cbn [sp append]. change (wpad w true (String " " ?x)) with (sp w ++ String " " (wpad w false x))%string. 
    rewrite wpad_sp. reflexivity.
  - cbn [wpad append]. rewrite IH. reflexivity.
Qed.
Fixpoint atnl (nl : bool) (s : string) : bool :=
  match s with "" => nl | String c s' => atnl (Ascii.eqb c "010") s' end.
Lemma atnl_app nl a b : atnl nl (a ++ b) = atnl (atnl nl a) b.
Proof. revert nl. induction a as [|c a IH]; intros nl; cbn; auto. Qed.
Lemma wpad_app w nl a b : wpad w nl (a ++ b) = (wpad w nl a ++ wpad w (atnl nl a) b)%string.
Proof.
  revert nl. induction a as [|c a IH]; intros nl; [reflexivity|]. cbn [append wpad atnl]. rewrite IH, !sapp_assoc. reflexivity.
Qed.
Lemma wpad_free w s : free "010" s -> wpad w false s = s.
Proof.
  induction s as [|c s IH]; cbn [free wpad]; [reflexivity|]. intros [A B].
  destruct (Ascii.eqb_spec c "010"); [congruence|]. rewrite (IH B). reflexivity.
Qed.
Lemma atnl_free s : free "010" s -> atnl false s = false.
Proof.
  induction s as [|c s IH]; cbn [free atnl]; [reflexivity|]. intros [A B].
  destruct (Ascii.eqb_spec c "010"); [congruence|]. auto.
Qed.
Lemma wpad_true w s : s <> "" -> wpad w true s = (sp w ++ wpad w false s)%string.
Proof. destruct s; [congruence|reflexivity]. Qed.

(** words *)
Definition plain (s : string) : Prop :=
  free "010" s /\ match s with "" => False | String c _ => c <> " "%char end.
Lemma plain_nonempty s : plain s -> s <> "".
Proof. intros [_ H]. destruct s; [destruct H|discriminate]. Qed.

Inductive wf : dtree -> Prop :=
| wf_leaf s : plain s -> s <> "[]" -> wf (D_leaf s)
| wf_struct nm fs : plain nm -> fs <> [] -> Forall (fun f => plain (fst f) /\ free ":" (fst f) /\ wf (snd f)) fs -> wf (D_struct nm fs)
| wf_tuple nm ts : plain nm -> ts <> [] -> Forall wf ts -> wf (D_tuple nm ts)
| wf_list ts : Forall wf ts -> wf (D_list ts).

Section Ind.
  Variable P : dtree -> Prop.
  Hypothesis hleaf : forall s, P (D_leaf s).
  Hypothesis hstruct : forall nm fs, Forall (fun f => P (snd f)) fs -> P (D_struct nm fs).
  Hypothesis htuple : forall nm ts, Forall P ts -> P (D_tuple nm ts).
  Hypothesis hlist : forall ts, Forall P ts -> P (D_list ts).
  Fixpoint dtree_rec' (t : dtree) : P t :=
    match t with
    | D_leaf s => hleaf s
    | D_struct nm fs => hstruct nm fs ((fix go l : Forall (fun f => P (snd f)) l :=
        match l with [] => Forall_nil _ | f :: l' => Forall_cons f (dtree_rec' (snd f)) (go l') end) fs)
    | D_tuple nm ts => htuple nm ts ((fix go l : Forall P l :=
        match l with [] => Forall_nil _ | u :: l' => Forall_cons u (dtree_rec' u) (go l') end) ts)
    | D_list ts => hlist ts ((fix go l : Forall P l :=
        match l with [] => Forall_nil _ | u :: l' => Forall_cons u (dtree_rec' u) (go l') end) ts)
    end.
End Ind.

(** the text at an indentation *)
Definition pr (d : nat) (t : dtree) : string := wpad d false (pretty t).
Definition nln : ascii := "010".
Definition entries {A} (h : A -> string) (l : list A) : string := String.concat "" (map h l).
Definition field_text (d : nat) (f : string * dtree) : string := sp d ++ fst f ++ ": " ++ pr d (snd f) ++ String "," newline.
Definition item_text (d : nat) (u : dtree) : string := sp d ++ pr d u ++ String "," newline.

Lemma atnl_close nl a c : c <> "010"%char -> atnl nl (a ++ String c "") = false.
Proof. intros H. rewrite atnl_app. cbn. destruct (Ascii.eqb_spec c "010"); [congruence|reflexivity]. Qed.
Lemma pretty_end t : wf t -> pretty t <> "" /\ atnl false (pretty t) = false.
Proof.
  intros H. destruct H as [s P _ | nm fs P N _ | nm ts P N _ | ts _].
  - split; [apply plain_nonempty, P|apply atnl_free, P].
  - destruct fs as [|f fs]; [congruence|]. cbn [pretty]. split.
    + destruct nm; [destruct (plain_nonempty _ P); reflexivity|discriminate].
    + rewrite !atnl_app. reflexivity.
  - destruct ts as [|u ts]; [congruence|]. cbn [pretty]. split.
    + destruct nm; [destruct (plain_nonempty _ P); reflexivity|discriminate].
    + rewrite !atnl_app. reflexivity.
  - destruct ts as [|u ts]; [split; [discriminate|reflexivity]|]. cbn [pretty]. split; [discriminate|]. rewrite !atnl_app. reflexivity.
Qed.
Lemma entry_text d u : wf u -> wpad d true (pad true (pretty u ++ "," ++ newline)) = item_text (d + 4) u.
Proof.
  intros W. destruct (pretty_end u W) as [N E]. rewrite pad_wpad, wpad_wpad, wpad_true.
  2:{ destruct (pretty u); [congruence|discriminate]. }
  rewrite wpad_app, E. reflexivity.
Qed.
Lemma entry_end u : wf u -> atnl true (pad true (pretty u ++ "," ++ newline)) = true.
Proof.
  intros W. destruct (pretty_end u W) as [N E]. rewrite pad_wpad, wpad_true by (destruct (pretty u); [congruence|discriminate]).
  rewrite wpad_app, E, !atnl_app. reflexivity.
Qed.
Lemma plain_free s : plain s -> free "010" s.
Proof. intros [H _]. exact H. Qed.
Lemma field_text_eq d f : plain (fst f) -> wf (snd f) ->
  wpad d true (pad true (fst f ++ ": " ++ pretty (snd f) ++ "," ++ newline)) = field_text (d + 4) f.
Proof.
  intros P W. destruct (pretty_end (snd f) W) as [N E]. rewrite pad_wpad, wpad_wpad, wpad_true.
  2:{ destruct (fst f); [destruct (plain_nonempty _ P); reflexivity|discriminate]. }
  unfold field_text. f_equal. rewrite wpad_app, (wpad_free _ (fst f)), (atnl_free (fst f)) by (apply plain_free, P). f_equal.
  rewrite wpad_app. f_equal. rewrite wpad_app. f_equal. change (atnl false ": ") with false. rewrite E. reflexivity.
Qed.
Lemma field_end f : plain (fst f) -> wf (snd f) -> atnl true (pad true (fst f ++ ": " ++ pretty (snd f) ++ "," ++ newline)) = true.
Proof.
  intros P W. destruct (pretty_end (snd f) W) as [N E].
  rewrite pad_wpad, wpad_true by (destruct (fst f); [destruct (plain_nonempty _ P); reflexivity|discriminate]).
  rewrite !wpad_app, !atnl_app. rewrite (wpad_free _ (fst f)), (atnl_free (fst f)) by (apply plain_free, P).
  change (atnl false ": ") with false. rewrite E. reflexivity.
Qed.
Lemma fields_text d fs c : Forall (fun f => plain (fst f) /\ free ":" (fst f) /\ wf (snd f)) fs -> c <> "010"%char ->
  wpad d true (String.concat "" (map (fun f => pad true (fst f ++ ": " ++ pretty (snd f) ++ "," ++ newline)) fs) ++ String c "")
  = (entries (field_text (d + 4)) fs ++ sp d ++ String c "")%string.
Proof.
  intros F C. induction F as [|f fs (A & _ & B) F IH]; [reflexivity|].
  unfold entries in *. cbn [map]. rewrite !concat_cons, !sapp_assoc, wpad_app, field_text_eq, field_end by assumption.
  rewrite IH. reflexivity.
Qed.
Lemma items_text d ts c : Forall wf ts -> c <> "010"%char ->
  wpad d true (String.concat "" (map (fun u => pad true (pretty u ++ "," ++ newline)) ts) ++ String c "")
  = (entries (item_text (d + 4)) ts ++ sp d ++ String c "")%string.
Proof.
  intros F C. induction F as [|u ts B F IH]; [reflexivity|].
  unfold entries in *. cbn [map]. rewrite !concat_cons, !sapp_assoc, wpad_app, entry_text, entry_end by assumption.
  rewrite IH. reflexivity.
Qed.
Lemma head_text d nm o rest : plain nm -> free "010" o -> wpad d false (nm ++ o ++ newline ++ rest) = ((nm ++ o) ++ String nln (wpad d true rest))%string.
Proof.
  intros P O. rewrite wpad_app, (wpad_free _ nm), (atnl_free nm) by (apply plain_free, P).
  rewrite wpad_app, (wpad_free _ o), (atnl_free o) by exact O. rewrite sapp_assoc. reflexivity.
Qed.
Lemma pr_struct d nm fs : wf (D_struct nm fs) ->
  pr d (D_struct nm fs) = ((nm ++ " {") ++ String nln (entries (field_text (d + 4)) fs ++ sp d ++ "}"))%string.
Proof.
  intros W. inversion W as [|n f P N F| |]; subst. unfold pr. destruct fs as [|f fs]; [congruence|].
  cbn [pretty]. rewrite head_text by (try exact P; cbn; repeat split; discriminate). rewrite fields_text by (try exact F; discriminate). reflexivity.
Qed.
Lemma pr_tuple d nm ts : wf (D_tuple nm ts) ->
  pr d (D_tuple nm ts) = ((nm ++ "(") ++ String nln (entries (item_text (d + 4)) ts ++ sp d ++ ")"))%string.
Proof.
  intros W. inversion W as [| |n f P N F|]; subst. unfold pr. destruct ts as [|f ts]; [congruence|].
  cbn [pretty]. rewrite head_text by (try exact P; cbn; repeat split; discriminate). rewrite items_text by (try exact F; discriminate). reflexivity.
Qed.
Lemma pr_list d t ts : wf (D_list (t :: ts)) ->
  pr d (D_list (t :: ts)) = ("[" ++ String nln (entries (item_text (d + 4)) (t :: ts) ++ sp d ++ "]"))%string.
Proof.
  intros W. inversion W as [| | |f F]; subst. unfold pr. cbn [pretty].
  change ("[" ++ newline ++ ?r)%string with ("[" ++ "" ++ newline ++ r)%string. rewrite head_text.
  - rewrite items_text by (try exact F; discriminate). reflexivity.
  - split; [cbn; repeat split; discriminate|discriminate].
  - exact I.
Qed.

(** the first line of a tree followed by a comma and the end of the line, and the rest *)
Definition opening (t : dtree) : string :=
  match t with D_leaf s => s ++ "," | D_struct nm _ => nm ++ " {" | D_tuple nm _ => nm ++ "(" | D_list [] => "[]," | D_list _ => "[" end.
Definition remainder (d : nat) (t : dtree) (r : string) : string :=
  match t with
  | D_leaf _ => r
  | D_struct _ fs => entries (field_text (d + 4)) fs ++ sp d ++ "}," ++ String nln r
  | D_tuple _ ts => entries (item_text (d + 4)) ts ++ sp d ++ ")," ++ String nln r
  | D_list [] => r
  | D_list ts => entries (item_text (d + 4)) ts ++ sp d ++ "]," ++ String nln r
  end.
Lemma pr_lines d t r : wf t -> (pr d t ++ "," ++ String nln r = opening t ++ String nln (remainder d t r))%string.
Proof.
  intros W. destruct t as [s|nm fs|nm ts|[|t ts]].
  - inversion W; subst. unfold pr. cbn [pretty opening remainder]. rewrite wpad_free by (apply plain_free; assumption). rewrite sapp_assoc. reflexivity.
  - rewrite pr_struct by exact W. cbn [opening remainder]. rewrite !sapp_assoc. cbn [append]. rewrite !sapp_assoc. reflexivity.
  - rewrite pr_tuple by exact W. cbn [opening remainder]. rewrite !sapp_assoc. cbn [append]. rewrite !sapp_assoc. reflexivity.
  - reflexivity.
  - rewrite pr_list by exact W. cbn [opening remainder]. rewrite !sapp_assoc. cbn [append]. rewrite !sapp_assoc. reflexivity.
Qed.
Lemma opening_free t : wf t -> free "010" (opening t).
Proof.
  intros W. destruct W as [s P _ | nm fs P N _ | nm ts P N _ | [|t ts] _]; cbn [opening]; try (cbn; repeat split; discriminate);
    apply free_app; (split; [apply plain_free, P|cbn; repeat split; discriminate]).
Qed.
(** two trees with the same first line have the same shape *)
Definition same_head (t1 t2 : dtree) : Prop :=
  match t1, t2 with
  | D_leaf a, D_leaf b => a = b
  | D_struct a _, D_struct b _ => a = b
  | D_tuple a _, D_tuple b _ => a = b
  | D_list [], D_list [] => True
  | D_list (_ :: _), D_list (_ :: _) => True
  | _, _ => False
  end.
Definition split_open (t : dtree) : string * ascii :=
  match t with D_leaf s => (s, ","%char) | D_struct nm _ => (nm ++ " ", "{"%char) | D_tuple nm _ => (nm, "("%char)
             | D_list [] => ("[]", ","%char) | D_list _ => ("", "["%char) end.
Lemma split_open_ok t : opening t = (fst (split_open t) ++ String (snd (split_open t)) "")%string.
Proof. destruct t as [s|nm fs|nm ts|[|t ts]]; cbn [opening split_open fst snd]; rewrite ?sapp_assoc; reflexivity. Qed.
Lemma opening_inv t1 t2 : wf t1 -> wf t2 -> opening t1 = opening t2 -> same_head t1 t2.
Proof.
  intros W1 W2 H. rewrite !split_open_ok in H. apply snoc_inv in H. destruct H as [A B].
  destruct t1 as [s1|n1 f1|n1 l1|[|u1 l1]], t2 as [s2|n2 f2|n2 l2|[|u2 l2]]; cbn in *; try discriminate B; auto.
  - inversion W1; subst. congruence.
  - apply snoc_inv in A. apply A.
  - inversion W2; subst. congruence.
Qed.

(** unique reading *)
Definition readable (t1 : dtree) : Prop := forall t2 d r1 r2, wf t1 -> wf t2 ->
  (pr d t1 ++ "," ++ String nln r1 = pr d t2 ++ "," ++ String nln r2)%string -> t1 = t2 /\ r1 = r2.
Lemma sp_head a b d : (sp d ++ a = sp d ++ b)%string -> a = b.
Proof. apply sapp_inv. Qed.
Lemma field_cons d f fs x : (entries (field_text (d + 4)) (f :: fs) ++ x
  = sp d ++ "    " ++ fst f ++ ": " ++ pr (d + 4) (snd f) ++ "," ++ String nln (entries (field_text (d + 4)) fs ++ x))%string.
Proof. unfold entries, field_text. cbn [map]. rewrite concat_cons, sp_add, !sapp_assoc. cbn [sp append newline]. rewrite ?sapp_assoc. reflexivity. Qed.
Lemma item_cons d u ts x : (entries (item_text (d + 4)) (u :: ts) ++ x
  = sp d ++ "    " ++ pr (d + 4) u ++ "," ++ String nln (entries (item_text (d + 4)) ts ++ x))%string.
Proof. unfold entries, item_text. cbn [map]. rewrite concat_cons, sp_add, !sapp_assoc. cbn [sp append newline]. rewrite ?sapp_assoc. reflexivity. Qed.
Lemma fields_inv d c x1 x2 fs1 fs2 : c <> " "%char -> Forall (fun f => readable (snd f)) fs1 ->
  Forall (fun f => plain (fst f) /\ free ":" (fst f) /\ wf (snd f)) fs1 -> Forall (fun f => plain (fst f) /\ free ":" (fst f) /\ wf (snd f)) fs2 ->
  (entries (field_text (d + 4)) fs1 ++ sp d ++ String c x1 = entries (field_text (d + 4)) fs2 ++ sp d ++ String c x2)%string ->
  fs1 = fs2 /\ x1 = x2.
Proof.
  intros C R. revert fs2. induction R as [|f1 fs1 R1 R IH]; intros [|f2 fs2] W1 W2 H.
  - cbn in H. apply sp_head in H. injection H as H. auto.
  - rewrite field_cons in H. cbn in H. apply sp_head in H. injection H as -> _. congruence.
  - rewrite field_cons in H. cbn in H. apply sp_head in H. injection H as <- _. congruence.
  - rewrite !field_cons in H. apply sp_head in H. apply sapp_inv in H.
    inversion W1 as [|? ? (_ & F1 & V1) W1']; subst. inversion W2 as [|? ? (_ & F2 & V2) W2']; subst.
    apply cut in H; [|assumption..]. destruct H as [N H]. injection H as H. apply R1 in H; [|assumption..]. destruct H as [T H].
    apply IH in H; [|assumption..]. destruct H as [-> ->]. destruct f1, f2. cbn in *. subst. auto.
Qed.
Lemma items_inv d c x1 x2 ts1 ts2 : c <> " "%char -> Forall readable ts1 -> Forall wf ts1 -> Forall wf ts2 ->
  (entries (item_text (d + 4)) ts1 ++ sp d ++ String c x1 = entries (item_text (d + 4)) ts2 ++ sp d ++ String c x2)%string ->
  ts1 = ts2 /\ x1 = x2.
Proof.
  intros C R. revert ts2. induction R as [|u1 ts1 R1 R IH]; intros [|u2 ts2] W1 W2 H.
  - cbn in H. apply sp_head in H. injection H as H. auto.
  - rewrite item_cons in H. cbn in H. apply sp_head in H. injection H as -> _. congruence.
  - rewrite item_cons in H. cbn in H. apply sp_head in H. injection H as <- _. congruence.
  - rewrite !item_cons in H. apply sp_head in H. apply sapp_inv in H.
    inversion W1; subst. inversion W2; subst.
    apply R1 in H; [|assumption..]. destruct H as [-> H]. apply IH in H; [|assumption..]. destruct H as [-> ->]. auto.
Qed.
Lemma all_readable t : readable t.
Proof.
  induction t as [s|nm fs IH|nm ts IH|ts IH] using dtree_rec'; intros t2 d r1 r2 W1 W2 H; rewrite !pr_lines in H by assumption;
    apply cut in H; try (apply opening_free; assumption); destruct H as [O H]; apply opening_inv in O; try assumption.
  - destruct t2; cbn in O, H; try destruct O. subst. auto.
  - destruct t2; cbn in O; try destruct O. subst. cbn [remainder append] in H. inversion W1; subst. inversion W2; subst.
    apply fields_inv in H; [|try discriminate; assumption..]. destruct H as [-> H]. injection H as H. auto.
  - destruct t2; cbn in O; try destruct O. subst. cbn [remainder append] in H. inversion W1; subst. inversion W2; subst.
    apply items_inv in H; [|try discriminate; assumption..]. destruct H as [-> H]. injection H as H. auto.
  - destruct t2 as [| | |ts2]; try (destruct ts; destruct O). destruct ts as [|u ts], ts2 as [|u2 ts2]; try destruct O; [cbn in H; auto|].
    cbn [remainder append] in H. inversion W1; subst. inversion W2; subst.
    apply items_inv in H; [|try discriminate; assumption..]. destruct H as [E H]. injection H as H. rewrite E. auto.
Qed.
Lemma pretty_inj t1 t2 : wf t1 -> wf t2 -> pretty t1 = pretty t2 -> t1 = t2.
Proof.
  intros W1 W2 H. apply (all_readable t1 t2 0%nat "" "" W1 W2). unfold pr. rewrite !wpad_0, H. reflexivity.
Qed.
