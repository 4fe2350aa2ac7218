(** The text of a string determines the string. *)
From Coq Require Import String Ascii Lia ZifyN ZifyBool.
From Coq Require HexadecimalN HexadecimalString HexadecimalFacts.
From Verif Require Import DebugText SpecUtf8 Utf8Proof DebugLayout.
Open Scope N_scope.

(** characters: the bytes of one scalar value *)
Definition good (g : list byte) (c : N) : Prop := scalar c /\ map Byte.to_N g = utf8_bytes c.
Ltac Zify.zify_post_hook ::= Z.div_mod_to_equations.

Lemma good_shape g c : good g c ->
  (exists a, g = [a] /\ Byte.to_N a = c /\ c < 128) \/
  (exists a b, g = [a; b] /\ 0xC0 <= Byte.to_N a < 0xE0 /\ 0x80 <= Byte.to_N b < 0xC0 /\ c = Byte.to_N a mod 32 * 64 + Byte.to_N b mod 64 /\ 128 <= c) \/
  (exists a b d, g = [a; b; d] /\ 0xE0 <= Byte.to_N a < 0xF0 /\ 0x80 <= Byte.to_N b < 0xC0 /\ 0x80 <= Byte.to_N d < 0xC0 /\
    c = Byte.to_N a mod 16 * 4096 + Byte.to_N b mod 64 * 64 + Byte.to_N d mod 64 /\ 128 <= c) \/
  (exists a b d e, g = [a; b; d; e] /\ 0xF0 <= Byte.to_N a /\ 0x80 <= Byte.to_N b < 0xC0 /\ 0x80 <= Byte.to_N d < 0xC0 /\ 0x80 <= Byte.to_N e < 0xC0 /\
    c = Byte.to_N a mod 8 * 262144 + Byte.to_N b mod 64 * 4096 + Byte.to_N d mod 64 * 64 + Byte.to_N e mod 64 /\ 128 <= c).
Proof.
  intros [S M]. unfold scalar in S. unfold utf8_bytes in M.
  destruct (c <? 0x80) eqn:C1; [|destruct (c <? 0x800) eqn:C2; [|destruct (c <? 0x10000) eqn:C3]].
  - left. destruct g as [|a [|b g]]; try discriminate M. cbn [map] in M. apply cons_inv in M as [M _]. exists a. repeat split; lia.
  - right. left. destruct g as [|a [|b [|d g]]]; try discriminate M. cbn [map] in M. apply cons_inv in M as [M1 M]. apply cons_inv in M as [M2 _]. exists a, b.
    rewrite M1, M2. repeat split; lia.
  - right. right. left. destruct g as [|a [|b [|d [|e g]]]]; try discriminate M. cbn [map] in M. apply cons_inv in M as [M1 M]. apply cons_inv in M as [M2 M]. apply cons_inv in M as [M3 _]. exists a, b, d.
    rewrite M1, M2, M3. repeat split; lia.
  - right. right. right. destruct g as [|a [|b [|d [|e [|x g]]]]]; try discriminate M. cbn [map] in M. apply cons_inv in M as [M1 M]. apply cons_inv in M as [M2 M]. apply cons_inv in M as [M3 M]. apply cons_inv in M as [M4 _]. exists a, b, d, e.
    rewrite M1, M2, M3, M4. repeat split; lia.
Qed.
Lemma good_code g c : good g c -> code_point g = c.
Proof.
  intros G. apply good_shape in G.
  destruct G as [(a & -> & H)|[(a & b & -> & H)|[(a & b & d & -> & H)|(a & b & d & e & -> & H)]]]; unfold code_point; cbn [map]; lia.
Qed.
Lemma good_lead g c : good g c -> exists l r, g = l :: r /\ continues l = false /\ Forall (fun b => continues b = true) r /\
  (Byte.to_N l < 128 -> r = [] /\ c = Byte.to_N l) /\
  List.length r = (if Byte.to_N l <? 0x80 then 0%nat else if Byte.to_N l <? 0xE0 then 1%nat else if Byte.to_N l <? 0xF0 then 2%nat else 3%nat) /\
  Forall (fun b => Byte.to_N b <> 10) r.
Proof.
  intros G. apply good_shape in G. unfold continues.
  destruct G as [(a & -> & H)|[(a & b & -> & H)|[(a & b & d & -> & H)|(a & b & d & e & -> & H)]]]; eexists; eexists; (split; [reflexivity|]);
    (split; [lia|]); (split; [repeat apply Forall_cons; try apply Forall_nil; lia|]); (split; [intros; first [exfalso; lia|split; [reflexivity|lia] ]|]);
    (split; [|repeat apply Forall_cons; try apply Forall_nil; lia]).
  - replace (Byte.to_N a <? 128) with true by lia. reflexivity.
  - replace (Byte.to_N a <? 128) with false by lia. replace (Byte.to_N a <? 0xE0) with true by lia. reflexivity.
  - replace (Byte.to_N a <? 128) with false by lia. replace (Byte.to_N a <? 0xE0) with false by lia.
    replace (Byte.to_N a <? 0xF0) with true by lia. reflexivity.
  - replace (Byte.to_N a <? 128) with false by lia. replace (Byte.to_N a <? 0xE0) with false by lia.
    replace (Byte.to_N a <? 0xF0) with false by lia. reflexivity.
Qed.

(** [chars] splits the encoding of scalar values into their bytes *)
Lemma chars_head b r : exists g gs, chars (b :: r) = (b :: g) :: gs.
Proof. cbn [chars]. destruct (chars r) as [|[|c g] gs]; eauto. destruct (continues c); eauto. Qed.
Definition starts (bs : list byte) : Prop := match bs with [] => True | b :: _ => continues b = false end.
Lemma chars_one l r bs : Forall (fun b => continues b = true) r -> starts bs -> chars (l :: r ++ bs) = (l :: r) :: chars bs.
Proof.
  intros F S. revert l. induction F as [|t r T F IH]; intros l.
  - cbn [app]. destruct bs as [|b bs]; [reflexivity|]. change (chars (l :: b :: bs)) with
      (match chars (b :: bs) with (c :: g) :: gs => if continues c then (l :: c :: g) :: gs else [l] :: (c :: g) :: gs | gs => [l] :: gs end).
    destruct (chars_head b bs) as (g & gs & ->). cbn in S. rewrite S. reflexivity.
  - cbn [app]. change (chars (l :: t :: r ++ bs)) with
      (match chars (t :: r ++ bs) with (c :: g) :: gs => if continues c then (l :: c :: g) :: gs else [l] :: (c :: g) :: gs | gs => [l] :: gs end).
    rewrite IH, T. reflexivity.
Qed.
Definition goods (gs : list (list byte)) : Prop := Forall (fun g => exists c, good g c) gs.
Lemma starts_concat gs : goods gs -> starts (concat gs).
Proof.
  intros F. destruct F as [|g gs (c & G) F]; [exact I|]. destruct (good_lead g c G) as (l & r & -> & L & _). exact L.
Qed.
Lemma chars_concat gs : goods gs -> chars (concat gs) = gs.
Proof.
  intros F. induction F as [|g gs (c & G) F IH]; [reflexivity|].
  destruct (good_lead g c G) as (l & r & -> & L & R & _). cbn [concat app]. rewrite chars_one by (try exact R; apply starts_concat, F).
  rewrite IH. reflexivity.
Qed.
Lemma utf8_groups bs : utf8 bs -> exists gs, goods gs /\ bs = concat gs.
Proof.
  intros (cs & F & M). revert bs M. induction F as [|c cs S F IH]; intros bs M.
  - destruct bs; [|discriminate M]. exists []. split; [constructor|reflexivity].
  - cbn [flat_map] in M. apply map_eq_app in M. destruct M as (g & bs' & -> & E & M). destruct (IH bs' M) as (gs & G & ->).
    exists (g :: gs). split; [constructor; [exists c; split; assumption|exact G]|reflexivity].
Qed.

(** the text of one character *)
Definition escapes : list (N * ascii) :=
  [(0, "0"%char); (9, "t"%char); (10, "n"%char); (13, "r"%char); (34, "034"%char); (92, "092"%char); (39, "'"%char)].
Definition hex (c : N) : string := HexadecimalString.NilZero.string_of_uint (N.to_hex_uint c).
Open Scope string_scope.
Lemma show_cases std g c : good g c ->
  (exists e, In (c, e) escapes /\ show_char std g = String backslash (String e "")) \/
  show_char std g = String backslash (String "u" (String "{" (hex c ++ "}"))) \/
  (show_char std g = string_of_list_byte g /\ c <> 34%N /\ c <> 92%N /\ c <> 10%N).
Proof.
  intros G. unfold show_char. rewrite (good_code g c G).
  destruct (N.eqb_spec c 0); [subst; left; eexists; split; [|reflexivity]; cbn; auto 10|].
  destruct (N.eqb_spec c 9); [subst; left; eexists; split; [|reflexivity]; cbn; auto 10|].
  destruct (N.eqb_spec c 10); [subst; left; eexists; split; [|reflexivity]; cbn; auto 10|].
  destruct (N.eqb_spec c 13); [subst; left; eexists; split; [|reflexivity]; cbn; auto 10|].
  destruct (N.eqb_spec c 34); [subst; left; eexists; split; [|reflexivity]; cbn; auto 10|].
  destruct (N.eqb_spec c 92); [subst; left; eexists; split; [|reflexivity]; cbn; auto 10|].
  destruct (N.eqb_spec c 39) as [E|]; cbn [andb].
  - subst c. destruct (std_single std); [left; eexists; split; [|reflexivity]; cbn; auto 10|]. destruct (std_unprintable std 39); [right; left; reflexivity|right; right; repeat split; discriminate].
  - destruct (std_unprintable std c); [right; left; reflexivity|right; right; auto].
Qed.
Lemma escapes_inj c1 c2 e : In (c1, e) escapes -> In (c2, e) escapes -> c1 = c2.
Proof. cbn. intros A B. repeat destruct A as [A|A]; repeat destruct B as [B|B]; try contradiction; congruence. Qed.
Lemma escapes_u c : ~ In (c, "u"%char) escapes.
Proof. cbn. intros A. repeat destruct A as [A|A]; try contradiction; congruence. Qed.
Lemma good_inj g1 g2 c : good g1 c -> good g2 c -> g1 = g2.
Proof.
  intros [_ A] [_ B]. rewrite <- B in A. clear B. revert g2 A. induction g1 as [|x g1 IH]; intros [|y g2] A; try discriminate A; [reflexivity|].
  cbn [map] in A. assert (E : Byte.to_N x = Byte.to_N y) by congruence. assert (A' : map Byte.to_N g1 = map Byte.to_N g2) by congruence.
  rewrite (IH g2 A'). f_equal. apply (f_equal Byte.of_N) in E. rewrite !Byte.of_to_N in E. congruence.
Qed.
(** hexadecimal numbers *)
Lemma hex_free c : free "}" (hex c).
Proof.
  unfold hex. assert (H : forall d, free "}" (HexadecimalString.NilEmpty.string_of_uint d))
    by (induction d; cbn; auto; split; try discriminate; assumption).
  unfold HexadecimalString.NilZero.string_of_uint. destruct (N.to_hex_uint c); try apply H. cbn. split; [discriminate|exact I].
Qed.
Lemma hex_nonnil c : N.to_hex_uint c <> Hexadecimal.Nil.
Proof.
  intros H. pose proof (HexadecimalN.Unsigned.of_to c) as E. rewrite H in E. cbn in E. subst c. discriminate H.
Qed.
Lemma hex_inj c1 c2 : hex c1 = hex c2 -> c1 = c2.
Proof.
  unfold hex. intros H. apply (f_equal HexadecimalString.NilZero.uint_of_string) in H.
  rewrite !HexadecimalString.NilZero.usu in H by apply hex_nonnil. injection H as H. apply HexadecimalN.Unsigned.to_uint_inj, H.
Qed.
(** the first byte of a character shown as itself *)
Lemma ascii_byte b c : ascii_of_byte b = c -> Byte.to_N b = N_of_ascii c.
Proof. intros <-. destruct b; reflexivity. Qed.
Lemma string_cons b g : string_of_list_byte (b :: g) = String (ascii_of_byte b) (string_of_list_byte g).
Proof. reflexivity. Qed.
Lemma raw_lead g c : good g c -> c <> 34%N -> c <> 92%N -> exists x r, string_of_list_byte g = String x r /\ x <> "034"%char /\ x <> "092"%char.
Proof.
  intros G A B. destruct (good_lead g c G) as (l & r & -> & _ & _ & L & _). rewrite string_cons. do 2 eexists. split; [reflexivity|].
  split; intros E; apply ascii_byte in E; cbn in E; destruct L as [_ L]; [|congruence| |congruence]; rewrite E; reflexivity.
Qed.
Lemma string_bytes_inj g1 g2 : string_of_list_byte g1 = string_of_list_byte g2 -> g1 = g2.
Proof. intros H. apply (f_equal list_byte_of_string) in H. rewrite !list_byte_of_string_of_list_byte in H. exact H. Qed.
Lemma string_of_bytes_app g r : (string_of_list_byte g ++ string_of_list_byte r)%string = string_of_list_byte (g ++ r).
Proof. induction g as [|x g IH]; [reflexivity|]. cbn [app]. rewrite !string_cons. cbn [append]. rewrite IH. reflexivity. Qed.
Lemma app_same_length {A} (a b c d : list A) : List.length a = List.length b -> (a ++ c)%list = (b ++ d)%list -> a = b.
Proof.
  revert b. induction a as [|x a IH]; intros [|y b] L H; try discriminate L; [reflexivity|].
  cbn in *. injection H as -> H. injection L as L. f_equal. apply (IH b); assumption.
Qed.
Lemma raw_inj g1 g2 c1 c2 r1 r2 : good g1 c1 -> good g2 c2 ->
  (string_of_list_byte g1 ++ r1 = string_of_list_byte g2 ++ r2)%string -> g1 = g2.
Proof.
  intros G1 G2 H. rewrite <- (string_of_list_byte_of_string r1), <- (string_of_list_byte_of_string r2), !string_of_bytes_app in H.
  apply string_bytes_inj in H.
  destruct (good_lead g1 c1 G1) as (l1 & t1 & -> & _ & _ & _ & L1 & _). destruct (good_lead g2 c2 G2) as (l2 & t2 & -> & _ & _ & _ & L2 & _).
  assert (E : l1 = l2) by (cbn in H; congruence). subst l2. apply app_same_length in H; [exact H|]. cbn. rewrite L1, L2. reflexivity.
Qed.
Lemma show_one_inj std g1 g2 c1 c2 r1 r2 : good g1 c1 -> good g2 c2 ->
  (show_char std g1 ++ r1 = show_char std g2 ++ r2)%string -> g1 = g2.
Proof.
  intros G1 G2 H.
  destruct (show_cases std g1 c1 G1) as [(e1 & I1 & E1)|[E1|(E1 & A1 & B1 & _)]], (show_cases std g2 c2 G2) as [(e2 & I2 & E2)|[E2|(E2 & A2 & B2 & _)]];
    rewrite E1, E2 in H.
  - cbn in H. injection H as -> _. pose proof (escapes_inj _ _ _ I1 I2). subst c2. eapply good_inj; eassumption.
  - cbn in H. injection H as -> _. destruct (escapes_u _ I1).
  - destruct (raw_lead g2 c2 G2 A2 B2) as (x & r & X & _ & N). rewrite X in H. cbn in H. injection H as <- _. destruct (N eq_refl).
  - cbn in H. injection H as <- _. destruct (escapes_u _ I2).
  - cbn [append] in H. injection H as H. rewrite !sapp_assoc in H. apply cut in H; try apply hex_free. destruct H as [H _].
    apply hex_inj in H. subst c2. eapply good_inj; eassumption.
  - destruct (raw_lead g2 c2 G2 A2 B2) as (x & r & X & _ & N). rewrite X in H. cbn in H. injection H as <- _. destruct (N eq_refl).
  - destruct (raw_lead g1 c1 G1 A1 B1) as (x & r & X & _ & N). rewrite X in H. cbn in H. injection H as -> _. destruct (N eq_refl).
  - destruct (raw_lead g1 c1 G1 A1 B1) as (x & r & X & _ & N). rewrite X in H. cbn in H. injection H as -> _. destruct (N eq_refl).
  - eapply raw_inj; eassumption.
Qed.
Lemma show_not_quote std g c : good g c -> exists x r, show_char std g = String x r /\ x <> "034"%char.
Proof.
  intros G. destruct (show_cases std g c G) as [(e1 & I1 & E1)|[E1|(E1 & A1 & B1 & _)]]; rewrite E1.
  - do 2 eexists. split; [reflexivity|discriminate].
  - do 2 eexists. split; [reflexivity|discriminate].
  - destruct (raw_lead g c G A1 B1) as (x & r & X & N & _). eauto.
Qed.
Lemma shows_inj std gs1 gs2 : goods gs1 -> goods gs2 ->
  (String.concat "" (map (show_char std) gs1) ++ quote = String.concat "" (map (show_char std) gs2) ++ quote)%string -> gs1 = gs2.
Proof.
  intros F1. revert gs2. induction F1 as [|g1 gs1 (c1 & G1) F1 IH]; intros gs2 F2 H; destruct F2 as [|g2 gs2 (c2 & G2) F2].
  - reflexivity.
  - cbn [map] in H. rewrite concat_cons in H. destruct (show_not_quote std g2 c2 G2) as (x & r & X & N). rewrite X in H. cbn in H.
    injection H as <- _. destruct (N eq_refl).
  - cbn [map] in H. rewrite concat_cons in H. destruct (show_not_quote std g1 c1 G1) as (x & r & X & N). rewrite X in H. cbn in H.
    injection H as -> _. destruct (N eq_refl).
  - cbn [map] in H. rewrite !concat_cons, !sapp_assoc in H. pose proof (show_one_inj std g1 g2 c1 c2 _ _ G1 G2 H). subst g2.
    apply sapp_inv in H. f_equal. apply IH; assumption.
Qed.
Lemma name_inj std n1 n2 : utf8 n1 -> utf8 n2 -> d_name std n1 = d_name std n2 -> n1 = n2.
Proof.
  intros U1 U2 H. destruct (utf8_groups n1 U1) as (gs1 & F1 & ->). destruct (utf8_groups n2 U2) as (gs2 & F2 & ->).
  unfold d_name in H. rewrite !chars_concat in H by assumption. injection H as H. f_equal.
  apply (shows_inj std); assumption.
Qed.
(** no line ends inside the text of a string *)
Lemma raw_free g : Forall (fun b => Byte.to_N b <> 10%N) g -> free "010" (string_of_list_byte g).
Proof.
  intros F. induction F as [|b g B F IH]; [exact I|]. rewrite string_cons. split; [|exact IH]. intros E. apply ascii_byte in E. apply B, E.
Qed.
Lemma show_free std g c : good g c -> free "010" (show_char std g).
Proof.
  intros G. destruct (show_cases std g c G) as [(e & I1 & ->)|[->|(-> & A1 & B1 & C1)]].
  - cbn. repeat split; try discriminate. intros ->. cbn in I1. repeat destruct I1 as [I1|I1]; try discriminate I1. contradiction.
  - cbn. repeat split; try discriminate. apply free_app. split; [|cbn; split; [discriminate|exact I]]. unfold hex.
    assert (H : forall d, free "010" (HexadecimalString.NilEmpty.string_of_uint d))
      by (induction d; cbn; auto; split; try discriminate; assumption).
    unfold HexadecimalString.NilZero.string_of_uint. destruct (N.to_hex_uint c); try apply H. cbn. split; [discriminate|exact I].
  - apply raw_free. destruct (good_lead g c G) as (l & r & -> & _ & _ & L & _ & R). constructor; [|exact R].
    intros E. destruct L as [_ L]; [rewrite E; reflexivity|congruence].
Qed.
Lemma name_wf std n : utf8 n -> wf (d_name std n).
Proof.
  intros U. destruct (utf8_groups n U) as (gs & F & ->). unfold d_name. rewrite chars_concat by exact F. constructor.
  - split.
    + apply free_app. split; [cbn; split; [discriminate|exact I]|]. apply free_app. split; [|cbn; split; [discriminate|exact I]].
      clear U. induction F as [|g gs (c & G) F IH]; [exact I|]. cbn [map]. rewrite concat_cons. apply free_app. split; [eapply show_free, G|exact IH].
    + cbn. discriminate.
  - cbn. discriminate.
Qed.
