(** How long the files of a module are. *)
From Coq Require Import Lia.
From Verif Require Import ParserModule SpecEncoder SpecAppend LebProof CoreClaims EncodeProof SectionsProof ModuleClaims ModuleClaims2  CanonProof SizeProof UniqueProof PiecesProof AppendProof.
Open Scope N_scope.

(** an integer can be written with any number of bytes more *)
Lemma leb_stretch k l : leb l -> exists l', leb l' /\ uleb_val l' = uleb_val l /\ length l' = (length l + k)%nat.
Proof.
  intros L. destruct k as [|k]; [exists l; rewrite Nat.add_0_r; auto|].
  induction L as [b B|b bs B L (l' & L' & V & N)].
  - exists (byte_of (Byte.to_N b + 128) :: repeat x80 k ++ [x00]).
    assert (T : Byte.to_N (byte_of (Byte.to_N b + 128)) = Byte.to_N b + 128) by (apply to_byte_of; lia).
    split; [constructor; [lia|apply leb_padding]|]. split.
    + cbn [uleb_val]. rewrite uleb_padding. unfold payload. rewrite T. rewrite <- (N.mul_1_l 128) at 1. rewrite N.mod_add by lia. reflexivity.
    + cbn [length]. rewrite app_length, repeat_length. cbn [length]. lia.
  - exists (b :: l'). split; [constructor; assumption|]. split; [cbn [uleb_val]; rewrite V; reflexivity|]. cbn [length]. lia.
Qed.
Lemma u32_stretch k l v : enc_u32 W l v -> exists l', enc_u32 W l' v /\ length l' = (length l + k)%nat.
Proof.
  intros [(L & V & F) _]. destruct (leb_stretch k l L) as (l' & L' & V' & N). exists l'. split; [|exact N]. split; [|exact I].
  split; [exact L'|]. split; [congruence|exact F].
Qed.
Lemma section_stretch k c s : enc_section W c s -> exists c', enc_section W c' s /\ length c' = (length c + k)%nat.
Proof.
  intros H. destruct s; destruct H as (b & -> & n & cont & -> & N & C); destruct (u32_stretch k n _ N) as (n' & N' & L);
    (eexists (_ :: n' ++ cont); split; [exists (n' ++ cont); split; [reflexivity|]; exists n', cont; auto|cbn [length]; rewrite !app_length, L; lia]).
Qed.
Lemma file_stretch bs m n : p_module bs = (Ok m, []) -> bs <> preamble -> (length bs <= n)%nat -> exists bs', length bs' = n /\ p_module bs' = (Ok m, []).
Proof.
  intros P NE L. apply module_exact in P as (_ & body & ss & -> & (cs & F & ->) & O & C & M).
  destruct F as [|c s cs ss H F]; [destruct NE; apply app_nil_r|].
  destruct (section_stretch (n - length (preamble ++ concat (c :: cs))) c s H) as (c' & H' & L').
  exists (preamble ++ concat (c' :: cs)). split.
  - cbn [concat] in *. rewrite !app_length in *. lia.
  - apply module_exact. split; [reflexivity|]. exists (concat (c' :: cs)), (s :: ss). split; [reflexivity|]. split; [|auto].
    exists (c' :: cs). split; [constructor; assumption|reflexivity].
Qed.
Lemma preamble_parses : p_module preamble = (Ok default_module, []). Proof. reflexivity. Qed.
Theorem file_lengths m n : representable m ->
  ((exists bs, length bs = n /\ p_module bs = (Ok m, [])) <->
   (length (encode m) <= n)%nat /\ (m = default_module -> n = 8%nat \/ (11 <= n)%nat)).
Proof.
  intros R. pose proof (round_trip m R) as RT. pose proof (proj1 (proj1 (image_of_parser m) R)) as FL. split.
  - intros (bs & L & P). split; [rewrite <- L; apply (parsed_canonical bs m P FL)|]. intros ->.
    destruct (accepted_cut _ _ P) as (ps & (_ & ->) & _). unfold file in *. rewrite app_length in L. change (length preamble) with 8%nat in L.
    destruct (short_never preamble default_module _ _ _ preamble_parses P) as [E|E]; [rewrite E in L; cbn in L; lia|lia].
  - intros [L D]. destruct (list_eq_dec Byte.byte_eq_dec (encode m) preamble) as [E|E].
    + rewrite E, preamble_parses in RT. injection RT as <-.
      destruct (proj2 (padding preamble default_module (n - 8) preamble_parses)) as (ext & LE & PE); [destruct (D eq_refl); lia|].
      exists (preamble ++ ext). split; [rewrite app_length, LE; change (length preamble) with 8%nat; destruct (D eq_refl); lia|exact PE].
    + exact (file_stretch _ _ n RT E L).
Qed.
