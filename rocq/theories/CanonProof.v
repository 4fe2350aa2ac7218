(** Which modules files denote, and which of them official files denote. *)
From Coq Require Import Lia.
From Verif Require Import ParserModule SpecFormat SpecCode SpecEncoder InstrProof SectionsProof CodeProof EncodeProof ModuleClaims2 SizeProof.
Open Scope N_scope.

Lemma enc_short fd bs m : enc_module fd bs m -> (length (encode m) <= length bs)%nat /\
  (forall s, In s (section_contents m) -> N.of_nat (length (snd s)) < 2 ^ 32).
Proof.
  intros (body & secs & -> & (cs & F & ->) & O & CM & ->). destruct (sections_short fd cs secs F O CM) as [S1 S2].
  split; [|exact S2]. unfold encode. rewrite !app_length. unfold sec_size in S1. lia.
Qed.
Lemma enc_representable fd bs m : enc_module fd bs m -> few_locals m -> representable m.
Proof.
  intros E L. destruct (module_range _ _ _ E) as (R1 & R2 & R3). split; [assumption|]. split; [assumption|]. split; [|split; [assumption|apply (enc_short _ _ _ E)]].
  intros e I. split; [|apply R3, I]. destruct (module_exprs_enc _ _ _ _ E I) as [b B]. eapply enc_well_nested, B.
Qed.
Theorem parsed_canonical bs m : p_module bs = (Ok m, []) -> few_locals m ->
  (length (encode m) <= length bs)%nat /\ p_module (encode m) = (Ok m, []).
Proof.
  intros P L. apply module_exact in P as [_ E]. split; [apply (enc_short _ _ _ E)|]. apply round_trip. eapply enc_representable; eassumption.
Qed.
Theorem image_of_parser m : representable m <-> few_locals m /\ exists bs, p_module bs = (Ok m, []).
Proof.
  split.
  - intros R. split; [destruct R as (_ & _ & _ & L & _); exact L|]. exists (encode m). apply round_trip, R.
  - intros [L [bs P]]. apply module_exact in P as [_ E]. eapply enc_representable; eassumption.
Qed.
Lemma official_zero bs e : enc_instrs wasm10_format bs e -> reserved_zero e.
Proof.
  intros E j O. destruct (enc_occurs _ _ _ O _ E) as [p P].
  assert (Z : forall b x, enc_reserved wasm10_format b x -> x = 0).
  { intros b x [((_ & V & _) & _) R]. cbn in R. subst b. rewrite <- V. reflexivity. }
  destruct j; try exact I; inversion P; subst; try discriminate; eapply Z; eassumption.
Qed.
Theorem official_image m : (exists bs, enc_module wasm10_format bs m) <->
  representable m /\ (forall e, In e (module_exprs m) -> reserved_zero e).
Proof.
  split.
  - intros [bs E]. split.
    + eapply enc_representable; [eassumption|]. intros f I. apply module_components in E. destruct E as (_ & HF & _). apply HF in I.
      destruct I as (_ & b & rb & eb & runs & _ & _ & _ & L & _). exact L.
    + intros e I. destruct (module_exprs_enc _ _ _ _ E I) as [b B]. eapply official_zero, B.
  - intros [R Z]. exists (encode m). apply encode_official; assumption.
Qed.
Theorem shortest m bs : representable m -> enc_module whasm_format bs m -> enc_module whasm_format (encode m) m /\ (length (encode m) <= length bs)%nat.
Proof. intros R E. split; [apply encode_whasm, R|apply (enc_short _ _ _ E)]. Qed.
Theorem parsed_official bs m : p_module bs = (Ok m, []) ->
  ((exists bs', enc_module wasm10_format bs' m) <-> few_locals m /\ forall e, In e (module_exprs m) -> reserved_zero e).
Proof.
  intros P. rewrite official_image, image_of_parser. split; [tauto|]. intros [L Z]. split; [|assumption]. split; [assumption|eauto].
Qed.
