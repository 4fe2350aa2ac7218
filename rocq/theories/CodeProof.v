(** Facts about parsed code and parsed modules that follow from the format: nesting, ranges, depth. *)
From Coq Require Import Lia ZifyN ZifyNat.
From Verif Require Import ParserModule SpecFormat SpecCode ParserMeta TypesProof InstrProof ModuleProof SectionsProof.
Open Scope N_scope.

(** ** Every instruction that occurs in encoded code is itself encoded *)
Lemma enc_instrs_in fd bs is : enc_instrs fd bs is -> forall j, In j is -> exists p, enc_instr fd p j.
Proof.
  induction 1 as [|i is ib isb H1 H2 IH]; intros j I; [destruct I|].
  destruct I as [<-|I]; eauto.
Qed.
Lemma enc_children fd bs i : enc_instr fd bs i -> forall sub, In sub (children i) -> exists p, enc_instrs fd p sub.
Proof.
  intros H sub I.
  destruct H as [i op H|i op x xb H E|i op al off ab ob H E1 E2|ls l lsb lb E1 E2|ty tab tyb tabb E1 E2|m mb E|m mb E
    |n nb E|n nb E|z zb E|z zb E|rt is rtb isb E1 E2|rt is rtb isb E1 E2|rt is rtb isb E1 E2|rt is1 is2 rtb is1b is2b E1 E2 E3];
  try (destruct i; cbn in I; try contradiction; discriminate H);
  cbn in I; try contradiction.
  - destruct I as [<-|[]]. eauto.
  - destruct I as [<-|[]]. eauto.
  - destruct I as [<-|[<-|[]]]; [eauto|]. exists []. constructor.
  - destruct I as [<-|[<-|[]]]; eauto.
Qed.
Lemma enc_occurs fd j e : occurs j e -> forall bs, enc_instrs fd bs e -> exists p, enc_instr fd p j.
Proof.
  induction 1 as [e I|i sub e I C O IH]; intros bs H; [eapply enc_instrs_in; eassumption|].
  destruct (enc_instrs_in _ _ _ H _ I) as [p P]. destruct (enc_children _ _ _ P _ C) as [q Q]. eauto.
Qed.

(** ** C11 *)
Lemma enc_instr_nested fd p j : enc_instr fd p j ->
  j <> I_End /\ j <> I_Else /\ forall rt, block_type j = Some rt -> (length rt <= 1)%nat.
Proof.
  intros H. split; [|split].
  - intros ->; inversion H; discriminate.
  - intros ->; inversion H; discriminate.
  - intros rt B. destruct j; try discriminate B; cbn in B; injection B as ->;
    inversion H; subst; try discriminate;
    match goal with X : enc_blockty _ _ |- _ => destruct X as [[_ ->]|(t & _ & ->)] end; cbn; lia.
Qed.
Lemma enc_well_nested fd bs e : enc_instrs fd bs e -> well_nested e.
Proof.
  intros H. split; [|split].
  - intros O. destruct (enc_occurs fd _ _ O _ H) as [p P]. apply enc_instr_nested in P. tauto.
  - intros O. destruct (enc_occurs fd _ _ O _ H) as [p P]. apply enc_instr_nested in P. tauto.
  - intros j rt O B. destruct (enc_occurs fd _ _ O _ H) as [p P]. apply enc_instr_nested in P.
    destruct P as (_ & _ & P). auto.
Qed.

(** ** Ranges *)
Lemma enc_u32_range fd bs v : enc_u32 fd bs v -> v < 2 ^ 32.
Proof. intros [(_ & _ & H) _]. exact H. Qed.
Lemma enc_vec_forall {A} fd (E : format A) (Q : A -> Prop) bs xs :
  (forall b x, E b x -> Q x) -> enc_vec fd E bs xs -> Forall Q xs.
Proof.
  intros H (n & es & _ & _ & ch & F & _). induction F; constructor; eauto.
Qed.
Lemma enc_instr_range fd p j : enc_instr fd p j ->
  Forall (fun n => n < 2 ^ 32) (u32_immediates j) /\ constant_in_range j.
Proof.
  intros H.
  destruct H as [i op H|i op x xb H E|i op al off ab ob H E1 E2|ls l lsb lb E1 E2|ty tab tyb tabb E1 [E2 _]|m mb [E _]|m mb [E _]
    |n nb [(_ & _ & E) _]|n nb [(_ & _ & E) _]|z zb E|z zb E|rt is rtb isb E1 E2|rt is rtb isb E1 E2|rt is rtb isb E1 E2|rt is1 is2 rtb is1b is2b E1 E2 E3].
  - destruct i; try discriminate H; (split; [constructor|exact I]).
  - apply enc_u32_range in E. destruct i; try discriminate H; cbn in H; injection H as <- <-;
    (split; [|exact I]); constructor; auto.
  - apply enc_u32_range in E1, E2. destruct i; try discriminate H; cbn in H; injection H as <- <- <-;
    (split; [|exact I]); constructor; auto.
  - split; [|exact I]. cbn. apply Forall_app. split; [|constructor; [|constructor]].
    + eapply enc_vec_forall; [|eassumption]. intros b x. apply enc_u32_range.
    + eapply enc_u32_range; eassumption.
  - apply enc_u32_range in E1, E2. split; [|exact I]. constructor; auto.
  - apply enc_u32_range in E. split; [|exact I]. constructor; auto.
  - apply enc_u32_range in E. split; [|exact I]. constructor; auto.
  - split; [constructor|exact E].
  - split; [constructor|exact E].
  - split; [constructor|exact (proj1 (proj2 E))].
  - split; [constructor|exact (proj1 (proj2 E))].
  - split; [constructor|exact I].
  - split; [constructor|exact I].
  - split; [constructor|exact I].
  - split; [constructor|exact I].
Qed.
Lemma enc_code_in_range fd bs e : enc_instrs fd bs e -> code_in_range e.
Proof. intros H j O. destruct (enc_occurs fd _ _ O _ H) as [p P]. eapply enc_instr_range; eassumption. Qed.

(** ** Depth (C25) *)
Lemma depth_lists fd :
  (forall bs i, enc_instr fd bs i -> (3 * depth i <= length bs)%nat) /\
  (forall bs is, enc_instrs fd bs is -> (3 * depth_expr is <= length bs)%nat).
Proof.
  apply enc_instr_instrs_ind; unfold depth_expr; intros.
  all: try (match goal with H : plain_opcode ?i = _ |- _ => destruct i; try discriminate H; cbn; lia end).
  all: try (match goal with H : index_opcode ?i = _ |- _ => destruct i; try discriminate H; cbn; lia end).
  all: try (match goal with H : memarg_opcode ?i = _ |- _ => destruct i; try discriminate H; cbn; lia end).
  all: try (cbn [depth length]; lia).
  all: try (assert (length rtb = 1%nat)
    by (match goal with H : enc_blockty _ _ |- _ => destruct H as [[-> _]|(? & -> & _)]; reflexivity end)).
  all: cbn [depth map]; cbn [length]; rewrite ?app_length; cbn [length]; rewrite ?app_length; cbn [length]; try lia.
  all: change (list_max []) with O; try lia.
  match goal with |- context[list_max (depth ?i :: ?l)] =>
    change (list_max (depth i :: l)) with (Nat.max (depth i) (list_max l)) end. lia.
Qed.
Lemma depth_bound bs e rest : p_expr bs = (Ok e, rest) -> (3 * depth_expr e + 1 + length rest <= length bs)%nat.
Proof.
  intros H. apply exact_expr in H. destruct H as (pre & -> & isb & -> & H).
  apply (depth_lists whasm_format) in H. rewrite !app_length. cbn [length]. lia.
Qed.
Fixpoint nested_bytes (d : nat) : list byte :=
  match d with O => [] | S d' => [x02; x40] ++ nested_bytes d' ++ [x0b] end.
Lemma nested_enc d : enc_instrs whasm_format (nested_bytes d) (nested_blocks d).
Proof.
  induction d as [|d IH]; [constructor|]. cbn [nested_bytes nested_blocks].
  rewrite <- (app_nil_r (_ ++ _)). constructor; [|constructor].
  change ([x02; x40] ++ nested_bytes d ++ [x0b]) with (x02 :: [x40] ++ nested_bytes d ++ [x0b]).
  constructor; [left; auto|assumption].
Qed.
Lemma nested_length d : length (nested_bytes d) = (3 * d)%nat.
Proof. induction d as [|d IH]; [reflexivity|]. cbn [nested_bytes app length]. rewrite app_length, IH. cbn [length]. lia. Qed.
Lemma nested_depth d : depth_expr (nested_blocks d) = d.
Proof.
  induction d as [|d IH]; [reflexivity|]. unfold depth_expr in *. cbn [nested_blocks map depth list_max fold_right].
  fold (list_max (map depth (nested_blocks d))). rewrite IH. lia.
Qed.
Lemma depth_reached d : exists bs, length bs = (3 * d + 1)%nat /\ p_expr bs = (Ok (nested_blocks d), []) /\
  depth_expr (nested_blocks d) = d.
Proof.
  exists (nested_bytes d ++ [x0b]). split; [rewrite app_length, nested_length; reflexivity|].
  split; [|apply nested_depth]. apply exact_expr. eexists. rewrite app_nil_r. split; [reflexivity|].
  eexists. split; [reflexivity|apply nested_enc].
Qed.

(** ** Modules *)
Lemma in_flat_sections {A} (get : section -> list A) secs x : In x (flat_map get secs) ->
  exists s, In s secs /\ In x (get s).
Proof. apply in_flat_map. Qed.
Lemma enc_list_in {A} (E : format A) bs xs x : enc_list E bs xs -> In x xs -> exists b, E b x.
Proof.
  intros (ch & F & _). induction F as [|c y ch xs H F IH]; intros I; [destruct I|].
  destruct I as [<-|I]; eauto.
Qed.
Lemma enc_vec_in {A} fd (E : format A) bs xs x : enc_vec fd E bs xs -> In x xs -> exists b, E b x.
Proof. intros (n & es & _ & _ & H). eapply enc_list_in; eassumption. Qed.
Lemma enc_sized_in {A} fd (E : format A) bs x : enc_sized fd E bs x -> exists b, E b x.
Proof. intros (n & c & _ & _ & H). eauto. Qed.
Lemma enc_sized_vec_in {A} fd (E : format A) bs xs x : enc_sized fd (enc_vec fd E) bs xs -> In x xs -> exists b, E b x.
Proof. intros H. apply enc_sized_in in H. destruct H as [b H]. eapply enc_vec_in; eassumption. Qed.

(** every component of an encoded module has an encoding *)
Lemma module_components fd bs m : enc_module fd bs m ->
  (forall x, In x (m_types m) -> exists b, enc_functy fd b x) /\
  (forall x, In x (m_funcs m) -> fn_ty x < 2 ^ 32 /\ exists b, enc_func fd b (fn_locals x, fn_body x)) /\
  (forall x, In x (m_tables m) -> exists b, enc_table fd b x) /\
  (forall x, In x (m_mems m) -> exists b, enc_mem fd b x) /\
  (forall x, In x (m_globals m) -> exists b, enc_global fd b x) /\
  (forall x, In x (m_elem m) -> exists b, enc_elem fd b x) /\
  (forall x, In x (m_data m) -> exists b, enc_data fd b x) /\
  (forall x, m_start m = Some x -> exists b, enc_start fd b x) /\
  (forall x, In x (m_imports m) -> exists b, enc_import fd b x) /\
  (forall x, In x (m_exports m) -> exists b, enc_export fd b x).
Proof.
  intros (body & secs & -> & EL & _ & _ & ->). cbn [module_of m_types m_funcs m_tables m_mems m_globals m_elem m_data m_start m_imports m_exports].
  assert (G : forall s, In s secs -> exists b, enc_section fd b s) by (intros s; eapply enc_list_in; eassumption).
  assert (FL : forall x, In x (flat_map sec_types secs) -> exists b, enc_functy fd b x).
  { intros x I. apply in_flat_map in I. destruct I as (s & I & J). apply G in I. destruct I as (b & I).
    destruct s; try destruct J. destruct I as (b' & _ & I). eapply enc_sized_vec_in; eassumption. }
  split; [exact FL|clear FL]. split.
  { intros x I. unfold pair_funcs in I. apply in_map_iff in I. destruct I as ([t c] & <- & I).
    pose proof (in_combine_l _ _ _ _ I) as I1. pose proof (in_combine_r _ _ _ _ I) as I2. clear I.
    cbn [fn_ty fn_locals fn_body fst snd]. split.
    - apply in_flat_map in I1. destruct I1 as (s & I & J). apply G in I. destruct I as (b & I).
      destruct s; try destruct J. destruct I as (b' & _ & I). eapply enc_sized_vec_in in I; [|eassumption].
      destruct I as [b'' I]. eapply enc_u32_range; eassumption.
    - apply in_flat_map in I2. destruct I2 as (s & I & J). apply G in I. destruct I as (b & I).
      destruct s; try destruct J. destruct I as (b' & _ & I). eapply enc_sized_vec_in in I; [|eassumption].
      destruct I as [b'' I]. apply enc_sized_in in I. destruct c. exact I. }
  split; [|split; [|split; [|split; [|split; [|split; [|split]]]]]].
  all: intros x I.
  6: { assert (I' : In x (flat_map sec_starts secs)) by (destruct (flat_map sec_starts secs); [discriminate|injection I as ->; left; reflexivity]).
       apply in_flat_map in I'. destruct I' as (s & I1 & J). apply G in I1. destruct I1 as (b & I1).
       destruct s; cbn in J; try contradiction. destruct J as [<-|[]]. destruct I1 as (b' & _ & I1). eapply enc_sized_in; eassumption. }
  all: apply in_flat_map in I; destruct I as (s & I & J); apply G in I; destruct I as (b & I);
       destruct s; cbn in J; try contradiction; destruct I as (b' & _ & I); eapply enc_sized_vec_in; eassumption.
Qed.

Lemma module_exprs_enc fd bs m e : enc_module fd bs m -> In e (module_exprs m) -> exists b, enc_instrs fd b e.
Proof.
  intros H I. apply module_components in H.
  destruct H as (_ & HF & _ & _ & HG & HE & HD & _). unfold module_exprs in I.
  rewrite !in_app_iff, !in_map_iff in I.
  destruct I as [(x & <- & I)|[(x & <- & I)|[(x & <- & I)|(x & <- & I)]]].
  - apply HF in I. destruct I as (_ & b & rb & eb & runs & _ & _ & _ & _ & isb & _ & E). eauto.
  - apply HG in I. destruct I as (b & tb & eb & _ & _ & isb & _ & E). eauto.
  - apply HE in I. destruct I as (b & xb & ob & ib & _ & _ & (isb & _ & E) & _). eauto.
  - apply HD in I. destruct I as (b & xb & ob & ib & _ & _ & (isb & _ & E) & _). eauto.
Qed.
Lemma enc_limits_range fd b l : enc_limits fd b l -> Forall (fun n => n < 2 ^ 32) (limits_u32s l).
Proof.
  unfold enc_limits, limits_u32s. destruct (lim_max l) as [mx|].
  - intros (n & m & _ & H1 & H2). apply enc_u32_range in H1, H2. constructor; auto.
  - intros (n & _ & H). apply enc_u32_range in H. constructor; auto.
Qed.
Lemma Forall_flat_map {A B} (P : B -> Prop) (f : A -> list B) l :
  (forall x, In x l -> Forall P (f x)) -> Forall P (flat_map f l).
Proof.
  induction l as [|a l IH]; intros H; [constructor|]. cbn. apply Forall_app. split; [apply H; left; reflexivity|].
  apply IH. intros x I. apply H. right. assumption.
Qed.
Lemma Forall_map_in {A B} (P : B -> Prop) (f : A -> B) l :
  (forall x, In x l -> P (f x)) -> Forall P (map f l).
Proof. intros H. apply Forall_forall. intros y I. apply in_map_iff in I. destruct I as (x & <- & I). auto. Qed.
Lemma module_range fd bs m : enc_module fd bs m ->
  Forall (fun n => n < 2 ^ 32) (module_u32s m) /\ Forall utf8 (module_names m) /\
  (forall e, In e (module_exprs m) -> code_in_range e).
Proof.
  intros H. split; [|split].
  - apply module_components in H.
    destruct H as (_ & HF & HT & HM & _ & HE & HD & HS & HI & HX). unfold module_u32s.
    rewrite !Forall_app. repeat split.
    + apply Forall_map_in. intros x I. apply HF, I.
    + apply Forall_flat_map. intros x I. apply HT in I. destruct I as (b & l & _ & _ & I).
      eapply enc_limits_range; eassumption.
    + apply Forall_flat_map. intros x I. apply HM in I. destruct I as (b & I).
      eapply enc_limits_range; eassumption.
    + apply Forall_flat_map. intros x I. apply HE in I. destruct I as (b & xb & ob & ib & _ & I1 & _ & I2).
      constructor; [eapply enc_u32_range; eassumption|]. eapply enc_vec_forall; [|eassumption]. intros ? ?; apply enc_u32_range.
    + apply Forall_map_in. intros x I. apply HD in I. destruct I as (b & xb & ob & ib & _ & I1 & _ & I2).
      eapply enc_u32_range; eassumption.
    + destruct (m_start m) as [s|]; [|constructor]. destruct (HS s eq_refl) as [b I].
      constructor; [eapply enc_u32_range; eassumption|constructor].
    + apply Forall_flat_map. intros x I. apply HI in I. destruct I as (b & mb & nb & db & _ & _ & _ & I).
      destruct (im_desc x) as [t|t|t|t]; cbn in *.
      * destruct I as (xb & _ & I). constructor; [eapply enc_u32_range; eassumption|constructor].
      * destruct I as (xb & _ & (l & _ & _ & I)). eapply enc_limits_range; eassumption.
      * destruct I as (xb & _ & I). eapply enc_limits_range; eassumption.
      * constructor.
    + apply Forall_flat_map. intros x I. apply HX in I. destruct I as (b & nb & db & _ & _ & I).
      destruct (ex_desc x) as [t|t|t|t]; cbn in *; destruct I as (xb & _ & I);
      (constructor; [eapply enc_u32_range; eassumption|constructor]).
  - apply module_components in H.
    destruct H as (_ & _ & _ & _ & _ & _ & _ & _ & HI & HX). unfold module_names.
    rewrite Forall_app. split.
    + apply Forall_flat_map. intros x I. apply HI in I. destruct I as (b & mb & nb & db & _ & [_ I1] & [_ I2] & _).
      constructor; auto.
    + apply Forall_map_in. intros x I. apply HX in I. destruct I as (b & nb & db & _ & [_ I1] & _). assumption.
  - intros e I. destruct (module_exprs_enc _ _ _ _ H I) as [b E]. eapply enc_code_in_range; eassumption.
Qed.
