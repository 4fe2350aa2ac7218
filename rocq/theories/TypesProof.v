(** Facts about the parsers of types: binary/ty.rs *)
From Coq Require Import Lia.
From Verif Require Import ParserInstr SpecFormat ParserMeta.
Open Scope N_scope.

Ltac p_step tac :=
  repeat first
    [ assumption
    | progress intros
    | tac
    | match goal with |- _ (let '(_, _) := ?x in _) => destruct x end
    | match goal with |- _ (match ?x with _ => _ end) => destruct x end
    | match goal with |- _ (if ?x then _ else _) => destruct x end ].

Ltac t_suffixing := p_step ltac:(first
  [ apply suffixing_ret | apply suffixing_fail | apply suffixing_byte | apply suffixing_u32
  | apply suffixing_signed | apply suffixing_unsigned | apply suffixing_float | apply suffixing_string
  | apply suffixing_vec | apply suffixing_compact_vec | apply suffixing_sized
  | apply suffixing_times | apply suffixing_bind ]).
Ltac t_safe := p_step ltac:(first
  [ apply safe_ret | apply safe_fail | apply safe_byte | apply safe_u32
  | apply safe_signed; lia | apply safe_unsigned; lia | apply safe_float | apply safe_string
  | apply safe_vec | apply safe_compact_vec | apply safe_sized
  | apply safe_times | apply safe_bind ]).
Ltac t_local_ok := p_step ltac:(first
  [ apply local_ok_ret | apply local_ok_fail | apply local_ok_byte | apply local_ok_u32
  | apply local_ok_signed; lia | apply local_ok_unsigned; lia | apply local_ok_float | apply local_ok_string
  | apply local_ok_vec | apply local_ok_compact_vec | apply local_ok_sized
  | apply local_ok_times | apply local_ok_bind ]).
Ltac t_local_err := p_step ltac:(first
  [ apply local_err_ret | apply local_err_fail | apply local_err_byte | apply local_err_u32
  | apply local_err_signed | apply local_err_unsigned | apply local_err_float | apply local_err_string
  | apply local_err_vec | apply local_err_compact_vec | apply local_err_sized
  | apply local_err_times | apply local_err_bind ]).

(** A byte that selects the format of the rest *)
Lemma exact_dispatch {A} (f : byte -> parser A) F :
  (forall b, exact (f b) (F b)) ->
  exact (b <- p_byte ;; f b) (fun pre x => exists b p, pre = b :: p /\ F b p x).
Proof.
  intros H. eapply exact_ext; [|apply exact_bind; [apply exact_byte|exact H]].
  intros bs a. cbn beta. split.
  - intros (b & p1 & p2 & -> & -> & H2). exists b, p2. auto.
  - intros (b & p & -> & H2). exists b, [b], p. auto.
Qed.

(** ** ty::Val *)
Lemma exact_valty : exact p_valty enc_valty.
Proof.
  unfold p_valty. eapply exact_ext; [|apply exact_dispatch; intros b].
  2: { instantiate (1 := fun b pre t => pre = [] /\ b = valty_byte t). cbn beta.
       destruct b; (eapply exact_ext; [|apply exact_fail || apply exact_ret]);
       (intros bs t; split; [try intros []; subst; try tauto; auto
         |intros [-> H]; destruct t; cbn in H; try discriminate H; auto]). }
  intros bs t. unfold enc_valty. split.
  - intros (b & p & -> & -> & ->). reflexivity.
  - intros ->. eauto.
Qed.
Lemma suffixing_valty : suffixing p_valty. Proof. unfold p_valty; t_suffixing. Qed.
Lemma safe_valty : safe p_valty. Proof. unfold p_valty; t_safe. Qed.
Lemma local_ok_valty : local_ok p_valty. Proof. eapply exact_local_ok, exact_valty. Qed.
Lemma local_err_valty : local_err p_valty. Proof. unfold p_valty; t_local_err; apply local_ok_byte. Qed.

(** ** ty::Limits *)
Lemma exact_limits : exact p_limits (enc_limits whasm_format).
Proof.
  unfold p_limits. eapply exact_ext; [|apply exact_dispatch; intros b].
  2: { instantiate (1 := fun b pre l =>
         (b = x00 /\ exists n, l = {| lim_min := n; lim_max := None |} /\ enc_u32 whasm_format pre n)
         \/ (b = x01 /\ exists n m p1 p2, pre = p1 ++ p2 /\ l = {| lim_min := n; lim_max := Some m |}
              /\ enc_u32 whasm_format p1 n /\ enc_u32 whasm_format p2 m)). cbn beta.
       destruct b; try (eapply exact_ext; [|apply exact_fail];
         intros bs l; split; [intros []|intros [[X _]|[X _]]; discriminate X]).
       - eapply exact_ext; [|apply exact_map, exact_u32]. intros bs l. cbn beta. split.
         + intros (x & H & ->). eauto.
         + intros [[_ (n & -> & H)]|[X _]]; [eauto|discriminate].
       - eapply exact_ext; [|apply exact_bind; [apply exact_u32|intros; apply exact_map, exact_u32]].
         intros bs l. cbn beta. split.
         + intros (n & p1 & p2 & -> & H1 & m & H2 & ->). right. eauto 10.
         + intros [[X _]|[_ (n & m & p1 & p2 & -> & -> & H1 & H2)]]; [discriminate|eauto 10]. }
  intros bs [mn mx]. unfold enc_limits. cbn [lim_min lim_max]. split.
  - intros (b & p & -> & [[-> (n & E & H)]|[-> (n & m & p1 & p2 & -> & E & H1 & H2)]]).
    + injection E as -> ->. eauto.
    + injection E as -> ->. exists p1, p2. auto.
  - destruct mx as [mx|].
    + intros (n & m & -> & H1 & H2). exists x01, (n ++ m). split; [reflexivity|]. right. eauto 10.
    + intros (n & -> & H). exists x00, n. split; [reflexivity|]. left. eauto.
Qed.
Lemma suffixing_limits : suffixing p_limits. Proof. unfold p_limits; t_suffixing. Qed.
Lemma safe_limits : safe p_limits. Proof. unfold p_limits; t_safe. Qed.
Lemma local_ok_limits : local_ok p_limits. Proof. eapply exact_local_ok, exact_limits. Qed.
Lemma local_err_limits : local_err p_limits.
Proof. unfold p_limits; t_local_err; t_local_ok. Qed.

(** ** ty::Elem, ty::Mut *)
Lemma exact_elemty : exact p_elemty (fun bs e => bs = [x70] /\ e = FuncRef).
Proof.
  unfold p_elemty. eapply exact_ext; [|apply exact_dispatch; intros b].
  2: { instantiate (1 := fun b pre t => pre = [] /\ b = x70). cbn beta.
       destruct b; (eapply exact_ext; [|apply exact_fail || apply exact_ret]);
       (intros bs t; split; [try intros []; subst; try tauto; auto
         |intros [-> H]; destruct t; try discriminate H; auto]). }
  intros bs t. split.
  - intros (b & p & -> & -> & ->). destruct t. auto.
  - intros (-> & _). eauto.
Qed.
Lemma suffixing_elemty : suffixing p_elemty. Proof. unfold p_elemty; t_suffixing. Qed.
Lemma safe_elemty : safe p_elemty. Proof. unfold p_elemty; t_safe. Qed.
Lemma local_ok_elemty : local_ok p_elemty. Proof. eapply exact_local_ok, exact_elemty. Qed.
Lemma local_err_elemty : local_err p_elemty. Proof. unfold p_elemty; t_local_err; apply local_ok_byte. Qed.
Lemma exact_mut : exact p_mut (fun bs m => bs = [mut_byte m]).
Proof.
  unfold p_mut. eapply exact_ext; [|apply exact_dispatch; intros b].
  2: { instantiate (1 := fun b pre t => pre = [] /\ b = mut_byte t). cbn beta.
       destruct b; (eapply exact_ext; [|apply exact_fail || apply exact_ret]);
       (intros bs t; split; [try intros []; subst; try tauto; auto
         |intros [-> H]; destruct t; cbn in H; try discriminate H; auto]). }
  intros bs t. split.
  - intros (b & p & -> & -> & ->). reflexivity.
  - intros ->. eauto.
Qed.
Lemma suffixing_mut : suffixing p_mut. Proof. unfold p_mut; t_suffixing. Qed.
Lemma safe_mut : safe p_mut. Proof. unfold p_mut; t_safe. Qed.
Lemma local_ok_mut : local_ok p_mut. Proof. eapply exact_local_ok, exact_mut. Qed.
Lemma local_err_mut : local_err p_mut. Proof. unfold p_mut; t_local_err; apply local_ok_byte. Qed.

(** ** ty::Func, ty::Table, ty::Mem, ty::Global *)
Lemma exact_functy : exact p_functy (enc_functy whasm_format).
Proof.
  unfold p_functy. eapply exact_ext; [|apply exact_dispatch; intros b].
  2: { instantiate (1 := fun b pre ft => b = x60 /\ exists ps rs, pre = ps ++ rs /\
         enc_vec whasm_format enc_valty ps (ft_params ft) /\
         enc_vec whasm_format enc_valty rs (ft_results ft)). cbn beta.
       destruct b; try (eapply exact_ext; [|apply exact_fail];
         intros bs l; split; [intros []|intros [X _]; discriminate X]).
       eapply exact_ext; [|apply exact_bind; [apply exact_vec, exact_valty|
         intros; apply exact_map, exact_vec, exact_valty]].
       intros bs ft. cbn beta. split.
       - intros (ps & p1 & p2 & -> & H1 & rs & H2 & ->). split; [reflexivity|]. cbn. eauto 10.
       - intros (_ & p1 & p2 & -> & H1 & H2). exists (ft_params ft), p1, p2. split; [reflexivity|].
         split; [assumption|]. exists (ft_results ft). split; [assumption|]. destruct ft; reflexivity. }
  intros bs ft. unfold enc_functy. split.
  - intros (b & p & -> & -> & ps & rs & -> & H1 & H2). exists ps, rs. auto.
  - intros (ps & rs & -> & H1 & H2). exists x60, (ps ++ rs). split; [reflexivity|].
    split; [reflexivity|]. eauto.
Qed.
Lemma suffixing_functy : suffixing p_functy.
Proof. unfold p_functy; pose proof suffixing_valty; t_suffixing. Qed.
Lemma safe_functy : safe p_functy.
Proof. unfold p_functy; pose proof safe_valty; t_safe. Qed.
Lemma local_ok_functy : local_ok p_functy. Proof. eapply exact_local_ok, exact_functy. Qed.
Lemma local_err_functy : local_err p_functy.
Proof.
  unfold p_functy; pose proof local_err_valty; pose proof local_ok_valty; t_local_err; t_local_ok.
Qed.
Lemma exact_tablety : exact p_tablety (enc_tablety whasm_format).
Proof.
  unfold p_tablety.
  eapply exact_ext; [|apply exact_bind; [apply exact_elemty|intros; apply exact_map, exact_limits]].
  intros bs [l e]. unfold enc_tablety. cbn [tt_elem tt_lim]. split.
  - intros (x & p1 & p2 & -> & (-> & ->) & y & H & E). injection E as -> ->. exists p2. auto.
  - intros (p & -> & -> & H). exists FuncRef, [x70], p. eauto 10.
Qed.
Lemma suffixing_tablety : suffixing p_tablety.
Proof. unfold p_tablety; pose proof suffixing_elemty; pose proof suffixing_limits; t_suffixing. Qed.
Lemma safe_tablety : safe p_tablety.
Proof. unfold p_tablety; pose proof safe_elemty; pose proof safe_limits; t_safe. Qed.
Lemma local_ok_tablety : local_ok p_tablety. Proof. eapply exact_local_ok, exact_tablety. Qed.
Lemma local_err_tablety : local_err p_tablety.
Proof.
  unfold p_tablety; pose proof local_err_elemty; pose proof local_err_limits;
  pose proof local_ok_elemty; pose proof local_ok_limits; t_local_err.
Qed.
Lemma exact_memty : exact p_memty (enc_memty whasm_format).
Proof.
  unfold p_memty. eapply exact_ext; [|apply exact_map, exact_limits].
  intros bs [l]. unfold enc_memty. cbn [mt_lim]. split.
  - intros (x & H & E). injection E as ->. assumption.
  - intros H. eauto.
Qed.
Lemma suffixing_memty : suffixing p_memty.
Proof. unfold p_memty; pose proof suffixing_limits; t_suffixing. Qed.
Lemma safe_memty : safe p_memty. Proof. unfold p_memty; pose proof safe_limits; t_safe. Qed.
Lemma local_ok_memty : local_ok p_memty. Proof. eapply exact_local_ok, exact_memty. Qed.
Lemma local_err_memty : local_err p_memty.
Proof. unfold p_memty; pose proof local_err_limits; pose proof local_ok_limits; t_local_err. Qed.
Lemma exact_globalty : exact p_globalty enc_globalty.
Proof.
  unfold p_globalty.
  eapply exact_ext; [|apply exact_bind; [apply exact_valty|intros; apply exact_map, exact_mut]].
  intros bs [m v]. unfold enc_globalty. cbn [gt_mut gt_val]. split.
  - intros (x & p1 & p2 & -> & -> & y & -> & E). injection E as -> ->. reflexivity.
  - intros ->. exists v, [valty_byte v], [mut_byte m]. split; [reflexivity|].
    split; [reflexivity|]. eauto.
Qed.
Lemma suffixing_globalty : suffixing p_globalty.
Proof. unfold p_globalty; pose proof suffixing_valty; pose proof suffixing_mut; t_suffixing. Qed.
Lemma safe_globalty : safe p_globalty.
Proof. unfold p_globalty; pose proof safe_valty; pose proof safe_mut; t_safe. Qed.
Lemma local_ok_globalty : local_ok p_globalty. Proof. eapply exact_local_ok, exact_globalty. Qed.
Lemma local_err_globalty : local_err p_globalty.
Proof.
  unfold p_globalty; pose proof local_err_valty; pose proof local_err_mut;
  pose proof local_ok_valty; pose proof local_ok_mut; t_local_err.
Qed.

(** ** Block types *)
Lemma exact_retval : exact p_retval enc_blockty.
Proof.
  unfold p_retval. eapply exact_ext; [|apply exact_dispatch; intros b].
  2: { instantiate (1 := fun b pre rt => pre = [] /\
         ((b = x40 /\ rt = []) \/ exists t, b = valty_byte t /\ rt = [t])). cbn beta.
       intros bs rt rest. destruct b; cbn;
       (split;
        [ intros H; inversion H; subst; exists []; cbn;
          repeat split; first [left; split; reflexivity | right; eexists; split; [|reflexivity]; reflexivity]
        | intros (pre & -> & -> & [[X Y]|(t & X & Y)]); [try discriminate X | destruct t; try discriminate X];
          subst; reflexivity ]). }
  intros bs rt. unfold enc_blockty. split.
  - intros (b & p & -> & -> & [[-> ->]|(t & -> & ->)]); eauto.
  - intros [[-> ->]|(t & -> & ->)]; eauto 10.
Qed.
Lemma suffixing_retval : suffixing p_retval.
Proof.
  unfold p_retval. apply suffixing_bind; [apply suffixing_byte|]. intros b.
  destruct b; first [apply suffixing_ret | intros bs; exists []; reflexivity].
Qed.
Lemma safe_retval : safe p_retval.
Proof.
  unfold p_retval. apply safe_bind; [apply safe_byte|]. intros b.
  destruct b; first [apply safe_ret | intros bs; split; discriminate].
Qed.
Lemma local_ok_retval : local_ok p_retval. Proof. eapply exact_local_ok, exact_retval. Qed.
Lemma local_err_retval : local_err p_retval.
Proof.
  unfold p_retval. apply local_err_bind; [apply local_ok_byte|apply local_err_byte|]. intros b.
  destruct b; first [apply local_err_ret | 
    intros bs e r H; cbn in H; inversion H; subst; right; intros tl; reflexivity].
Qed.
