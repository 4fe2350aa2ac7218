(** Proofs about the command line program. *)
From Coq Require Import String Lia.
From Verif Require Import SpecCli SpecVerdict SpecFormat SpecCode EncodeProof ModuleClaims ModuleClaims2 SectionsProof CodeProof SafeProof ValidityClaims.

Definition flagb (a : string) : bool := (String.eqb a "-p" || String.eqb a "--print")%bool.
Lemma flagb_iff a : flagb a = true <-> is_flag a.
Proof. unfold flagb, is_flag. rewrite Bool.orb_true_iff, !String.eqb_eq. reflexivity. Qed.
Lemma flagb_false a : flagb a = false <-> ~ is_flag a.
Proof. rewrite <- flagb_iff. destruct (flagb a); intuition congruence. Qed.

(** the loop keeps the last non-flag *)
Lemma config_loop_file args f0 p0 :
  (Forall is_flag args /\ fst (config_loop args f0 p0) = f0) \/
  (exists pre name post, args = pre ++ name :: post /\ ~ is_flag name /\ Forall is_flag post /\ fst (config_loop args f0 p0) = name).
Proof.
  revert f0 p0. induction args as [|a args IH]; intros f0 p0; [left; split; [constructor|reflexivity]|].
  cbn [config_loop]. change (String.eqb a "-p" || String.eqb a "--print")%bool with (flagb a).
  destruct (flagb a) eqn:F.
  - destruct (IH f0 true) as [[A B]|(pre & name & post & -> & N & P & B)].
    + left. split; [constructor; [apply flagb_iff; assumption|assumption]|assumption].
    + right. exists (a :: pre), name, post. auto.
  - destruct (IH a p0) as [[A B]|(pre & name & post & -> & N & P & B)].
    + right. exists [], a, args. repeat split; auto. apply flagb_false. assumption.
    + right. exists (a :: pre), name, post. auto.
Qed.
Lemma config_loop_print args f0 p0 : snd (config_loop args f0 p0) = true <-> p0 = true \/ exists a, In a args /\ is_flag a.
Proof.
  revert f0 p0. induction args as [|a args IH]; intros f0 p0.
  - cbn. split; [auto|]. intros [H|(a & [] & _)]. exact H.
  - cbn [config_loop]. change (String.eqb a "-p" || String.eqb a "--print")%bool with (flagb a). destruct (flagb a) eqn:F; rewrite IH.
    + split; [|auto]. intros _. right. exists a. split; [left; reflexivity|apply flagb_iff; assumption].
    + split; intros [H|(b & I & G)]; auto.
      * right. exists b. split; [right|]; assumption.
      * destruct I as [->|I]; [apply flagb_iff in G; congruence|]. right. eauto.
Qed.
(** the last non-flag is unique *)
Lemma last_nonflag pre name post pre' name' post' : pre ++ name :: post = pre' ++ name' :: post' ->
  ~ is_flag name -> ~ is_flag name' -> Forall is_flag post -> Forall is_flag post' -> name = name'.
Proof.
  intros E N N' P P'. assert (R : rev post ++ name :: rev pre = rev post' ++ name' :: rev pre').
  { apply (f_equal (@rev _)) in E. rewrite !rev_app_distr in E. cbn [rev] in E. rewrite <- !app_assoc in E. exact E. }
  apply Forall_rev in P, P'. revert R P P'. generalize (rev post) (rev post') (rev pre) (rev pre'). clear - N N'.
  intros l. induction l as [|a l IH]; intros [|b l'] q q' R P P'; cbn in R; injection R as E R; subst.
  - reflexivity.
  - inversion P'; subst. contradiction.
  - inversion P; subst. contradiction.
  - inversion P; inversion P'; subst. eapply IH; eassumption.
Qed.
Lemma config_new_iff args cfg : config_new args = Some cfg <->
  names_file args (cfg_filename cfg) /\ (cfg_print cfg = true <-> asks_print args).
Proof.
  unfold config_new, names_file, asks_print. destruct args as [|prog args].
  { split; [discriminate|]. intros [(prog & pre & post & E & _) _]. discriminate E. }
  pose proof (config_loop_file args "" false) as F. pose proof (config_loop_print args "" false) as P.
  destruct (config_loop args "" false) as [filename print]. cbn [fst snd] in F, P.
  assert (PE : print = true <-> exists prog0 rest a, prog :: args = prog0 :: rest /\ In a rest /\ is_flag a).
  { rewrite P. split.
    - intros [[=]|(a & A & B)]. exists prog, args, a. auto.
    - intros (? & ? & a & [= <- <-] & A & B). right. eauto. }
  destruct (String.eqb_spec filename "") as [E|E].
  - split; [discriminate|]. intros [(prog' & pre & post & [= <- EA] & N & PO & NE) _].
    destruct F as [[FA _]|(pre' & name & post' & EA' & N' & PO' & FN)].
    + rewrite EA in FA. apply Forall_app in FA as [_ FA]. inversion FA; subst. contradiction.
    + rewrite EA in EA'. pose proof (last_nonflag _ _ _ _ _ _ EA' N N' PO PO'). congruence.
  - destruct F as [[_ F]|(pre' & name & post' & EA' & N' & PO' & FN)]; [congruence|]. subst filename. split.
    + intros [= <-]. cbn [cfg_filename cfg_print]. split; [|assumption]. exists prog, pre', post'. subst args. auto.
    + intros [(prog' & pre & post & [= <- EA] & N & PO & NE) HP].
      rewrite EA in EA'. pose proof (last_nonflag _ _ _ _ _ _ EA' N N' PO PO'). subst name.
      destruct cfg as [fn pr]. cbn in *. f_equal. f_equal. destruct print, pr; intuition congruence.
Qed.

Lemma p_module_fst bs m : fst (p_module bs) = Ok m <-> p_module bs = (Ok m, []).
Proof.
  split; [|intros ->; reflexivity]. destruct (p_module bs) as [o r] eqn:E. cbn. intros ->.
  apply module_exact in E as [-> _]. reflexivity.
Qed.
Lemma p_module_outcome bs : (exists m, p_module bs = (Ok m, [])) \/ exists e, fst (p_module bs) = Err e.
Proof.
  destruct (proj1 parse_total bs) as [(m & r & E)|(e & r & E)].
  - left. exists m. apply p_module_fst. rewrite E. reflexivity.
  - right. exists e. rewrite E. reflexivity.
Qed.

Lemma cli_zero args fs msgs : cli args fs = Exit 0 msgs <->
  exists name bytes m, names_file args name /\ fs name = Contents bytes /\ p_module bytes = (Ok m, []) /\ accepted m /\
    (asks_print args /\ msgs = [MsgModule m] \/ ~ asks_print args /\ msgs = []).
Proof.
  unfold cli. split.
  - intros H. destruct (config_new args) as [cfg|] eqn:C; [|destruct args; discriminate H].
    apply config_new_iff in C as [NF PR]. destruct (fs (cfg_filename cfg)) as [| |bytes] eqn:F; try discriminate H.
    destruct (fst (p_module bytes)) as [m|e| |] eqn:P; try discriminate H. destruct (validate m) as [mt| |] eqn:V; try discriminate H.
    injection H as <-. exists (cfg_filename cfg), bytes, m. apply p_module_fst in P. repeat split; try assumption.
    + exists mt. assumption.
    + destruct (cfg_print cfg); [left|right]; intuition congruence.
  - intros (name & bytes & m & NF & F & P & [mt V] & M).
    assert (C : exists pr, config_new args = Some (mkConfig name pr) /\ (pr = true <-> asks_print args)).
    { destruct M as [[A _]|[A _]]; [exists true|exists false]; (split; [apply config_new_iff; cbn|]); intuition congruence. }
    destruct C as (pr & -> & HP). cbn. rewrite F. apply p_module_fst in P. rewrite P, V. f_equal. destruct pr, M as [[A ->]|[A ->]]; intuition congruence.
Qed.
Lemma cli_crash args fs : cli args fs = Crash <-> args = [].
Proof.
  split; [|intros ->; reflexivity]. unfold cli. intros H. destruct (config_new args) as [cfg|] eqn:C.
  2: { destruct args; [reflexivity|discriminate H]. }
  exfalso. destruct (fs (cfg_filename cfg)) as [| |bytes]; try discriminate H.
  destruct (p_module_outcome bytes) as [(m & E)|(e & E)].
  - rewrite E in H. cbn [fst] in H. destruct (validate m) eqn:V; try discriminate H. exact (validate_no_panic _ V).
  - rewrite E in H. discriminate H.
Qed.
Lemma cli_codes args fs c msgs : cli args fs = Exit c msgs -> c = 0%nat \/ c = 1%nat /\ exists msg, msgs = [msg] /\ forall m, msg <> MsgModule m.
Proof.
  unfold cli. intros H.
  repeat match type of H with (match ?x with _ => _ end) = _ => destruct x; try discriminate H end; injection H as <- <-; auto;
  right; (split; [reflexivity|]); eexists; (split; [reflexivity|]); discriminate.
Qed.
Lemma cli_otherwise args fs : args <> [] -> (forall msgs, cli args fs <> Exit 0 msgs) ->
  exists msg, cli args fs = Exit 1 [msg] /\ forall m, msg <> MsgModule m.
Proof.
  intros NE NZ. destruct (cli args fs) as [c msgs|] eqn:E.
  - apply cli_codes in E as [->|[-> (msg & -> & H)]]; [exfalso; eapply NZ; reflexivity|]. eauto.
  - apply cli_crash in E. contradiction.
Qed.
(** which message, for each kind of failure *)
Lemma cli_messages args fs msg : cli args fs = Exit 1 [msg] -> (forall m, msg <> MsgModule m) ->
  match msg with
  | MsgUsage => forall name, ~ names_file args name
  | MsgOpen => exists name, names_file args name /\ fs name = CannotOpen
  | MsgRead => exists name, names_file args name /\ fs name = CannotRead
  | MsgParse e => exists name bytes, names_file args name /\ fs name = Contents bytes /\ fst (p_module bytes) = Err e
  | MsgValidate => exists name bytes m, names_file args name /\ fs name = Contents bytes /\ p_module bytes = (Ok m, []) /\ ~ accepted m
  | MsgModule _ => False
  end.
Proof.
  intros H N. unfold cli in H. destruct (config_new args) as [cfg|] eqn:C.
  - apply config_new_iff in C as [NF PR]. destruct (fs (cfg_filename cfg)) as [| |bytes] eqn:F.
    + injection H as <-. eauto.
    + injection H as <-. eauto.
    + destruct (fst (p_module bytes)) as [m|e| |] eqn:P; try discriminate H.
      * destruct (validate m) as [mt| |] eqn:V; try discriminate H. injection H as <-.
        apply p_module_fst in P. exists (cfg_filename cfg), bytes, m. repeat split; try assumption. intros [mt A]. congruence.
      * injection H as <-. eauto.
  - destruct args; [discriminate H|]. injection H as <-. intros name NF.
    destruct (config_new_iff (s :: args) (mkConfig name (existsb flagb args))) as [_ K]. cbn [cfg_filename cfg_print] in K. rewrite K in C; [discriminate C|].
    split; [assumption|]. rewrite existsb_exists. unfold asks_print. split.
    + intros (a & I & G). exists s, args, a. apply flagb_iff in G. auto.
    + intros (? & ? & a & [= <- <-] & I & G). exists a. split; [assumption|apply flagb_iff; assumption].
Qed.

(** ** The pipeline *)
Lemma parsed_no_pseudo bs m r f : p_module bs = (Ok m, r) -> In f (m_funcs m) -> no_pseudo (fn_body f).
Proof.
  intros P I. assert (W : well_nested (fn_body f)).
  { eapply parsed_module_nested; [exact P|]. unfold module_exprs. apply in_or_app. left. apply in_map. assumption. }
  split; apply W.
Qed.
Lemma pipeline args fs : (exists msgs, cli args fs = Exit 0 msgs) <->
  exists name bytes m, names_file args name /\ fs name = Contents bytes /\
    enc_module whasm_format bytes m /\ valid_module whasm_validity m.
Proof.
  assert (DEC : asks_print args \/ ~ asks_print args).
  { destruct args as [|p rest]; [right; intros (? & ? & ? & [=] & _)|]. destruct (existsb flagb rest) eqn:E.
    - apply existsb_exists in E as (a & I & G). left. exists p, rest, a. apply flagb_iff in G. auto.
    - right. intros (? & ? & a & [= <- <-] & I & G). apply flagb_iff in G.
      assert (existsb flagb rest = true) by (apply existsb_exists; eauto). congruence. }
  split.
  - intros [msgs H]. apply cli_zero in H as (name & bytes & m & NF & F & P & A & _). exists name, bytes, m. repeat split; try assumption.
    + apply module_exact in P. apply P.
    + apply c40_iff; [intros f I; eapply parsed_no_pseudo; eassumption|assumption].
  - intros (name & bytes & m & NF & F & E & V). assert (P : p_module bytes = (Ok m, [])) by (apply module_exact; auto).
    assert (A : accepted m) by (apply c40_iff; [intros f I; eapply parsed_no_pseudo; eassumption|assumption]).
    destruct DEC as [D|D]; [exists [MsgModule m]|exists []]; apply cli_zero; exists name, bytes, m; auto 8.
Qed.

(** files in the official format with officially valid modules *)
Lemma module_limits_u32 m : Forall (fun n => (n < 2 ^ 32)%N) (module_u32s m) -> limits_u32 m.
Proof.
  unfold limits_u32, table_space. rewrite !Forall_forall. intros H t I. rewrite Forall_forall. intros n J. apply H.
  unfold module_u32s. rewrite !in_app_iff. apply in_app_or in I as [I|I].
  - unfold imported_tables in I. apply in_flat_map in I as (im & I & K). do 6 right; left. apply in_flat_map. exists im. split; [assumption|].
    destruct (im_desc im); try contradiction K. destruct K as [<-|[]]. exact J.
  - apply in_map_iff in I as (t' & <- & I). right; left. apply in_flat_map. exists t'. auto.
Qed.
Lemma pipeline_complete args fs name bytes m :
  names_file args name -> fs name = Contents bytes ->
  enc_module wasm10_format bytes m -> valid_module wasm10_validity m ->
  (forall f, In f (m_funcs m) -> no_own_jump (fn_body f)) ->
  (forall g, In g (m_globals m) -> no_global_get (glob_init g)) ->
  small_memories m ->
  exists msgs, cli args fs = Exit 0 msgs.
Proof.
  intros NF F E V NJ NG SM. pose proof (official_parses _ _ E) as P. pose proof (proj2 (proj1 (module_exact _ _ _) P)) as W.
  apply pipeline. exists name, bytes, m. repeat split; try assumption.
  apply c40_iff; [intros f I; eapply parsed_no_pseudo; eassumption|].
  apply c40_complete; try assumption. apply module_limits_u32. apply (module_range _ _ _ W).
Qed.
Lemma pipeline_sound args fs msgs name bytes :
  cli args fs = Exit 0 msgs -> names_file args name -> fs name = Contents bytes ->
  exists m, enc_module whasm_format bytes m /\
    ((forall f, In f (m_funcs m) -> natural_alignment (fn_body f)) ->
     (forall g, In g (m_globals m) -> no_global_get (glob_init g)) ->
     (length (table_space m) <= 1)%nat -> (length (mem_space m) <= 1)%nat ->
     valid_module wasm10_validity m).
Proof.
  intros H NF F. apply cli_zero in H as (name' & bytes' & m & NF' & F' & P & A & _).
  assert (name' = name) as ->.
  { destruct NF as (p & pre & post & -> & N & PO & _), NF' as (p' & pre' & post' & [= <- E] & N' & PO' & _). symmetry. eapply last_nonflag; eassumption. }
  assert (bytes' = bytes) as -> by congruence.
  exists m. split; [exact (proj2 (proj1 (module_exact _ _ _) P))|]. intros NA NG LT LM. apply c40_sound; try assumption.
  intros f I. split; [eapply parsed_no_pseudo; eassumption|auto].
Qed.

Lemma no_arguments_refutes : exists args fs, (forall msgs, cli args fs <> Exit 0 msgs) /\ cli args fs = Crash.
Proof. exists [], (fun _ => CannotOpen). split; [discriminate|reflexivity]. Qed.
