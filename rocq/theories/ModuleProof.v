(** Facts about the parsers of module components and modules: binary/module.rs *)
From Coq Require Import Lia ZifyN ZifyNat.
From Verif Require Import ParserModule SpecFormat ParserMeta TypesProof InstrProof.
Open Scope N_scope.

Lemma local_intro {A} (p : parser A) : local_ok p -> local_err p -> local p.
Proof. split; assumption. Qed.
Lemma local_byte : local p_byte. Proof. split; [apply local_ok_byte|apply local_err_byte]. Qed.
Lemma local_vec {A} (p : parser A) : local p -> local (p_vec p).
Proof. intros [O E]. split; [apply local_ok_vec|apply local_err_vec]; assumption. Qed.
Lemma local_compact_vec {A} (p : parser A) : local p -> local (p_compact_vec p).
Proof. intros [O E]. split; [apply local_ok_compact_vec|apply local_err_compact_vec]; assumption. Qed.
Lemma local_sized {A} (p : parser A) : suffixing p -> local_err p -> local (p_sized p).
Proof. intros O E. split; [apply local_ok_sized|apply local_err_sized]; assumption. Qed.
Lemma local_string : local p_string. Proof. split; [apply local_ok_string|apply local_err_string]. Qed.
Lemma local_valty : local p_valty. Proof. split; [apply local_ok_valty|apply local_err_valty]. Qed.
Lemma local_functy : local p_functy. Proof. split; [apply local_ok_functy|apply local_err_functy]. Qed.
Lemma local_tablety : local p_tablety. Proof. split; [apply local_ok_tablety|apply local_err_tablety]. Qed.
Lemma local_memty : local p_memty. Proof. split; [apply local_ok_memty|apply local_err_memty]. Qed.
Lemma local_globalty : local p_globalty. Proof. split; [apply local_ok_globalty|apply local_err_globalty]. Qed.
Lemma local_expr : local p_expr. Proof. split; [apply local_ok_expr|apply local_err_expr]. Qed.

Ltac m_suffixing := repeat first
  [ assumption | apply suffixing_ret | apply suffixing_fail | apply suffixing_byte | apply suffixing_u32
  | apply suffixing_string | apply suffixing_valty | apply suffixing_functy | apply suffixing_tablety
  | apply suffixing_memty | apply suffixing_globalty | apply suffixing_expr
  | apply suffixing_vec | apply suffixing_compact_vec | apply suffixing_sized
  | apply suffixing_bind; [|intros ?] ].
Ltac m_safe := repeat first
  [ assumption | apply safe_ret | apply safe_fail | apply safe_byte | apply safe_u32
  | apply safe_string | apply safe_valty | apply safe_functy | apply safe_tablety
  | apply safe_memty | apply safe_globalty | apply safe_expr
  | apply safe_vec | apply safe_compact_vec | apply safe_sized
  | apply safe_bind; [|intros ?] ].
Ltac m_local := repeat first
  [ assumption | apply local_ret | apply local_fail | apply local_byte | apply local_u32
  | apply local_string | apply local_valty | apply local_functy | apply local_tablety
  | apply local_memty | apply local_globalty | apply local_expr
  | apply local_vec | apply local_compact_vec
  | apply local_bind; [|intros ?] ].

(** ** Components *)
Definition enc_func0 : format func := fun bs f =>
  exists c, enc_func whasm_format bs c /\ f = mkFunc 0 (fst c) (snd c).
Lemma exact_func : exact p_func enc_func0.
Proof.
  unfold p_func. eapply exact_ext; [|apply exact_bind;
    [apply exact_compact_vec, exact_valty|intros; apply exact_map, exact_expr]].
  intros bs f. cbn beta. unfold enc_func0, enc_func. split.
  - intros (ls & p1 & p2 & -> & (runs & H1 & ->) & e & H2 & ->).
    exists (expand_runs runs, e). cbn [fst snd]. split; [|reflexivity].
    exists p1, p2, runs. cbn. auto.
  - intros ([ls e] & (p1 & p2 & runs & -> & H1 & -> & _ & H2) & ->). cbn [fst snd] in *.
    exists (expand_runs runs), p1, p2. split; [reflexivity|]. split; [exists runs; auto|]. eauto.
Qed.
Lemma suffixing_func : suffixing p_func. Proof. unfold p_func. m_suffixing. Qed.
Lemma safe_func : safe p_func. Proof. unfold p_func. m_safe. Qed.
Lemma local_func : local p_func. Proof. unfold p_func. m_local. Qed.

Lemma exact_table : exact p_table (enc_table whasm_format).
Proof.
  eapply exact_ext; [|apply exact_map, exact_tablety]. intros bs [t]. unfold enc_table. split.
  - intros (x & H & E). injection E as ->. assumption.
  - eauto.
Qed.
Lemma suffixing_table : suffixing p_table. Proof. unfold p_table. m_suffixing. Qed.
Lemma safe_table : safe p_table. Proof. unfold p_table. m_safe. Qed.
Lemma local_table : local p_table. Proof. unfold p_table. m_local. Qed.

Lemma exact_mem : exact p_mem (enc_mem whasm_format).
Proof.
  eapply exact_ext; [|apply exact_map, exact_memty]. intros bs [t]. unfold enc_mem. split.
  - intros (x & H & E). injection E as ->. assumption.
  - eauto.
Qed.
Lemma suffixing_mem : suffixing p_mem. Proof. unfold p_mem. m_suffixing. Qed.
Lemma safe_mem : safe p_mem. Proof. unfold p_mem. m_safe. Qed.
Lemma local_mem : local p_mem. Proof. unfold p_mem. m_local. Qed.

Lemma exact_global : exact p_global (enc_global whasm_format).
Proof.
  unfold p_global, p_constexpr.
  eapply exact_ext; [|apply exact_bind; [apply exact_globalty|intros; apply exact_map, exact_expr]].
  intros bs [t e]. unfold enc_global. cbn [glob_ty glob_init]. split.
  - intros (x & p1 & p2 & -> & H1 & y & H2 & E). injection E as -> ->. eauto 10.
  - intros (p1 & p2 & -> & H1 & H2). eauto 10.
Qed.
Lemma suffixing_global : suffixing p_global. Proof. unfold p_global, p_constexpr. m_suffixing. Qed.
Lemma safe_global : safe p_global. Proof. unfold p_global, p_constexpr. m_safe. Qed.
Lemma local_global : local p_global. Proof. unfold p_global, p_constexpr. m_local. Qed.

Lemma exact_elem : exact p_elem (enc_elem whasm_format).
Proof.
  unfold p_elem, p_constexpr, p_tableidx, p_funcidx.
  eapply exact_ext; [|apply exact_bind; [apply exact_u32|intros; apply exact_bind; [apply exact_expr|
    intros; apply exact_map, exact_vec, exact_u32]]].
  intros bs [t o i]. unfold enc_elem. cbn [el_table el_offset el_init]. split.
  - intros (x & p1 & p2 & -> & H1 & y & p3 & p4 & -> & H2 & z & H3 & E). injection E as -> -> ->. eauto 10.
  - intros (p1 & p2 & p3 & -> & H1 & H2 & H3). exists t, p1, (p2 ++ p3). split; [reflexivity|].
    split; [assumption|]. eauto 10.
Qed.
Lemma suffixing_elem : suffixing p_elem.
Proof. unfold p_elem, p_constexpr, p_tableidx, p_funcidx. m_suffixing. Qed.
Lemma safe_elem : safe p_elem.
Proof. unfold p_elem, p_constexpr, p_tableidx, p_funcidx. m_safe. Qed.
Lemma local_elem : local p_elem.
Proof. unfold p_elem, p_constexpr, p_tableidx, p_funcidx. m_local. Qed.

Lemma exact_data : exact p_data (enc_data whasm_format).
Proof.
  unfold p_data, p_constexpr, p_memidx.
  eapply exact_ext; [|apply exact_bind; [apply exact_u32|intros; apply exact_bind; [apply exact_expr|
    intros; apply exact_map, exact_unwrapping_vec, exact_byte']]].
  intros bs [t o i]. unfold enc_data. cbn [da_mem da_offset da_init]. split.
  - intros (x & p1 & p2 & -> & H1 & y & p3 & p4 & -> & H2 & z & H3 & E). injection E as -> -> ->. eauto 10.
  - intros (p1 & p2 & p3 & -> & H1 & H2 & H3). exists t, p1, (p2 ++ p3). split; [reflexivity|].
    split; [assumption|]. eauto 10.
Qed.
Lemma suffixing_data : suffixing p_data.
Proof. unfold p_data, p_constexpr, p_memidx. rewrite unwrapping_vec. m_suffixing. Qed.
Lemma safe_data : safe p_data.
Proof. unfold p_data, p_constexpr, p_memidx. rewrite unwrapping_vec. m_safe. Qed.
Lemma local_data : local p_data.
Proof. unfold p_data, p_constexpr, p_memidx. rewrite unwrapping_vec. m_local. Qed.

Lemma exact_start : exact p_start (enc_start whasm_format).
Proof.
  eapply exact_ext; [|apply exact_map, exact_u32]. intros bs [t]. unfold enc_start. split.
  - intros (x & H & E). injection E as ->. assumption.
  - eauto.
Qed.
Lemma suffixing_start : suffixing p_start. Proof. unfold p_start, p_funcidx. m_suffixing. Qed.
Lemma safe_start : safe p_start. Proof. unfold p_start, p_funcidx. m_safe. Qed.
Lemma local_start : local p_start. Proof. unfold p_start, p_funcidx. m_local. Qed.

Lemma exact_importdesc : exact p_importdesc (enc_importdesc whasm_format).
Proof.
  unfold p_importdesc, p_typeidx. eapply exact_ext; [|apply exact_dispatch; intros b].
  2: { instantiate (1 := fun b pre d => enc_importdesc whasm_format (b :: pre) d). cbn beta.
       destruct b; try (eapply exact_ext; [|apply exact_fail]; intros bs d; split;
         [intros []|intros H; destruct d; destruct H as (? & H & _); discriminate H]).
       - eapply exact_ext; [|apply exact_map, exact_u32]. intros bs d. split.
         + intros (x & H & ->). exists bs. auto.
         + intros H; destruct d; destruct H as (? & H & ?); first [discriminate H|injection H as ->; eauto].
       - eapply exact_ext; [|apply exact_map, exact_tablety]. intros bs d. split.
         + intros (x & H & ->). exists bs. auto.
         + intros H; destruct d; destruct H as (? & H & ?); first [discriminate H|injection H as ->; eauto].
       - eapply exact_ext; [|apply exact_map, exact_memty]. intros bs d. split.
         + intros (x & H & ->). exists bs. auto.
         + intros H; destruct d; destruct H as (? & H & ?); first [discriminate H|injection H as ->; eauto].
       - eapply exact_ext; [|apply exact_map, exact_globalty]. intros bs d. split.
         + intros (x & H & ->). exists bs. auto.
         + intros H; destruct d; destruct H as (? & H & ?); first [discriminate H|injection H as ->; eauto]. }
  intros bs d. split.
  - intros (b & p & -> & H). assumption.
  - intros H. destruct d; pose proof H as (? & -> & _); eauto.
Qed.
Lemma suffixing_importdesc : suffixing p_importdesc.
Proof.
  unfold p_importdesc, p_typeidx. apply suffixing_bind; [apply suffixing_byte|intros b]. destruct b; m_suffixing.
Qed.
Lemma safe_importdesc : safe p_importdesc.
Proof.
  unfold p_importdesc, p_typeidx. apply safe_bind; [apply safe_byte|intros b]. destruct b; m_safe.
Qed.
Lemma local_importdesc : local p_importdesc.
Proof.
  unfold p_importdesc, p_typeidx. apply local_bind; [apply local_byte|intros b]. destruct b; m_local.
Qed.

Lemma exact_exportdesc : exact p_exportdesc (enc_exportdesc whasm_format).
Proof.
  unfold p_exportdesc, p_funcidx, p_tableidx, p_memidx, p_globalidx.
  eapply exact_ext; [|apply exact_dispatch; intros b].
  2: { instantiate (1 := fun b pre d => enc_exportdesc whasm_format (b :: pre) d). cbn beta.
       destruct b; try (eapply exact_ext; [|apply exact_fail]; intros bs d; split;
         [intros []|intros H; destruct d; destruct H as (? & H & _); discriminate H]);
       (eapply exact_ext; [|apply exact_map, exact_u32]; intros bs d; split;
         [intros (x & H & ->); exists bs; auto
         |intros H; destruct d; destruct H as (? & H & ?); first [discriminate H|injection H as ->; eauto]]). }
  intros bs d. split.
  - intros (b & p & -> & H). assumption.
  - intros H. destruct d; pose proof H as (? & -> & _); eauto.
Qed.
Lemma suffixing_exportdesc : suffixing p_exportdesc.
Proof.
  unfold p_exportdesc, p_funcidx, p_tableidx, p_memidx, p_globalidx.
  apply suffixing_bind; [apply suffixing_byte|intros b]. destruct b; m_suffixing.
Qed.
Lemma safe_exportdesc : safe p_exportdesc.
Proof.
  unfold p_exportdesc, p_funcidx, p_tableidx, p_memidx, p_globalidx.
  apply safe_bind; [apply safe_byte|intros b]. destruct b; m_safe.
Qed.
Lemma local_exportdesc : local p_exportdesc.
Proof.
  unfold p_exportdesc, p_funcidx, p_tableidx, p_memidx, p_globalidx.
  apply local_bind; [apply local_byte|intros b]. destruct b; m_local.
Qed.

Lemma exact_import : exact p_import (enc_import whasm_format).
Proof.
  unfold p_import. eapply exact_ext; [|apply exact_bind; [apply exact_string|intros; apply exact_bind;
    [apply exact_string|intros; apply exact_map, exact_importdesc]]].
  intros bs [m n d]. unfold enc_import. cbn [im_module im_name im_desc]. split.
  - intros (x & p1 & p2 & -> & H1 & y & p3 & p4 & -> & H2 & z & H3 & E). injection E as -> -> ->. eauto 10.
  - intros (p1 & p2 & p3 & -> & H1 & H2 & H3). exists m, p1, (p2 ++ p3). split; [reflexivity|].
    split; [assumption|]. eauto 10.
Qed.
Lemma suffixing_import : suffixing p_import.
Proof. unfold p_import. pose proof suffixing_importdesc. m_suffixing. Qed.
Lemma safe_import : safe p_import.
Proof. unfold p_import. pose proof safe_importdesc. m_safe. Qed.
Lemma local_import : local p_import.
Proof. unfold p_import. pose proof local_importdesc. m_local. Qed.

Lemma exact_export : exact p_export (enc_export whasm_format).
Proof.
  unfold p_export. eapply exact_ext; [|apply exact_bind; [apply exact_string|intros;
    apply exact_map, exact_exportdesc]].
  intros bs [n d]. unfold enc_export. cbn [ex_name ex_desc]. split.
  - intros (x & p1 & p2 & -> & H1 & y & H2 & E). injection E as -> ->. eauto 10.
  - intros (p1 & p2 & -> & H1 & H2). eauto 10.
Qed.
Lemma suffixing_export : suffixing p_export.
Proof. unfold p_export. pose proof suffixing_exportdesc. m_suffixing. Qed.
Lemma safe_export : safe p_export.
Proof. unfold p_export. pose proof safe_exportdesc. m_safe. Qed.
Lemma local_export : local p_export.
Proof. unfold p_export. pose proof local_exportdesc. m_local. Qed.

(** ** Custom sections *)
Lemma suffixing_custom : suffixing p_custom.
Proof.
  assert (C : suffixing p_consume) by (intros bs; exists bs; cbn; rewrite app_nil_r; reflexivity).
  unfold p_custom. m_suffixing.
Qed.
Lemma safe_custom : safe p_custom.
Proof.
  assert (C : safe p_consume) by (intros bs; split; discriminate). unfold p_custom. m_safe.
Qed.
Lemma custom_ok bs n c rest : p_custom bs = (Ok (n, c), rest) <->
  rest = [] /\ exists p1 p2, bs = p1 ++ p2 /\ enc_name whasm_format p1 n /\ c = N.of_nat (length p2).
Proof.
  unfold p_custom. rewrite bind_ok. split.
  - intros (a & r & H1 & H2). apply exact_string in H1. destruct H1 as (p1 & -> & H1).
    cbn in H2. injection H2 as -> <- <-. split; [reflexivity|]. eauto.
  - intros (-> & p1 & p2 & -> & H1 & ->). exists n, p2. split; [apply exact_string; eauto|reflexivity].
Qed.
Lemma exact_all_custom : exact_all p_custom (fun bs x =>
  exists c, enc_custom whasm_format bs c /\ x = (fst c, N.of_nat (length (snd c)))).
Proof.
  intros bs [n c]. rewrite custom_ok. split.
  - intros (_ & p1 & p2 & -> & H & ->). exists (n, p2). split; [exists p1; auto|reflexivity].
  - intros ([n' p2] & (p1 & -> & H) & E). cbn in *. injection E as -> ->. split; [reflexivity|]. eauto.
Qed.

(** ** One section *)
Definition step (s : pstate) (sec : section) : pstate :=
  let m := ps_result s in
  match sec with
  | S_Custom _ => s
  | S_Type v => with_result s (set_types m v)
  | S_Import v => with_result s (set_imports m v)
  | S_Function v => mkPstate m v (ps_last_id s)
  | S_Table v => with_result s (set_tables m v)
  | S_Memory v => with_result s (set_mems m v)
  | S_Global v => with_result s (set_globals m v)
  | S_Export v => with_result s (set_exports m v)
  | S_Start v => with_result s (set_start m (Some v))
  | S_Element v => with_result s (set_elem m v)
  | S_Code v => with_result s (set_funcs m (pair_funcs (ps_func_types s) v))
  | S_Data v => with_result s (set_data m v)
  end.
Definition sec_ok (s : pstate) (sec : section) : Prop :=
  match sec with
  | S_Code v => length v = length (ps_func_types s)
  | _ => True
  end.

Lemma assign_types_pair cs : forall ts, length cs = length ts ->
  assign_types (length ts) (map (fun c : code => mkFunc 0 (fst c) (snd c)) cs) ts = Ok (pair_funcs ts cs).
Proof.
  induction cs as [|c cs IH]; intros [|t ts] L; try discriminate; [reflexivity|].
  cbn [map assign_types length]. rewrite IH by (cbn in L; lia). reflexivity.
Qed.

Lemma enc_vec_map {A B} fd (E : format A) (u : A -> B) bs ys :
  enc_vec fd (fun b y => exists x, E b x /\ y = u x) bs ys <->
  exists xs, enc_vec fd E bs xs /\ ys = map u xs.
Proof.
  assert (L : forall bs ys, enc_list (fun b y => exists x, E b x /\ y = u x) bs ys <->
    exists xs, enc_list E bs xs /\ ys = map u xs).
  { intros bs' ys'. split.
    - intros (ch & F & ->). induction F as [|c y ch ys0 (x & H & ->) F IH].
      + exists []. split; [exists []; split; [constructor|reflexivity]|reflexivity].
      + destruct IH as (xs & (ch' & F' & E') & ->). exists (x :: xs). split; [|reflexivity].
        exists (c :: ch'). split; [constructor; assumption|]. cbn. congruence.
    - intros (xs & (ch & F & ->) & ->). exists ch. split; [|reflexivity].
      induction F; cbn; constructor; eauto. }
  unfold enc_vec. split.
  - intros (n & es & -> & H & H2). apply L in H2. destruct H2 as (xs & H2 & ->).
    rewrite map_length in H. exists xs. split; [eauto 10|reflexivity].
  - intros (xs & (n & es & -> & H & H2) & ->). exists n, es. rewrite map_length.
    split; [reflexivity|]. split; [assumption|]. apply L. eauto.
Qed.
Lemma enc_sized_map {A B} fd (E : format A) (u : A -> B) bs y :
  enc_sized fd (fun b y => exists x, E b x /\ y = u x) bs y <-> exists x, enc_sized fd E bs x /\ y = u x.
Proof.
  unfold enc_sized. split.
  - intros (n & c & -> & H & x & H2 & ->). eauto 10.
  - intros (x & (n & c & -> & H & H2) & ->). eauto 10.
Qed.
Lemma enc_list_ext {A} (E F : format A) : (forall bs x, E bs x <-> F bs x) ->
  forall bs xs, enc_list E bs xs <-> enc_list F bs xs.
Proof.
  intros H bs xs. split; intros (ch & L & ->); exists ch; (split; [|reflexivity]);
    induction L; constructor; auto; apply H; assumption.
Qed.
Lemma enc_vec_ext {A} fd (E F : format A) : (forall bs x, E bs x <-> F bs x) ->
  forall bs xs, enc_vec fd E bs xs <-> enc_vec fd F bs xs.
Proof.
  intros H bs xs. unfold enc_vec. pose proof (enc_list_ext E F H) as L.
  split; intros (n & es & -> & H1 & H2); exists n, es; (split; [reflexivity|]); (split; [assumption|]);
    apply L; assumption.
Qed.

Lemma exact_code_vec : exact_all (p_unwrapping_vec (p_sized p_func) (fun f => f))
  (fun bs fs => exists cs, enc_vec whasm_format (enc_code whasm_format) bs cs /\
     fs = map (fun c : code => mkFunc 0 (fst c) (snd c)) cs).
Proof.
  apply exact_exact_all. eapply exact_ext; [|apply exact_unwrapping_vec, exact_sized;
    [apply suffixing_func|apply exact_exact_all, exact_func]].
  intros bs fs. cbn beta.
  rewrite <- (enc_vec_map whasm_format (enc_code whasm_format) (fun c : code => mkFunc 0 (fst c) (snd c)) bs fs).
  apply enc_vec_ext. intros b f. unfold enc_code. apply enc_sized_map.
Qed.

Lemma exact_section id s : exact (p_section id s) (fun pre s' =>
  exists sec, enc_section whasm_format (id :: pre) sec /\ sec_ok s sec /\ s' = step s sec).
Proof.
  assert (X : forall A (p : parser A) (E : format A) (mk : A -> section) (f : A -> pstate),
    suffixing p -> exact_all p E ->
    (forall v, step s (mk v) = f v) -> (forall v, sec_ok s (mk v)) ->
    (forall pre sec, enc_section whasm_format (id :: pre) sec <->
       exists v, sec = mk v /\ enc_sized whasm_format E pre v) ->
    exact (v <- p_sized p ;; ret (f v)) (fun pre s' =>
      exists sec, enc_section whasm_format (id :: pre) sec /\ sec_ok s sec /\ s' = step s sec)).
  { intros A p E mk f SP EX ST OK EN. eapply exact_ext; [|apply exact_map, exact_sized; [exact SP|exact EX]].
    intros bs s'. cbn beta. split.
    - intros (v & H & ->). exists (mk v). rewrite ST. split; [apply EN; eauto|auto].
    - intros (sec & H & _ & ->). apply EN in H. destruct H as (v & -> & H). rewrite ST. eauto. }
  assert (INV : forall b (A : Type) (mk' : A -> section) (E : format A),
    (forall pre sec, enc_section whasm_format (b :: pre) sec ->
       exists v, sec = mk' v /\ enc_sized whasm_format E pre v) -> 
    (forall pre v, enc_sized whasm_format E pre v -> enc_section whasm_format (b :: pre) (mk' v)) ->
    forall pre sec, enc_section whasm_format (b :: pre) sec <->
       exists v, sec = mk' v /\ enc_sized whasm_format E pre v).
  { intros b A mk' E H1 H2 pre sec. split; [apply H1|]. intros (v & -> & H). apply H2. assumption. }
  assert (DEC : forall b pre sec, enc_section whasm_format (b :: pre) sec -> Byte.to_N b = section_id sec).
  { intros b pre sec H. destruct sec; destruct H as (? & H & _); injection H as -> _; reflexivity. }
  destruct id; try (eapply exact_ext; [|apply exact_fail]; intros bs s'; split;
    [intros []|intros (sec & H & _); apply DEC in H; destruct sec; discriminate H]);
  unfold p_section.
  - eapply exact_ext; [|apply exact_map, exact_sized; [apply suffixing_custom|apply exact_all_custom]].
    intros bs s'. cbn beta. split.
    + intros (v & H & ->). apply enc_sized_map in H. destruct H as (c & H & ->).
      exists (S_Custom c). split; [exists bs; auto|]. split; [exact I|reflexivity].
    + intros (sec & H & _ & ->). destruct sec; destruct H as (b & HB & H); try discriminate HB.
      injection HB as <-. eexists. split; [apply enc_sized_map; eauto|reflexivity].
  - eapply (X _ _ _ S_Type); [m_suffixing|apply exact_exact_all, exact_vec, exact_functy|reflexivity|exact (fun _ => I)|].
    apply INV; [intros pre [] (b & E & H); try discriminate E; injection E as ->; eauto|intros pre v H; exists pre; auto].
  - eapply (X _ _ _ S_Import); [apply suffixing_vec, suffixing_import|apply exact_exact_all, exact_vec, exact_import|reflexivity|exact (fun _ => I)|].
    apply INV; [intros pre [] (b & E & H); try discriminate E; injection E as ->; eauto|intros pre v H; exists pre; auto].
  - eapply (X _ _ _ S_Function); [unfold p_typeidx; m_suffixing|apply exact_exact_all, exact_vec, exact_u32|reflexivity|exact (fun _ => I)|].
    apply INV; [intros pre [] (b & E & H); try discriminate E; injection E as ->; eauto|intros pre v H; exists pre; auto].
  - eapply (X _ _ _ S_Table); [apply suffixing_vec, suffixing_table|apply exact_exact_all, exact_vec, exact_table|reflexivity|exact (fun _ => I)|].
    apply INV; [intros pre [] (b & E & H); try discriminate E; injection E as ->; eauto|intros pre v H; exists pre; auto].
  - eapply (X _ _ _ S_Memory); [apply suffixing_vec, suffixing_mem|apply exact_exact_all, exact_vec, exact_mem|reflexivity|exact (fun _ => I)|].
    apply INV; [intros pre [] (b & E & H); try discriminate E; injection E as ->; eauto|intros pre v H; exists pre; auto].
  - eapply (X _ _ _ S_Global); [apply suffixing_vec, suffixing_global|apply exact_exact_all, exact_vec, exact_global|reflexivity|exact (fun _ => I)|].
    apply INV; [intros pre [] (b & E & H); try discriminate E; injection E as ->; eauto|intros pre v H; exists pre; auto].
  - eapply (X _ _ _ S_Export); [apply suffixing_vec, suffixing_export|apply exact_exact_all, exact_vec, exact_export|reflexivity|exact (fun _ => I)|].
    apply INV; [intros pre [] (b & E & H); try discriminate E; injection E as ->; eauto|intros pre v H; exists pre; auto].
  - eapply (X _ _ _ S_Start); [apply suffixing_start|apply exact_exact_all, exact_start|reflexivity|exact (fun _ => I)|].
    apply INV; [intros pre [] (b & E & H); try discriminate E; injection E as ->; eauto|intros pre v H; exists pre; auto].
  - eapply (X _ _ _ S_Element); [apply suffixing_vec, suffixing_elem|apply exact_exact_all, exact_vec, exact_elem|reflexivity|exact (fun _ => I)|].
    apply INV; [intros pre [] (b & E & H); try discriminate E; injection E as ->; eauto|intros pre v H; exists pre; auto].
  - eapply exact_ext; [|apply exact_bind; [apply exact_sized; [|apply exact_code_vec]|]].
    3: { intros fs. instantiate (1 := fun fs pre s' => pre = [] /\
           length fs = length (ps_func_types s) /\
           exists fs', assign_types (length (ps_func_types s)) fs (ps_func_types s) = Ok fs' /\
             s' = with_result s (set_funcs (ps_result s) fs')).
         cbn beta. intros bs a rest. cbv zeta.
         destruct (Nat.eqb_spec (length fs) (length (ps_func_types s))) as [L|L]; cbn [negb].
         - destruct (assign_types (length (ps_func_types s)) fs (ps_func_types s)) as [fs'|e| |] eqn:AT.
           + rewrite (exact_ret _ bs a rest). split.
             * intros (pre & -> & -> & ->). exists []. split; [reflexivity|]. split; [reflexivity|]. eauto.
             * intros (pre & -> & -> & _ & fs'' & E & ->). injection E as <-. exists []. auto.
           + split; [discriminate|intros (? & ? & ? & ? & ? & ? & _); discriminate].
           + split; [discriminate|intros (? & ? & ? & ? & ? & ? & _); discriminate].
           + split; [discriminate|intros (? & ? & ? & ? & ? & ? & _); discriminate].
         - split; [discriminate|intros (? & ? & ? & ? & _); contradiction]. }
    + intros bs s'. cbn beta. split.
      * intros (fs & p1 & p2 & -> & H & -> & L & fs' & AT & ->). rewrite app_nil_r.
        apply enc_sized_map in H. destruct H as (cs & H & ->). rewrite map_length in L.
        rewrite assign_types_pair in AT by assumption. injection AT as <-.
        exists (S_Code cs). split; [exists p1; auto|]. split; [exact L|reflexivity].
      * intros (sec & H & OK & ->). destruct sec; destruct H as (b & E & H); try discriminate E.
        injection E as <-. cbn in OK.
        exists (map (fun c : code => mkFunc 0 (fst c) (snd c)) v), bs, []. rewrite app_nil_r.
        split; [reflexivity|]. split; [apply enc_sized_map; eauto|]. split; [reflexivity|].
        rewrite map_length. split; [assumption|]. exists (pair_funcs (ps_func_types s) v).
        split; [apply assign_types_pair; assumption|reflexivity].
    + rewrite unwrapping_vec. pose proof suffixing_func. m_suffixing.
  - eapply (X _ _ _ S_Data); [apply suffixing_vec, suffixing_data|apply exact_exact_all, exact_vec, exact_data|reflexivity|exact (fun _ => I)|].
    apply INV; [intros pre [] (b & E & H); try discriminate E; injection E as ->; eauto|intros pre v H; exists pre; auto].
Qed.
