(** Memory used by validation (C70): files, exact amounts, hosts. *)
From Coq Require Import Lia.
From Verif Require Import SpecTyping SpecRefs SpecFormat SpecParser ParserMeta SectionsProof InstrProof CodeProof HostProof ModuleClaims2 EncodeProof StorageProof SpecStorage.
Open Scope list_scope.
Open Scope N_scope.

(** ** Files: how much can be written with so many bytes *)
Definition wordy {A} (E : format A) : Prop := forall b x, E b x -> (1 <= length b)%nat.
Lemma wordy_u32 : wordy (enc_u32 whasm_format).
Proof.
  intros b n H. destruct b as [|b l]; [|cbn; lia]. exfalso.
  assert (P : p_u32 [] = (Ok n, [])) by (apply exact_u32; exists []; split; [reflexivity|exact H]). discriminate P.
Qed.
Lemma wordy_expr : wordy (enc_expr whasm_format).
Proof. intros b e (isb & -> & _). rewrite app_length. cbn. lia. Qed.
Lemma list_count {A} (E : format A) bs xs : wordy E -> enc_list E bs xs -> (length xs <= length bs)%nat.
Proof.
  intros W (ch & F & ->). induction F as [|c y ch xs H F IH]; cbn [concat length]; [lia|]. rewrite app_length. apply W in H. lia.
Qed.
Lemma vec_count {A} (E : format A) bs xs : wordy E -> enc_vec whasm_format E bs xs -> (length xs < length bs)%nat.
Proof. intros W (n & es & -> & N & H). apply list_count in H; [|exact W]. apply wordy_u32 in N. rewrite app_length. lia. Qed.
Lemma wordy_vec {A} (E : format A) : wordy (enc_vec whasm_format E).
Proof. intros b x (n & es & -> & N & _). apply wordy_u32 in N. rewrite app_length. lia. Qed.
Lemma wordy_sized {A} (E : format A) : wordy (enc_sized whasm_format E).
Proof. intros b x (n & es & -> & N & _). apply wordy_u32 in N. rewrite app_length. lia. Qed.
Lemma wordy_limits : wordy (enc_limits whasm_format).
Proof. intros b l H. unfold enc_limits in H. destruct (lim_max l); [destruct H as (? & ? & -> & _)|destruct H as (? & -> & _)]; cbn; lia. Qed.
Lemma wordy_name : wordy (enc_name whasm_format).
Proof. intros b n [H _]. exact (wordy_vec _ _ _ H). Qed.
Lemma sized_count {A} (E : format A) bs xs : wordy E -> enc_sized whasm_format (enc_vec whasm_format E) bs xs -> (length xs <= length bs)%nat.
Proof. intros W (n & c & -> & _ & H). apply vec_count in H; [|exact W]. rewrite app_length. lia. Qed.
(** everything listed in a section *)
Definition listed (s : section) : nat :=
  (length (sec_types s) + length (sec_imports s) + length (sec_codes s) + length (sec_tables s) + length (sec_mems s) + length (sec_globals s) + length (sec_exports s))%nat.
Lemma section_count bs s : enc_section whasm_format bs s -> (listed s <= length bs)%nat.
Proof.
  destruct s; intros (b & -> & H); unfold listed; cbn [sec_types sec_imports sec_codes sec_tables sec_mems sec_globals sec_exports length];
    try lia; apply sized_count in H; try lia.
  - intros c x (ps & rs & -> & _). cbn. lia.
  - intros c x (mb & nb & db & -> & M & _). apply wordy_name in M. rewrite app_length. lia.
  - intros c x (l & -> & _). cbn. lia.
  - intros c x. apply wordy_limits.
  - intros c x (tb & eb & -> & -> & _). cbn. lia.
  - intros c x (nb & db & -> & M & _). apply wordy_name in M. rewrite app_length. lia.
  - apply wordy_sized.
Qed.
Lemma sections_count bs secs : enc_list (enc_section whasm_format) bs secs -> (list_sum (map listed secs) <= length bs)%nat.
Proof.
  intros (ch & F & ->). induction F as [|c s ch secs H F IH]; cbn [concat map list_sum fold_right]; [lia|]. rewrite app_length.
  apply section_count in H. change (fold_right Nat.add O (map listed secs)) with (list_sum (map listed secs)). lia.
Qed.
Lemma flat_sum {A} (g : section -> list A) secs : length (flat_map g secs) = list_sum (map (fun s => length (g s)) secs).
Proof. induction secs as [|s secs IH]; [reflexivity|]. cbn [flat_map map list_sum fold_right]. rewrite app_length, IH. reflexivity. Qed.
Lemma listed_all secs : list_sum (map listed secs) = (length (flat_map sec_types secs) + length (flat_map sec_imports secs) + length (flat_map sec_codes secs) +
  length (flat_map sec_tables secs) + length (flat_map sec_mems secs) + length (flat_map sec_globals secs) + length (flat_map sec_exports secs))%nat.
Proof.
  rewrite !flat_sum. induction secs as [|s secs IH]; [reflexivity|]. cbn [map list_sum fold_right] in *.
  change (fold_right Nat.add O (map listed secs)) with (list_sum (map listed secs)). change (fold_right Nat.add O) with list_sum in *. rewrite IH. unfold listed. lia.
Qed.
Lemma size_lists fd :
  (forall bs i, enc_instr fd bs i -> (size i <= length bs)%nat) /\
  (forall bs is, enc_instrs fd bs is -> (size_expr is <= length bs)%nat).
Proof.
  apply enc_instr_instrs_ind; intros.
  all: try (match goal with H : plain_opcode ?i = _ |- _ => destruct i; try discriminate H; cbn; lia end).
  all: try (match goal with H : index_opcode ?i = _ |- _ => destruct i; try discriminate H; cbn; lia end).
  all: try (match goal with H : memarg_opcode ?i = _ |- _ => destruct i; try discriminate H; cbn; lia end).
  all: unfold size_expr in *; cbn [size length map list_sum fold_right]; change (fold_right Nat.add O) with list_sum; rewrite ?app_length; cbn [length]; try lia.
Qed.
(** the bytes of one expression *)
Lemma expr_within bs m e : enc_module whasm_format bs m -> In e (module_exprs m) ->
  exists b, enc_instrs whasm_format b e /\ (length b + 9 <= length bs)%nat.
Proof.
  intros (body & secs & -> & EL & _ & _ & ->) I.
  assert (G : exists b, enc_instrs whasm_format b e /\ (length b + 1 <= length body)%nat).
  2: { destruct G as (b & B & L). exists b. split; [exact B|]. rewrite app_length. cbn [preamble length]. lia. }
  unfold module_exprs in I. rewrite !in_app_iff, !in_map_iff in I.
  destruct I as [(x & <- & I)|[(x & <- & I)|[(x & <- & I)|(x & <- & I)]]]; cbn [module_of m_funcs m_globals m_elem m_data] in I.
  { unfold pair_funcs in I. apply in_map_iff in I. destruct I as ([t c] & <- & I). apply in_combine_r in I. cbn [fn_body snd].
    apply in_flat_map in I. destruct I as (s & I & J). destruct (enc_list_within _ _ _ _ EL I) as (b & B & L).
    destruct s; cbn [sec_codes] in J; try destruct J. destruct B as (b' & -> & B).
    apply enc_sized_within in B as (b1 & B & L1). destruct (enc_vec_within _ _ _ _ _ B J) as (b2 & B2 & L2).
    apply enc_sized_within in B2 as (b3 & B3 & L3). destruct B3 as (rb & eb & runs & -> & _ & _ & _ & isb & -> & B4).
    exists isb. split; [exact B4|]. rewrite !app_length in L3. cbn [length] in *. lia. }
  all: apply in_flat_map in I; destruct I as (s & I & J); destruct (enc_list_within _ _ _ _ EL I) as (b & B & L).
  { destruct s; cbn [sec_globals] in J; try destruct J. destruct B as (b' & -> & B).
    apply enc_sized_within in B as (b1 & B & L1). destruct (enc_vec_within _ _ _ _ _ B J) as (b2 & B2 & L2).
    destruct B2 as (tb & eb & -> & _ & isb & -> & B4). exists isb. split; [exact B4|]. rewrite !app_length in L2. cbn [length] in *. lia. }
  { destruct s; cbn [sec_elems] in J; try destruct J. destruct B as (b' & -> & B).
    apply enc_sized_within in B as (b1 & B & L1). destruct (enc_vec_within _ _ _ _ _ B J) as (b2 & B2 & L2).
    destruct B2 as (xb & ob & ib & -> & _ & (isb & -> & B4) & _). exists isb. split; [exact B4|]. rewrite !app_length in L2. cbn [length] in *. lia. }
  { destruct s; cbn [sec_datas] in J; try destruct J. destruct B as (b' & -> & B).
    apply enc_sized_within in B as (b1 & B & L1). destruct (enc_vec_within _ _ _ _ _ B J) as (b2 & B2 & L2).
    destruct B2 as (xb & ob & ib & -> & _ & (isb & -> & B4) & _). exists isb. split; [exact B4|]. rewrite !app_length in L2. cbn [length] in *. lia. }
Qed.
Lemma params_within bs m t : enc_module whasm_format bs m -> In t (m_types m) -> (length (ft_params t) <= length bs)%nat.
Proof.
  intros (body & secs & -> & EL & _ & _ & ->) I. cbn [module_of m_types] in I. apply in_flat_map in I. destruct I as (s & I & J).
  destruct (enc_list_within _ _ _ _ EL I) as (b & B & L). destruct s; cbn [sec_types] in J; try destruct J. destruct B as (b' & -> & B).
  apply enc_sized_within in B as (b1 & B & L1). destruct (enc_vec_within _ _ _ _ _ B J) as (b2 & (ps & rs & -> & P & _) & L2).
  apply vec_count in P; [|intros c x ->; cbn; lia]. rewrite app_length. cbn [length] in *. rewrite app_length in L2. lia.
Qed.
Lemma items_within bs m : enc_module whasm_format bs m -> items m + count (m_exports m) <= N.of_nat (length bs).
Proof.
  intros (body & secs & -> & EL & _ & _ & ->). apply sections_count in EL. rewrite listed_all in EL. unfold items, count.
  cbn [module_of m_types m_funcs m_tables m_mems m_globals m_imports m_exports]. unfold pair_funcs. rewrite map_length, combine_length, app_length. lia.
Qed.
Theorem storage_file bs m r : p_module bs = (Ok m, r) -> forall checks bits e, In e (checking checks bits m) -> file_storage_ok (N.of_nat (length bs)) m e.
Proof.
  intros P checks bits e I. apply storage_each in I; [|intros x X; eapply parsed_module_nested; eassumption].
  apply module_exact in P as [_ P]. pose proof (items_within _ _ P) as IT.
  destruct e as [k n|k n|n]; [| |exact I]; destruct k; cbn [storage_ok file_storage_ok] in *; try contradiction.
  - destruct I as [->|(f & t & F & T & ->)]; [left; unfold items in IT; lia|]. right. exists f. split; [exact F|].
    apply (params_within _ _ t) in P; [|eapply nth_error_In, T]. unfold count. lia.
  - unfold items in IT. destruct I as [->| ->]; lia.
  - lia.
  - destruct I as (x & X & L). destruct (expr_within _ _ _ P X) as (b & B & LB). apply (size_lists whasm_format) in B. lia.
  - destruct I as (x & X & L). destruct (expr_within _ _ _ P X) as (b & B & LB). apply (depth_lists whasm_format) in B. lia.
Qed.
