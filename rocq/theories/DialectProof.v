(** A more permissive dialect of the binary format contains a stricter one. *)
From Coq Require Import Lia.
From Verif Require Import SpecFormat ParserMeta InstrProof.
Open Scope N_scope.

Section Weaken.
Variables fd fd' : fdialect.
Hypothesis W_len : forall size len, fd_int_len fd size len -> fd_int_len fd' size len.
Hypothesis W_res : forall bs, fd_reserved fd bs -> fd_reserved fd' bs.
Hypothesis W_loc : forall n, fd_locals fd n -> fd_locals fd' n.
Hypothesis W_code : fd_missing_code fd -> fd_missing_code fd'.

Definition weaker {A} (E E' : format A) : Prop := forall bs x, E bs x -> E' bs x.

Lemma w_u size : weaker (enc_u fd size) (enc_u fd' size).
Proof. intros bs x [H1 H2]. split; auto. Qed.
Lemma w_s size : weaker (enc_s fd size) (enc_s fd' size).
Proof. intros bs x [H1 H2]. split; auto. Qed.
Lemma w_u32 : weaker (enc_u32 fd) (enc_u32 fd'). Proof. apply w_u. Qed.
Lemma w_list {A} (E E' : format A) : weaker E E' -> weaker (enc_list E) (enc_list E').
Proof.
  intros W bs xs (ch & F & ->). exists ch. split; [|reflexivity]. induction F; constructor; auto.
Qed.
Lemma w_vec {A} (E E' : format A) : weaker E E' -> weaker (enc_vec fd E) (enc_vec fd' E').
Proof.
  intros W bs xs (n & es & -> & H1 & H2). exists n, es. split; [reflexivity|].
  split; [apply w_u32, H1|]. eapply w_list; eassumption.
Qed.
Lemma w_sized {A} (E E' : format A) : weaker E E' -> weaker (enc_sized fd E) (enc_sized fd' E').
Proof.
  intros W bs xs (n & es & -> & H1 & H2). exists n, es. split; [reflexivity|].
  split; [apply w_u32, H1|auto].
Qed.
Lemma w_name : weaker (enc_name fd) (enc_name fd').
Proof. intros bs x [H1 H2]. split; [|assumption]. revert H1. apply w_vec. intros ? ?; auto. Qed.
Lemma w_functy : weaker (enc_functy fd) (enc_functy fd').
Proof.
  intros bs x (ps & rs & -> & H1 & H2). exists ps, rs. split; [reflexivity|].
  split; [revert H1|revert H2]; apply w_vec; intros ? ?; auto.
Qed.
Lemma w_limits : weaker (enc_limits fd) (enc_limits fd').
Proof.
  intros bs x. unfold enc_limits. destruct (lim_max x).
  - intros (n & m & -> & H1 & H2). exists n, m. split; [reflexivity|]. split; apply w_u32; assumption.
  - intros (n & -> & H). exists n. split; [reflexivity|]. apply w_u32; assumption.
Qed.
Lemma w_memty : weaker (enc_memty fd) (enc_memty fd').
Proof. intros bs x. apply w_limits. Qed.
Lemma w_tablety : weaker (enc_tablety fd) (enc_tablety fd').
Proof. intros bs x (l & -> & H1 & H2). exists l. split; [reflexivity|]. split; [assumption|apply w_limits; assumption]. Qed.
Lemma w_reserved : weaker (enc_reserved fd) (enc_reserved fd').
Proof. intros bs x [H1 H2]. split; [apply w_u32|]; auto. Qed.
Lemma w_instr_instrs :
  (forall bs i, enc_instr fd bs i -> enc_instr fd' bs i) /\
  (forall bs is, enc_instrs fd bs is -> enc_instrs fd' bs is).
Proof.
  apply enc_instr_instrs_ind; intros.
  - apply enc_plain; assumption.
  - eapply enc_index; [eassumption|]. apply w_u32; assumption.
  - eapply enc_memarg; [eassumption|apply w_u32; assumption..].
  - apply enc_br_table; [|apply w_u32; assumption]. eapply w_vec; [apply w_u32|eassumption].
  - apply enc_call_indirect; [apply w_u32; assumption|apply w_reserved; assumption].
  - apply enc_memory_size, w_reserved; assumption.
  - apply enc_memory_grow, w_reserved; assumption.
  - apply enc_i32_const, w_s; assumption.
  - apply enc_i64_const, w_s; assumption.
  - apply enc_f32_const; assumption.
  - apply enc_f64_const; assumption.
  - apply enc_block; assumption.
  - apply enc_loop; assumption.
  - apply enc_if; assumption.
  - apply enc_if_else; assumption.
  - constructor.
  - constructor; assumption.
Qed.
Lemma w_expr : weaker (enc_expr fd) (enc_expr fd').
Proof. intros bs x (isb & -> & H). exists isb. split; [reflexivity|]. apply w_instr_instrs; assumption. Qed.
Lemma w_importdesc : weaker (enc_importdesc fd) (enc_importdesc fd').
Proof.
  intros bs [x|x|x|x]; cbn; intros (xb & -> & H); exists xb; (split; [reflexivity|]).
  - apply w_u32; assumption. - apply w_tablety; assumption. - apply w_memty; assumption. - assumption.
Qed.
Lemma w_import : weaker (enc_import fd) (enc_import fd').
Proof.
  intros bs x (mb & nb & db & -> & H1 & H2 & H3). exists mb, nb, db. split; [reflexivity|].
  split; [apply w_name; assumption|]. split; [apply w_name; assumption|apply w_importdesc; assumption].
Qed.
Lemma w_exportdesc : weaker (enc_exportdesc fd) (enc_exportdesc fd').
Proof.
  intros bs [x|x|x|x]; cbn; intros (xb & -> & H); exists xb; (split; [reflexivity|]); apply w_u32; assumption.
Qed.
Lemma w_export : weaker (enc_export fd) (enc_export fd').
Proof.
  intros bs x (nb & db & -> & H1 & H2). exists nb, db. split; [reflexivity|].
  split; [apply w_name; assumption|apply w_exportdesc; assumption].
Qed.
Lemma w_table : weaker (enc_table fd) (enc_table fd').
Proof. intros bs x. apply w_tablety. Qed.
Lemma w_mem : weaker (enc_mem fd) (enc_mem fd').
Proof. intros bs x. apply w_memty. Qed.
Lemma w_global : weaker (enc_global fd) (enc_global fd').
Proof.
  intros bs x (tb & eb & -> & H1 & H2). exists tb, eb. split; [reflexivity|].
  split; [assumption|apply w_expr; assumption].
Qed.
Lemma w_start : weaker (enc_start fd) (enc_start fd').
Proof. intros bs x. apply w_u32. Qed.
Lemma w_elem : weaker (enc_elem fd) (enc_elem fd').
Proof.
  intros bs x (xb & ob & ib & -> & H1 & H2 & H3). exists xb, ob, ib. split; [reflexivity|].
  split; [apply w_u32; assumption|]. split; [apply w_expr; assumption|]. eapply w_vec; [apply w_u32|eassumption].
Qed.
Lemma w_data : weaker (enc_data fd) (enc_data fd').
Proof.
  intros bs x (xb & ob & ib & -> & H1 & H2 & H3). exists xb, ob, ib. split; [reflexivity|].
  split; [apply w_u32; assumption|]. split; [apply w_expr; assumption|]. eapply w_vec; [|eassumption]. intros ? ?; auto.
Qed.
Lemma w_run : weaker (enc_run fd) (enc_run fd').
Proof.
  intros bs x (nb & tb & -> & H1 & H2). exists nb, tb. split; [reflexivity|]. split; [apply w_u32|]; assumption.
Qed.
Lemma w_func : weaker (enc_func fd) (enc_func fd').
Proof.
  intros bs x (rb & eb & runs & -> & H1 & H2 & H3 & H4). exists rb, eb, runs. split; [reflexivity|].
  split; [eapply w_vec; [apply w_run|eassumption]|]. split; [assumption|]. split; [auto|apply w_expr; assumption].
Qed.
Lemma w_code : weaker (enc_code fd) (enc_code fd').
Proof. apply w_sized, w_func. Qed.
Lemma w_custom : weaker (enc_custom fd) (enc_custom fd').
Proof. intros bs x (nb & -> & H). exists nb. split; [reflexivity|apply w_name; assumption]. Qed.
Lemma w_section : weaker (enc_section fd) (enc_section fd').
Proof.
  intros bs []; cbn; intros (b & -> & H); exists b; (split; [reflexivity|]).
  - revert H. apply w_sized. apply w_custom.
  - revert H. apply w_sized. apply w_vec, w_functy.
  - revert H. apply w_sized. apply w_vec, w_import.
  - revert H. apply w_sized. apply w_vec, w_u32.
  - revert H. apply w_sized. apply w_vec, w_table.
  - revert H. apply w_sized. apply w_vec, w_mem.
  - revert H. apply w_sized. apply w_vec, w_global.
  - revert H. apply w_sized. apply w_vec, w_export.
  - revert H. apply w_sized. apply w_start.
  - revert H. apply w_sized. apply w_vec, w_elem.
  - revert H. apply w_sized. apply w_vec, w_code.
  - revert H. apply w_sized. apply w_vec, w_data.
Qed.
Lemma w_module : weaker (enc_module fd) (enc_module fd').
Proof.
  intros bs m (body & secs & -> & H & O & C & ->). exists body, secs. split; [reflexivity|].
  split; [eapply w_list; [apply w_section|eassumption]|]. split; [assumption|]. split; [|reflexivity].
  destruct C as [C|[C1 C2]]; [left|right]; auto.
Qed.
End Weaken.

Lemma official_whasm bs m : enc_module wasm10_format bs m -> enc_module whasm_format bs m.
Proof. apply w_module; cbn; auto. Qed.
