(** What reading a file asks for (C87). *)
From Coq Require Import Lia.
From Verif Require Import ParserAlloc SpecFormat SpecReading SpecParser ParserMeta TypesProof InstrProof ModuleProof SectionsProof ModuleClaims AllocProof NestProof.
Open Scope N_scope.
Local Notation W := whasm_format.

Definition logs {A} (R : needs A) (a : ap A) : Prop := forall bs x r l, a bs = ((Ok x, r), l) -> R x l.
Lemma logs_run {A} (p : parser A) : logs no_needs (a_run p).
Proof. intros bs x r l H. apply a_run_ok in H. exact (proj2 H). Qed.
Lemma logs_times {A} (R : needs A) a n : logs R a -> forall bs xs r l, a_times n a bs = ((Ok xs, r), l) ->
  length xs = n /\ exists ls, Forall2 R xs ls /\ l = concat ls.
Proof.
  intros L. induction n as [|n IH]; intros bs xs r l H; cbn [a_times] in H.
  - apply a_run_ok in H. destruct H as [H ->]. injection H as <- _. split; [reflexivity|]. exists []. split; [constructor|reflexivity].
  - apply a_bind_ok in H. destruct H as (y & r1 & l1 & l2 & H1 & H & ->).
    apply a_bind_ok in H. destruct H as (ys & r2 & l3 & l4 & H2 & H3 & ->). apply a_run_ok in H3. destruct H3 as [H3 ->]. injection H3 as <- _.
    apply IH in H2. destruct H2 as (E & ls & F & ->). split; [cbn [length]; congruence|]. exists (l1 :: ls).
    split; [constructor; [exact (L _ _ _ _ H1)|exact F]|]. cbn [concat]. rewrite app_nil_r. reflexivity.
Qed.
Lemma logs_vec {A} k (R : needs A) a : logs R a -> logs (vec_needs k R) (a_vec k a).
Proof.
  intros L bs xs r l H. apply a_bind_ok in H. destruct H as (n & r1 & l1 & l2 & H1 & H & ->). apply a_run_ok in H1. destruct H1 as [_ ->].
  apply a_bind_ok in H. destruct H as (u & r2 & l3 & l4 & H2 & H & ->). apply a_note_ok in H2. destruct H2 as [-> ->].
  apply (logs_times R a _ L) in H. destruct H as (E & ls & F & ->). exists ls. split; [exact F|]. cbn [app]. unfold lengthN. rewrite E, N2Nat.id. reflexivity.
Qed.
Lemma logs_map {A B} (R : needs A) (Q : needs B) a (u : A -> B) : logs R a -> (forall x l, R x l -> Q (u x) l) -> logs Q (x <=+ a ;; a_ret (u x)).
Proof.
  intros L F bs y r l H. apply a_bind_ok in H. destruct H as (x & r1 & l1 & l2 & H1 & H & ->). apply a_run_ok in H. destruct H as [H ->].
  injection H as <- _. rewrite app_nil_r. exact (F _ _ (L _ _ _ _ H1)).
Qed.
Lemma logs_unwrapping_vec {A} k (R : needs A) a : logs R a -> logs (vec_needs k R) (a_unwrapping_vec k a (fun x => x)).
Proof. intros L. apply (logs_vec k R (x <=+ a ;; a_ret x)). apply (logs_map R R a (fun x => x) L). auto. Qed.
Lemma logs_sized {A} (R : needs A) a : logs R a -> logs R (a_sized a).
Proof. intros L bs x r l H. apply a_sized_ok in H. destruct H as (w & rw & H). exact (L _ _ _ _ H). Qed.
Lemma no_needs_all {A} (xs : list A) ls : Forall2 no_needs xs ls -> concat ls = [].
Proof. induction 1 as [|x l xs ls H _ IH]; [reflexivity|]. cbn [concat]. rewrite H, IH. reflexivity. Qed.
Lemma vec_plain {A} k (xs : list A) l : vec_needs k no_needs xs l -> l = [Reserve k (lengthN xs)].
Proof. intros (ls & F & ->). rewrite (no_needs_all _ _ F). reflexivity. Qed.
Lemma logs_string : logs name_needs a_string.
Proof.
  intros bs n r l H. apply a_bind_ok in H. destruct H as (raw & r1 & l1 & l2 & H1 & H & ->).
  apply (logs_unwrapping_vec V_U8 no_needs _ (logs_run _)), vec_plain in H1. destruct (utf8_valid raw); [|discriminate].
  apply a_run_ok in H. destruct H as [H ->]. injection H as <- _. rewrite app_nil_r. exact H1.
Qed.
Lemma logs_retval : logs (fun r l => l = blockty_needs r) a_retval.
Proof.
  intros bs x r l H. apply a_bind_ok in H. destruct H as (y & r1 & l1 & l2 & H1 & H & ->). apply a_run_ok in H1. destruct H1 as [_ ->].
  destruct y as [|t y].
  - apply a_run_ok in H. destruct H as [H ->]. injection H as <- _. reflexivity.
  - apply a_bind_ok in H. destruct H as (u & r2 & l3 & l4 & H2 & H & ->). apply a_note_ok in H2. destruct H2 as [-> ->].
    apply a_run_ok in H. destruct H as [H ->]. injection H as <- _. reflexivity.
Qed.
Lemma logs_functy : logs functy_needs a_functy.
Proof.
  intros bs x r l H. apply a_bind_ok in H. destruct H as (y & r1 & l1 & l2 & H1 & H & ->). apply a_run_ok in H1. destruct H1 as [_ ->].
  assert (E : (ps <=+ a_vec V_Val (a_run p_valty) ;; rs <=+ a_vec V_Val (a_run p_valty) ;; a_ret {| ft_params := ps; ft_results := rs |}) r1 = ((Ok x, r), l2))
    by (destruct y; try discriminate H; exact H). clear H.
  apply a_bind_ok in E. destruct E as (ps & r2 & l3 & l4 & H2 & E & ->). apply (logs_vec V_Val no_needs _ (logs_run _)), vec_plain in H2.
  apply a_bind_ok in E. destruct E as (rs & r3 & l5 & l6 & H3 & E & ->). apply (logs_vec V_Val no_needs _ (logs_run _)), vec_plain in H3.
  apply a_run_ok in E. destruct E as [E ->]. injection E as <- _. subst. reflexivity.
Qed.

(** ** Code *)
Definition log_subs (f d : nat) : Prop := forall acc bs e t r l, a_subexpr f d acc bs = ((Ok (e, t), r), l) ->
  exists s, e = acc ++ s /\ code_needs d (length acc) s l.
Definition log_instrs (f d : nat) : Prop := forall bs i r l, a_instr f d bs = ((Ok i, r), l) -> instr_needs d i l.
Lemma log_sub f d bs e t r l : log_subs f (S d) ->
  (_ <=+ a_note (Nest (N.of_nat (S d))) ;; a_subexpr f (S d) []) bs = ((Ok (e, t), r), l) ->
  exists l', l = Nest (N.of_nat (S d)) :: l' /\ code_needs (S d) 0 e l'.
Proof.
  intros IS H. apply a_bind_ok in H. destruct H as (u & r1 & l1 & l2 & H1 & H2 & ->). apply a_note_ok in H1. destruct H1 as [-> ->].
  apply IS in H2. destruct H2 as (s & -> & U). exists l2. split; [reflexivity|exact U].
Qed.
Lemma log_block f d (mk : retval -> expr -> instr) bs i r l : log_subs f (S d) ->
  (forall rt e l, code_needs (S d) 0 e l -> instr_needs d (mk rt e) (blockty_needs rt ++ Nest (N.of_nat (S d)) :: l)) ->
  (a <=+ a_retval ;; b <=+ a_expr_of (_ <=+ a_note (Nest (N.of_nat (S d))) ;; a_subexpr f (S d) []) ;; a_ret (mk a b)) bs = ((Ok i, r), l) ->
  instr_needs d i l.
Proof.
  intros IS M H. apply a_bind_ok in H. destruct H as (rt & r1 & l1 & l2 & H1 & H & ->). apply logs_retval in H1. cbn beta in H1. subst l1.
  apply a_bind_ok in H. destruct H as (e & r2 & l3 & l4 & H2 & H3 & ->). apply a_run_ok in H3. destruct H3 as [H3 ->]. injection H3 as <- _.
  apply expr_of_ok in H2. apply (log_sub _ _ _ _ _ _ _ IS) in H2. destruct H2 as (l' & -> & U). rewrite app_nil_r. apply M, U.
Qed.
Lemma log_if f d bs i r l : log_subs f (S d) ->
  a_if_of (_ <=+ a_note (Nest (N.of_nat (S d))) ;; a_subexpr f (S d) []) bs = ((Ok i, r), l) -> instr_needs d i l.
Proof.
  intros IS H. apply a_bind_ok in H. destruct H as (rt & r1 & l1 & l2 & H1 & H & ->). apply logs_retval in H1. cbn beta in H1. subst l1.
  apply a_bind_ok in H. destruct H as ([e t] & r2 & l3 & l4 & H2 & H & ->). apply (log_sub _ _ _ _ _ _ _ IS) in H2. destruct H2 as (l' & -> & U).
  apply a_bind_ok in H. destruct H as ([e' t'] & r3 & l5 & l6 & H3 & H & ->).
  destruct (is_end t'); [|discriminate H]. apply a_run_ok in H. destruct H as [H ->]. injection H as <- _. rewrite app_nil_r.
  destruct (is_else t).
  - apply (log_sub _ _ _ _ _ _ _ IS) in H3. destruct H3 as (l2 & -> & U2). apply N_else; assumption.
  - apply a_run_ok in H3. destruct H3 as [H3 ->]. injection H3 as <- _. rewrite app_nil_r. apply N_if, U.
Qed.
Definition simple (i : instr) : Prop := (forall r e, i <> I_Block r e) /\ (forall r e, i <> I_Loop r e) /\ (forall r e e', i <> I_If r e e') /\ (forall ls x, i <> I_BrTable ls x).
Lemma opcode_simple b : b <> x02 -> b <> x03 -> b <> x04 -> b <> x0e -> yields simple (p_opcode out_of_fuel b).
Proof.
  intros N2 N3 N4 N5. destruct b; try contradiction; clear N2 N3 N4 N5; cbn [p_opcode];
  repeat first [apply yields_ret; repeat split; intros; discriminate|apply yields_fail|apply yields_bind; intro].
Qed.
Lemma log_code f : forall d, log_instrs f d /\ log_subs f d.
Proof.
  induction f as [|f IH]; intros d; [split; [intros bs i r l H|intros acc bs e t r l H]; discriminate|]. split.
  - intros bs i r l H. cbn [a_instr] in H. apply a_bind_ok in H. destruct H as (b & r1 & l1 & l2 & H1 & H & ->).
    apply a_run_ok in H1. destruct H1 as [_ ->]. cbn [app]. pose proof (proj2 (IH (S d))) as IS.
    assert (C : b = x02 \/ b = x03 \/ b = x04 \/ b = x0e \/ b <> x02 /\ b <> x03 /\ b <> x04 /\ b <> x0e)
      by (destruct b; first [left; reflexivity|right; left; reflexivity|right; right; left; reflexivity|right; right; right; left; reflexivity|do 4 right; repeat split; discriminate]).
    destruct C as [-> | [-> | [-> | [-> | (C1 & C2 & C3 & C4)]]]].
    + exact (log_block f d I_Block _ _ _ _ IS (fun rt e l => N_block d rt e l) H).
    + exact (log_block f d I_Loop _ _ _ _ IS (fun rt e l => N_loop d rt e l) H).
    + exact (log_if f d _ _ _ _ IS H).
    + cbn [a_opcode] in H. apply a_bind_ok in H. destruct H as (ls & r2 & l3 & l4 & H1 & H & ->).
      apply (logs_vec V_Label no_needs _ (logs_run _)), vec_plain in H1. apply a_bind_ok in H. destruct H as (x & r3 & l5 & l6 & H2 & H & ->).
      apply a_run_ok in H2. destruct H2 as [_ ->]. apply a_run_ok in H. destruct H as [H ->]. injection H as <- _. cbn [app].
      rewrite app_nil_r, H1. apply N_table.
    + assert (E : a_run (p_opcode out_of_fuel b) r1 = ((Ok i, r), l2)) by (destruct b; try contradiction; exact H).
      apply a_run_ok in E. destruct E as [E ->]. destruct (opcode_simple _ C1 C2 C3 C4 _ _ _ E) as (S1 & S2 & S3 & S4). apply N_other; assumption.
  - intros acc bs e t r l H. cbn [a_subexpr] in H. apply a_bind_ok in H. destruct H as (i & r1 & l1 & l2 & H1 & H & ->).
    apply (proj1 (IH d)) in H1.
    assert (C : (i = I_End \/ i = I_Else) \/ (_ <=+ a_note (Hold V_Instr (N.of_nat (S (List.length acc)))) ;; a_subexpr f d (acc ++ [i])) r1 = ((Ok (e, t), r), l2))
      by (destruct i; first [left; left; reflexivity|left; right; reflexivity|right; exact H]).
    destruct C as [C|C].
    + assert (E : a_ret (acc, i) r1 = ((Ok (e, t), r), l2)) by (destruct C as [-> | ->]; exact H). apply a_run_ok in E. destruct E as [E ->].
      injection E as <- _ _. exists []. rewrite !app_nil_r. split; [reflexivity|].
      assert (l1 = []) as -> by (destruct C as [-> | ->]; inversion H1; reflexivity). constructor.
    + clear H. apply a_bind_ok in C. destruct C as (u & r2 & l3 & l4 & C1 & C2 & ->). apply a_note_ok in C1. destruct C1 as [-> ->].
      apply (proj2 (IH d)) in C2. destruct C2 as (s & -> & U). exists (i :: s). rewrite <- app_assoc. split; [reflexivity|].
      rewrite app_length, Nat.add_1_r in U. cbn [app]. apply N_cons; assumption.
Qed.
Lemma logs_expr : logs expr_needs a_expr.
Proof. intros bs e r l H. unfold a_expr in H. apply expr_of_ok in H. apply (proj2 (log_code _ 0)) in H. destruct H as (s & -> & U). exact U. Qed.

(** ** The parts of sections *)
Lemma log_runs j : forall acc bs ls r l, a_runs j V_Val (a_run p_valty) acc bs = ((Ok ls, r), l) ->
  exists groups, ls = acc ++ expand_runs groups /\ l = group_needs (lengthN acc) groups.
Proof.
  induction j as [|j IH]; intros acc bs ls r l H; cbn [a_runs] in H.
  - apply a_run_ok in H. destruct H as [H ->]. injection H as <- _. exists []. rewrite app_nil_r. split; reflexivity.
  - apply a_bind_ok in H. destruct H as (n & r1 & l1 & l2 & H1 & H & ->). apply a_run_ok in H1. destruct H1 as [_ ->].
    apply a_bind_ok in H. destruct H as (v & r2 & l3 & l4 & H2 & H & ->). apply a_run_ok in H2. destruct H2 as [_ ->].
    apply a_bind_ok in H. destruct H as (u & r3 & l5 & l6 & H3 & H & ->). apply a_note_ok in H3. destruct H3 as [-> ->].
    apply IH in H. destruct H as (gs & -> & ->). exists ((n, v) :: gs). cbn [app group_needs]. unfold lengthN. rewrite app_length, repeat_length, Nat2N.inj_add, N2Nat.id.
    split; [|reflexivity]. unfold expand_runs. cbn [flat_map fst snd]. rewrite app_assoc. reflexivity.
Qed.
Lemma logs_func : logs (fun f => body_needs (fn_locals f, fn_body f)) a_func.
Proof.
  intros bs x r l H. apply a_bind_ok in H. destruct H as (ls & r1 & l1 & l2 & H1 & H & ->).
  apply a_bind_ok in H1. destruct H1 as (j & q1 & k1 & k2 & K1 & K2 & ->). apply a_run_ok in K1. destruct K1 as [_ ->]. apply log_runs in K2. destruct K2 as (gs & -> & ->).
  apply a_bind_ok in H. destruct H as (e & r2 & l3 & l4 & H2 & H & ->). apply logs_expr in H2. apply a_run_ok in H. destruct H as [H ->]. injection H as <- _.
  exists gs, l3. rewrite app_nil_r. split; [reflexivity|]. split; [exact H2|reflexivity].
Qed.
Lemma logs_global : logs global_needs a_global.
Proof.
  intros bs x r l H. apply a_bind_ok in H. destruct H as (t & r1 & l1 & l2 & H1 & H & ->). apply a_run_ok in H1. destruct H1 as [_ ->].
  apply a_bind_ok in H. destruct H as (e & r2 & l3 & l4 & H2 & H & ->). apply logs_expr in H2. apply a_run_ok in H. destruct H as [H ->]. injection H as <- _.
  rewrite app_nil_r. exact H2.
Qed.
Lemma logs_elem : logs elem_needs a_elem.
Proof.
  intros bs x r l H. apply a_bind_ok in H. destruct H as (t & r1 & l1 & l2 & H1 & H & ->). apply a_run_ok in H1. destruct H1 as [_ ->].
  apply a_bind_ok in H. destruct H as (e & r2 & l3 & l4 & H2 & H & ->). apply logs_expr in H2.
  apply a_bind_ok in H. destruct H as (i & r3 & l5 & l6 & H3 & H & ->). apply (logs_vec V_Funcidx no_needs _ (logs_run _)), vec_plain in H3.
  apply a_run_ok in H. destruct H as [H ->]. injection H as <- _. exists l3. split; [exact H2|]. rewrite app_nil_r, H3. reflexivity.
Qed.
Lemma logs_data : logs data_needs a_data.
Proof.
  intros bs x r l H. apply a_bind_ok in H. destruct H as (t & r1 & l1 & l2 & H1 & H & ->). apply a_run_ok in H1. destruct H1 as [_ ->].
  apply a_bind_ok in H. destruct H as (e & r2 & l3 & l4 & H2 & H & ->). apply logs_expr in H2.
  apply a_bind_ok in H. destruct H as (i & r3 & l5 & l6 & H3 & H & ->). apply (logs_unwrapping_vec V_U8 no_needs _ (logs_run _)), vec_plain in H3.
  apply a_run_ok in H. destruct H as [H ->]. injection H as <- _. exists l3. split; [exact H2|]. rewrite app_nil_r, H3. reflexivity.
Qed.
Lemma logs_import : logs import_needs a_import.
Proof.
  intros bs x r l H. apply a_bind_ok in H. destruct H as (m & r1 & l1 & l2 & H1 & H & ->). apply logs_string in H1.
  apply a_bind_ok in H. destruct H as (n & r2 & l3 & l4 & H2 & H & ->). apply logs_string in H2.
  apply a_bind_ok in H. destruct H as (d & r3 & l5 & l6 & H3 & H & ->). apply a_run_ok in H3. destruct H3 as [_ ->].
  apply a_run_ok in H. destruct H as [H ->]. injection H as <- _. rewrite H1, H2. reflexivity.
Qed.
Lemma logs_export : logs export_needs a_export.
Proof.
  intros bs x r l H. apply a_bind_ok in H. destruct H as (n & r2 & l3 & l4 & H2 & H & ->). apply logs_string in H2.
  apply a_bind_ok in H. destruct H as (d & r3 & l5 & l6 & H3 & H & ->). apply a_run_ok in H3. destruct H3 as [_ ->].
  apply a_run_ok in H. destruct H as [H ->]. injection H as <- _. rewrite H2. reflexivity.
Qed.
Lemma logs_custom : logs (fun c => name_needs (fst c)) a_custom.
Proof.
  intros bs x r l H. apply a_bind_ok in H. destruct H as (n & r2 & l3 & l4 & H2 & H & ->). apply logs_string in H2.
  apply a_bind_ok in H. destruct H as (d & r3 & l5 & l6 & H3 & H & ->). apply a_run_ok in H3. destruct H3 as [_ ->].
  apply a_run_ok in H. destruct H as [H ->]. injection H as <- _. rewrite H2. reflexivity.
Qed.

(** ** Sections *)
Lemma payload_log {A} (p : parser A) (E : format A) a (R : needs A) pre tl v w r l : suffixing p -> exact_all p E -> erases a p -> logs R a ->
  enc_sized W E pre v -> a_sized a (pre ++ tl) = ((Ok w, r), l) -> w = v /\ R v l.
Proof.
  intros SU EX ER L EN H. pose proof (erases_sized a p ER (pre ++ tl)) as P. rewrite H in P. cbn [fst] in P.
  assert (Q : p_sized p (pre ++ tl) = (Ok v, tl)) by (apply (exact_sized p E SU EX); eauto).
  rewrite Q in P. injection P as -> _. split; [reflexivity|]. exact (logs_sized R a L _ _ _ _ H).
Qed.
Lemma body_map cs ls : Forall2 (fun f : func => body_needs (fn_locals f, fn_body f)) (map (fun c : code => mkFunc 0 (fst c) (snd c)) cs) ls -> Forall2 body_needs cs ls.
Proof.
  revert ls. induction cs as [|c cs IH]; intros ls F; inversion F as [|x l xs ls' H F']; subst; constructor; [|apply IH; assumption].
  destruct c as [a b]. exact H.
Qed.
Lemma section_log id pre sec s tl s' r l : enc_section W (id :: pre) sec -> a_section id s (pre ++ tl) = ((Ok s', r), l) -> section_needs sec l.
Proof.
  intros E H.
  assert (G : forall A (p : parser A) (F : format A) (a : ap A) (R : needs A) (f : A -> pstate) v, suffixing p -> exact_all p F -> erases a p -> logs R a ->
    enc_sized W F pre v -> (v <=+ a_sized a ;; a_ret (f v)) (pre ++ tl) = ((Ok s', r), l) -> R v l).
  { intros A p F a R f v SU EX ER L EN K. apply a_bind_ok in K. destruct K as (w & r1 & l1 & l2 & K1 & K & ->). apply a_run_ok in K. destruct K as [_ ->].
    rewrite app_nil_r. exact (proj2 (payload_log p F a R pre tl v w r1 l1 SU EX ER L EN K1)). }
  destruct sec; destruct E as (b & EB & E); injection EB as -> <-; cbn [a_section section_needs] in *; cbv zeta in H.
  - apply a_bind_ok in H. destruct H as (w & r1 & l1 & l2 & K1 & K & ->). apply a_run_ok in K. destruct K as [_ ->]. rewrite app_nil_r.
    pose proof (payload_log p_custom _ a_custom (fun c => name_needs (fst c)) pre tl (fst c, N.of_nat (length (snd c))) w r1 l1
      suffixing_custom exact_all_custom erases_custom logs_custom) as P. apply P; [|exact K1]. apply enc_sized_map. eauto.
  - refine (G _ (p_vec p_functy) _ _ _ _ v _ _ _ _ E H); [m_suffixing|apply exact_exact_all, exact_vec, exact_functy|apply erases_vec, erases_functy|apply logs_vec, logs_functy].
  - refine (G _ (p_vec p_import) _ _ _ _ v _ _ _ _ E H); [apply suffixing_vec, suffixing_import|apply exact_exact_all, exact_vec, exact_import|apply erases_vec, erases_import|apply logs_vec, logs_import].
  - refine (G _ (p_vec p_typeidx) _ _ _ _ v _ _ _ _ E H); [|apply exact_exact_all, exact_vec, exact_u32|apply erases_vec, erases_run|apply logs_vec, logs_run]. m_suffixing.
  - refine (G _ (p_vec p_table) _ _ _ _ v _ _ _ _ E H); [apply suffixing_vec, suffixing_table|apply exact_exact_all, exact_vec, exact_table|apply erases_vec, erases_run|apply logs_vec, logs_run].
  - refine (G _ (p_vec p_mem) _ _ _ _ v _ _ _ _ E H); [apply suffixing_vec, suffixing_mem|apply exact_exact_all, exact_vec, exact_mem|apply erases_vec, erases_run|apply logs_vec, logs_run].
  - refine (G _ (p_vec p_global) _ _ _ _ v _ _ _ _ E H); [apply suffixing_vec, suffixing_global|apply exact_exact_all, exact_vec, exact_global|apply erases_vec, erases_global|apply logs_vec, logs_global].
  - refine (G _ (p_vec p_export) _ _ _ _ v _ _ _ _ E H); [apply suffixing_vec, suffixing_export|apply exact_exact_all, exact_vec, exact_export|apply erases_vec, erases_export|apply logs_vec, logs_export].
  - refine (G _ p_start _ _ _ _ v _ _ _ _ E H); [apply suffixing_start|apply exact_exact_all, exact_start|apply erases_run|apply logs_run].
  - refine (G _ (p_vec p_elem) _ _ _ _ v _ _ _ _ E H); [apply suffixing_vec, suffixing_elem|apply exact_exact_all, exact_vec, exact_elem|apply erases_vec, erases_elem|apply logs_vec, logs_elem].
  - apply a_bind_ok in H. destruct H as (w & r1 & l1 & l2 & K1 & K & ->).
    assert (l2 = []) as ->.
    { destruct (negb _); [discriminate|]. destruct (assign_types _ _ _) as [fs'|e| |]; [|discriminate..]. apply a_run_ok in K. exact (proj2 K). }
    rewrite app_nil_r.
    assert (P : w = map (fun c : code => mkFunc 0 (fst c) (snd c)) v /\ vec_needs V_Func (fun f => body_needs (fn_locals f, fn_body f)) (map (fun c : code => mkFunc 0 (fst c) (snd c)) v) l1).
    { refine (payload_log _ _ _ _ pre tl _ w r1 l1 _ exact_code_vec _ _ _ K1).
      - pose proof suffixing_func. m_suffixing; assumption.
      - apply erases_unwrapping_vec, erases_sized, erases_func.
      - apply logs_unwrapping_vec, logs_sized, logs_func.
      - apply enc_sized_map. eauto. }
    destruct P as (_ & ls & F & ->). exists ls. split; [apply body_map, F|]. unfold lengthN. rewrite map_length. reflexivity.
  - refine (G _ (p_vec p_data) _ _ _ _ v _ _ _ _ E H); [apply suffixing_vec, suffixing_data|apply exact_exact_all, exact_vec, exact_data|apply erases_vec, erases_data|apply logs_vec, logs_data].
Qed.
Lemma sec_ok_dec s sec : sec_ok s sec \/ ~ sec_ok s sec.
Proof. destruct sec; cbn [sec_ok]; try (left; exact I). destruct (Nat.eq_dec (length v) (length (ps_func_types s))); [left|right]; assumption. Qed.
Lemma sections_log : forall cs secs, Forall2 (enc_section W) cs secs -> forall fuel s s' r l,
  a_sections fuel s (concat cs) = ((Ok s', r), l) -> sections_need secs l.
Proof.
  induction 1 as [|c sec cs secs E F IH]; intros fuel s s' r l H; (destruct fuel as [|fuel]; [discriminate|]); cbn [a_sections concat] in H.
  - injection H as _ _ <-. exists []. split; [constructor|reflexivity].
  - destruct (section_first _ _ _ E) as (id & pre & -> & I1 & I2). cbn [app] in H.
    apply a_bind_ok in H. destruct H as (id' & r1 & l1 & l2 & H1 & H & ->). apply a_run_ok in H1. destruct H1 as [H1 ->]. injection H1 as <- <-.
    destruct (negb (byte_is id 0) && (Byte.to_N id <=? ps_last_id s)); [discriminate|]. cbv zeta in H. apply a_bind_ok in H.
    destruct H as (s2 & r2 & l3 & l4 & H1 & H2 & ->). cbn [app]. set (s1 := if byte_is id 0 then s else _) in *.
    pose proof (section_log _ _ _ _ _ _ _ _ E H1) as L.
    pose proof (erases_section id s1 (pre ++ concat cs)) as P. rewrite H1 in P. cbn [fst] in P.
    destruct (sec_ok_dec s1 sec) as [OK|NO].
    + assert (Q : p_section id s1 (pre ++ concat cs) = (Ok (ModuleProof.step s1 sec), concat cs)) by (apply exact_section; eauto 10).
      rewrite Q in P. injection P as -> ->. apply IH in H2. destruct H2 as (ls & F2 & ->). exists (l3 :: ls). split; [constructor; assumption|reflexivity].
    + rewrite (section_bad id pre sec s1 (concat cs) E NO) in P. discriminate.
Qed.
Theorem reading_needs body secs m r : enc_list (enc_section W) body secs -> p_module (preamble ++ body) = (Ok m, r) ->
  sections_need secs (requests (preamble ++ body)).
Proof.
  intros (cs & F & ->) H. pose proof (erases_module (preamble ++ concat cs)) as E. rewrite H in E. unfold requests.
  destruct (a_module (preamble ++ concat cs)) as [x l] eqn:G. cbn [fst snd] in *. subst x.
  unfold a_module in G. apply a_bind_ok in G. destruct G as (mg & r1 & l1 & l2 & F1 & G & ->). apply a_run_ok in F1. destruct F1 as [F1 ->].
  destruct (negb _); [discriminate|]. apply a_bind_ok in G. destruct G as (v & r2 & l3 & l4 & F2 & G & ->). apply a_run_ok in F2. destruct F2 as [F2 ->].
  destruct (negb _); [discriminate|]. apply a_bind_ok in G. destruct G as (s & r3 & l5 & l6 & F3 & G & ->). apply a_run_ok in G. destruct G as [_ ->].
  injection F1 as _ <-. injection F2 as _ <-. cbn [app]. rewrite app_nil_r. exact (sections_log cs secs F _ _ _ _ _ F3).
Qed.

(** ** What the module settles *)
Local Notation keep := (filter settled_by_module).
Scheme instr_needs_mut := Induction for instr_needs Sort Prop with code_needs_mut := Induction for code_needs Sort Prop.
Combined Scheme needs_mut from instr_needs_mut, code_needs_mut.
Lemma keep_reserve k n l : keep (Reserve k (N.of_nat n) :: l) = room_for k n ++ keep l.
Proof.
  cbn [filter settled_by_module]. destruct n as [|n]; [reflexivity|]. replace (0 <? N.of_nat (S n)) with true by (symmetry; apply N.ltb_lt; lia). reflexivity.
Qed.
Lemma keep_blockty r l : keep (blockty_needs r ++ l) = keep l.
Proof. destruct r; reflexivity. Qed.
Lemma code_settled :
  (forall d i l, instr_needs d i l -> keep l = instr_room i) /\ (forall d n e l, code_needs d n e l -> keep l = code_room n e).
Proof.
  apply (needs_mut (fun d i l _ => keep l = instr_room i) (fun d n e l _ => keep l = code_room n e)).
  - intros d r e l _ IH. rewrite keep_blockty. exact IH.
  - intros d r e l _ IH. rewrite keep_blockty. exact IH.
  - intros d r e l _ IH. rewrite keep_blockty. change (keep l = code_room 0 e ++ []). rewrite app_nil_r. exact IH.
  - intros d r e e' l l' _ IH _ IH'. rewrite keep_blockty. change (keep (l ++ Nest (N.of_nat (S d)) :: l') = code_room 0 e ++ code_room 0 e').
    rewrite filter_app. f_equal; [exact IH|exact IH'].
  - intros d ls x. unfold lengthN. rewrite keep_reserve. cbn [filter instr_room]. apply app_nil_r.
  - intros d i A B C D. destruct i; try reflexivity; exfalso; first [exact (A _ _ eq_refl)|exact (B _ _ eq_refl)|exact (C _ _ _ eq_refl)|exact (D _ _ eq_refl)].
  - reflexivity.
  - intros d n i e l l' _ IH _ IH'. rewrite filter_app. cbn [filter settled_by_module code_room]. rewrite IH, IH'. reflexivity.
Qed.
Lemma expr_settled e l : expr_needs e l -> keep l = code_room 0 e. Proof. apply (proj2 code_settled). Qed.
Lemma vec_settled {A} k (R : needs A) (f : A -> list event) xs l : (forall x l, R x l -> keep l = f x) -> vec_needs k R xs l -> keep l = list_room k f xs.
Proof.
  intros H (ls & F & ->). unfold lengthN. rewrite keep_reserve. unfold list_room. f_equal.
  induction F as [|x l xs ls X F IH]; [reflexivity|]. cbn [concat flat_map]. rewrite filter_app, (H _ _ X), IH. reflexivity.
Qed.
Lemma group_settled gs : forall n, keep (group_needs n gs) = [].
Proof. induction gs as [|[k t] gs IH]; intros n; [reflexivity|]. exact (IH (n + k)). Qed.
Definition type_room (t : functy) := room_for V_Val (length (ft_params t)) ++ room_for V_Val (length (ft_results t)).
Definition import_room (i : import) := room_for V_U8 (length (im_module i)) ++ room_for V_U8 (length (im_name i)).
Definition elem_room (e : elem) := code_room 0 (el_offset e) ++ room_for V_Funcidx (length (el_init e)).
Definition data_room (d : data) := code_room 0 (da_offset d) ++ room_for V_U8 (length (da_init d)).
Definition section_room (s : section) : list event :=
  match s with
  | S_Custom _ | S_Start _ => []
  | S_Type v => list_room V_Func_ty type_room v
  | S_Import v => list_room V_Import import_room v
  | S_Function v => list_room V_Type (fun _ => []) v
  | S_Table v => list_room V_Table (fun _ => []) v
  | S_Memory v => list_room V_Mem (fun _ => []) v
  | S_Global v => list_room V_Global (fun g => code_room 0 (glob_init g)) v
  | S_Export v => list_room V_Export (fun e => room_for V_U8 (length (ex_name e))) v
  | S_Element v => list_room V_Elem elem_room v
  | S_Code v => list_room V_Func (fun c => code_room 0 (snd c)) v
  | S_Data v => list_room V_Data data_room v
  end.
Lemma section_settled s l : is_custom s = false -> section_needs s l -> keep l = section_room s.
Proof.
  assert (T : forall x l, functy_needs x l -> keep l = type_room x).
  { intros x k ->. unfold lengthN. rewrite !keep_reserve. cbn [filter]. rewrite app_nil_r. reflexivity. }
  assert (I : forall x l, import_needs x l -> keep l = import_room x).
  { intros x k ->. unfold lengthN. rewrite !keep_reserve. cbn [filter]. rewrite app_nil_r. reflexivity. }
  assert (X : forall x l, export_needs x l -> keep l = room_for V_U8 (length (ex_name x))).
  { intros x k ->. unfold lengthN. rewrite !keep_reserve. cbn [filter]. rewrite app_nil_r. reflexivity. }
  assert (E : forall x l, elem_needs x l -> keep l = elem_room x).
  { intros x k (k' & H & ->). unfold lengthN. rewrite filter_app, keep_reserve, (expr_settled _ _ H). cbn [filter]. rewrite app_nil_r. reflexivity. }
  assert (D : forall x l, data_needs x l -> keep l = data_room x).
  { intros x k (k' & H & ->). unfold lengthN. rewrite filter_app, keep_reserve, (expr_settled _ _ H). cbn [filter]. rewrite app_nil_r. reflexivity. }
  assert (B : forall x l, body_needs x l -> keep l = code_room 0 (snd x)).
  { intros x k (gs & k' & _ & H & ->). rewrite filter_app, group_settled. exact (expr_settled _ _ H). }
  assert (Z : forall A (x : A) l, no_needs x l -> keep l = []) by (intros A x k ->; reflexivity).
  intros C. destruct s; cbn [section_needs section_room]; try discriminate C.
  all: first [exact (Z _ v l)|apply vec_settled; first [exact T|exact I|exact X|exact E|exact D|exact B|apply Z|intros x k; apply expr_settled]].
Qed.
Lemma sections_settled ss l : forallb (fun s => negb (is_custom s)) ss = true -> sections_need ss l -> keep l = flat_map section_room ss.
Proof.
  intros C (ls & F & ->). induction F as [|s l ss ls X F IH]; [reflexivity|]. cbn [forallb] in C. apply andb_prop in C. destruct C as [C1 C2].
  cbn [concat flat_map]. rewrite filter_app, (section_settled s l); [|destruct (is_custom s); [discriminate|reflexivity]|assumption]. rewrite IH by assumption. reflexivity.
Qed.
Lemma none_later {A} (get : section -> list A) k ss : (forall s, section_id s <> k -> get s = []) ->
  forall lo, increasing lo (map section_id ss) -> k <= lo -> flat_map get ss = [].
Proof.
  intros G. induction ss as [|s ss IH]; intros lo I L; [reflexivity|]. destruct I as [J I]. cbn [flat_map].
  rewrite (G s) by lia. apply (IH (section_id s)); [exact I|lia].
Qed.
Ltac nothing := let E := fresh in let s := fresh in intros s E; destruct s; try reflexivity; destruct E; reflexivity.
Definition total (ss : list section) : list event :=
  list_room V_Func_ty type_room (flat_map sec_types ss) ++ list_room V_Import import_room (flat_map sec_imports ss) ++
  list_room V_Type (fun _ => []) (flat_map sec_typeidxs ss) ++ list_room V_Table (fun _ => []) (flat_map sec_tables ss) ++
  list_room V_Mem (fun _ => []) (flat_map sec_mems ss) ++ list_room V_Global (fun g => code_room 0 (glob_init g)) (flat_map sec_globals ss) ++
  list_room V_Export (fun e => room_for V_U8 (length (ex_name e))) (flat_map sec_exports ss) ++ list_room V_Elem elem_room (flat_map sec_elems ss) ++
  list_room V_Func (fun c => code_room 0 (snd c)) (flat_map sec_codes ss) ++ list_room V_Data data_room (flat_map sec_datas ss).
Lemma total_rooms ss : forall lo, increasing lo (map section_id ss) -> forallb (fun s => negb (is_custom s)) ss = true -> flat_map section_room ss = total ss.
Proof.
  assert (NIL : forall A k (f : A -> list event), list_room k f [] = []) by reflexivity.
  induction ss as [|s ss IH]; intros lo I C; [reflexivity|]. destruct I as [J I]. cbn [forallb] in C. apply andb_prop in C. destruct C as [C1 C2].
  assert (Z : forall A (g : section -> list A) k, (forall s, section_id s <> k -> g s = []) -> k <= section_id s -> flat_map g ss = [])
    by (intros A g k G L; exact (none_later g k ss G _ I L)).
  cbn [flat_map]. rewrite (IH _ I C2). unfold total. destruct s; try discriminate C1; cbn [section_id] in I; cbn [flat_map section_room sec_types sec_imports sec_typeidxs sec_tables sec_mems sec_globals sec_exports sec_elems sec_codes sec_datas app].
  all: cbn [section_id] in Z; rewrite ?(Z _ sec_types 1), ?(Z _ sec_imports 2), ?(Z _ sec_typeidxs 3), ?(Z _ sec_tables 4), ?(Z _ sec_mems 5),
    ?(Z _ sec_globals 6), ?(Z _ sec_exports 7), ?(Z _ sec_elems 9), ?(Z _ sec_codes 10), ?(Z _ sec_datas 11) by first [nothing|apply N.leb_le; reflexivity].
  all: rewrite ?NIL, ?app_nil_r; cbn [app]; rewrite <- ?app_assoc; reflexivity.
Qed.
Lemma ids_all ss : forallb (fun s => negb (is_custom s)) ss = true -> filter (fun s => negb (is_custom s)) ss = ss.
Proof. induction ss as [|s ss IH]; [reflexivity|]. cbn [forallb filter]. intros C. apply andb_prop in C. destruct C as [-> C]. rewrite IH by assumption. reflexivity. Qed.
Lemma pair_room ts : forall cs, length ts = length cs -> length (pair_funcs ts cs) = length ts /\
  flat_map (fun f => code_room 0 (fn_body f)) (pair_funcs ts cs) = flat_map (fun c : code => code_room 0 (snd c)) cs.
Proof.
  induction ts as [|t ts IH]; intros [|c cs] L; try discriminate; [split; reflexivity|]. injection L as L. destruct (IH _ L) as [A B].
  unfold pair_funcs in *. cbn [combine map flat_map fst snd fn_body length]. split; congruence.
Qed.
Lemma flat_nil {A B} (xs : list A) : flat_map (fun _ => @nil B) xs = [].
Proof. induction xs; [reflexivity|assumption]. Qed.
Theorem reading_settled body secs m r : enc_list (enc_section W) body secs -> p_module (preamble ++ body) = (Ok m, r) ->
  (forall c, ~ In (S_Custom c) secs) -> length (flat_map sec_typeidxs secs) = length (flat_map sec_codes secs) ->
  filter settled_by_module (requests (preamble ++ body)) = module_room m.
Proof.
  intros E H NC LEN. pose proof (reading_needs _ _ _ _ E H) as R.
  assert (C : forallb (fun s => negb (is_custom s)) secs = true).
  { apply forallb_forall. intros s I. destruct s; try reflexivity. destruct (NC c I). }
  destruct (sections_of_accepted body secs m r E H) as (O & _ & -> & _).
  rewrite (sections_settled _ _ C R). unfold ordered in O. rewrite (ids_all _ C) in O. rewrite (total_rooms secs 0 O C).
  unfold total, module_room, module_of. cbn [m_types m_imports m_funcs m_tables m_mems m_globals m_exports m_elem m_data].
  destruct (pair_room _ _ LEN) as [P Q]. unfold list_room. rewrite P, Q, !flat_nil, LEN. reflexivity.
Qed.
