(** The shortest file of a module asks for no memory that another file of it does not ask for (C87). *)
From Coq Require Import Lia.
From Verif Require Import ParserAlloc ProgramHost SpecFormat SpecReading SpecEncoder SpecAlloc SpecPieces SpecParser ParserMeta TypesProof InstrProof ModuleProof SectionsProof ModuleClaims ModuleClaims2
  EncodeProof CanonProof PiecesProof AllocProof NestProof ReadingProof.
Open Scope N_scope.
Local Notation W := whasm_format.

(** ** What two readings of a value have in common *)
Definition agree {A} (P : event -> Prop) (R : needs A) : Prop := forall x l l' e, P e -> R x l -> R x l' -> In e l -> In e l'.
Definition no_nest (e : event) : Prop := forall n, e <> Nest n.
Definition no_val (e : event) : Prop := no_nest e /\ forall n, e <> Hold V_Val n.
Definition is_nest (e : event) : bool := match e with Nest _ => true | _ => false end.
Local Notation rest_of := (filter (fun e => negb (is_nest e))).
Lemma rest_in e l : no_nest e -> In e l <-> In e (rest_of l).
Proof. intros N. rewrite filter_In. split; [|tauto]. intros I. split; [exact I|]. destruct e; try reflexivity. exfalso. exact (N _ eq_refl). Qed.
Fixpoint instr_all (i : instr) : list event :=
  let code := fix go (n : nat) (e : list instr) : list event :=
    match e with [] => [] | i :: e' => instr_all i ++ Hold V_Instr (N.of_nat (S n)) :: go (S n) e' end in
  match i with
  | I_Block r e | I_Loop r e => blockty_needs r ++ code O e
  | I_If r e e' => blockty_needs r ++ code O e ++ code O e'
  | I_BrTable ls _ => [Reserve V_Label (lengthN ls)]
  | _ => []
  end.
Fixpoint code_all (n : nat) (e : list instr) : list event :=
  match e with [] => [] | i :: e' => instr_all i ++ Hold V_Instr (N.of_nat (S n)) :: code_all (S n) e' end.
Lemma rest_blockty r l : rest_of (blockty_needs r ++ l) = blockty_needs r ++ rest_of l.
Proof. destruct r; reflexivity. Qed.
Lemma code_rest :
  (forall d i l, instr_needs d i l -> rest_of l = instr_all i) /\ (forall d n e l, code_needs d n e l -> rest_of l = code_all n e).
Proof.
  apply (needs_mut (fun d i l _ => rest_of l = instr_all i) (fun d n e l _ => rest_of l = code_all n e)).
  - intros d r e l _ IH. rewrite rest_blockty. cbn [instr_all]. f_equal. exact IH.
  - intros d r e l _ IH. rewrite rest_blockty. cbn [instr_all]. f_equal. exact IH.
  - intros d r e l _ IH. rewrite rest_blockty. cbn [instr_all]. f_equal. change (rest_of l = code_all 0 e ++ []). rewrite app_nil_r. exact IH.
  - intros d r e e' l l' _ IH _ IH'. rewrite rest_blockty. cbn [instr_all]. f_equal. change (rest_of (l ++ Nest (N.of_nat (S d)) :: l') = code_all 0 e ++ code_all 0 e').
    rewrite filter_app. f_equal; [exact IH|exact IH'].
  - reflexivity.
  - intros d i A B C D. destruct i; try reflexivity; exfalso; first [exact (A _ _ eq_refl)|exact (B _ _ eq_refl)|exact (C _ _ _ eq_refl)|exact (D _ _ eq_refl)].
  - reflexivity.
  - intros d n i e l l' _ IH _ IH'. rewrite filter_app. cbn [filter is_nest negb code_all]. rewrite IH, IH'. reflexivity.
Qed.
Lemma agree_expr : agree no_nest expr_needs.
Proof. intros x l l' e N H H' I. apply (rest_in _ _ N) in I. apply (rest_in _ _ N). apply code_rest in H. apply code_rest in H'. congruence. Qed.
Lemma agree_same {A} P (f : A -> list event) : agree P (fun x l => l = f x).
Proof. intros x l l' e _ -> -> I. exact I. Qed.
Lemma agree_vec {A} (P : event -> Prop) k (R : needs A) : agree P R -> agree P (vec_needs k R).
Proof.
  intros G xs l l' e N (ls & F & ->) (ls' & F' & ->) [I|I]; [left; exact I|]. right. revert ls' F' I. induction F as [|x l xs ls X F IH]; intros ls' F' I; [destruct I|].
  inversion F' as [|? l' ? ls2 X' F2]; subst. cbn [concat] in *. rewrite in_app_iff in *. destruct I as [I|I]; [left; exact (G _ _ _ _ N X X' I)|right; exact (IH _ F2 I)].
Qed.
Lemma agree_body : agree no_val body_needs.
Proof.
  intros x l l' e [N V] (gs & k & _ & H & ->) (gs' & k' & _ & H' & ->) I. rewrite in_app_iff in *. right. destruct I as [I|I]; [|exact (agree_expr _ _ _ _ N H H' I)].
  exfalso. revert I. generalize 0. induction gs as [|[n t] gs IH]; intros z I; [destruct I|]. destruct I as [I|I]; [|exact (IH _ I)]. exact (V (z + n) (eq_sym I)).
Qed.
Lemma agree_section s l l' e : no_nest e -> (forall v, s = S_Code v -> forall n, e <> Hold V_Val n) -> section_needs s l -> section_needs s l' -> In e l -> In e l'.
Proof.
  assert (EL : agree no_nest elem_needs).
  { intros x k k' ev N (h & H & ->) (h' & H' & ->) I. rewrite in_app_iff in *. destruct I as [I|I]; [left; exact (agree_expr _ _ _ _ N H H' I)|right; exact I]. }
  assert (DA : agree no_nest data_needs).
  { intros x k k' ev N (h & H & ->) (h' & H' & ->) I. rewrite in_app_iff in *. destruct I as [I|I]; [left; exact (agree_expr _ _ _ _ N H H' I)|right; exact I]. }
  assert (GL : agree no_nest global_needs) by (intros g; apply (agree_expr (glob_init g))).
  intros N V. destruct s as [c|v|v|v|v|v|v|v|v|v|v|v]; cbn [section_needs].
  - intros -> ->. auto.
  - apply (agree_vec no_nest V_Func_ty functy_needs (agree_same _ _)), N.
  - apply (agree_vec no_nest V_Import import_needs (agree_same _ _)), N.
  - apply (agree_vec no_nest V_Type no_needs (agree_same _ _)), N.
  - apply (agree_vec no_nest V_Table no_needs (agree_same _ _)), N.
  - apply (agree_vec no_nest V_Mem no_needs (agree_same _ _)), N.
  - apply (agree_vec no_nest V_Global global_needs GL), N.
  - apply (agree_vec no_nest V_Export export_needs (agree_same _ _)), N.
  - intros -> ->. auto.
  - apply (agree_vec no_nest V_Elem elem_needs EL), N.
  - apply (agree_vec no_val V_Func body_needs agree_body). split; [exact N|exact (V v eq_refl)].
  - apply (agree_vec no_nest V_Data data_needs DA), N.
Qed.

(** ** Groups of local variables *)
Lemma runs_head t l : exists n rs, runs_of (t :: l) = (n, t) :: rs /\ n <> 0.
Proof.
  revert t. induction l as [|t' l IH]; intros t; [exists 1, []; split; [reflexivity|lia]|]. cbn [runs_of].
  destruct (IH t') as (n & rs & E & NZ). cbn [runs_of] in E. rewrite E. destruct (valty_eqb t t') eqn:X.
  - exists (n + 1), rs. split; [reflexivity|lia].
  - exists 1, ((n, t') :: rs). split; [reflexivity|lia].
Qed.
Lemma runs_repeat t k l : runs_of (repeat t (S k) ++ l) =
  match runs_of l with (n, t') :: rs => if valty_eqb t t' then (N.of_nat (S k) + n, t) :: rs else (N.of_nat (S k), t) :: (n, t') :: rs | [] => [(N.of_nat (S k), t)] end.
Proof.
  induction k as [|k IH].
  - cbn [repeat app runs_of]. destruct (runs_of l) as [|[n t'] rs]; [reflexivity|]. destruct (valty_eqb t t'); [|reflexivity]. f_equal. f_equal. lia.
  - change (repeat t (S (S k)) ++ l) with (t :: (repeat t (S k) ++ l)). cbn [runs_of]. rewrite IH.
    assert (T : valty_eqb t t = true) by (apply valty_eqb_eq; reflexivity).
    destruct (runs_of l) as [|[n t'] rs]; [rewrite T; do 2 f_equal; lia|]. destruct (valty_eqb t t'); rewrite T; f_equal; f_equal; lia.
Qed.
Lemma groups_least gs : forall n, incl (group_needs n (runs_of (expand_runs gs))) (group_needs n gs).
Proof.
  induction gs as [|[k t] gs IH]; intros n; [intros e []|]. unfold expand_runs in *. cbn [flat_map fst snd group_needs].
  destruct (N.to_nat k) as [|j] eqn:K.
  - assert (k = 0) as -> by lia. rewrite N.add_0_r. cbn [repeat app]. apply incl_tl, IH.
  - rewrite runs_repeat. assert (E : k = N.of_nat (S j)) by lia. rewrite <- E. clear K E. specialize (IH (n + k)).
    match type of IH with incl (group_needs _ (runs_of ?l)) _ => destruct (runs_of l) as [|[n1 t'] rs] end; cbn [group_needs] in *; [intros e [<-|[]]; left; reflexivity|].
    destruct (valty_eqb t t'); cbn [group_needs].
    + rewrite N.add_assoc. apply incl_tl, IH.
    + intros e [<-|I]; [left; reflexivity|right; exact (IH e I)].
Qed.
(** the groups of the shortest file *)
Lemma u32_first n X : n < 2 ^ 32 -> p_u32 (e_u32 n ++ X) = (Ok n, X).
Proof. intros L. apply exact_u32. exists (e_u32 n). split; [reflexivity|]. apply e_u32_ok; [cbn; auto|exact L]. Qed.
Lemma valty_first t X : p_valty (valty_byte t :: X) = (Ok t, X).
Proof. destruct t; reflexivity. Qed.
Lemma runs_log gs : forall acc X ls r l, (forall g, In g gs -> fst g < 2 ^ 32) ->
  a_runs (length gs) V_Val (a_run p_valty) acc (flat_map e_run gs ++ X) = ((Ok ls, r), l) -> l = group_needs (lengthN acc) gs.
Proof.
  induction gs as [|[k t] gs IH]; intros acc X ls r l B H; cbn [length a_runs] in H.
  - apply a_run_ok in H. exact (proj2 H).
  - cbn [flat_map] in H. unfold e_run in H at 1. cbn [fst snd] in H. rewrite <- !app_assoc in H.
    apply a_bind_ok in H. destruct H as (n & r1 & l1 & l2 & H1 & H & ->). apply a_run_ok in H1. destruct H1 as [H1 ->].
    rewrite u32_first in H1 by exact (B _ (or_introl eq_refl)). injection H1 as <- <-.
    apply a_bind_ok in H. destruct H as (v & r2 & l3 & l4 & H2 & H & ->). apply a_run_ok in H2. destruct H2 as [H2 ->]. change (e_valty t ++ flat_map e_run gs ++ X) with (valty_byte t :: (flat_map e_run gs ++ X)) in H2. rewrite valty_first in H2. injection H2 as <- <-.
    apply a_bind_ok in H. destruct H as (u & r3 & l5 & l6 & H3 & H & ->). apply a_note_ok in H3. destruct H3 as [-> ->].
    apply IH in H; [|intros g I; apply B; right; exact I]. rewrite H. cbn [app group_needs]. unfold lengthN. rewrite app_length, repeat_length, Nat2N.inj_add, N2Nat.id. reflexivity.
Qed.
Lemma runs_number l : (length (runs_of l) <= length l)%nat.
Proof.
  induction l as [|t l IH]; [reflexivity|]. cbn [runs_of]. destruct (runs_of l) as [|[n t'] rs]; cbn [length] in *; [lia|]. destruct (valty_eqb t t'); cbn [length]; lia.
Qed.
Lemma func_log f y r l : N.of_nat (length (fn_locals f)) < 2 ^ 32 -> a_func (e_func f) = ((Ok y, r), l) ->
  exists l', l = group_needs 0 (runs_of (fn_locals f)) ++ l' /\ expr_needs (fn_body y) l'.
Proof.
  intros L H. unfold e_func, e_vec in H. rewrite <- app_assoc in H. apply a_bind_ok in H. destruct H as (ls & r1 & l1 & l2 & H1 & H & ->).
  apply a_bind_ok in H1. destruct H1 as (j & q1 & k1 & k2 & K1 & K2 & ->). apply a_run_ok in K1. destruct K1 as [K1 ->].
  pose proof (runs_number (fn_locals f)) as RN. rewrite u32_first in K1 by lia. injection K1 as <- <-. rewrite Nat2N.id in K2.
  apply runs_log in K2; [|intros g I; apply runs_bound in I; unfold u32 in *; lia]. subst k2.
  apply a_bind_ok in H. destruct H as (e & r2 & l3 & l4 & H2 & H & ->). apply logs_expr in H2. apply a_run_ok in H. destruct H as [H ->]. injection H as <- _.
  exists l3. rewrite app_nil_r. split; [reflexivity|exact H2].
Qed.
Lemma window_ok {A} (a : ap A) c X y r l : EncodeProof.small c -> a_sized a (e_sized c ++ X) = ((Ok y, r), l) -> exists rw, a c = ((Ok y, rw), l).
Proof.
  intros SM H. unfold e_sized in H. rewrite <- app_assoc in H. apply a_bind_ok in H. destruct H as (n & r1 & l1 & l2 & H1 & H2 & ->). apply a_run_ok in H1. destruct H1 as [H1 ->].
  rewrite u32_first in H1 by exact SM. injection H1 as <- <-. cbn beta zeta in H2. rewrite Nat2N.id, firstn_app, firstn_all, Nat.sub_diag, firstn_O, app_nil_r in H2.
  destruct (a c) as [[[z|e| |] rw] lw] eqn:E; [|discriminate..]. destruct (negb _); [discriminate|]. injection H2 as <- _ <-. eauto.
Qed.
Definition code_ready (f : func) : Prop := N.of_nat (length (fn_locals f)) < 2 ^ 32 /\ EncodeProof.small (e_func f) /\ enc_func W (e_func f) (fn_locals f, fn_body f).
Lemma times_log fs : Forall code_ready fs -> forall X ys r l, a_times (length fs) (x <=+ a_sized a_func ;; a_ret x) (flat_map e_code fs ++ X) = ((Ok ys, r), l) ->
  forall e, In e l -> exists f l', In f fs /\ In e (group_needs 0 (runs_of (fn_locals f)) ++ l') /\ expr_needs (fn_body f) l'.
Proof.
  induction 1 as [|f fs (R1 & R2 & R3) _ IH]; intros X ys r l H e I; cbn [length a_times] in H.
  - apply a_run_ok in H. rewrite (proj2 H) in I. destruct I.
  - cbn [flat_map] in H. rewrite <- app_assoc in H. apply a_bind_ok in H. destruct H as (y & r1 & l1 & l2 & H1 & H & ->).
    apply a_bind_ok in H. destruct H as (ys' & r2 & l3 & l4 & H2 & H3 & ->). apply a_run_ok in H3. destruct H3 as [_ ->]. rewrite app_nil_r in I.
    apply a_bind_ok in H1. destruct H1 as (z & q & k1 & k2 & H1 & HZ & ->). apply a_run_ok in HZ. destruct HZ as [HZ ->]. injection HZ as -> ->. rewrite app_nil_r in I.
    assert (P : p_sized p_func (e_code f ++ flat_map e_code fs ++ X) = (Ok (mkFunc 0 (fn_locals f) (fn_body f)), flat_map e_code fs ++ X)).
    { apply (exact_sized p_func enc_func0 suffixing_func (exact_exact_all _ _ exact_func)). exists (e_code f). split; [reflexivity|].
      apply e_sized_ok; [cbn; auto|exact R2|]. exists (fn_locals f, fn_body f). split; [exact R3|reflexivity]. }
    pose proof (erases_sized a_func p_func erases_func (e_code f ++ flat_map e_code fs ++ X)) as Q. rewrite H1, P in Q. cbn [fst] in Q. injection Q as -> ->.
    apply in_app_or in I. destruct I as [I|I].
    + apply window_ok in H1; [|exact R2]. destruct H1 as (rw & H1). apply func_log in H1; [|exact R1]. destruct H1 as (l' & -> & E). exists f, l'. split; [left; reflexivity|]. split; [exact I|exact E].
    + destruct (IH _ _ _ _ H2 e I) as (g & l' & G & J & E). exists g, l'. split; [right; exact G|]. split; assumption.
Qed.
Lemma code_log fs s X s' r l : Forall code_ready fs -> EncodeProof.small (e_vec e_code fs) -> N.of_nat (length fs) < 2 ^ 32 ->
  a_section x0a s (e_sized (e_vec e_code fs) ++ X) = ((Ok s', r), l) ->
  forall n, In (Hold V_Val n) l -> exists f l', In f fs /\ In (Hold V_Val n) (group_needs 0 (runs_of (fn_locals f)) ++ l') /\ expr_needs (fn_body f) l'.
Proof.
  intros CR SM LF H n I. cbn [a_section] in H. cbv zeta in H. apply a_bind_ok in H. destruct H as (w & r1 & l1 & l2 & K1 & K & ->).
  assert (l2 = []) as ->.
  { destruct (negb _); [discriminate|]. destruct (assign_types _ _ _) as [fs'|e| |]; [|discriminate..]. apply a_run_ok in K. exact (proj2 K). }
  rewrite app_nil_r in I. apply window_ok in K1; [|exact SM]. destruct K1 as (rw & K1). unfold e_vec in K1.
  apply a_bind_ok in K1. destruct K1 as (j & q1 & k1 & k2 & H1 & K1 & ->). apply a_run_ok in H1. destruct H1 as [H1 ->]. rewrite u32_first in H1 by exact LF. injection H1 as <- <-.
  apply a_bind_ok in K1. destruct K1 as (u & q2 & k3 & k4 & H2 & K1 & ->). apply a_note_ok in H2. destruct H2 as [-> ->]. cbn [app] in I. destruct I as [I|I]; [discriminate I|].
  rewrite Nat2N.id in K1. rewrite <- (app_nil_r (flat_map e_code fs)) in K1. exact (times_log fs CR _ _ _ _ K1 _ I).
Qed.

(** ** Sections *)
Lemma chunks m : representable m -> Forall2 (enc_section W) (map sec_bytes (section_contents m)) (sections_of m).
Proof.
  intros R. assert (E : enc_list (enc_section W) (flat_map sec_bytes (section_contents m)) (sections_of m)).
  { apply sections_of_enc; [cbn; auto|cbn; auto|exact R|]. intros e _ j _. destruct j; exact I. }
  destruct E as (cs & F & EC). destruct (sections_pieces cs _ F) as (ps & E2 & D).
  set (ps0 := map (fun c => mkPiece (fst c) (e_u32 (N.of_nat (length (snd c)))) (snd c)) (section_contents m)).
  assert (B : map piece_bytes ps0 = map sec_bytes (section_contents m)) by (unfold ps0; rewrite map_map; reflexivity).
  assert (S0 : Forall well_sized ps0).
  { unfold ps0. apply Forall_map, Forall_forall. intros c I. destruct R as (_ & _ & _ & _ & R5). apply (proj1 (e_u32_ok W ltac:(cbn; auto) _ (R5 c I))). }
  assert (ps = ps0) as ->.
  { apply cut_unique; [eapply denote_sized, D|exact S0|]. rewrite <- E2, <- EC, (flat_map_concat_map piece_bytes), B, <- flat_map_concat_map. reflexivity. }
  rewrite <- B. clear -D. induction D as [|p s ps ss D F IH]; constructor; [apply D|assumption].
Qed.
Lemma sections_trace : forall cs secs, Forall2 (enc_section W) cs secs -> forall fuel s s' r l,
  a_sections fuel s (concat cs) = ((Ok s', r), l) -> forall e, In e l ->
  exists id pre sec s1 X s2 r2 l2, In (id :: pre, sec) (combine cs secs) /\ enc_section W (id :: pre) sec /\ a_section id s1 (pre ++ X) = ((Ok s2, r2), l2) /\ In e l2.
Proof.
  induction 1 as [|c sec cs secs E F IH]; intros fuel s s' r l H e I; (destruct fuel as [|fuel]; [discriminate|]); cbn [a_sections concat] in H.
  - injection H as _ _ <-. destruct I.
  - destruct (section_first _ _ _ E) as (id & pre & -> & I1 & I2). cbn [app] in H.
    apply a_bind_ok in H. destruct H as (id' & r1 & l1 & l2 & H1 & H & ->). apply a_run_ok in H1. destruct H1 as [H1 ->]. injection H1 as <- <-.
    destruct (negb (byte_is id 0) && (Byte.to_N id <=? ps_last_id s)); [discriminate|]. cbv zeta in H. apply a_bind_ok in H.
    destruct H as (s2 & r2 & l3 & l4 & H1 & H2 & ->). cbn [app] in I. set (s1 := if byte_is id 0 then s else _) in *.
    apply in_app_or in I. destruct I as [I|I].
    + exists id, pre, sec, s1, (concat cs), s2, r2, l3. split; [left; reflexivity|]. split; [exact E|]. split; assumption.
    + pose proof (erases_section id s1 (pre ++ concat cs)) as P. rewrite H1 in P. cbn [fst] in P.
      destruct (sec_ok_dec s1 sec) as [OK|NO].
      * assert (Q : p_section id s1 (pre ++ concat cs) = (Ok (ModuleProof.step s1 sec), concat cs)) by (apply exact_section; eauto 10).
        rewrite Q in P. injection P as -> ->. destruct (IH _ _ _ _ _ H2 e I) as (id' & pre' & sec' & a & X & b & c & d & J & K). exists id', pre', sec', a, X, b, c, d. split; [right; exact J|exact K].
      * rewrite (section_bad id pre sec s1 (concat cs) E NO) in P. discriminate.
Qed.
Lemma requests_sections cs m r : p_module (preamble ++ concat cs) = (Ok m, r) ->
  exists fuel s s' r', a_sections fuel s (concat cs) = ((Ok s', r'), requests (preamble ++ concat cs)).
Proof.
  intros H. pose proof (erases_module (preamble ++ concat cs)) as E. rewrite H in E. unfold requests.
  destruct (a_module (preamble ++ concat cs)) as [x l] eqn:G. cbn [fst snd] in *. subst x.
  unfold a_module in G. apply a_bind_ok in G. destruct G as (mg & r1 & l1 & l2 & F1 & G & ->). apply a_run_ok in F1. destruct F1 as [F1 ->].
  destruct (negb _); [discriminate|]. apply a_bind_ok in G. destruct G as (v & r2 & l3 & l4 & F2 & G & ->). apply a_run_ok in F2. destruct F2 as [F2 ->].
  destruct (negb _); [discriminate|]. apply a_bind_ok in G. destruct G as (s & r3 & l5 & l6 & F3 & G & ->). apply a_run_ok in G. destruct G as [_ ->].
  injection F1 as _ <-. injection F2 as _ <-. cbn [app]. rewrite app_nil_r. eauto.
Qed.
(** a section with a component of the module is a section of every file of the module *)
Lemma alone_in {A} (get : section -> list A) k ss s : 0 < k -> (forall s, section_id s <> k -> get s = []) -> ordered ss -> In s ss -> section_id s = k -> flat_map get ss = get s.
Proof. intros K G O I E. apply in_split in I. destruct I as (a & b & ->). exact (kind_alone get k a s b 0 K G E O). Qed.
Lemma found {A} (get : section -> list A) (mk : list A -> section) k ss v : 0 < k -> (forall s, section_id s <> k -> get s = []) ->
  (forall s, section_id s = k -> s = mk (get s)) -> ordered ss -> flat_map get ss = v -> v <> [] -> In (mk v) ss.
Proof.
  intros K G M O E NE. assert (X : exists s, In s ss /\ get s <> []).
  { destruct v as [|x v]; [contradiction|]. assert (I : In x (flat_map get ss)) by (rewrite E; left; reflexivity). apply in_flat_map in I. destruct I as (s & I & J).
    exists s. split; [exact I|]. intros Z. rewrite Z in J. destruct J. }
  destruct X as (s & I & N). assert (J : section_id s = k) by (destruct (N.eq_dec (section_id s) k) as [Y|Y]; [exact Y|destruct (N (G s Y))]).
  rewrite (alone_in get k ss s K G O I J) in E. rewrite <- E, <- (M s J). exact I.
Qed.
Ltac sole := let s := fresh in let E := fresh in intros s E; destruct s; first [reflexivity|discriminate E].
Lemma same_section m secs s : ordered secs -> counts_match W secs -> m = module_of secs -> In s (sections_of m) ->
  (exists v, s = S_Start v) \/ In s secs.
Proof.
  intros O C -> I. unfold sections_of, section_list in I. rewrite !in_app_iff in I.
  assert (NE : forall A (l : list A) (ss : list section) s, In s (if no l then [] else ss) -> l <> [] /\ In s ss) by (intros A [|x l] ss t; [intros []|intros J; split; [discriminate|exact J]]).
  assert (FN : m_funcs (module_of secs) <> [] -> map fn_ty (m_funcs (module_of secs)) = flat_map sec_typeidxs secs /\
    map (fun f => (fn_locals f, fn_body f)) (m_funcs (module_of secs)) = flat_map sec_codes secs).
  { intros F. pose proof (counts_funcs secs C F) as [L _]. unfold module_of, pair_funcs. cbn [m_funcs]. rewrite !map_map. cbn [fn_ty fn_locals fn_body]. revert L.
    generalize (flat_map sec_typeidxs secs) (flat_map sec_codes secs). clear. intros ts. induction ts as [|t ts IH]; intros [|[a b] cs] L; try discriminate L; [split; reflexivity|].
    injection L as L. destruct (IH cs L) as [A B]. cbn [combine map]. split; [exact (f_equal (cons t) A)|exact (f_equal (cons (a, b)) B)]. }
  repeat (destruct I as [I|I]; [first [left; destruct (hd_error (flat_map sec_starts secs)) eqn:E; cbn [m_start module_of] in I; rewrite E in I; [destruct I as [<-|[]]; eauto|destruct I]|apply NE in I; destruct I as [N [<-|[]]]; right]|]).
  - apply (found sec_types S_Type 1); [lia|nothing|sole|exact O|reflexivity|exact N].
  - apply (found sec_imports S_Import 2); [lia|nothing|sole|exact O|reflexivity|exact N].
  - destruct (FN N) as [-> _]. apply (found sec_typeidxs S_Function 3); [lia|nothing|sole|exact O|reflexivity|].
    intros Z. apply N. cbn [m_funcs module_of]. rewrite Z. reflexivity.
  - apply (found sec_tables S_Table 4); [lia|nothing|sole|exact O|reflexivity|exact N].
  - apply (found sec_mems S_Memory 5); [lia|nothing|sole|exact O|reflexivity|exact N].
  - apply (found sec_globals S_Global 6); [lia|nothing|sole|exact O|reflexivity|exact N].
  - apply (found sec_exports S_Export 7); [lia|nothing|sole|exact O|reflexivity|exact N].
  - apply (found sec_elems S_Element 9); [lia|nothing|sole|exact O|reflexivity|exact N].
  - destruct (FN N) as [_ ->]. apply (found sec_codes S_Code 10); [lia|nothing|sole|exact O|reflexivity|].
    intros Z. apply N. cbn [m_funcs module_of]. rewrite Z. unfold pair_funcs. destruct (flat_map sec_typeidxs secs); reflexivity.
  - apply NE in I; destruct I as [N [<-|[]]]; right. apply (found sec_datas S_Data 11); [lia|nothing|sole|exact O|reflexivity|exact N].
Qed.
Lemma Forall2_pick {A B} (R : A -> B -> Prop) xs ys x : Forall2 R xs ys -> In x xs -> exists y, In y ys /\ R x y.
Proof. induction 1 as [|a b xs ys H F IH]; [intros []|]. intros [<-|I]; [exists b; split; [left; reflexivity|exact H]|]. destruct (IH I) as (y & J & K). exists y. split; [right; exact J|exact K]. Qed.
Lemma code_chunk m pre : In (x0a :: pre) (map sec_bytes (section_contents m)) -> pre = e_sized (e_vec e_code (m_funcs m)) /\ In (x0a, e_vec e_code (m_funcs m)) (section_contents m).
Proof.
  intros I. apply in_map_iff in I. destruct I as ([id c] & E & I). unfold sec_bytes in E. cbn [fst snd] in E. injection E as -> <-.
  assert (c = e_vec e_code (m_funcs m)) as ->.
  { unfold section_contents in I. rewrite !in_app_iff in I.
    assert (V : forall A i (ee : A -> list byte) v, In (x0a, c) (section_if i ee v) -> i = x0a /\ c = e_vec ee v).
    { intros A i ee [|x v]; [intros []|]. intros [J|[]]. injection J as -> <-. split; reflexivity. }
    repeat (destruct I as [I|I]; [first [apply V in I; destruct I as [J ->]; first [discriminate J|reflexivity]|destruct (m_start m); [destruct I as [I|[]]; discriminate I|destruct I]]|]).
    apply V in I. destruct I as [J _]. discriminate J. }
  split; [reflexivity|exact I].
Qed.
Theorem lean bs m : p_module bs = (Ok m, []) -> few_locals m -> incl (requests (encode m)) (requests bs).
Proof.
  intros P FL e I. destruct (parsed_canonical bs m P FL) as [_ PC].
  destruct e as [k n|k n|n].
  3: { apply (nest_exact bs m [] P). apply (nest_exact _ m [] PC). exact I. }
  all: assert (RP : representable m) by (apply module_exact in P as [_ E]; eapply enc_representable; eassumption).
  all: apply module_exact in P as P2; destruct P2 as (_ & body & secs & -> & EN & O & C & M).
  all: destruct (reading_needs _ _ _ _ EN P) as (ls & F & ->).
  all: pose proof (chunks m RP) as CH.
  all: change (encode m) with (preamble ++ flat_map sec_bytes (section_contents m)) in I, PC; rewrite flat_map_concat_map in I, PC.
  all: destruct (requests_sections _ _ _ PC) as (fuel & s & s' & r' & RUN).
  all: destruct (sections_trace _ _ CH _ _ _ _ _ RUN _ I) as (id & pre & sec & s1 & X & s2 & r2 & l2 & J & ES & AS & I2).
  all: pose proof (section_log _ _ _ _ _ _ _ _ ES AS) as N2.
  all: destruct (same_section m secs sec O C M (in_combine_r _ _ _ _ J)) as [(v & ->)|IS]; [cbn in N2; rewrite N2 in I2; destruct I2|].
  all: destruct (Forall2_pick _ _ _ _ F IS) as (l' & L1 & L2); apply in_concat; exists l'; split; [exact L1|].
  - apply (agree_section sec l2 l'); [intros z; discriminate|intros v _ z; discriminate|exact N2|exact L2|exact I2].
  - assert (CASE : (exists v, sec = S_Code v) \/ forall v, sec <> S_Code v) by (destruct sec; first [left; eexists; reflexivity|right; discriminate]).
    destruct CASE as [(v & ->)|NC]; [|apply (agree_section sec l2 l'); [intros z; discriminate|intros v E; destruct (NC v E)|exact N2|exact L2|exact I2]].
    assert (KV : k = V_Val \/ k <> V_Val) by (destruct k; first [left; reflexivity|right; discriminate]).
    destruct KV as [->|KV]; [|apply (agree_section (S_Code v) l2 l'); [intros z; discriminate|intros w _ z Z; injection Z as Z _; contradiction|exact N2|exact L2|exact I2]].
    assert (id = x0a) as -> by (destruct ES as (b & E & _); injection E as -> _; reflexivity).
    destruct (code_chunk m pre (in_combine_l _ _ _ _ J)) as [-> IC].
    assert (v = map (fun f => (fn_locals f, fn_body f)) (m_funcs m)) as ->.
    { pose proof (in_combine_r _ _ _ _ J) as K. unfold sections_of, section_list in K. rewrite !in_app_iff in K.
      repeat (destruct K as [K|K]; [try (destruct (no _); [destruct K|destruct K as [K|[]]; first [discriminate K|injection K as <-; reflexivity]]); try (destruct (m_start m); [destruct K as [K|[]]; discriminate K|destruct K])|]).
      destruct (no _); [destruct K|destruct K as [K|[]]; discriminate K]. }
    destruct RP as (R1 & R2 & R3 & R4 & R5). pose proof (R5 _ IC) as SM. cbn [snd] in SM. change (EncodeProof.small (e_vec e_code (m_funcs m))) in SM.
    assert (CR : Forall code_ready (m_funcs m)).
    { apply Forall_forall. intros f IF. assert (SF : EncodeProof.small (e_func f)).
      { apply small_app in SM. destruct SM as [_ SM]. pose proof (flat_small e_code _ f SM IF) as SC. apply small_app in SC. apply SC. }
      split; [apply R4, IF|]. split; [exact SF|]. apply e_func_ok; [cbn; auto|cbn; auto|apply R4, IF| |exact SF].
      assert (IE : In (fn_body f) (module_exprs m)) by (unfold module_exprs; rewrite !in_app_iff; left; apply in_map, IF).
      destruct (R3 _ IE). split; [assumption|]. split; [assumption|]. intros j _. destruct j; exact Logic.I. }
    assert (LF : N.of_nat (length (m_funcs m)) < 2 ^ 32).
    { apply small_app in SM. destruct SM as [_ SM]. unfold EncodeProof.small in SM. assert (LL : (length (m_funcs m) <= length (flat_map e_code (m_funcs m)))%nat); [|lia].
      apply flat_length. intros x _. unfold e_code, e_sized. rewrite app_length. unfold e_func. rewrite app_length. pose proof (e_expr_pos (fn_body x)). lia. }
    destruct (code_log (m_funcs m) s1 X s2 r2 l2 CR SM LF AS n I2) as (f & lf & IF & IN & EX).
    destruct L2 as (lb & FB & ->). right. destruct (Forall2_pick _ _ _ (fn_locals f, fn_body f) FB) as (l3 & L3 & B3); [apply in_map_iff; exists f; auto|].
    apply in_concat. exists l3. split; [exact L3|]. destruct B3 as (gs & l4 & G1 & G2 & ->). cbn [fst snd] in *. rewrite in_app_iff in *.
    destruct IN as [IN|IN].
    + left. rewrite <- G1 in IN. exact (groups_least gs 0 _ IN).
    + right. refine (agree_expr _ _ _ _ _ EX G2 IN). intros z. discriminate.
Qed.
Theorem lean_within allows bs m : few_locals m -> parse_within allows bs = Ok m -> parse_within allows (encode m) = Ok m.
Proof.
  unfold parse_within. intros FL H. destruct (forallb allows (requests bs)) eqn:A; [|discriminate].
  pose proof (erases_module bs) as E. assert (P : p_module bs = (Ok m, [])).
  { destruct (a_module bs) as [[o r] l]. cbn [fst] in *. subst o. pose proof (proj1 (module_exact bs m r) (eq_sym E)) as [-> _]. symmetry. exact E. }
  destruct (parsed_canonical bs m P FL) as [_ PC]. rewrite forallb_forall in A.
  replace (forallb allows (requests (encode m))) with true by (symmetry; apply forallb_forall; intros e I; apply A, (lean bs m P FL e I)).
  rewrite (erases_module (encode m)), PC. reflexivity.
Qed.

(** The whole program *)
Theorem lean_program allows overflows checks bits args fs fs' cfg bs m : few_locals m -> config_new args = Some cfg ->
  fs (cfg_filename cfg) = Contents bs -> fs' (cfg_filename cfg) = Contents (encode m) -> p_module bs = (Ok m, []) ->
  program_on allows overflows checks bits args fs <> Crash -> program_on allows overflows checks bits args fs' = program_on allows overflows checks bits args fs.
Proof.
  intros FL C F F' P. unfold program_on. rewrite C, F, F'. intros N.
  assert (Q : parse_within allows bs = Ok m).
  { unfold parse_within in *. pose proof (erases_module bs) as E. rewrite P in E. destruct (forallb allows (requests bs)).
    - rewrite E. reflexivity.
    - now contradiction N. }
  rewrite Q, (lean_within _ _ _ FL Q). reflexivity.
Qed.
