(** What the parser asks of the allocator. *)
From Coq Require Import Lia ZifyN ZifyNat.
From Verif Require Import ParserAlloc SpecFormat SpecParser ParserMeta TypesProof InstrProof
  ModuleProof SectionsProof ModuleClaims ModuleClaims2 SpecAlloc.
Open Scope N_scope.

(** ** Without the events it is the same parser *)
Definition erases {A} (a : ap A) (p : parser A) : Prop := forall bs, fst (a bs) = p bs.
Lemma erases_run {A} (p : parser A) : erases (a_run p) p. Proof. intros bs. reflexivity. Qed.
Lemma erases_bind {A B} (a : ap A) (p : parser A) (f : A -> ap B) (g : A -> parser B) :
  erases a p -> (forall x, erases (f x) (g x)) -> erases (a_bind a f) (bind p g).
Proof.
  intros P F bs. unfold a_bind, bind. rewrite <- (P bs). destruct (a bs) as [[[x|e| |] r] l]; cbn [fst]; try reflexivity.
  rewrite <- (F x r). destruct (f x r). reflexivity.
Qed.
Lemma erases_note {A} e (a : ap A) p : erases a p -> erases (a_bind (a_note e) (fun _ => a)) p.
Proof. intros P bs. unfold a_bind, a_note. rewrite <- (P bs). destruct (a bs). reflexivity. Qed.
Lemma erases_times {A} n (a : ap A) p : erases a p -> erases (a_times n a) (p_times n p).
Proof.
  intros P. induction n; cbn [a_times p_times]; [apply erases_run|]. apply erases_bind; [assumption|]. intros x.
  apply erases_bind; [assumption|]. intros xs. apply erases_run.
Qed.
Lemma erases_vec {A} k (a : ap A) p : erases a p -> erases (a_vec k a) (p_vec p).
Proof. intros P. apply erases_bind; [apply erases_run|]. intros n. apply erases_note, erases_times, P. Qed.
Lemma erases_unwrapping_vec {A B} k (a : ap A) p (u : A -> B) : erases a p -> erases (a_unwrapping_vec k a u) (p_unwrapping_vec p u).
Proof.
  intros P. apply erases_bind; [apply erases_run|]. intros n. apply erases_note, erases_times.
  apply erases_bind; [assumption|]. intros x. apply erases_run.
Qed.
Lemma erases_runs {A} j k (a : ap A) p : erases a p -> forall acc, erases (a_runs j k a acc) (p_runs j p acc).
Proof.
  intros P. induction j; intros acc; cbn [a_runs p_runs]; [apply erases_run|].
  apply erases_bind; [apply erases_run|]. intros n. apply erases_bind; [assumption|]. intros v. apply erases_note, IHj.
Qed.
Lemma erases_compact_vec {A} k (a : ap A) p : erases a p -> erases (a_compact_vec k a) (p_compact_vec p).
Proof. intros P. apply erases_bind; [apply erases_run|]. intros j. apply erases_runs, P. Qed.
Lemma erases_sized {A} (a : ap A) p : erases a p -> erases (a_sized a) (p_sized p).
Proof.
  intros P. apply erases_bind; [apply erases_run|]. intros n bs. cbn beta zeta. rewrite <- (P (firstn (N.to_nat n) bs)).
  destruct (a (firstn (N.to_nat n) bs)) as [[[x|e| |] r] l]; cbn [fst]; [|reflexivity..]. destruct (negb _); reflexivity.
Qed.
Lemma erases_string : erases a_string p_string.
Proof.
  apply erases_bind; [apply erases_unwrapping_vec, erases_run|]. intros raw. destruct (utf8_valid raw); apply erases_run.
Qed.
Lemma erases_retval : erases a_retval p_retval.
Proof.
  intros bs. unfold a_retval, a_bind, a_run. destruct (p_retval bs) as [[x|e| |] r]; [|reflexivity..].
  destruct x; reflexivity.
Qed.
Lemma erases_functy : erases a_functy p_functy.
Proof.
  apply erases_bind; [apply erases_run|]. intros [].
  all: try apply erases_run. apply erases_bind; [apply erases_vec, erases_run|]. intros ps.
  apply erases_bind; [apply erases_vec, erases_run|]. intros rs. apply erases_run.
Qed.
Lemma erases_expr_of a p : erases a p -> erases (a_expr_of a) (p_expr_of p).
Proof. intros P. apply erases_bind; [assumption|]. intros [e t]. destruct t; apply erases_run. Qed.
Lemma erases_if_of a p : erases a p -> erases (a_if_of a) (p_if_of p).
Proof.
  intros P. apply erases_bind; [apply erases_retval|]. intros rt. apply erases_bind; [assumption|]. intros [b1 n1].
  apply erases_bind; [destruct (is_else n1); [assumption|apply erases_run]|]. intros [b2 n2].
  destruct (is_end n2); apply erases_run.
Qed.
Lemma erases_opcode a p b : erases a p -> erases (a_opcode a b) (p_opcode p b).
Proof.
  intros P. unfold a_opcode. destruct b; try apply erases_run; unfold p_opcode.
  - apply erases_bind; [apply erases_retval|]. intros rt. apply erases_bind; [apply erases_expr_of, P|]. intros e. apply erases_run.
  - apply erases_bind; [apply erases_retval|]. intros rt. apply erases_bind; [apply erases_expr_of, P|]. intros e. apply erases_run.
  - apply erases_if_of, P.
  - apply erases_bind; [apply erases_vec, erases_run|]. intros ls. apply erases_bind; [apply erases_run|]. intros l. apply erases_run.
Qed.
Lemma erases_instr_sub fuel : forall d, erases (a_instr fuel d) (p_instr fuel) /\ forall acc, erases (a_subexpr fuel d acc) (p_subexpr fuel acc).
Proof.
  induction fuel as [|f IH]; intros d; cbn [a_instr a_subexpr p_instr p_subexpr].
  - split; intros; apply erases_run.
  - split.
    + apply erases_bind; [apply erases_run|]. intros b. apply erases_opcode, erases_note, IH.
    + destruct (IH d) as [IH1 IH2]. intros acc. apply erases_bind; [assumption|]. intros i. destruct i; first [apply erases_run|apply erases_note, IH2].
Qed.
Lemma erases_expr : erases a_expr p_expr.
Proof. intros bs. unfold a_expr, p_expr. apply erases_expr_of, erases_instr_sub. Qed.
Ltac m_erases := repeat first [ apply erases_run | apply erases_string | apply erases_vec | apply erases_unwrapping_vec
  | apply erases_compact_vec | apply erases_sized | apply erases_functy | apply erases_expr | assumption
  | apply erases_bind; [|intro] ].
Lemma erases_func : erases a_func p_func. Proof. unfold a_func, p_func. m_erases. Qed.
Lemma erases_global : erases a_global p_global. Proof. unfold a_global, p_global, p_constexpr. m_erases. Qed.
Lemma erases_elem : erases a_elem p_elem. Proof. unfold a_elem, p_elem, p_constexpr. m_erases. Qed.
Lemma erases_data : erases a_data p_data. Proof. unfold a_data, p_data, p_constexpr. m_erases. Qed.
Lemma erases_import : erases a_import p_import. Proof. unfold a_import, p_import. m_erases. Qed.
Lemma erases_export : erases a_export p_export. Proof. unfold a_export, p_export. m_erases. Qed.
Lemma erases_custom : erases a_custom p_custom. Proof. unfold a_custom, p_custom. m_erases. Qed.
Lemma erases_section id s : erases (a_section id s) (p_section id s).
Proof.
  pose proof erases_custom. pose proof erases_import. pose proof erases_global. pose proof erases_export.
  pose proof erases_elem. pose proof erases_func. pose proof erases_data.
  unfold a_section, p_section. destruct id; try apply erases_run; m_erases.
  destruct (negb _); [apply erases_run|]. destruct (assign_types _ _ _); apply erases_run.
Qed.
Lemma erases_sections fuel : forall s, erases (a_sections fuel s) (p_sections fuel s).
Proof.
  induction fuel as [|f IH]; intros s bs; [reflexivity|]. cbn [a_sections p_sections]. destruct bs as [|b bs]; [reflexivity|].
  revert bs. intros bs. generalize (b :: bs). clear b bs. intros bs. revert bs.
  change (erases (id <=+ a_run p_byte ;;
       if negb (byte_is id 0x00) && (Byte.to_N id <=? ps_last_id s)
       then a_fail (UnexpectedSectionId id)
       else
         let s1 := if byte_is id 0x00 then s
                   else mkPstate (ps_result s) (ps_func_types s) (Byte.to_N id) in
         s2 <=+ a_section id s1 ;;
         a_sections f s2) (id <- p_byte ;;
       if negb (byte_is id 0x00) && (Byte.to_N id <=? ps_last_id s)
       then fail (UnexpectedSectionId id)
       else
         let s1 := if byte_is id 0x00 then s
                   else mkPstate (ps_result s) (ps_func_types s) (Byte.to_N id) in
         s2 <- p_section id s1 ;;
         p_sections f s2)).
  apply erases_bind; [apply erases_run|]. intros id. destruct (_ && _); [apply erases_run|]. cbv zeta.
  apply erases_bind; [apply erases_section|]. intros s2. apply IH.
Qed.
Lemma erases_module : erases a_module p_module.
Proof.
  unfold a_module, p_module. apply erases_bind; [apply erases_run|]. intros magic. destruct (negb _); [apply erases_run|].
  apply erases_bind; [apply erases_run|]. intros version. destruct (negb _); [apply erases_run|].
  intros bs. apply (erases_bind _ _ _ _ (erases_sections _ _)). intros s. apply erases_run.
Qed.

(** ** How much is reserved *)
Notation lenN l := (N.of_nat (length l)).
Notation M32 := (2 ^ 32 - 1).
Lemma reserved_app l l' : reserved (l ++ l') = reserved l + reserved l'.
Proof. induction l as [|[k n|k n|n] l IH]; cbn [app reserved]; lia. Qed.

(** On success at least [c] bytes more have been read than elements were announced; on failure at most
    [d] vectors have been announced that did not get filled. *)
Record econ (c d : N) {A} (a : ap A) : Prop := mkEcon {
  econ_ok : forall bs x r l, a bs = ((Ok x, r), l) -> reserved l + c + lenN r <= lenN bs;
  econ_err : forall bs o r l, a bs = ((o, r), l) -> (forall x, o <> Ok x) -> reserved l + lenN r <= d * M32 + lenN bs }.
Lemma econ_weaken c d c' d' {A} (a : ap A) : c' <= c -> d <= d' -> econ c d a -> econ c' d' a.
Proof.
  intros C D [E1 E2]. split.
  - intros bs x r l H. specialize (E1 _ _ _ _ H). lia.
  - intros bs o r l H N. specialize (E2 _ _ _ _ H N). change M32 with 4294967295 in *. nia.
Qed.
Lemma econ_run0 {A} (p : parser A) : suffixing p -> econ 0 0 (a_run p).
Proof.
  intros S. split.
  - intros bs x r l H. unfold a_run in H. pose proof (suffixing_length p bs S) as L. injection H as H <-. rewrite H in L. cbn [snd reserved] in *. lia.
  - intros bs o r l H _. unfold a_run in H. pose proof (suffixing_length p bs S) as L. injection H as H <-. rewrite H in L. cbn [snd reserved] in *. lia.
Qed.
Lemma econ_run1 {A} (p : parser A) : suffixing p -> progress p -> econ 1 0 (a_run p).
Proof.
  intros S P. split.
  - intros bs x r l H. unfold a_run in H. injection H as H <-. apply P in H. cbn [reserved]. lia.
  - apply (econ_run0 p S).
Qed.
Lemma econ_ret {A} (x : A) : econ 0 0 (a_ret x). Proof. apply econ_run0, suffixing_ret. Qed.
Lemma econ_fail c {A} e : econ c 0 (@a_fail A e).
Proof.
  split; [intros bs x r l H; discriminate|]. intros bs o r l H _. injection H as <- <- <-. cbn [reserved]. lia.
Qed.
Lemma econ_bind c1 c2 d {A B} (a : ap A) (f : A -> ap B) :
  econ c1 d a -> (forall x, econ c2 d (f x)) -> econ (c1 + c2) d (a_bind a f).
Proof.
  intros [A1 A2] F. split.
  - intros bs y r l H. unfold a_bind in H. destruct (a bs) as [[[x|e| |] r1] l1] eqn:E; [|discriminate..].
    destruct (f x r1) as [z l2] eqn:E2. injection H as -> <-. specialize (A1 _ _ _ _ E). apply (F x) in E2. rewrite reserved_app. lia.
  - intros bs o r l H NO. unfold a_bind in H. destruct (a bs) as [[[x|e| |] r1] l1] eqn:E.
    + destruct (f x r1) as [z l2] eqn:E2. injection H as -> <-. specialize (A1 _ _ _ _ E). apply (F x) in E2; [|assumption].
      rewrite reserved_app. lia.
    + injection H as <- <- <-. apply (A2 _ _ _ _ E). discriminate.
    + injection H as <- <- <-. apply (A2 _ _ _ _ E). discriminate.
    + injection H as <- <- <-. apply (A2 _ _ _ _ E). discriminate.
Qed.
Lemma econ_hold c d {A} k n (a : ap A) : econ c d a -> econ c d (_ <=+ a_note (Hold k n) ;; a).
Proof.
  intros [A1 A2]. split.
  - intros bs x r l H. unfold a_bind, a_note in H. destruct (a bs) as [z l1] eqn:E. injection H as -> <-. cbn [app reserved]. apply (A1 _ _ _ _ E).
  - intros bs o r l H NO. unfold a_bind, a_note in H. destruct (a bs) as [z l1] eqn:E. injection H as -> <-. cbn [app reserved]. apply (A2 _ _ _ _ E NO).
Qed.
Lemma econ_nest c d {A} n (a : ap A) : econ c d a -> econ c d (_ <=+ a_note (Nest n) ;; a).
Proof.
  intros [A1 A2]. split.
  - intros bs x r l H. unfold a_bind, a_note in H. destruct (a bs) as [z l1] eqn:E. injection H as -> <-. cbn [app reserved]. apply (A1 _ _ _ _ E).
  - intros bs o r l H NO. unfold a_bind, a_note in H. destruct (a bs) as [z l1] eqn:E. injection H as -> <-. cbn [app reserved]. apply (A2 _ _ _ _ E NO).
Qed.
Lemma econ_times c d {A} n (a : ap A) : econ c d a -> econ (N.of_nat n * c) d (a_times n a).
Proof.
  intros E. induction n as [|n IH]; cbn [a_times].
  - apply (econ_weaken 0 0); [lia|lia|apply econ_ret].
  - replace (N.of_nat (S n) * c) with (c + N.of_nat n * c) by lia. apply econ_bind; [assumption|]. intros x.
    replace (N.of_nat n * c) with (N.of_nat n * c + 0) by lia. apply econ_bind; [assumption|]. intros xs.
    apply (econ_weaken 0 0); [lia|lia|apply econ_ret].
Qed.
Lemma u32_range bs n r : p_u32 bs = (Ok n, r) -> n <= M32.
Proof.
  intros H. apply exact_u32 in H. destruct H as (pre & _ & [[_ [_ H]] _]). unfold fits_u in H. change (2 ^ 32) with 4294967296 in *. lia.
Qed.
Lemma econ_reserving c d {A} k (q : N -> ap A) : (forall n, econ (n + c) d (q n)) ->
  econ (1 + c) (1 + d) (n <=+ a_run p_u32 ;; _ <=+ a_note (Reserve k n) ;; q n).
Proof.
  intros Q. split.
  - intros bs x r l H. unfold a_bind, a_run, a_note in H. destruct (p_u32 bs) as [[n|e| |] r1] eqn:E; [|discriminate..].
    destruct (q n r1) as [z l1] eqn:F. injection H as -> <-. cbn [app reserved].
    apply (Q n) in F. apply progress_u32 in E. lia.
  - intros bs o r l H NO. unfold a_bind, a_run, a_note in H. pose proof (suffixing_length p_u32 bs suffixing_u32) as S.
    destruct (p_u32 bs) as [[n|e| |] r1] eqn:E; cbn [snd] in S.
    + destruct (q n r1) as [z l1] eqn:F. injection H as -> <-. cbn [app reserved].
      apply (Q n) in F; [|assumption]. apply u32_range in E. change M32 with 4294967295 in *. lia.
    + injection H as <- <- <-. cbn [reserved]. lia.
    + injection H as <- <- <-. cbn [reserved]. lia.
    + injection H as <- <- <-. cbn [reserved]. lia.
Qed.
Lemma econ_vec d {A} k (a : ap A) : econ 1 d a -> econ 1 (1 + d) (a_vec k a).
Proof.
  intros E. change 1 with (1 + 0) at 1. apply econ_reserving. intros n.
  apply (econ_weaken (N.of_nat (N.to_nat n) * 1) d); [lia|lia|]. apply econ_times, E.
Qed.
Lemma econ_unwrapping_vec d {A B} k (a : ap A) (u : A -> B) : econ 1 d a -> econ 1 (1 + d) (a_unwrapping_vec k a u).
Proof.
  intros E. change 1 with (1 + 0) at 1. apply econ_reserving. intros n.
  apply (econ_weaken (N.of_nat (N.to_nat n) * 1) d); [lia|lia|]. apply econ_times.
  change 1 with (1 + 0). apply econ_bind; [assumption|]. intros x. apply (econ_weaken 0 0); [lia|lia|apply econ_ret].
Qed.
Lemma econ_runs d {A} j k (a : ap A) : econ 0 d a -> forall acc, econ 0 d (a_runs j k a acc).
Proof.
  intros E. induction j; intros acc; cbn [a_runs]; [apply (econ_weaken 0 0); [lia|lia|apply econ_ret]|].
  change 0 with (0 + 0). apply econ_bind; [apply (econ_weaken 0 0); [lia|lia|apply econ_run0, suffixing_u32]|]. intros n.
  change 0 with (0 + 0). apply econ_bind; [assumption|]. intros v. apply econ_hold. change (0 + 0) with 0. apply IHj.
Qed.
Lemma econ_u32 : econ 1 0 (a_run p_u32). Proof. apply econ_run1; [apply suffixing_u32|apply progress_u32]. Qed.
Lemma econ_compact_vec d {A} k (a : ap A) : econ 0 d a -> econ 1 d (a_compact_vec k a).
Proof.
  intros E. change 1 with (1 + 0). apply econ_bind; [apply (econ_weaken 1 0); [lia|lia|apply econ_u32]|]. intros j. apply econ_runs, E.
Qed.
Lemma econ_sized c d {A} (a : ap A) : econ c d a -> econ (1 + c) d (a_sized a).
Proof.
  intros [E1 E2]. apply econ_bind; [apply (econ_weaken 1 0); [lia|lia|apply econ_u32]|]. intros n.
  assert (L : forall bs : list byte, length bs = (length (firstn (N.to_nat n) bs) + length (skipn (N.to_nat n) bs))%nat).
  { intros bs. rewrite <- app_length, firstn_skipn. reflexivity. }
  split.
  - intros bs x r l H. cbn beta zeta in H. specialize (L bs).
    destruct (a (firstn (N.to_nat n) bs)) as [[[y|e| |] r1] l1] eqn:F; [|discriminate..].
    destruct (negb _); [discriminate|]. injection H as <- <- <-. apply E1 in F. rewrite app_length. lia.
  - intros bs o r l H NO. cbn beta zeta in H. specialize (L bs).
    destruct (a (firstn (N.to_nat n) bs)) as [[[y|e| |] r1] l1] eqn:F.
    + apply E1 in F. destruct (negb _); injection H as <- <- <-; rewrite app_length; lia.
    + apply E2 in F; [|discriminate]. injection H as <- <- <-. rewrite app_length. lia.
    + apply E2 in F; [|discriminate]. injection H as <- <- <-. rewrite app_length. lia.
    + apply E2 in F; [|discriminate]. injection H as <- <- <-. rewrite app_length. lia.
Qed.

(** enough for the elements below: one byte more than announced, [d] vectors *)
Definition thrifty (d : N) {A} (a : ap A) : Prop := econ 1 d a.
Lemma econ_then0 c d {A B} (a : ap A) (f : A -> ap B) : econ c d a -> (forall x, econ 0 d (f x)) -> econ c d (a_bind a f).
Proof. intros E F. replace c with (c + 0) by lia. apply econ_bind; assumption. Qed.
Lemma econ_ret' d {A} (x : A) : econ 0 d (a_ret x). Proof. apply (econ_weaken 0 0); [lia|lia|apply econ_ret]. Qed.
Lemma econ_fail' c d {A} e : econ c d (@a_fail A e). Proof. apply (econ_weaken c 0); [lia|lia|apply econ_fail]. Qed.
Lemma econ_run' d {A} (p : parser A) : suffixing p -> progress p -> econ 1 d (a_run p).
Proof. intros S P. apply (econ_weaken 1 0); [lia|lia|apply econ_run1; assumption]. Qed.
Lemma econ_more c d d' {A} (a : ap A) : d <= d' -> econ c d a -> econ c d' a.
Proof. intros D. apply econ_weaken; [lia|assumption]. Qed.
Lemma econ_less c d {A} (a : ap A) : econ c d a -> econ 0 d a.
Proof. apply econ_weaken; lia. Qed.
Lemma progress_bind_byte {A} (f : byte -> parser A) : (forall b, suffixing (f b)) -> progress (bind p_byte f).
Proof.
  intros S [|b bs] a r H; [discriminate|]. change (f b bs = (Ok a, r)) in H. pose proof (suffixing_length _ bs (S b)) as L.
  rewrite H in L. cbn [snd length] in *. lia.
Qed.
Lemma econ_string : econ 1 1 a_string.
Proof.
  apply econ_then0; [apply (econ_unwrapping_vec 0), econ_run1; [apply suffixing_byte|apply progress_byte]|].
  intros raw. destruct (utf8_valid raw); [apply econ_ret'|apply econ_fail'].
Qed.
Lemma econ_retval d : econ 1 d a_retval.
Proof.
  apply econ_then0; [apply econ_run'; [apply suffixing_retval|]|].
  - apply progress_bind_byte. intros []; (intros bs; exists []; reflexivity).
  - intros []; [apply econ_ret'|apply econ_hold, econ_ret'].
Qed.
Lemma progress_valty' : progress p_valty.
Proof. unfold p_valty. apply progress_bind_byte. intros []; (intros bs; exists []; reflexivity). Qed.
Lemma econ_valty d : econ 1 d (a_run p_valty).
Proof. apply econ_run'; [apply suffixing_valty|apply progress_valty']. Qed.
Lemma econ_functy : econ 1 1 a_functy.
Proof.
  apply econ_then0; [apply econ_run'; [apply suffixing_byte|apply progress_byte]|]. intros [].
  all: try apply econ_fail'. apply econ_then0; [apply econ_less with (c := 1), (econ_vec 0), econ_valty|]. intros ps.
  apply econ_then0; [apply econ_less with (c := 1), (econ_vec 0), econ_valty|]. intros rs. apply econ_ret'.
Qed.
Lemma econ_expr_of c d a : econ c d a -> econ c d (a_expr_of a).
Proof. intros E. apply econ_then0; [assumption|]. intros [e t]. destruct t; first [apply econ_ret'|apply econ_fail']. Qed.
Lemma econ_if_of d a : econ 0 d a -> econ 0 d (a_if_of a).
Proof.
  intros E. apply econ_then0; [apply econ_less with (c := 1), econ_retval|]. intros rt. apply econ_then0; [assumption|]. intros [b1 n1].
  apply econ_then0; [destruct (is_else n1); [assumption|apply econ_ret']|]. intros [b2 n2].
  destruct (is_end n2); [apply econ_ret'|apply econ_fail'].
Qed.
Lemma econ_opcode a b : econ 0 1 a -> econ 0 1 (a_opcode a b).
Proof.
  intros E. unfold a_opcode. destruct b; try (apply (econ_weaken 0 0); [lia|lia|apply econ_run0, suffixing_opcode; intros bs; exists []; reflexivity]).
  - apply econ_then0; [apply econ_less with (c := 1), econ_retval|]. intros rt. apply econ_then0; [apply econ_expr_of, E|]. intros e. apply econ_ret'.
  - apply econ_then0; [apply econ_less with (c := 1), econ_retval|]. intros rt. apply econ_then0; [apply econ_expr_of, E|]. intros e. apply econ_ret'.
  - apply econ_if_of, E.
  - apply econ_then0; [apply econ_less with (c := 1), (econ_vec 0), econ_u32|]. intros ls.
    apply econ_then0; [apply econ_less with (c := 1), (econ_more _ 0); [lia|apply econ_u32]|]. intros l. apply econ_ret'.
Qed.
Lemma econ_instr_sub fuel : forall d, econ 1 1 (a_instr fuel d) /\ forall acc, econ 1 1 (a_subexpr fuel d acc).
Proof.
  assert (O : forall A c d, econ c d (a_run (@out_of_fuel A))).
  { intros A c d. split; [intros bs x r l H; discriminate|]. intros bs o r l H _. injection H as <- <- <-. cbn [reserved]. lia. }
  induction fuel as [|f IH]; intros d; cbn [a_instr a_subexpr].
  - split; intros; apply O.
  - split.
    + apply econ_then0; [apply econ_run'; [apply suffixing_byte|apply progress_byte]|]. intros b. apply econ_opcode, econ_nest, (econ_less 1), IH.
    + destruct (IH d) as [IH1 IH2]. intros acc. apply econ_then0; [assumption|]. intros i.
      destruct i; first [apply econ_ret'|apply econ_hold, (econ_less 1), IH2].
Qed.
Lemma econ_expr : econ 1 1 a_expr.
Proof.
  split.
  - intros bs. unfold a_expr. apply (econ_expr_of 1 1), econ_instr_sub.
  - intros bs. unfold a_expr. apply (econ_expr_of 1 1), econ_instr_sub.
Qed.
Lemma econ_func : econ 1 1 a_func.
Proof.
  apply econ_then0; [apply econ_compact_vec, (econ_less 1), econ_valty|]. intros ls.
  apply econ_then0; [apply (econ_less 1), econ_expr|]. intros e. apply econ_ret'.
Qed.
Lemma econ_global : econ 1 1 a_global.
Proof.
  apply econ_then0; [apply econ_run'; [apply suffixing_globalty|]|].
  - apply progress_bind_l; [apply progress_valty'|]. intros v. apply suffixing_bind; [apply suffixing_mut|]. intros; apply suffixing_ret.
  - intros t. apply econ_then0; [apply (econ_less 1), econ_expr|]. intros e. apply econ_ret'.
Qed.
Lemma econ_elem : econ 1 1 a_elem.
Proof.
  apply econ_then0; [apply (econ_more _ 0); [lia|apply econ_u32]|]. intros t.
  apply econ_then0; [apply (econ_less 1), econ_expr|]. intros e.
  apply econ_then0; [apply (econ_less 1), (econ_vec 0), econ_u32|]. intros i. apply econ_ret'.
Qed.
Lemma econ_data : econ 1 1 a_data.
Proof.
  apply econ_then0; [apply (econ_more _ 0); [lia|apply econ_u32]|]. intros t.
  apply econ_then0; [apply (econ_less 1), econ_expr|]. intros e.
  apply econ_then0; [apply (econ_less 1), (econ_unwrapping_vec 0), econ_run1; [apply suffixing_byte|apply progress_byte]|].
  intros i. apply econ_ret'.
Qed.
Lemma econ_import : econ 1 1 a_import.
Proof.
  apply econ_then0; [apply econ_string|]. intros m. apply econ_then0; [apply (econ_less 1), econ_string|]. intros n.
  apply econ_then0; [apply (econ_weaken 0 0); [lia|lia|apply econ_run0, suffixing_importdesc]|]. intros d. apply econ_ret'.
Qed.
Lemma econ_export : econ 1 1 a_export.
Proof.
  apply econ_then0; [apply econ_string|]. intros n.
  apply econ_then0; [apply (econ_weaken 0 0); [lia|lia|apply econ_run0, suffixing_exportdesc]|]. intros d. apply econ_ret'.
Qed.
Lemma econ_custom : econ 1 1 a_custom.
Proof.
  apply econ_then0; [apply econ_string|]. intros n.
  apply econ_then0; [apply (econ_weaken 0 0); [lia|lia|apply econ_run0]|].
  - intros bs. exists bs. cbn. rewrite app_nil_r. reflexivity.
  - intros c. apply econ_ret'.
Qed.
Lemma progress_elemty : progress p_elemty.
Proof. unfold p_elemty. apply progress_bind_byte. intros []; (intros bs; exists []; reflexivity). Qed.
Lemma progress_limits : progress p_limits.
Proof.
  intros bs a r H. apply exact_limits in H. destruct H as (pre & -> & H). rewrite app_length.
  assert (pre <> []); [|destruct pre; [congruence|cbn; lia]].
  intros ->. unfold enc_limits in H. destruct a as [mn [mx|]]; cbn in H; decompose record H; discriminate.
Qed.
Lemma econ_sec c {A} (a : ap A) (f : A -> pstate) : econ c 2 a -> econ 0 2 (v <=+ a_sized a ;; a_ret (f v)).
Proof. intros E. apply econ_then0; [apply (econ_less (1 + c)), econ_sized, E|]. intros v. apply econ_ret'. Qed.
Lemma econ_section id s : econ 0 2 (a_section id s).
Proof.
  pose proof econ_functy. pose proof econ_import. pose proof econ_global. pose proof econ_export. pose proof econ_elem. pose proof econ_data.
  assert (T : econ 1 1 (a_run p_table)).
  { apply econ_run'; [apply suffixing_table|]. apply progress_bind_l; [|intros; apply suffixing_ret].
    apply progress_bind_l; [apply progress_elemty|]. intros e. apply suffixing_bind; [apply suffixing_limits|]. intros; apply suffixing_ret. }
  assert (ME : econ 1 1 (a_run p_mem)).
  { apply econ_run'; [apply suffixing_mem|]. apply progress_bind_l; [|intros; apply suffixing_ret].
    apply progress_bind_l; [apply progress_limits|]. intros; apply suffixing_ret. }
  assert (I : econ 1 1 (a_run p_typeidx)) by (apply (econ_more _ 0); [lia|apply econ_u32]).
  assert (ST : econ 0 2 (a_run p_start)).
  { apply (econ_weaken 0 0); [lia|lia|apply econ_run0, suffixing_start]. }
  unfold a_section. destruct id; try apply econ_fail'.
  - apply (econ_sec 1 a_custom (fun _ => s)). apply (econ_more _ 1); [lia|apply econ_custom].
  - eapply econ_sec, (econ_vec 1); eassumption.
  - eapply econ_sec, (econ_vec 1); eassumption.
  - eapply econ_sec, (econ_vec 1); eassumption.
  - eapply econ_sec, (econ_vec 1); eassumption.
  - eapply econ_sec, (econ_vec 1); eassumption.
  - eapply econ_sec, (econ_vec 1); eassumption.
  - eapply econ_sec, (econ_vec 1); eassumption.
  - eapply econ_sec; eassumption.
  - eapply econ_sec, (econ_vec 1); eassumption.
  - apply econ_then0.
    + apply (econ_less (1 + 1)), econ_sized, (econ_unwrapping_vec 1). apply (econ_weaken (1 + 1) 1); [lia|lia|].
      apply econ_sized, econ_func.
    + intros fs. destruct (negb _); [apply econ_fail'|]. destruct (assign_types _ _ _); [apply econ_ret'|..];
        (apply (econ_weaken 0 0); [lia|lia|apply econ_run0; intros bs; exists []; reflexivity]).
  - eapply econ_sec, (econ_vec 1); eassumption.
Qed.
Lemma econ_sections fuel : forall s, econ 0 2 (a_sections fuel s).
Proof.
  induction fuel as [|f IH]; intros s.
  - split; [intros bs x r l H; discriminate|]. intros bs o r l H _. injection H as <- <- <-. cbn [reserved]. lia.
  - assert (B : econ 0 2 (id <=+ a_run p_byte ;;
       if negb (byte_is id 0x00) && (Byte.to_N id <=? ps_last_id s)
       then a_fail (UnexpectedSectionId id)
       else
         let s1 := if byte_is id 0x00 then s
                   else mkPstate (ps_result s) (ps_func_types s) (Byte.to_N id) in
         s2 <=+ a_section id s1 ;;
         a_sections f s2)).
    { apply econ_then0; [apply (econ_weaken 0 0); [lia|lia|apply econ_run0, suffixing_byte]|]. intros id.
      destruct (_ && _); [apply econ_fail'|]. cbv zeta. apply econ_then0; [apply econ_section|]. intros s2. apply IH. }
    destruct B as [B1 B2]. split.
    + intros [|b bs] x r l H; [injection H as <- <- <-; cbn [reserved]; lia|]. apply (B1 (b :: bs)) in H. assumption.
    + intros [|b bs] o r l H NO; [injection H as <- <- <-; cbn [reserved]; lia|]. apply (B2 (b :: bs)) in H; assumption.
Qed.
Lemma econ_module : econ 0 2 a_module.
Proof.
  assert (AR : econ 0 2 (a_run (p_array 4 p_byte))).
  { apply (econ_weaken 0 0); [lia|lia|apply econ_run0, suffixing_times, suffixing_byte]. }
  apply econ_then0; [assumption|]. intros magic. destruct (negb _); [apply econ_fail'|].
  apply econ_then0; [assumption|]. intros version. destruct (negb _); [apply econ_fail'|].
  assert (B : forall fuel, econ 0 2 (s <=+ a_sections fuel (mkPstate default_module [] 0) ;; a_ret (ps_result s))).
  { intros fuel. apply econ_then0; [apply econ_sections|]. intros s. apply econ_ret'. }
  split.
  - intros bs. apply B.
  - intros bs. apply B.
Qed.
Lemma reserved_bounds : forall bs,
  reserved (requests bs) <= 2 * M32 + lenN bs /\
  (forall m r, p_module bs = (Ok m, r) -> reserved (requests bs) <= lenN bs).
Proof.
  intros bs. unfold requests. pose proof (erases_module bs) as E. destruct (a_module bs) as [[o r] l] eqn:F. cbn [fst snd] in *.
  split.
  - destruct o as [m|e| |].
    + apply econ_module in F. lia.
    + apply econ_module in F; [|discriminate]. lia.
    + apply econ_module in F; [|discriminate]. lia.
    + apply econ_module in F; [|discriminate]. lia.
  - intros m r' H. rewrite H in E. injection E as -> ->. apply econ_module in F. lia.
Qed.

(** ** The size of each request *)
Definition allow (len extra : N) (e : event) : Prop :=
  match e with
  | Reserve _ n => n <= M32
  | Hold V_Instr n => n <= extra + len
  | Hold V_Val n => 2 * n <= 2 * extra + M32 * len
  | Hold _ _ => False
  | Nest _ => True
  end.
(** requests for memory; for nesting see below *)
Definition mild (len : N) (e : event) : Prop := match e with Nest _ => True | _ => request_ok len e end.
Definition modest {A} (a : ap A) : Prop :=
  forall bs, (length (snd (fst (a bs))) <= length bs)%nat /\ Forall (mild (lenN bs)) (snd (a bs)).
Lemma request_more l l' e : l <= l' -> mild l e -> mild l' e.
Proof.
  intros L. unfold mild, request_ok. change M32 with 4294967295. destruct e as [k n|k n|n]; [tauto| |tauto]. destruct k; try tauto; nia.
Qed.
Lemma requests_more l l' es : l <= l' -> Forall (mild l) es -> Forall (mild l') es.
Proof. intros L. apply Forall_impl. intros e. apply request_more, L. Qed.
Lemma modest_run {A} (p : parser A) : suffixing p -> modest (a_run p).
Proof. intros S bs. split; [apply (suffixing_length p bs S)|constructor]. Qed.
Lemma modest_ret {A} (x : A) : modest (a_ret x). Proof. apply modest_run, suffixing_ret. Qed.
Lemma modest_fail {A} e : modest (@a_fail A e). Proof. apply modest_run, suffixing_fail. Qed.
Lemma modest_bind {A B} (a : ap A) (f : A -> ap B) : modest a -> (forall x, modest (f x)) -> modest (a_bind a f).
Proof.
  intros P F bs. specialize (P bs). unfold a_bind. destruct (a bs) as [[[x|e| |] r] l]; cbn [fst snd] in *; try assumption.
  destruct P as [P1 P2]. specialize (F x r). destruct (f x r) as [[o r'] l']. cbn [fst snd] in *. destruct F as [F1 F2].
  split; [lia|]. apply Forall_app. split; [assumption|]. apply (requests_more (lenN r)); [lia|assumption].
Qed.
Lemma modest_note {A} e (a : ap A) : (forall len, mild len e) -> modest a -> modest (_ <=+ a_note e ;; a).
Proof.
  intros E P bs. specialize (P bs). unfold a_bind, a_note. destruct (a bs) as [[o r] l]. cbn [fst snd app] in *.
  split; [apply P|]. constructor; [apply E|apply P].
Qed.
Lemma modest_times {A} n (a : ap A) : modest a -> modest (a_times n a).
Proof.
  intros P. induction n; cbn [a_times]; [apply modest_ret|]. apply modest_bind; [assumption|]. intros x.
  apply modest_bind; [assumption|]. intros xs. apply modest_ret.
Qed.
Lemma modest_reserving {A} k (q : N -> ap A) : (forall n, modest (q n)) ->
  modest (n <=+ a_run p_u32 ;; _ <=+ a_note (Reserve k n) ;; q n).
Proof.
  intros Q bs. unfold a_bind, a_run, a_note. pose proof (suffixing_length p_u32 bs suffixing_u32) as S.
  destruct (p_u32 bs) as [[n|e| |] r] eqn:E; cbn [fst snd] in *; [|split; [assumption|constructor]..].
  specialize (Q n r). destruct (q n r) as [[o r'] l]. cbn [fst snd app] in *. destruct Q as [Q1 Q2]. split; [lia|].
  constructor; [apply (u32_range _ _ _ E)|]. apply (requests_more (lenN r)); [lia|assumption].
Qed.
Lemma modest_vec {A} k (a : ap A) : modest a -> modest (a_vec k a).
Proof. intros P. apply modest_reserving. intros n. apply modest_times, P. Qed.
Lemma modest_unwrapping_vec {A B} k (a : ap A) (u : A -> B) : modest a -> modest (a_unwrapping_vec k a u).
Proof.
  intros P. apply modest_reserving. intros n. apply modest_times, modest_bind; [assumption|]. intros x. apply modest_ret.
Qed.
Lemma modest_sized {A} (a : ap A) : modest a -> modest (a_sized a).
Proof.
  intros P. apply modest_bind; [apply modest_run, suffixing_u32|]. intros n bs. cbn beta zeta.
  assert (L : length bs = (length (firstn (N.to_nat n) bs) + length (skipn (N.to_nat n) bs))%nat).
  { rewrite <- app_length, firstn_skipn. reflexivity. }
  specialize (P (firstn (N.to_nat n) bs)). destruct (a (firstn (N.to_nat n) bs)) as [[o r] l]. cbn [fst snd] in P. destruct P as [P1 P2].
  assert (G : Forall (mild (lenN bs)) l) by (apply (requests_more (lenN (firstn (N.to_nat n) bs))); [lia|assumption]).
  destruct o as [x|e| |]; cbn [fst snd]; [|rewrite app_length; split; [lia|assumption]..].
  destruct (negb _); cbn [fst snd]; rewrite app_length; (split; [lia|assumption]).
Qed.
Lemma runs_modest j (q : ap valty) : (forall bs, q bs = (p_valty bs, [])) -> forall acc bs,
  (length (snd (fst (a_runs j V_Val q acc bs))) <= length bs)%nat /\
  Forall (fun e => exists n, e = Hold V_Val n /\ 2 * n <= 2 * lenN acc + M32 * lenN bs) (snd (a_runs j V_Val q acc bs)).
Proof.
  intros Q. induction j as [|j IH]; intros acc bs; cbn [a_runs]; [split; [reflexivity|constructor]|].
  unfold a_bind, a_note, a_run. pose proof (suffixing_length p_u32 bs suffixing_u32) as S.
  destruct (p_u32 bs) as [[n|e| |] r] eqn:E; cbn [fst snd] in *; [|split; [assumption|constructor]..].
  pose proof (progress_u32 _ _ _ E) as P1. apply u32_range in E.
  rewrite Q. pose proof (suffixing_length p_valty r suffixing_valty) as S'.
  destruct (p_valty r) as [[v|e| |] r'] eqn:E'; cbn [fst snd app] in *; [|split; [lia|constructor]..].
  pose proof (progress_valty' _ _ _ E') as P2.
  specialize (IH (acc ++ repeat v (N.to_nat n)) r').
  destruct (a_runs j V_Val q (acc ++ repeat v (N.to_nat n)) r') as [[o r2] l]. cbn [fst snd app] in *.
  destruct IH as [I1 I2]. split; [lia|]. rewrite app_length, repeat_length in *. change M32 with 4294967295 in *. constructor.
  - eexists. split; [reflexivity|]. lia.
  - revert I2. apply Forall_impl. intros e [m [-> I]]. exists m. split; [reflexivity|]. lia.
Qed.
Lemma allow_request len e : allow len 0 e -> mild len e.
Proof. unfold allow, mild, request_ok. destruct e as [k m|k m|m]; [tauto| |tauto]. destruct k; try tauto; lia. Qed.
Lemma modest_locals : modest (a_compact_vec V_Val (a_run p_valty)).
Proof.
  apply modest_bind; [apply modest_run, suffixing_u32|]. intros j bs. destruct (runs_modest (N.to_nat j) (a_run p_valty) (fun _ => eq_refl) [] bs) as [R1 R2].
  split; [assumption|]. revert R2. apply Forall_impl. intros e [m [-> R]]. unfold mild, request_ok. cbn [length] in R. lia.
Qed.
Lemma modest_string : modest a_string.
Proof.
  apply modest_bind; [apply modest_unwrapping_vec, modest_run, suffixing_byte|]. intros raw.
  destruct (utf8_valid raw); [apply modest_ret|apply modest_fail].
Qed.
Lemma modest_retval : modest a_retval.
Proof.
  intros bs. unfold a_retval, a_bind, a_run. pose proof (suffixing_length _ bs suffixing_retval) as S.
  destruct (p_retval bs) as [[x|e| |] r] eqn:E; cbn [fst snd] in *; [|split; [assumption|constructor]..].
  destruct x as [|v]; unfold a_ret, a_run, a_note; cbn [fst snd app]; (split; [assumption|]); [constructor|].
  constructor; [|constructor]. unfold mild, request_ok. change M32 with 4294967295. destruct bs; [discriminate|]. cbn [length] in *. lia.
Qed.
Lemma modest_functy : modest a_functy.
Proof.
  apply modest_bind; [apply modest_run, suffixing_byte|]. intros []; try apply modest_fail.
  apply modest_bind; [apply modest_vec, modest_run, suffixing_valty|]. intros ps.
  apply modest_bind; [apply modest_vec, modest_run, suffixing_valty|]. intros rs. apply modest_ret.
Qed.
Lemma modest_expr_of a : modest a -> modest (a_expr_of a).
Proof. intros E. apply modest_bind; [assumption|]. intros [e t]. destruct t; first [apply modest_ret|apply modest_fail]. Qed.
Lemma modest_if_of a : modest a -> modest (a_if_of a).
Proof.
  intros E. apply modest_bind; [apply modest_retval|]. intros rt. apply modest_bind; [assumption|]. intros [b1 n1].
  apply modest_bind; [destruct (is_else n1); [assumption|apply modest_ret]|]. intros [b2 n2].
  destruct (is_end n2); [apply modest_ret|apply modest_fail].
Qed.
Lemma modest_opcode a b : modest a -> modest (a_opcode a b).
Proof.
  intros E. unfold a_opcode. destruct b; try (apply modest_run, suffixing_opcode; intros bs; exists []; reflexivity).
  - apply modest_bind; [apply modest_retval|]. intros rt. apply modest_bind; [apply modest_expr_of, E|]. intros e. apply modest_ret.
  - apply modest_bind; [apply modest_retval|]. intros rt. apply modest_bind; [apply modest_expr_of, E|]. intros e. apply modest_ret.
  - apply modest_if_of, E.
  - apply modest_bind; [apply modest_vec, modest_run, suffixing_u32|]. intros ls.
    apply modest_bind; [apply modest_run, suffixing_u32|]. intros l. apply modest_ret.
Qed.
(** [extra] elements are there already; [late] bytes have been read before *)
Definition modest_at (extra late : N) {A} (a : ap A) : Prop :=
  forall bs, (length (snd (fst (a bs))) <= length bs)%nat /\ Forall (allow (lenN bs + late) extra) (snd (a bs)).
Lemma modest_extra {A} (a : ap A) extra : modest a -> modest_at extra 0 a.
Proof.
  intros P bs. destruct (P bs) as [P1 P2]. split; [assumption|]. revert P2. apply Forall_impl. intros e.
  unfold allow, mild, request_ok. rewrite N.add_0_r. destruct e as [k m|k m|m]; [tauto| |tauto]. destruct k; try tauto; lia.
Qed.
Lemma modest_step extra {A B} (a : ap A) (f : A -> ap B) : modest a ->
  (forall bs x r l, a bs = ((Ok x, r), l) -> (length r < length bs)%nat) ->
  (forall x, modest_at extra 1 (f x)) -> modest_at extra 0 (a_bind a f).
Proof.
  intros P PR F bs. destruct (modest_extra a extra P bs) as [P1 P2]. specialize (PR bs). unfold a_bind.
  destruct (a bs) as [[[x|e| |] r] l] eqn:E; cbn [fst snd] in *; [|split; assumption..].
  specialize (PR x r l eq_refl). specialize (F x r). destruct (f x r) as [[o r'] l']. cbn [fst snd] in *. destruct F as [F1 F2].
  split; [lia|]. apply Forall_app. split; [assumption|]. revert F2. apply Forall_impl. intros e.
  unfold allow. change M32 with 4294967295. destruct e as [k m|k m|m]; [tauto| |tauto]. destruct k; try tauto; nia.
Qed.
Lemma modest_instr_sub fuel : forall d, modest (a_instr fuel d) /\ forall acc, modest_at (lenN acc) 0 (a_subexpr fuel d acc).
Proof.
  induction fuel as [|f IH]; intros d; cbn [a_instr a_subexpr].
  - split; [apply modest_run; intros bs; exists []; reflexivity|]. intros acc bs. split; [reflexivity|constructor].
  - split.
    + apply modest_bind; [apply modest_run, suffixing_byte|]. intros b. apply modest_opcode, modest_note; [intros len; exact I|]. intros bs.
      destruct (proj2 (IH (S d)) [] bs) as [R1 R2]. split; [assumption|]. revert R2. apply Forall_impl. intros e.
      rewrite N.add_0_r. apply allow_request.
    + destruct (IH d) as [IH1 IH2]. intros acc. apply modest_step; [assumption| |].
      * intros bs x r l E. pose proof (proj1 (erases_instr_sub f d) bs) as ER. rewrite E in ER. apply (progress_instr f bs x r), (eq_sym ER).
      * assert (STOP : forall t : expr * instr, modest_at (lenN acc) 1 (a_ret t)).
        { intros t bs. split; [reflexivity|constructor]. }
        assert (STEP : forall i, modest_at (lenN acc) 1
          (_ <=+ a_note (Hold V_Instr (N.of_nat (S (length acc)))) ;; a_subexpr f d (acc ++ [i]))).
        { intros i bs. unfold a_bind, a_note. specialize (IH2 (acc ++ [i]) bs).
          destruct (a_subexpr f d (acc ++ [i]) bs) as [[o r2] l2]. cbn [fst snd app] in *.
          destruct IH2 as [J1 J2]. rewrite app_length in J2. cbn [length] in J2. split; [assumption|].
          constructor; [unfold allow; lia|]. revert J2. apply Forall_impl. intros e. unfold allow. change M32 with 4294967295.
          destruct e as [k m|k m|m]; [tauto| |tauto]. destruct k; try tauto; nia. }
        intros i. destruct i; first [apply STEP|apply STOP].
Qed.
Lemma modest_expr : modest a_expr.
Proof.
  intros bs. unfold a_expr. apply modest_expr_of. generalize (fuel_for (length bs)). clear bs. intros fuel bs.
  destruct (proj2 (modest_instr_sub fuel 0) [] bs) as [R1 R2].
  split; [assumption|]. revert R2. apply Forall_impl. intros e. rewrite N.add_0_r. apply allow_request.
Qed.
Ltac m_modest := repeat first [ apply modest_ret | apply modest_fail | apply modest_string | apply modest_vec | apply modest_unwrapping_vec
  | apply modest_locals | apply modest_sized | apply modest_functy | apply modest_expr | assumption
  | apply modest_bind; [|intro] ].
Lemma suffixing_consume : suffixing p_consume.
Proof. intros bs. exists bs. cbn. rewrite app_nil_r. reflexivity. Qed.
Lemma modest_u32 : modest (a_run p_u32). Proof. apply modest_run, suffixing_u32. Qed.
Lemma modest_section id s : modest (a_section id s).
Proof.
  pose proof modest_u32. pose proof (modest_run _ suffixing_byte). pose proof (modest_run _ suffixing_globalty).
  pose proof (modest_run _ suffixing_importdesc). pose proof (modest_run _ suffixing_exportdesc).
  pose proof (modest_run _ suffixing_consume). pose proof (modest_run _ suffixing_table). pose proof (modest_run _ suffixing_mem).
  pose proof (modest_run _ suffixing_start). pose proof (modest_run _ suffixing_valty).
  unfold a_section, a_custom, a_import, a_global, a_export, a_elem, a_func, a_data. destruct id; try apply modest_fail; m_modest.
  destruct (negb _); [apply modest_fail|]. destruct (assign_types _ _ _); [apply modest_ret|..];
    (apply modest_run; intros bs; exists []; reflexivity).
Qed.
Lemma modest_sections fuel : forall s, modest (a_sections fuel s).
Proof.
  induction fuel as [|f IH]; intros s.
  - intros bs. split; [reflexivity|constructor].
  - assert (B : modest (id <=+ a_run p_byte ;;
       if negb (byte_is id 0x00) && (Byte.to_N id <=? ps_last_id s)
       then a_fail (UnexpectedSectionId id)
       else
         let s1 := if byte_is id 0x00 then s
                   else mkPstate (ps_result s) (ps_func_types s) (Byte.to_N id) in
         s2 <=+ a_section id s1 ;;
         a_sections f s2)).
    { apply modest_bind; [apply modest_run, suffixing_byte|]. intros id.
      destruct (_ && _); [apply modest_fail|]. cbv zeta. apply modest_bind; [apply modest_section|]. intros s2. apply IH. }
    intros [|b bs]; [split; [reflexivity|constructor]|]. apply (B (b :: bs)).
Qed.
Lemma modest_module : modest a_module.
Proof.
  assert (AR : modest (a_run (p_array 4 p_byte))) by (apply modest_run, suffixing_times, suffixing_byte).
  apply modest_bind; [assumption|]. intros magic. destruct (negb _); [apply modest_fail|].
  apply modest_bind; [assumption|]. intros version. destruct (negb _); [apply modest_fail|].
  assert (B : forall fuel, modest (s <=+ a_sections fuel (mkPstate default_module [] 0) ;; a_ret (ps_result s))).
  { intros fuel. apply modest_bind; [apply modest_sections|]. intros s. apply modest_ret. }
  intros bs. apply B.
Qed.
(** ** Nesting: every level takes two bytes *)
Definition nest_ok (b : N) (e : event) : Prop := match e with Nest n => 2 * n <= b | _ => True end.
Definition deep (k : N) {A} (a : ap A) : Prop :=
  forall bs, (length (snd (fst (a bs))) <= length bs)%nat /\ Forall (nest_ok (k + lenN bs)) (snd (a bs)).
Lemma nests_more b b' l : b <= b' -> Forall (nest_ok b) l -> Forall (nest_ok b') l.
Proof. intros L. apply Forall_impl. intros [k n|k n|n]; cbn; lia. Qed.
Lemma deep_more k k' {A} (a : ap A) : k <= k' -> deep k a -> deep k' a.
Proof. intros L D bs. destruct (D bs) as [D1 D2]. split; [exact D1|]. revert D2. apply nests_more. lia. Qed.
Lemma deep_run k {A} (p : parser A) : suffixing p -> deep k (a_run p).
Proof. intros S bs. split; [apply (suffixing_length p bs S)|constructor]. Qed.
Lemma deep_ret k {A} (x : A) : deep k (a_ret x). Proof. apply deep_run, suffixing_ret. Qed.
Lemma deep_fail k {A} e : deep k (@a_fail A e). Proof. apply deep_run, suffixing_fail. Qed.
Lemma deep_bind k {A B} (a : ap A) (f : A -> ap B) : deep k a -> (forall x, deep k (f x)) -> deep k (a_bind a f).
Proof.
  intros P F bs. specialize (P bs). unfold a_bind. destruct (a bs) as [[[x|e| |] r] l]; cbn [fst snd] in *; try assumption.
  destruct P as [P1 P2]. specialize (F x r). destruct (f x r) as [[o r'] l']. cbn [fst snd] in *. destruct F as [F1 F2].
  split; [lia|]. apply Forall_app. split; [assumption|]. revert F2. apply nests_more. lia.
Qed.
(** a byte read before leaves room for half a level *)
Lemma deep_after k {A B} (a : ap A) (f : A -> ap B) : deep k a ->
  (forall bs x r l, a bs = ((Ok x, r), l) -> (length r < length bs)%nat) -> (forall x, deep (k + 1) (f x)) -> deep k (a_bind a f).
Proof.
  intros P PR F bs. specialize (P bs). specialize (PR bs). unfold a_bind. destruct (a bs) as [[[x|e| |] r] l]; cbn [fst snd] in *; try assumption.
  specialize (PR _ _ _ eq_refl). destruct P as [P1 P2]. specialize (F x r). destruct (f x r) as [[o r'] l']. cbn [fst snd] in *.
  destruct F as [F1 F2]. split; [lia|]. apply Forall_app. split; [assumption|]. revert F2. apply nests_more. lia.
Qed.
Lemma deep_note k {A} e (a : ap A) : nest_ok k e -> deep k a -> deep k (_ <=+ a_note e ;; a).
Proof.
  intros E P bs. specialize (P bs). unfold a_bind, a_note. destruct (a bs) as [[o r] l]. cbn [fst snd app] in *.
  split; [apply P|]. constructor; [destruct e; cbn in *; lia|apply P].
Qed.
Lemma deep_times k {A} n (a : ap A) : deep k a -> deep k (a_times n a).
Proof.
  intros P. induction n; cbn [a_times]; [apply deep_ret|]. apply deep_bind; [assumption|]. intros x.
  apply deep_bind; [assumption|]. intros xs. apply deep_ret.
Qed.
Lemma deep_vec c {A} k (a : ap A) : deep c a -> deep c (a_vec k a).
Proof. intros P. apply deep_bind; [apply deep_run, suffixing_u32|]. intros n. apply deep_note; [exact I|]. apply deep_times, P. Qed.
Lemma deep_unwrapping_vec c {A B} k (a : ap A) (u : A -> B) : deep c a -> deep c (a_unwrapping_vec k a u).
Proof.
  intros P. apply deep_bind; [apply deep_run, suffixing_u32|]. intros n. apply deep_note; [exact I|]. apply deep_times.
  apply deep_bind; [assumption|]. intros x. apply deep_ret.
Qed.
Lemma deep_sized c {A} (a : ap A) : deep c a -> deep c (a_sized a).
Proof.
  intros P. apply deep_bind; [apply deep_run, suffixing_u32|]. intros n bs. cbn beta zeta.
  assert (L : length bs = (length (firstn (N.to_nat n) bs) + length (skipn (N.to_nat n) bs))%nat).
  { rewrite <- app_length, firstn_skipn. reflexivity. }
  specialize (P (firstn (N.to_nat n) bs)). destruct (a (firstn (N.to_nat n) bs)) as [[o r] l]. cbn [fst snd] in P. destruct P as [P1 P2].
  assert (G : Forall (nest_ok (c + lenN bs)) l) by (revert P2; apply nests_more; lia).
  destruct o as [x|e| |]; cbn [fst snd]; [|rewrite app_length; split; [lia|assumption]..].
  destruct (negb _); cbn [fst snd]; rewrite app_length; (split; [lia|assumption]).
Qed.
Lemma deep_runs c j {A} k (a : ap A) : deep c a -> forall acc, deep c (a_runs j k a acc).
Proof.
  intros P. induction j; intros acc; cbn [a_runs]; [apply deep_ret|]. apply deep_bind; [apply deep_run, suffixing_u32|]. intros n.
  apply deep_bind; [assumption|]. intros v. apply deep_note; [exact I|apply IHj].
Qed.
Lemma deep_compact_vec c {A} k (a : ap A) : deep c a -> deep c (a_compact_vec k a).
Proof. intros P. apply deep_bind; [apply deep_run, suffixing_u32|]. intros j. apply deep_runs, P. Qed.
Lemma deep_string c : deep c a_string.
Proof.
  apply deep_bind; [apply deep_unwrapping_vec, deep_run, suffixing_byte|]. intros raw.
  destruct (utf8_valid raw); [apply deep_ret|apply deep_fail].
Qed.
Lemma deep_retval c : deep c a_retval.
Proof. apply deep_bind; [apply deep_run, suffixing_retval|]. intros []; [apply deep_ret|]. apply deep_note; [exact I|apply deep_ret]. Qed.
Lemma deep_functy c : deep c a_functy.
Proof.
  apply deep_bind; [apply deep_run, suffixing_byte|]. intros []; try apply deep_fail.
  apply deep_bind; [apply deep_vec, deep_run, suffixing_valty|]. intros ps.
  apply deep_bind; [apply deep_vec, deep_run, suffixing_valty|]. intros rs. apply deep_ret.
Qed.
Lemma deep_expr_of c a : deep c a -> deep c (a_expr_of a).
Proof. intros E. apply deep_bind; [assumption|]. intros [e t]. destruct t; first [apply deep_ret|apply deep_fail]. Qed.
Lemma retval_reads bs x r l : a_retval bs = ((Ok x, r), l) -> (length r < length bs)%nat.
Proof.
  intros H. pose proof (econ_ok _ _ _ (econ_retval 0) _ _ _ _ H). lia.
Qed.
Lemma deep_if_of c a : deep (c + 1) a -> deep c (a_if_of a).
Proof.
  intros E. apply deep_after; [apply deep_retval|apply retval_reads|]. intros rt. apply deep_bind; [assumption|]. intros [b1 n1].
  apply deep_bind; [destruct (is_else n1); [assumption|apply deep_ret]|]. intros [b2 n2].
  destruct (is_end n2); [apply deep_ret|apply deep_fail].
Qed.
Lemma deep_opcode c a b : deep (c + 1) a -> deep c (a_opcode a b).
Proof.
  intros E. unfold a_opcode. destruct b; try (apply deep_run, suffixing_opcode; intros bs; exists []; reflexivity).
  - apply deep_after; [apply deep_retval|apply retval_reads|]. intros rt. apply deep_bind; [apply deep_expr_of, E|]. intros e. apply deep_ret.
  - apply deep_after; [apply deep_retval|apply retval_reads|]. intros rt. apply deep_bind; [apply deep_expr_of, E|]. intros e. apply deep_ret.
  - apply deep_if_of, E.
  - apply deep_bind; [apply deep_vec, deep_run, suffixing_u32|]. intros ls.
    apply deep_bind; [apply deep_run, suffixing_u32|]. intros l. apply deep_ret.
Qed.
Lemma deep_instr_sub fuel : forall d, deep (2 * N.of_nat d) (a_instr fuel d) /\ forall acc, deep (2 * N.of_nat d) (a_subexpr fuel d acc).
Proof.
  induction fuel as [|f IH]; intros d; cbn [a_instr a_subexpr].
  - split; intros; (apply deep_run; intros bs; exists []; reflexivity).
  - split.
    + apply deep_after; [apply deep_run, suffixing_byte| |].
      * intros bs x r l H. injection H as H _. apply progress_byte in H. exact H.
      * intros b. apply deep_opcode. replace (2 * N.of_nat d + 1 + 1) with (2 * N.of_nat (S d)) by lia.
        apply deep_note; [cbn; lia|]. apply IH.
    + destruct (IH d) as [IH1 IH2]. intros acc. apply deep_bind; [exact IH1|]. intros i.
      destruct i; first [apply deep_ret|apply deep_note; [exact I|apply IH2]].
Qed.
Lemma deep_expr : deep 0 a_expr.
Proof. intros bs. unfold a_expr. apply deep_expr_of. apply (deep_instr_sub (fuel_for (length bs)) 0). Qed.
Ltac m_deep := repeat first [ apply deep_ret | apply deep_fail | apply deep_string | apply deep_vec | apply deep_unwrapping_vec
  | apply deep_compact_vec | apply deep_sized | apply deep_functy | apply deep_expr | assumption
  | apply deep_bind; [|intro] ].
Lemma deep_section id s : deep 0 (a_section id s).
Proof.
  pose proof (deep_run 0 _ suffixing_u32). pose proof (deep_run 0 _ suffixing_byte). pose proof (deep_run 0 _ suffixing_globalty).
  pose proof (deep_run 0 _ suffixing_importdesc). pose proof (deep_run 0 _ suffixing_exportdesc).
  pose proof (deep_run 0 _ suffixing_consume). pose proof (deep_run 0 _ suffixing_table). pose proof (deep_run 0 _ suffixing_mem).
  pose proof (deep_run 0 _ suffixing_start). pose proof (deep_run 0 _ suffixing_valty).
  unfold a_section, a_custom, a_import, a_global, a_export, a_elem, a_func, a_data. destruct id; try apply deep_fail; m_deep.
  destruct (negb _); [apply deep_fail|]. destruct (assign_types _ _ _); [apply deep_ret|..];
    (apply deep_run; intros bs; exists []; reflexivity).
Qed.
Lemma deep_sections fuel : forall s, deep 0 (a_sections fuel s).
Proof.
  induction fuel as [|f IH]; intros s.
  - intros bs. split; [reflexivity|constructor].
  - assert (B : deep 0 (id <=+ a_run p_byte ;;
       if negb (byte_is id 0x00) && (Byte.to_N id <=? ps_last_id s)
       then a_fail (UnexpectedSectionId id)
       else
         let s1 := if byte_is id 0x00 then s
                   else mkPstate (ps_result s) (ps_func_types s) (Byte.to_N id) in
         s2 <=+ a_section id s1 ;;
         a_sections f s2)).
    { apply deep_bind; [apply deep_run, suffixing_byte|]. intros id.
      destruct (_ && _); [apply deep_fail|]. cbv zeta. apply deep_bind; [apply deep_section|]. intros s2. apply IH. }
    intros [|b bs]; [split; [reflexivity|constructor]|]. apply (B (b :: bs)).
Qed.
Lemma deep_module : deep 0 a_module.
Proof.
  assert (AR : deep 0 (a_run (p_array 4 p_byte))) by (apply deep_run, suffixing_times, suffixing_byte).
  apply deep_bind; [assumption|]. intros magic. destruct (negb _); [apply deep_fail|].
  apply deep_bind; [assumption|]. intros version. destruct (negb _); [apply deep_fail|].
  assert (B : forall fuel, deep 0 (s <=+ a_sections fuel (mkPstate default_module [] 0) ;; a_ret (ps_result s))).
  { intros fuel. apply deep_bind; [apply deep_sections|]. intros s. apply deep_ret. }
  intros bs. apply B.
Qed.
Lemma requests_ok : forall bs e, In e (requests bs) -> request_ok (lenN bs) e.
Proof.
  intros bs e I. pose proof (proj2 (modest_module bs)) as M. pose proof (proj2 (deep_module bs)) as D.
  rewrite Forall_forall in M, D. specialize (M e I). specialize (D e I). destruct e; [exact M|exact M|exact D].
Qed.

(** ** Local variables of accepted modules *)
Definition small (e : event) : Prop := forall n, e = Hold V_Val n -> n <= 1.
Definition quiet {A} (a : ap A) : Prop := forall bs x r l, a bs = ((Ok x, r), l) -> Forall small l.
Lemma quiet_run {A} (p : parser A) : quiet (a_run p).
Proof. intros bs x r l H. injection H as _ <-. constructor. Qed.
Lemma a_bind_ok {A B} (a : ap A) (f : A -> ap B) bs y r l : a_bind a f bs = ((Ok y, r), l) ->
  exists x r1 l1 l2, a bs = ((Ok x, r1), l1) /\ f x r1 = ((Ok y, r), l2) /\ l = l1 ++ l2.
Proof.
  unfold a_bind. destruct (a bs) as [[[x|e| |] r1] l1]; [|discriminate..]. destruct (f x r1) as [z l2] eqn:E. intros H. injection H as -> <-.
  exists x, r1, l1, l2. auto.
Qed.
Lemma a_note_ok e bs y r l : a_note e bs = ((Ok y, r), l) -> r = bs /\ l = [e].
Proof. intros H. injection H as _ <- <-. auto. Qed.
Lemma a_run_ok {A} (p : parser A) bs x r l : a_run p bs = ((Ok x, r), l) -> p bs = (Ok x, r) /\ l = [].
Proof. intros H. injection H as H <-. auto. Qed.
Lemma quiet_bind {A B} (a : ap A) (f : A -> ap B) : quiet a -> (forall x, quiet (f x)) -> quiet (a_bind a f).
Proof.
  intros P F bs y r l H. apply a_bind_ok in H. destruct H as (x & r1 & l1 & l2 & H1 & H2 & ->).
  apply Forall_app. split; [apply (P _ _ _ _ H1)|apply (F _ _ _ _ _ H2)].
Qed.
Lemma quiet_note {A} e (a : ap A) : small e -> quiet a -> quiet (_ <=+ a_note e ;; a).
Proof.
  intros E P. apply quiet_bind; [|intros; assumption]. intros bs x r l H. apply a_note_ok in H. destruct H as [_ ->].
  constructor; [assumption|constructor].
Qed.
Lemma quiet_times {A} n (a : ap A) : quiet a -> quiet (a_times n a).
Proof.
  intros P. induction n; cbn [a_times]; [apply quiet_run|]. apply quiet_bind; [assumption|]. intros x.
  apply quiet_bind; [assumption|]. intros xs. apply quiet_run.
Qed.
Lemma small_reserve k n : small (Reserve k n). Proof. intros m H. discriminate. Qed.
Lemma quiet_vec {A} k (a : ap A) : quiet a -> quiet (a_vec k a).
Proof. intros P. apply quiet_bind; [apply quiet_run|]. intros n. apply quiet_note; [apply small_reserve|apply quiet_times, P]. Qed.
Lemma quiet_unwrapping_vec {A B} k (a : ap A) (u : A -> B) : quiet a -> quiet (a_unwrapping_vec k a u).
Proof.
  intros P. apply quiet_bind; [apply quiet_run|]. intros n. apply quiet_note; [apply small_reserve|].
  apply quiet_times, quiet_bind; [assumption|]. intros x. apply quiet_run.
Qed.
Lemma a_sized_ok {A} (a : ap A) bs x r l : a_sized a bs = ((Ok x, r), l) -> exists w rw, a w = ((Ok x, rw), l).
Proof.
  intros H. apply a_bind_ok in H. destruct H as (n & r1 & l1 & l2 & H1 & H2 & ->). apply a_run_ok in H1. destruct H1 as [_ ->].
  cbn beta zeta in H2. destruct (a (firstn (N.to_nat n) r1)) as [[[y|e| |] rw] lw] eqn:E; [|discriminate..].
  destruct (negb _); [discriminate|]. injection H2 as <- _ <-. exists (firstn (N.to_nat n) r1), rw. assumption.
Qed.
Lemma quiet_sized {A} (a : ap A) : quiet a -> quiet (a_sized a).
Proof. intros P bs x r l H. apply a_sized_ok in H. destruct H as (w & rw & H). apply (P _ _ _ _ H). Qed.
Lemma quiet_string : quiet a_string.
Proof. apply quiet_bind; [apply quiet_unwrapping_vec, quiet_run|]. intros raw. destruct (utf8_valid raw); apply quiet_run. Qed.
Lemma quiet_retval : quiet a_retval.
Proof.
  apply quiet_bind; [apply quiet_run|]. intros []; [apply quiet_run|]. apply quiet_note; [|apply quiet_run].
  intros n H. injection H as <-. lia.
Qed.
Lemma quiet_functy : quiet a_functy.
Proof.
  apply quiet_bind; [apply quiet_run|]. intros []; try apply quiet_run.
  apply quiet_bind; [apply quiet_vec, quiet_run|]. intros ps. apply quiet_bind; [apply quiet_vec, quiet_run|]. intros rs. apply quiet_run.
Qed.
Lemma quiet_expr_of a : quiet a -> quiet (a_expr_of a).
Proof. intros E. apply quiet_bind; [assumption|]. intros [e t]. destruct t; apply quiet_run. Qed.
Lemma quiet_if_of a : quiet a -> quiet (a_if_of a).
Proof.
  intros E. apply quiet_bind; [apply quiet_retval|]. intros rt. apply quiet_bind; [assumption|]. intros [b1 n1].
  apply quiet_bind; [destruct (is_else n1); [assumption|apply quiet_run]|]. intros [b2 n2]. destruct (is_end n2); apply quiet_run.
Qed.
Lemma quiet_opcode a b : quiet a -> quiet (a_opcode a b).
Proof.
  intros E. unfold a_opcode. destruct b; try apply quiet_run.
  - apply quiet_bind; [apply quiet_retval|]. intros rt. apply quiet_bind; [apply quiet_expr_of, E|]. intros e. apply quiet_run.
  - apply quiet_bind; [apply quiet_retval|]. intros rt. apply quiet_bind; [apply quiet_expr_of, E|]. intros e. apply quiet_run.
  - apply quiet_if_of, E.
  - apply quiet_bind; [apply quiet_vec, quiet_run|]. intros ls. apply quiet_bind; [apply quiet_run|]. intros l. apply quiet_run.
Qed.
Lemma quiet_instr_sub fuel : forall d, quiet (a_instr fuel d) /\ forall acc, quiet (a_subexpr fuel d acc).
Proof.
  induction fuel as [|f IH]; intros d; cbn [a_instr a_subexpr]; [split; intros; apply quiet_run|]. split.
  - apply quiet_bind; [apply quiet_run|]. intros b. apply quiet_opcode, quiet_note; [intros m H; discriminate|apply IH].
  - destruct (IH d) as [IH1 IH2]. intros acc. apply quiet_bind; [assumption|].
    assert (S : forall n, small (Hold V_Instr n)) by (intros n m H; discriminate).
    intros i. destruct i; first [apply quiet_run|apply quiet_note; [apply S|apply IH2]].
Qed.
Lemma quiet_expr : quiet a_expr.
Proof. intros bs. unfold a_expr. apply (quiet_expr_of _ (proj2 (quiet_instr_sub _ _) [])). Qed.
Ltac m_quiet := repeat first [ apply quiet_run | apply quiet_string | apply quiet_vec | apply quiet_unwrapping_vec
  | apply quiet_sized | apply quiet_functy | apply quiet_expr | assumption | apply quiet_bind; [|intro] ].

(** what is held is what there is in the end *)
Lemma runs_hold j : forall acc bs ls r l, a_runs j V_Val (a_run p_valty) acc bs = ((Ok ls, r), l) ->
  (forall n, In (Hold V_Val n) l -> n <= lenN ls) /\ (ls = acc \/ In (Hold V_Val (lenN ls)) l) /\ (length acc <= length ls)%nat.
Proof.
  induction j as [|j IH]; intros acc bs ls r l H; cbn [a_runs] in H.
  - apply a_run_ok in H. destruct H as [H ->]. injection H as <- _. repeat split; [intros n []|auto|reflexivity].
  - apply a_bind_ok in H. destruct H as (n & r1 & l1 & l2 & H1 & H & ->). apply a_run_ok in H1. destruct H1 as [_ ->].
    apply a_bind_ok in H. destruct H as (v & r2 & l3 & l4 & H2 & H & ->). apply a_run_ok in H2. destruct H2 as [_ ->].
    apply a_bind_ok in H. destruct H as (u & r3 & l5 & l6 & H3 & H & ->). apply a_note_ok in H3. destruct H3 as [-> ->].
    apply IH in H. destruct H as (I1 & I2 & I3). rewrite app_length, repeat_length in I3. cbn [app]. split; [|split].
    + intros m [E|I]; [injection E as <-; lia|]. apply I1, I.
    + right. destruct I2 as [->|I2]; [|right; assumption]. left. f_equal. rewrite app_length, repeat_length. lia.
    + lia.
Qed.
Definition locals_of (f : func) : N := lenN (fn_locals f).
Definition tracks (fs : list func) (l : list event) : Prop :=
  (forall n, In (Hold V_Val n) l -> n <= 1 \/ exists f, In f fs /\ n <= locals_of f) /\
  (forall f, In f fs -> locals_of f = 0 \/ In (Hold V_Val (locals_of f)) l).
Lemma tracks_func bs f r l : a_func bs = ((Ok f, r), l) -> tracks [f] l.
Proof.
  intros H. apply a_bind_ok in H. destruct H as (ls & r1 & l1 & l2 & H1 & H & ->).
  apply a_bind_ok in H. destruct H as (e & r2 & l3 & l4 & H2 & H3 & ->). apply a_run_ok in H3. destruct H3 as [H3 ->].
  injection H3 as <- _. apply quiet_expr in H2. rewrite app_nil_r.
  apply a_bind_ok in H1. destruct H1 as (j & r3 & l5 & l6 & H1 & H4 & ->). apply a_run_ok in H1. destruct H1 as [_ ->].
  apply runs_hold in H4. destruct H4 as (I1 & I2 & _). unfold tracks, locals_of. cbn [app fn_locals]. split.
  - intros n I. apply in_app_or in I. destruct I as [I|I].
    + right. eexists. split; [left; reflexivity|]. cbn [fn_locals]. apply I1, I.
    + left. rewrite Forall_forall in H2. apply (H2 _ I n eq_refl).
  - intros f [<-|[]]. cbn [fn_locals]. destruct I2 as [->|I2]; [left; reflexivity|right; apply in_or_app; auto].
Qed.
Lemma tracks_app fs fs' l l' : tracks fs l -> tracks fs' l' -> tracks (fs ++ fs') (l ++ l').
Proof.
  intros [A1 A2] [B1 B2]. split.
  - intros n I. apply in_app_or in I. destruct I as [I|I].
    + destruct (A1 n I) as [X|(f & X & Y)]; [left; assumption|right; exists f]. split; [apply in_or_app; auto|assumption].
    + destruct (B1 n I) as [X|(f & X & Y)]; [left; assumption|right; exists f]. split; [apply in_or_app; auto|assumption].
  - intros f I. apply in_app_or in I. destruct I as [I|I].
    + destruct (A2 f I) as [X|X]; [left; assumption|right; apply in_or_app; auto].
    + destruct (B2 f I) as [X|X]; [left; assumption|right; apply in_or_app; auto].
Qed.
Lemma tracks_quiet l : Forall small l -> tracks [] l.
Proof. intros F. split; [|intros f []]. intros n I. left. rewrite Forall_forall in F. apply (F _ I n eq_refl). Qed.
Lemma tracks_times n : forall bs fs r l,
  a_times n (x <=+ a_sized a_func ;; a_ret x) bs = ((Ok fs, r), l) -> tracks fs l.
Proof.
  induction n as [|n IH]; intros bs fs r l H; cbn [a_times] in H.
  - apply a_run_ok in H. destruct H as [H ->]. injection H as <- _. apply tracks_quiet. constructor.
  - apply a_bind_ok in H. destruct H as (f & r1 & l1 & l2 & H1 & H & ->).
    apply a_bind_ok in H. destruct H as (fs' & r2 & l3 & l4 & H2 & H3 & ->). apply a_run_ok in H3. destruct H3 as [H3 ->].
    injection H3 as <- _. apply IH in H2. rewrite app_nil_r. apply (tracks_app [f]); [|assumption].
    apply a_bind_ok in H1. destruct H1 as (f' & r3 & l5 & l6 & H1 & H4 & ->). apply a_run_ok in H4. destruct H4 as [H4 ->].
    injection H4 as <- _. rewrite app_nil_r. apply a_sized_ok in H1. destruct H1 as (w & rw & H1). apply (tracks_func _ _ _ _ H1).
Qed.
Lemma assign_types_locals n : forall fs ts fs', assign_types n fs ts = Ok fs' -> map fn_locals fs' = map fn_locals fs.
Proof.
  induction n as [|n IH]; intros fs ts fs' H; cbn [assign_types] in H; [injection H as <-; reflexivity|].
  destruct fs as [|f fs]; [discriminate|]. destruct ts as [|t ts]; [discriminate|].
  destruct (assign_types n fs ts) as [r|e| |] eqn:E; [|discriminate..]. injection H as <-. apply IH in E. cbn [map set_fn_ty fn_locals]. f_equal. assumption.
Qed.
Lemma tracks_ext fs fs' l : map fn_locals fs' = map fn_locals fs -> tracks fs l -> tracks fs' l.
Proof.
  intros E [A1 A2].
  assert (X : forall a b f, map fn_locals a = map fn_locals b -> In f a -> exists f', In f' b /\ fn_locals f' = fn_locals f).
  { intros a b f M I. apply (in_map fn_locals) in I. rewrite M in I. apply in_map_iff in I. destruct I as (f' & I & J). exists f'. auto. }
  split.
  - intros n I. destruct (A1 n I) as [Y|(f & Y & Z)]; [left; assumption|right].
    destruct (X _ _ f (eq_sym E) Y) as (f' & I' & L). exists f'. unfold locals_of in *. rewrite L. auto.
  - intros f I. destruct (X _ _ f E I) as (f' & I' & L). specialize (A2 f' I'). unfold locals_of in *. rewrite <- L. assumption.
Qed.
Lemma section_tracks id s bs s' r l : a_section id s bs = ((Ok s', r), l) ->
  ps_last_id s' = ps_last_id s /\
  (id = x0a /\ tracks (m_funcs (ps_result s')) l \/ id <> x0a /\ Forall small l /\ m_funcs (ps_result s') = m_funcs (ps_result s)).
Proof.
  intros H. assert (D : id = x0a \/ id <> x0a) by (destruct id; first [left; reflexivity|right; discriminate]). destruct D as [->|D].
  - unfold a_section in H. apply a_bind_ok in H. destruct H as (fs & r1 & l1 & l2 & H1 & H & ->). cbv zeta in H.
    destruct (negb _); [discriminate|]. destruct (assign_types _ _ _) as [fs'|e| |] eqn:E; [|discriminate..].
    apply a_run_ok in H. destruct H as [H ->]. injection H as <- _. split; [reflexivity|left]. split; [reflexivity|].
    rewrite app_nil_r. cbn [with_result set_funcs ps_result m_funcs]. apply assign_types_locals in E. apply (tracks_ext _ _ _ E).
    apply a_sized_ok in H1. destruct H1 as (w & rw & H1). apply a_bind_ok in H1. destruct H1 as (n & r2 & l3 & l4 & H1 & H2 & ->).
    apply a_run_ok in H1. destruct H1 as [_ ->]. apply a_bind_ok in H2. destruct H2 as (u & r3 & l5 & l6 & H2 & H3 & ->).
    apply a_note_ok in H2. destruct H2 as [-> ->]. apply tracks_times in H3. apply (tracks_app [] fs [_] l6); [|assumption].
    apply tracks_quiet. constructor; [apply small_reserve|constructor].
  - assert (G : forall A (a : ap A) (f : A -> pstate), quiet a -> (forall v, ps_last_id (f v) = ps_last_id s /\ m_funcs (ps_result (f v)) = m_funcs (ps_result s)) ->
      (v <=+ a_sized a ;; a_ret (f v)) bs = ((Ok s', r), l) ->
      ps_last_id s' = ps_last_id s /\ (id = x0a /\ tracks (m_funcs (ps_result s')) l \/ id <> x0a /\ Forall small l /\ m_funcs (ps_result s') = m_funcs (ps_result s))).
    { intros A a f Q F K. apply a_bind_ok in K. destruct K as (v & r1 & l1 & l2 & K1 & K2 & ->). apply a_run_ok in K2. destruct K2 as [K2 ->].
      injection K2 as <- _. destruct (F v) as [F1 F2]. split; [assumption|right]. split; [assumption|]. split; [|assumption].
      rewrite app_nil_r. exact (quiet_sized a Q _ _ _ _ K1). }
    unfold a_section, a_custom, a_import, a_global, a_export, a_elem, a_data in H.
    destruct id; try discriminate H; try (contradiction D; reflexivity);
      (eapply G; [|clear G; intros v|exact H]; [m_quiet|split; reflexivity]).
Qed.
Lemma sections_track fuel : forall s bs s' r l, a_sections fuel s bs = ((Ok s', r), l) ->
  (10 <= ps_last_id s -> m_funcs (ps_result s') = m_funcs (ps_result s) /\ Forall small l) /\
  (m_funcs (ps_result s) = [] -> tracks (m_funcs (ps_result s')) l).
Proof.
  induction fuel as [|f IH]; intros s bs s' r l H; [discriminate|]. cbn [a_sections] in H. destruct bs as [|b bs].
  - injection H as <- _ <-. split; [split; [reflexivity|constructor]|]. intros ->. apply tracks_quiet. constructor.
  - apply a_bind_ok in H. destruct H as (id & r1 & l1 & l2 & H1 & H & ->). apply a_run_ok in H1. destruct H1 as [_ ->].
    destruct (negb (byte_is id 0) && (Byte.to_N id <=? ps_last_id s)) eqn:C; [discriminate|]. cbv zeta in H. apply a_bind_ok in H.
    destruct H as (s2 & r2 & l3 & l4 & H1 & H2 & ->). cbn [app]. apply section_tracks in H1. destruct H1 as [L1 H1]. apply IH in H2.
    destruct H2 as [I1 I2].
    assert (LAST : ps_last_id s <= ps_last_id s2 /\ (id = x0a -> ps_last_id s < 10 /\ 10 <= ps_last_id s2)).
    { rewrite L1. split.
      - destruct (byte_is id 0); cbn [ps_last_id]; [lia|]. cbn [negb andb] in C. apply N.leb_gt in C. lia.
      - intros ->. change (byte_is x0a 0) with false in *. cbn [ps_last_id]. change (Byte.to_N x0a) with 10 in *. cbn [negb andb] in C.
        apply N.leb_gt in C. lia. }
    destruct LAST as [LA LB].
    assert (SAME : ps_result (if byte_is id 0 then s else mkPstate (ps_result s) (ps_func_types s) (Byte.to_N id)) = ps_result s).
    { destruct (byte_is id 0); reflexivity. }
    rewrite SAME in H1. destruct H1 as [[-> T]|(NE & S1 & S2)].
    + destruct (LB eq_refl) as [LC LD]. specialize (I1 LD). destruct I1 as [I1 I1']. split; [lia|]. intros _. rewrite I1.
      rewrite <- (app_nil_r (m_funcs (ps_result s2))). apply tracks_app; [assumption|apply tracks_quiet; assumption].
    + split.
      * intros G. destruct I1 as [I1 I1']; [lia|]. split; [congruence|apply Forall_app; split; assumption].
      * intros E. rewrite <- S2 in E. specialize (I2 E). apply (tracks_app []); [apply tracks_quiet; assumption|assumption].
Qed.
Lemma module_tracks bs m r : p_module bs = (Ok m, r) -> tracks (m_funcs m) (requests bs).
Proof.
  intros H. pose proof (erases_module bs) as E. rewrite H in E. unfold requests. destruct (a_module bs) as [x l] eqn:F. cbn [fst snd] in *. subst x.
  apply a_bind_ok in F. destruct F as (mg & r1 & l1 & l2 & F1 & F & ->). apply a_run_ok in F1. destruct F1 as [_ ->].
  destruct (negb _); [discriminate|]. apply a_bind_ok in F. destruct F as (v & r2 & l3 & l4 & F1 & F & ->). apply a_run_ok in F1. destruct F1 as [_ ->].
  destruct (negb _); [discriminate|]. apply a_bind_ok in F. destruct F as (s & r3 & l5 & l6 & F1 & F & ->). apply a_run_ok in F. destruct F as [F ->].
  injection F as <- _. cbn [app]. rewrite app_nil_r. apply sections_track in F1. apply F1. reflexivity.
Qed.

(** ** Hosts *)
Lemma within_outcome allows bs :
  parse_within allows bs = if forallb allows (requests bs) then fst (p_module bs) else Panic.
Proof. unfold parse_within. rewrite <- (erases_module bs). reflexivity. Qed.
Lemma within_either allows bs : parse_within allows bs = Panic \/ parse_within allows bs = fst (p_module bs).
Proof. rewrite within_outcome. destruct (forallb _ _); auto. Qed.
Lemma within_all allows bs : (forall e, In e (requests bs) -> allows e = true) -> parse_within allows bs = fst (p_module bs).
Proof.
  intros H. rewrite within_outcome. destruct (forallb allows (requests bs)) eqn:E; [reflexivity|].
  assert (forallb allows (requests bs) = true) by (apply forallb_forall; assumption). congruence.
Qed.
Lemma within_none allows bs e : In e (requests bs) -> allows e = false -> parse_within allows bs = Panic.
Proof.
  intros I F. rewrite within_outcome. destruct (forallb allows (requests bs)) eqn:E; [|reflexivity].
  rewrite forallb_forall in E. rewrite (E e I) in F. discriminate.
Qed.
Lemma host64_same h allows bs : host64 h -> answers h allows -> lenN bs < 2 ^ 31 -> shallow h bs -> parse_within allows bs = fst (p_module bs).
Proof.
  intros (HL & HV & _ & HS) [_ HA] LEN SH. apply within_all. intros e I. apply HA.
  assert (SH' : forall n, e = Nest n -> n <= h_safe h) by (intros n ->; exact (SH n I)). clear SH. apply requests_ok in I.
  change (2 ^ 31) with 2147483648 in *. change (2 ^ 30) with 1073741824 in *. change (2 ^ 63 - 1) with 9223372036854775807 in HL.
  unfold fits, request_ok in *. change M32 with 4294967295 in *. destruct e as [k n|k n|n].
  - rewrite HL. specialize (HS k). nia.
  - rewrite HL. destruct k; try contradiction.
    + rewrite HV. lia.
    + specialize (HS V_Instr). nia.
  - exact (SH' n eq_refl).
Qed.
Lemma reserve_one k n l : In (Reserve k n) l -> n <= reserved l.
Proof.
  induction l as [|e l IH]; [intros []|]. intros [->|I]; cbn [reserved]; [lia|]. specialize (IH I). destruct e; lia.
Qed.
Lemma accepted_within h allows bs m r : p_module bs = (Ok m, r) -> answers h allows ->
  (forall k, (2 * lenN bs + 8) * h_size h k <= h_limit h) ->
  (forall f, In f (m_funcs m) -> (2 * lenN (fn_locals f) + 8) * h_size h V_Val <= h_limit h) ->
  shallow h bs -> parse_within allows bs = Ok m.
Proof.
  intros P [_ HA] HS HF SH. rewrite within_all; [rewrite P; reflexivity|]. intros e I. apply HA.
  pose proof (requests_ok _ _ I) as R. unfold fits, request_ok in *. destruct e as [k n|k n|n].
  - apply reserve_one in I. pose proof (proj2 (reserved_bounds bs) _ _ P). specialize (HS k). nia.
  - destruct k; try contradiction.
    + destruct (proj1 (module_tracks _ _ _ P) n I) as [S|(f & F & L)].
      * specialize (HS V_Val). destruct bs as [|b bs]; [discriminate P|]. cbn [length] in *. nia.
      * specialize (HF f F). unfold locals_of in L. nia.
    + specialize (HS V_Instr). nia.
  - exact (SH n I).
Qed.
Lemma within_needs h allows bs m : answers h allows -> parse_within allows bs = Ok m ->
  forall f, In f (m_funcs m) -> lenN (fn_locals f) * h_size h V_Val <= h_limit h.
Proof.
  intros [HT _] W f F. rewrite within_outcome in W. destruct (forallb _ _) eqn:E; [|discriminate].
  destruct (p_module bs) as [o r] eqn:P. cbn [fst] in W. subst o. destruct (proj2 (module_tracks _ _ _ P) f F) as [Z|I]; unfold locals_of in *.
  - rewrite Z. lia.
  - rewrite forallb_forall in E. specialize (E _ I).
    destruct (N.lt_ge_cases (h_limit h) (lenN (fn_locals f) * h_size h V_Val)) as [B|B]; [|assumption].
    rewrite (HT (Hold V_Val (lenN (fn_locals f)))) in E; [discriminate|exact B].
Qed.
(** a type section that announces 2^32 - 1 types, the first with 2^32 - 1 parameters *)
Definition announcing : list byte := preamble ++ [x01; x05; xff; xff; xff; xff; x0f].
Definition announcing_twice : list byte := preamble ++ [x01; x0b; xff; xff; xff; xff; x0f; x60; xff; xff; xff; xff; x0f].
Lemma twice_run : a_module announcing_twice = ((Err UnexpectedEndOfFile, []), [Reserve V_Func_ty M32; Reserve V_Val M32]).
Proof. lazy. reflexivity. Qed.
Lemma announcing_run : a_module announcing = ((Err UnexpectedEndOfFile, []), [Reserve V_Func_ty M32]).
Proof. lazy. reflexivity. Qed.
Lemma sharp : length announcing_twice = 21%nat /\ fst (p_module announcing_twice) = Err UnexpectedEndOfFile /\
  reserved (requests announcing_twice) = 2 * M32.
Proof.
  split; [reflexivity|]. rewrite <- (erases_module announcing_twice). unfold requests. rewrite twice_run. split; reflexivity.
Qed.
Lemma host32_refutes : length announcing = 15%nat /\ fst (p_module announcing) = Err UnexpectedEndOfFile /\
  forall h allows, host32 h -> answers h allows -> parse_within allows announcing = Panic.
Proof.
  split; [reflexivity|]. split; [rewrite <- (erases_module announcing), announcing_run; reflexivity|].
  intros h allows (HL & _ & _ & HS) [HT _]. apply (within_none _ _ (Reserve V_Func_ty M32)).
  - unfold requests. rewrite announcing_run. left. reflexivity.
  - apply HT. unfold too_big. rewrite HL. specialize (HS V_Func_ty). change (2 ^ 31 - 1) with 2147483647. change M32 with 4294967295. nia.
Qed.
Lemma host32_accepted_refutes : exists bs m, length bs = 30%nat /\ p_module bs = (Ok m, []) /\
  forall h allows, host32 h -> answers h allows -> parse_within allows bs = Panic.
Proof.
  destruct locals_bomb as [L (m & f & P & F & N)]. exists bomb, m. split; [assumption|]. split; [assumption|].
  intros h allows (HL & _ & _ & HS) A. destruct (within_either allows bomb) as [E|E]; [assumption|]. rewrite P in E. cbn [fst] in E.
  pose proof (within_needs h allows bomb m A E f) as W. rewrite F in W. specialize (W (or_introl eq_refl)).
  rewrite N, HL in W. specialize (HS V_Val). change M32 with 4294967295 in W. change (2 ^ 31 - 1) with 2147483647 in W. nia.
Qed.
Lemma accepted_locals bs m r : p_module bs = (Ok m, r) ->
  (forall n, In (Hold V_Val n) (requests bs) -> n <= 1 \/ exists f, In f (m_funcs m) /\ n <= lenN (fn_locals f)) /\
  (forall f, In f (m_funcs m) -> fn_locals f = [] \/ In (Hold V_Val (lenN (fn_locals f))) (requests bs)).
Proof.
  intros P. destruct (module_tracks _ _ _ P) as [A B]. split; [exact A|]. intros f F. destruct (B f F) as [Z|I]; [left|right; exact I].
  unfold locals_of in Z. destruct (fn_locals f); [reflexivity|discriminate].
Qed.
