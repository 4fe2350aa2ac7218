(** The calls that are counted are those that an iterator gets. *)
From Coq Require Import Lia ZifyN ZifyNat String.
From Verif Require Import ParserIter ParserCost SpecParser SpecIter ParserMeta TypesProof InstrProof ModuleProof SectionsProof LebProof IterProof IterClaims TimeProof.
Open Scope N_scope.

(** As [simulates], with the calls: one for each byte that was pulled, and one for the end if it was met. *)
Inductive told {A} (E : outcome A -> Prop) (a : lp A) {S} (next : iterator S) (s : S) (o : outcome A) (s' : S) : Prop :=
| told_settled l : yields next s l s' ->
    (forall rest, fst (a (l ++ rest)) = (o, rest) /\ calls (snd (a (l ++ rest))) = N.of_nat (length l)) -> told E a next s o s'
| told_ended l s1 : yields next s l s1 -> next s1 = (None, s') ->
    fst (a l) = (o, []) -> calls (snd (a l)) = N.of_nat (length l) + 1 -> E o -> told E a next s o s'
| told_fuel : o = OutOfFuel -> told E a next s o s'.
Definition tellsw {A} (E : outcome A -> Prop) (p : ip A) (a : lp A) : Prop :=
  forall F S (next : iterator S) s o s', p F S next s = (o, s') -> told E a next s o s'.
Definition tells {A} (p : ip A) (a : lp A) : Prop := tellsw failed p a.

Lemma tells_const {A} E (o : outcome A) : tellsw E (i_outcome o) (fun bs => ((o, bs), no_cost)).
Proof.
  intros F S next s o' s' H. injection H as <- <-. apply (told_settled _ _ _ _ _ _ []); [reflexivity|]. split; reflexivity.
Qed.
Lemma tells_ret {A} (x : A) : tells (i_ret x) (l_ret x). Proof. exact (tells_const failed (Ok x)). Qed.
Lemma tells_fail {A} e : tells (@i_fail A e) (l_fail e). Proof. exact (tells_const failed (Err e)). Qed.
Lemma tells_panic {A} : tells (@i_panic A) l_panic. Proof. exact (tells_const failed Panic). Qed.
Lemma tells_oof {A} (a : lp A) : tells i_out_of_fuel a.
Proof. intros F S next s o s' H. injection H as <- <-. apply told_fuel. reflexivity. Qed.
Lemma bind_result {A B} (a : lp A) (f : A -> lp B) bs : fst (l_bind a f bs) =
  match fst (a bs) with (Ok x, r) => fst (f x r) | (Err e, r) => (Err e, r) | (Panic, r) => (Panic, r) | (OutOfFuel, r) => (OutOfFuel, r) end.
Proof. unfold l_bind. destruct (a bs) as [[[x|e| |] r] w]; reflexivity. Qed.
Lemma bind_calls {A B} (a : lp A) (f : A -> lp B) bs : calls (snd (l_bind a f bs)) =
  calls (snd (a bs)) + match fst (a bs) with (Ok x, r) => calls (snd (f x r)) | _ => 0 end.
Proof. unfold l_bind. destruct (a bs) as [[[x|e| |] r] w]; cbn [fst snd cost_add calls]; lia. Qed.
Lemma tells_bind {A B} (E : outcome B -> Prop) (p : ip A) a (f : A -> ip B) g : (forall e, E (Err e)) ->
  tells p a -> (forall x, tellsw E (f x) (g x)) -> tellsw E (i_bind p f) (l_bind a g).
Proof.
  intros EE P G F S next s o s' H. unfold i_bind in H. destruct (p F S next s) as [o1 s1] eqn:EP.
  destruct (P _ _ _ _ _ _ EP) as [l Y Q|l s2 Y N Q C [e ->]| ->].
  - assert (STOP : (forall x, o1 <> Ok x) -> (forall rest, fst (l_bind a g (l ++ rest)) = (o, rest)) -> s1 = s' -> told E (l_bind a g) next s o s').
    { intros NO FS <-. apply (told_settled _ _ _ _ _ _ l); [assumption|]. intros rest. split; [apply FS|].
      rewrite bind_calls. destruct (Q rest) as [-> ->]. destruct o1; [destruct (NO a0); reflexivity|lia..]. }
    destruct o1 as [x|e| |].
    + destruct (G x _ _ _ _ _ _ H) as [l2 Y2 Q2|l2 s3 Y2 N2 Q2 C2 E2| ->].
      * apply (told_settled _ _ _ _ _ _ (l ++ l2)); [apply yields_app; eauto|]. intros rest.
        rewrite bind_result, bind_calls, <- app_assoc. destruct (Q (l2 ++ rest)) as [-> ->]. destruct (Q2 rest) as [-> ->].
        rewrite app_length. split; [reflexivity|lia].
      * destruct (Q l2) as [Q3 C3].
        apply (told_ended _ _ _ _ _ _ (l ++ l2) s3); [apply yields_app; eauto|assumption|rewrite bind_result, Q3; assumption| |assumption].
        rewrite bind_calls, Q3, C3, C2, app_length. lia.
      * apply told_fuel. reflexivity.
    + injection H as <- <-. apply STOP; [discriminate| |reflexivity]. intros rest. rewrite bind_result, (proj1 (Q rest)). reflexivity.
    + injection H as <- <-. apply STOP; [discriminate| |reflexivity]. intros rest. rewrite bind_result, (proj1 (Q rest)). reflexivity.
    + injection H as <- <-. apply told_fuel. reflexivity.
  - injection H as <- <-. apply (told_ended _ _ _ _ _ _ l s2); [assumption..| | |apply EE].
    + rewrite bind_result, Q. reflexivity.
    + rewrite bind_calls, Q, C. lia.
  - injection H as <- <-. apply told_fuel. reflexivity.
Qed.
Lemma tells_then {A B} (p : ip A) a (f : A -> ip B) g : tells p a -> (forall x, tells (f x) (g x)) -> tells (i_bind p f) (l_bind a g).
Proof. apply tells_bind. intros e. exists e. reflexivity. Qed.
Lemma tells_ext {A} E (p : ip A) (a b : lp A) : (forall bs, fst (a bs) = fst (b bs) /\ calls (snd (a bs)) = calls (snd (b bs))) -> tellsw E p a -> tellsw E p b.
Proof.
  intros X T F S next s o s' H. destruct (T _ _ _ _ _ _ H) as [l Y Q|l s2 Y N Q C EO| ->].
  - apply (told_settled _ _ _ _ _ _ l); [assumption|]. intros rest. destruct (X (l ++ rest)) as [<- <-]. apply Q.
  - destruct (X l) as [X1 X2]. apply (told_ended _ _ _ _ _ _ l s2); congruence.
  - apply told_fuel. reflexivity.
Qed.
Lemma tells_steps {A} E n (p : ip A) a : tellsw E p a -> tellsw E p (_ <=. l_steps n ;; a).
Proof.
  apply tells_ext. intros bs. rewrite bind_result, bind_calls. cbn [l_steps fst snd calls]. split; [reflexivity|lia].
Qed.
Lemma tells_copies {A} E n (p : ip A) a : tellsw E p a -> tellsw E p (_ <=. l_copies n ;; a).
Proof.
  apply tells_ext. intros bs. rewrite bind_result, bind_calls. cbn [l_copies fst snd calls]. split; [reflexivity|lia].
Qed.
Lemma tells_weaken {A} (E E' : outcome A -> Prop) (p : ip A) a : (forall o, E o -> E' o) -> tellsw E p a -> tellsw E' p a.
Proof.
  intros W T F S next s o s' H. destruct (T _ _ _ _ _ _ H) as [l Y Q|l s2 Y N Q C EO| ->].
  - eapply told_settled; eauto.
  - eapply told_ended; eauto.
  - apply told_fuel. reflexivity.
Qed.
Lemma tells_decided {A} (p : ip A) a : tells p a -> tellsw decided p a.
Proof. apply tells_weaken. intros o [e ->]. exact I. Qed.

(** ** Parsers without vectors *)
Definition runs {A} (p : ip A) (q : parser A) : Prop := suffixing q /\ tells p (l_run q).
Lemma runs_bind {A B} (p : ip A) q (f : A -> ip B) g : runs p q -> (forall x, runs (f x) (g x)) -> runs (i_bind p f) (bind q g).
Proof.
  intros [S P] Q. split; [apply suffixing_bind; [assumption|apply Q]|].
  apply (tells_ext _ _ (l_bind (l_run q) (fun x => l_run (g x)))); [|apply tells_then; [assumption|apply Q]].
  intros bs. rewrite bind_result, bind_calls. unfold l_run. cbn [fst snd calls]. unfold bind, pulls.
  pose proof (suffixing_length q bs S) as L. destruct (q bs) as [[x|e| |] r] eqn:X; cbn [fst snd] in *; [|split; [reflexivity|lia]..].
  split; [reflexivity|]. pose proof (suffixing_length (g x) r (proj1 (Q x))). lia.
Qed.
Lemma runs_const {A} (o : outcome A) : o <> Err UnexpectedEndOfFile -> runs (i_outcome o) (fun bs => (o, bs)).
Proof.
  intros N. split; [intros bs; exists []; reflexivity|]. intros F S next s o' s' H. injection H as <- <-.
  apply (told_settled _ _ _ _ _ _ []); [reflexivity|]. intros rest. split; [reflexivity|]. cbn [l_run snd calls app length]. unfold pulls. cbn [fst snd].
  destruct o as [|[]| |]; try lia. congruence.
Qed.
Lemma runs_ret {A} (x : A) : runs (i_ret x) (ret x). Proof. apply runs_const. discriminate. Qed.
Lemma runs_fail {A} e : e <> UnexpectedEndOfFile -> runs (@i_fail A e) (fail e). Proof. intros N. apply runs_const. congruence. Qed.
Lemma runs_byte : runs i_byte p_byte.
Proof.
  split; [apply suffixing_byte|]. intros F S next s o s' H. unfold i_byte in H.
  destruct (next s) as [[b|] s1] eqn:E; injection H as <- <-.
  - apply (told_settled _ _ _ _ _ _ [b]); [exists s1; split; [assumption|reflexivity]|]. intros rest. split; [reflexivity|].
    cbn [l_run snd calls app length]. unfold pulls. cbn [p_byte fst snd length]. lia.
  - apply (told_ended _ _ _ _ _ _ [] s); [reflexivity|assumption|reflexivity|reflexivity|]. exists UnexpectedEndOfFile. reflexivity.
Qed.
Lemma runs_ext {A} (p : ip A) q q' : (forall bs, q bs = q' bs) -> runs p q -> runs p q'.
Proof.
  intros X [S T]. split; [intros bs; rewrite <- X; apply S|]. revert T. apply tells_ext. intros bs. unfold l_run. rewrite X. split; reflexivity.
Qed.
Lemma runs_oof {A} (q : parser A) : suffixing q -> runs i_out_of_fuel q.
Proof. intros S. split; [assumption|apply tells_oof]. Qed.
(** Numbers *)
Lemma runs_uleb size mask rounds : forall result shift, runs (i_uleb_loop rounds size mask result shift) (uleb_loop size mask result shift).
Proof.
  induction rounds as [|n IH]; intros result shift; [apply runs_oof; intros bs; apply uleb_loop_suffix|]. cbn [i_uleb_loop].
  apply (runs_ext _ (bind p_byte (fun b bs => uleb_loop size mask result shift (b :: bs)))); [intros []; reflexivity|].
  apply runs_bind; [apply runs_byte|]. intros b. cbn [uleb_loop]. cbv zeta.
  repeat (match goal with |- context [if ?c then _ else _] => destruct c
      | |- context [match ?c with Some _ => _ | None => _ end] => destruct c end);
    first [apply IH|apply runs_const; discriminate].
Qed.
Lemma finish_no_end size result shift positive : sleb_finish size result shift positive <> Err UnexpectedEndOfFile.
Proof.
  unfold sleb_finish. repeat (match goal with |- context [if ?c then _ else _] => destruct c
      | |- context [match ?c with Some _ => _ | None => _ end] => destruct c end); discriminate.
Qed.
Lemma runs_sleb size mask rounds : forall result shift positive, runs (i_sleb_loop rounds size mask result shift positive) (sleb_loop size mask result shift positive).
Proof.
  induction rounds as [|n IH]; intros result shift positive; [apply runs_oof; intros bs; apply sleb_loop_suffix|]. cbn [i_sleb_loop].
  apply (runs_ext _ (bind p_byte (fun b bs => sleb_loop size mask result shift positive (b :: bs)))); [intros []; reflexivity|].
  apply runs_bind; [apply runs_byte|]. intros b. cbn [sleb_loop]. cbv zeta.
  repeat (match goal with |- context [if ?c then _ else _] => destruct c
      | |- context [match ?c with Some _ => _ | None => _ end] => destruct c end);
    first [apply IH|apply runs_const; first [discriminate|apply finish_no_end]].
Qed.
Lemma runs_unsigned size : runs (i_unsigned size) (p_unsigned size).
Proof.
  split; [apply suffixing_unsigned|]. intros F S next s o s' H. unfold i_unsigned in H. unfold p_unsigned.
  destruct (u_from_u8 size 127) as [mask|]; [apply (proj2 (runs_uleb size mask F 0 0) F S next s o s' H)|].
  refine (proj2 (runs_const Panic _) F S next s o s' H). discriminate.
Qed.
Lemma runs_signed size : runs (i_signed size) (p_signed size).
Proof.
  split; [apply suffixing_signed|]. intros F S next s o s' H. unfold i_signed in H. unfold p_signed.
  destruct (s_from_u8 size 127) as [mask|]; [apply (proj2 (runs_sleb size mask F 0 0 _) F S next s o s' H)|].
  refine (proj2 (runs_const Panic _) F S next s o s' H). discriminate.
Qed.
Lemma runs_u32 : runs i_u32 p_u32. Proof. apply runs_unsigned. Qed.
Lemma runs_times {A} n (p : ip A) q : runs p q -> runs (i_times n p) (p_times n q).
Proof.
  intros P. induction n; cbn [i_times p_times]; [apply runs_ret|].
  apply runs_bind; [assumption|]. intros x. apply runs_bind; [assumption|]. intros; apply runs_ret.
Qed.
Lemma runs_float h n : runs (i_float h n) (p_float h n).
Proof. apply runs_bind; [apply runs_times, runs_byte|]. intros; apply runs_ret. Qed.
Ltac m_runs := repeat first
  [ apply runs_ret | apply runs_fail; discriminate | apply runs_byte | apply runs_u32 | assumption | apply runs_bind; [|intro] ].
Lemma runs_limits : runs i_limits p_limits.
Proof. unfold i_limits, p_limits. apply runs_bind; [apply runs_byte|]. intros []; m_runs. Qed.
Lemma runs_valty : runs i_valty p_valty.
Proof. unfold i_valty, p_valty. apply runs_bind; [apply runs_byte|]. intros []; m_runs. Qed.
Lemma runs_elemty : runs i_elemty p_elemty.
Proof. unfold i_elemty, p_elemty. apply runs_bind; [apply runs_byte|]. intros []; m_runs. Qed.
Lemma runs_mut : runs i_mut p_mut.
Proof. unfold i_mut, p_mut. apply runs_bind; [apply runs_byte|]. intros []; m_runs. Qed.
Lemma runs_retval : runs i_retval p_retval.
Proof.
  unfold i_retval, p_retval. apply runs_bind; [apply runs_byte|].
  intros b; destruct b; first [apply runs_ret | apply runs_const; discriminate].
Qed.
Lemma runs_tablety : runs i_tablety p_tablety.
Proof. pose proof runs_elemty. pose proof runs_limits. unfold i_tablety, p_tablety. m_runs. Qed.
Lemma runs_memty : runs i_memty p_memty.
Proof. pose proof runs_limits. unfold i_memty, p_memty. m_runs. Qed.
Lemma runs_globalty : runs i_globalty p_globalty.
Proof. pose proof runs_valty. pose proof runs_mut. unfold i_globalty, p_globalty. m_runs. Qed.
Ltac c_runs := pose proof runs_tablety; pose proof runs_memty; pose proof runs_globalty; pose proof runs_u32.
Lemma runs_table : runs i_table p_table. Proof. c_runs. unfold i_table, p_table. m_runs. Qed.
Lemma runs_mem : runs i_mem p_mem. Proof. c_runs. unfold i_mem, p_mem. m_runs. Qed.
Lemma runs_start : runs i_start p_start. Proof. c_runs. unfold i_start, p_start, i_funcidx, p_funcidx. m_runs. Qed.
Lemma runs_importdesc : runs i_importdesc p_importdesc.
Proof. c_runs. unfold i_importdesc, p_importdesc, i_typeidx, p_typeidx. apply runs_bind; [apply runs_byte|]. intros []; m_runs. Qed.
Lemma runs_exportdesc : runs i_exportdesc p_exportdesc.
Proof.
  c_runs. unfold i_exportdesc, p_exportdesc, i_funcidx, p_funcidx, i_tableidx, p_tableidx, i_memidx, p_memidx, i_globalidx, p_globalidx.
  apply runs_bind; [apply runs_byte|]. intros []; m_runs.
Qed.

(** ** Repetition *)
Lemma tells_u32 : tells i_u32 (l_run p_u32). Proof. apply runs_u32. Qed.
Lemma tells_byte : tells i_byte (l_run p_byte). Proof. apply runs_byte. Qed.
Lemma tells_times {A} n (p : ip A) a : tells p a -> tells (i_times n p) (l_times n a).
Proof.
  intros P. induction n; cbn [i_times l_times]; [apply tells_ret|].
  apply tells_steps, tells_then; [assumption|]. intros x. apply tells_steps, tells_then; [assumption|]. intros; apply tells_ret.
Qed.
Lemma tells_vec {A} (p : ip A) a : tells p a -> tells (i_vec p) (l_vec a).
Proof. intros P. apply tells_then; [apply tells_u32|]. intros n. apply tells_times, P. Qed.
Lemma tells_unwrapping_vec {A B} (p : ip A) a (u : A -> B) : tells p a -> tells (i_unwrapping_vec p u) (l_unwrapping_vec a u).
Proof.
  intros P. apply tells_then; [apply tells_u32|]. intros n. apply tells_times, tells_then; [assumption|]. intros; apply tells_ret.
Qed.
Lemma tells_runs {A} k (p : ip A) a : tells p a -> forall acc, tells (i_runs k p acc) (l_runs k a acc).
Proof.
  intros P. induction k; intros acc; cbn [i_runs l_runs]; [apply tells_ret|].
  apply tells_steps, tells_then; [apply tells_u32|]. intros n. apply tells_then; [assumption|]. intros v. apply tells_copies, IHk.
Qed.
Lemma tells_compact_vec {A} (p : ip A) a : tells p a -> tells (i_compact_vec p) (l_compact_vec a).
Proof. intros P. apply tells_then; [apply tells_u32|]. intros n. apply tells_runs, P. Qed.
Lemma tells_string : tells i_string l_string.
Proof.
  apply tells_then; [apply tells_unwrapping_vec, tells_byte|]. intros raw. apply tells_steps. destruct (utf8_valid raw); [apply tells_ret|apply tells_fail].
Qed.

(** ** Windows *)
Lemma tells_window {A} (p : ip A) a size : tellsw decided p a -> tells (i_window p size) (fun bs =>
    let window := firstn (N.to_nat size) bs in
    let after := skipn (N.to_nat size) bs in
    let x := a window in
    let inner := snd x in
    let k := mkCost (N.min (calls inner) size) (steps_taken inner + calls inner * 2) (copies inner) in
    match fst x with
    | (Ok result, r) =>
      let count := N.of_nat (List.length window - List.length r) in
      if negb (size =? count) then ((Err SizeMissmatch, r ++ after), k)
      else ((Ok result, r ++ after), k)
    | (o, r) => ((o, r ++ after), k)
    end).
Proof.
  intros P F S next s o s' H. unfold i_window in H.
  destruct (p F (windowed S) (windowed_next next) (mkWindowed s size 0)) as [o1 w] eqn:E.
  set (o2 := match o1 with Ok a => if negb (size =? w_count w) then Err SizeMissmatch else Ok a | _ => o1 end).
  assert (H' : o = o2 /\ s' = w_inner w).
  { unfold o2. destruct o1; [destruct (negb _)|..]; injection H as <- <-; auto. }
  destruct H' as [-> ->]. clear H.
  destruct (P _ _ _ _ _ _ E) as [l Y Q|l w1 Y N Q C1 D| ->]; [| |apply told_fuel; reflexivity].
  - apply windowed_yields in Y. destruct Y as (Y & L & _ & C). apply (told_settled _ _ _ _ _ _ l); [assumption|].
    intros rest. cbv zeta.
    assert (W : firstn (N.to_nat size) (l ++ rest) = l ++ firstn (N.to_nat size - length l) rest).
    { rewrite firstn_app, (firstn_all2 l) by lia. reflexivity. }
    assert (K : skipn (N.to_nat size) (l ++ rest) = skipn (N.to_nat size - length l) rest).
    { rewrite skipn_app, (skipn_all2 l) by lia. reflexivity. }
    rewrite W, K. destruct (Q (firstn (N.to_nat size - length l) rest)) as [Q1 Q2]. rewrite Q1, Q2. rewrite firstn_skipn, app_length.
    replace (N.of_nat (length l + length (firstn (N.to_nat size - length l) rest) - length (firstn (N.to_nat size - length l) rest)))
      with (w_count w) by lia.
    unfold o2. destruct o1; [destruct (negb _)|..]; (split; [reflexivity|cbn [snd calls]; lia]).
  - apply windowed_yields in Y. destruct Y as (Y & L & WL & C). unfold windowed_next in N.
    destruct (N.eqb_spec (w_left w1) 0) as [Z|NZ].
    + injection N as ->. apply (told_settled _ _ _ _ _ _ l); [assumption|]. intros rest. cbv zeta.
      assert (size = N.of_nat (length l)) as -> by lia. rewrite Nat2N.id.
      rewrite firstn_app, Nat.sub_diag, firstn_all, firstn_O, app_nil_r.
      rewrite skipn_app, Nat.sub_diag, skipn_all, skipn_O. rewrite Q, C1. cbn [length app]. rewrite Nat.sub_0_r.
      unfold o2. rewrite C, N.add_0_l, N.eqb_refl. cbn [negb]. destruct o1; (split; [reflexivity|cbn [snd calls]; lia]).
    + destruct (next (w_inner w1)) as [[b|] s2] eqn:N1; [discriminate|]. injection N as <-. cbn [w_inner w_count] in *.
      apply (told_ended _ _ _ _ _ _ l (w_inner w1)); [assumption|assumption| | |].
      * cbv zeta. rewrite (firstn_all2 l), (skipn_all2 l) by lia. rewrite Q. cbn [length app]. rewrite Nat.sub_0_r.
        unfold o2. rewrite C, N.add_0_l. destruct o1; try reflexivity. destruct (negb (size =? N.of_nat (length l))); reflexivity.
      * cbv zeta. rewrite (firstn_all2 l), (skipn_all2 l) by lia. rewrite Q, C1. cbn [length app].
        destruct o1; try match goal with |- context [negb ?c] => destruct (negb c) end; cbn [snd calls]; lia.
      * unfold o2. destruct o1 as [x|e| |]; [|eexists; reflexivity|destruct D..].
        destruct (N.eqb_spec size (w_count w1)); [lia|]. cbn [negb]. eexists; reflexivity.
Qed.
Lemma tells_sized {A} (p : ip A) a : tellsw decided p a -> tells (i_sized p) (l_sized a).
Proof.
  intros P. apply (tells_then i_u32 (l_run p_u32) (i_window p)); [apply tells_u32|]. intros n. apply tells_window, P.
Qed.
Lemma tells_consume : tellsw decided i_consume l_consume.
Proof.
  intros F S next s o s' H. apply count_loops in H. destruct H as [(l & s2 & Y & N2 & ->)|(-> & _)]; [|apply told_fuel; reflexivity].
  apply (told_ended _ _ _ _ _ _ l s2); [assumption..|reflexivity|reflexivity|exact I].
Qed.
Lemma tells_map {A B} (p : ip A) a (f : A -> B) : tellsw decided p a -> tellsw decided (x <~ p ;; i_ret (f x)) (x <=. a ;; l_ret (f x)).
Proof.
  intros P F S next s o s' H. unfold i_bind in H. destruct (p F S next s) as [o1 s1] eqn:E.
  destruct (P _ _ _ _ _ _ E) as [l Y Q|l s2 Y N Q C D| ->]; [| |injection H as <- <-; apply told_fuel; reflexivity].
  - apply (told_settled _ _ _ _ _ _ l); [destruct o1; injection H as <- <-; assumption|]. intros rest.
    rewrite bind_result, bind_calls. destruct (Q rest) as [-> ->].
    destruct o1; injection H as <- <-; (split; [reflexivity|cbn [l_ret snd calls no_cost]; lia]).
  - apply (told_ended _ _ _ _ _ _ l s2); [assumption|destruct o1; injection H as <- <-; assumption| | |].
    + rewrite bind_result, Q. destruct o1; injection H as <- <-; reflexivity.
    + rewrite bind_calls, Q, C. destruct o1; cbn [l_ret snd calls no_cost]; lia.
    + destruct o1; injection H as <- <-; exact D.
Qed.
Lemma tells_custom : tellsw decided i_custom l_custom.
Proof. apply tells_bind; [intros e; exact I|apply tells_string|]. intros n. apply tells_map, tells_consume. Qed.

(** ** Types and instructions *)
Lemma tells_retval : tells i_retval l_retval.
Proof.
  apply (tells_ext _ _ (l_run p_retval)); [|apply runs_retval]. intros bs. unfold l_retval. rewrite bind_result, bind_calls.
  destruct (l_run p_retval bs) as [[[x|e| |] r] w]; cbn [fst snd]; [|split; [reflexivity|lia]..].
  rewrite bind_result, bind_calls. cbn [l_steps l_ret fst snd calls no_cost]. split; [reflexivity|lia].
Qed.
Lemma tells_valty : tells i_valty (l_run p_valty). Proof. apply runs_valty. Qed.
Lemma tells_functy : tells i_functy l_functy.
Proof.
  apply tells_then; [apply tells_byte|]. intros b. destruct b; try apply tells_fail.
  apply tells_then; [apply tells_vec, tells_valty|]. intros ps. apply tells_then; [apply tells_vec, tells_valty|]. intros rs. apply tells_ret.
Qed.
Lemma tells_expr_of sub sub' : tells sub sub' -> tells (i_expr_of sub) (l_expr_of sub').
Proof. intros S. apply tells_then; [assumption|]. intros [e i]. destruct i; first [apply tells_ret | apply tells_fail]. Qed.
Lemma tells_if_of sub sub' : tells sub sub' -> tells (i_if_of sub) (l_if_of sub').
Proof.
  intros S. apply tells_then; [apply tells_retval|]. intros rt. apply tells_then; [assumption|].
  intros [b1 n1]. apply tells_then.
  - destruct (is_else n1); [assumption|apply tells_ret].
  - intros [b2 n2]. destruct (is_end n2); [apply tells_ret|apply tells_fail].
Qed.
Lemma tells_opcode sub sub' b : tells sub sub' -> tells (i_opcode sub b) (l_opcode sub' b).
Proof.
  intros S. pose proof runs_u32. pose proof (runs_signed 32). pose proof (runs_signed 64).
  pose proof (runs_float LittleEndian 4). pose proof (runs_float LittleEndian 8).
  destruct b; try (refine (proj2 (_ : runs _ _)); unfold i_opcode, p_opcode, i_labelidx, i_funcidx, i_typeidx, i_tableidx, i_localidx, i_globalidx, i_memidx,
    p_labelidx, p_funcidx, p_typeidx, p_tableidx, p_localidx, p_globalidx, p_memidx;
    first [ apply runs_ret | apply runs_fail; discriminate
        | apply runs_bind; [assumption|intros a]; first [apply runs_ret|apply runs_bind; [assumption|intros a']; apply runs_ret]]).
  - apply tells_then; [apply tells_retval|]. intros rt. apply tells_then; [apply tells_expr_of, S|]. intros e. apply tells_ret.
  - apply tells_then; [apply tells_retval|]. intros rt. apply tells_then; [apply tells_expr_of, S|]. intros e. apply tells_ret.
  - apply tells_if_of, S.
  - apply tells_then; [apply tells_vec, tells_u32|]. intros ls. apply tells_then; [apply tells_u32|]. intros l. apply tells_ret.
Qed.
Lemma tells_instr_sub f : tells (i_instr f) (l_instr f) /\ forall acc, tells (i_subexpr f acc) (l_subexpr f acc).
Proof.
  induction f as [|f [IH1 IH2]]; cbn [i_instr i_subexpr l_instr l_subexpr].
  - split; intros; apply tells_oof.
  - split.
    + apply tells_then; [apply tells_byte|]. intros b. apply tells_opcode, IH2.
    + intros acc. apply tells_steps, tells_then; [assumption|]. intros i. destruct i; first [apply tells_ret | apply tells_steps, IH2].
Qed.
(** More fuel changes nothing. *)
Definition steady {A} (a b : lp A) : Prop := forall bs, fst (fst (a bs)) <> OutOfFuel -> b bs = a bs.
Lemma steady_refl {A} (a : lp A) : steady a a. Proof. intros bs _. reflexivity. Qed.
Lemma steady_bind {A B} (a a' : lp A) (f f' : A -> lp B) : steady a a' -> (forall x, steady (f x) (f' x)) -> steady (l_bind a f) (l_bind a' f').
Proof.
  intros P Q bs N. unfold l_bind in *. destruct (a bs) as [[[x|e| |] r] w] eqn:E.
  - rewrite (P bs), E by (rewrite E; discriminate). cbn [fst] in N. rewrite (Q x r N). reflexivity.
  - rewrite (P bs), E by (rewrite E; discriminate). reflexivity.
  - rewrite (P bs), E by (rewrite E; discriminate). reflexivity.
  - destruct N. reflexivity.
Qed.
Lemma steady_expr_of a a' : steady a a' -> steady (l_expr_of a) (l_expr_of a').
Proof. intros S. apply steady_bind; [assumption|]. intros x. apply steady_refl. Qed.
Lemma steady_opcode a a' b : steady a a' -> steady (l_opcode a b) (l_opcode a' b).
Proof.
  intros S. destruct b; try apply steady_refl.
  - apply steady_bind; [apply steady_refl|]. intros rt. apply steady_bind; [apply steady_expr_of, S|]. intros e. apply steady_refl.
  - apply steady_bind; [apply steady_refl|]. intros rt. apply steady_bind; [apply steady_expr_of, S|]. intros e. apply steady_refl.
  - apply steady_bind; [apply steady_refl|]. intros rt. apply steady_bind; [assumption|]. intros [b1 n1].
    apply steady_bind; [destruct (is_else n1); [assumption|apply steady_refl]|]. intros x. apply steady_refl.
Qed.
Lemma steady_instr_sub f : forall f', (f <= f')%nat -> steady (l_instr f) (l_instr f') /\ forall acc, steady (l_subexpr f acc) (l_subexpr f' acc).
Proof.
  induction f as [|f IH]; intros f' L.
  - split; [|intros acc]; (intros bs N; destruct N; reflexivity).
  - destruct f' as [|f']; [lia|]. destruct (IH f' ltac:(lia)) as [IH1 IH2]. cbn [l_instr l_subexpr]. split.
    + apply steady_bind; [apply steady_refl|]. intros b. apply steady_opcode, IH2.
    + intros acc. apply steady_bind; [apply steady_refl|]. intros u. apply steady_bind; [assumption|]. intros i.
      destruct i; first [apply steady_refl|apply steady_bind; [apply steady_refl|intros ?; apply IH2]].
Qed.
Lemma tells_fueled {A} (E : outcome A -> Prop) (i : nat -> ip A) (a : nat -> lp A) (need : nat -> nat) :
  (forall o, E o -> o <> OutOfFuel) -> (forall f, tellsw E (i f) (a f)) -> (forall f f', (f <= f')%nat -> steady (a f) (a f')) ->
  (forall bs, fst (fst (a (need (length bs)) bs)) <> OutOfFuel) -> tellsw E (fun F => i F F) (fun bs => a (need (length bs)) bs).
Proof.
  intros EO T ST EN.
  assert (SAME : forall f bs, fst (fst (a f bs)) <> OutOfFuel -> a (need (length bs)) bs = a f bs).
  { intros f bs H. destruct (Nat.le_gt_cases f (need (length bs))) as [L|L].
    - apply (ST _ _ L), H.
    - symmetry. apply ST; [lia|apply EN]. }
  intros F S next s o s' H. destruct (T F _ _ _ _ _ _ H) as [l Y Q|l s2 Y N Q C D| ->]; [| |apply told_fuel; reflexivity].
  - destruct o as [x|e| |] eqn:O; [| | |apply told_fuel; reflexivity];
      (apply (told_settled _ _ _ _ _ _ l); [assumption|]; intros rest; rewrite (SAME F); [apply Q|rewrite (proj1 (Q rest)); discriminate]).
  - assert (X : a (need (length l)) l = a F l) by (apply SAME; rewrite Q; apply EO, D).
    apply (told_ended _ _ _ _ _ _ l s2); [assumption..| | |assumption]; rewrite X; assumption.
Qed.
Lemma tells_expr : tells i_expr l_expr.
Proof.
  apply (tells_fueled failed (fun f => i_expr_of (i_subexpr f [])) (fun f => l_expr_of (l_subexpr f [])) fuel_for).
  - exact failed_fuel.
  - intros f. apply tells_expr_of, tells_instr_sub.
  - intros f f' L. apply steady_expr_of, steady_instr_sub, L.
  - intros bs. rewrite (free_expr_of _ _ (proj2 (free_instr_sub _) _)). apply (safe_expr bs).
Qed.
(** ** Module components *)
Ltac m_tells := repeat first
  [ apply tells_ret | apply tells_fail | apply tells_byte | apply tells_u32 | apply tells_string | apply tells_expr | apply tells_valty
  | apply tells_vec | apply tells_compact_vec | apply tells_unwrapping_vec
  | assumption | apply tells_then; [|intro] ].
Lemma tells_func : tells i_func l_func. Proof. unfold i_func, l_func. m_tells. Qed.
Lemma tells_global : tells i_global l_global. Proof. pose proof (proj2 runs_globalty). unfold i_global, l_global, i_constexpr. m_tells. Qed.
Lemma tells_elem : tells i_elem l_elem. Proof. unfold i_elem, l_elem, i_constexpr, i_tableidx, p_tableidx, i_funcidx, p_funcidx. m_tells. Qed.
Lemma tells_data : tells i_data l_data. Proof. unfold i_data, l_data, i_constexpr, i_memidx, p_memidx. m_tells. Qed.
Lemma tells_import : tells i_import l_import. Proof. pose proof (proj2 runs_importdesc). unfold i_import, l_import. m_tells. Qed.
Lemma tells_export : tells i_export l_export. Proof. pose proof (proj2 runs_exportdesc). unfold i_export, l_export. m_tells. Qed.
Lemma tells_section id s : tells (i_section id s) (l_section id s).
Proof.
  assert (Z : forall A (p : ip A) q, tells p q -> tells (i_sized p) (l_sized q)) by (intros; apply tells_sized, tells_decided; assumption).
  unfold i_section, l_section, i_typeidx, p_typeidx.
  destruct id; try apply tells_fail; (apply tells_then; [|intro]); try apply tells_ret;
    try (apply Z; first [apply tells_vec|idtac];
         first [apply tells_functy|apply tells_import|apply tells_u32|apply runs_table|apply runs_mem|apply tells_global|apply tells_export|apply tells_elem|apply tells_data|apply runs_start]).
  - apply tells_sized, tells_custom.
  - apply Z, tells_unwrapping_vec, Z, tells_func.
  - destruct (negb _); [apply tells_fail|]. cbv zeta. apply tells_steps. destruct (assign_types _ _ _); first [apply tells_ret|apply tells_panic].
Qed.

(** ** The section loop *)
Lemma peekable_told {A} (a : lp A) {S} (next : iterator S) s o p :
  told failed a (peekable_next next) (mkPeekable s None) o p -> told failed a next s o (pk_inner p) /\ (forall x, o = Ok x -> pk_peeked p = None).
Proof.
  intros [l Y Q|l p1 Y N Q C D| ->]; [apply peekable_yields in Y; destruct Y as [P Y]..|].
  - split; [eapply told_settled; eassumption|auto].
  - split; [|intros x ->; destruct D; discriminate]. unfold peekable_next in N. rewrite P in N.
    destruct (next (pk_inner p1)) as [v s2] eqn:N1. injection N as -> <-. eapply told_ended; eassumption.
  - split; [apply told_fuel; reflexivity|discriminate].
Qed.
Lemma tells_loop f : forall st, tellsw decided (i_loop f st) (l_sections f st).
Proof.
  induction f as [|f IH]; intros st F S next s o s' H; unfold i_loop in H.
  - injection H as <- <-. apply told_fuel. reflexivity.
  - cbn [i_sections] in H. unfold peek in H. cbn [pk_peeked pk_inner] in H. destruct (next s) as [[b|] s1] eqn:N.
    2: { injection H as <- <-. apply (told_ended _ _ _ _ _ _ [] s); [reflexivity|assumption|reflexivity|reflexivity|exact I]. }
    set (go := if negb (byte_is b 0) && (Byte.to_N b <=? ps_last_id st) then l_fail (UnexpectedSectionId b)
       else s2 <=. l_section b (if byte_is b 0 then st else mkPstate (ps_result st) (ps_func_types st) (Byte.to_N b)) ;; l_sections f s2).
    assert (L : forall rest, fst (l_sections (Datatypes.S f) st (b :: rest)) = fst (go rest)
        /\ calls (snd (l_sections (Datatypes.S f) st (b :: rest))) = 1 + calls (snd (go rest))).
    { intros rest. cbn [l_sections]. rewrite bind_result, bind_calls. cbn [l_steps fst snd calls]. rewrite bind_result, bind_calls.
      assert (R : fst (l_run p_byte (b :: rest)) = (Ok b, rest)) by reflexivity. rewrite R. fold go. split; [reflexivity|].
      unfold l_run, pulls. cbn [p_byte fst snd calls length]. lia. }
    unfold i_round in H. unfold i_bind, i_byte, peekable_next at 1 in H. cbn [pk_peeked pk_inner] in H.
    assert (G : told decided go next s1 o s').
    { subst go. clear L. destruct (negb (byte_is b 0) && (Byte.to_N b <=? ps_last_id st)).
      { injection H as <- <-. apply (told_settled _ _ _ _ _ _ []); [reflexivity|]. intros rest. split; reflexivity. }
      set (st1 := if byte_is b 0 then st else mkPstate (ps_result st) (ps_func_types st) (Byte.to_N b)) in *.
      refine (tells_bind decided (fun F S next s => let (o, p) := i_section b st1 F (peekable S) (peekable_next next) (mkPeekable s None) in
          (o, pk_inner p)) (l_section b st1) (i_loop f) (l_sections f) _ _ IH F S next s1 o s' _).
      - intros e. exact I.
      - clear. intros F S next s o s' H.
        destruct (i_section b st1 F (peekable S) (peekable_next next) (mkPeekable s None)) as [o1 p1] eqn:E. injection H as <- <-.
        apply (peekable_told _ next). apply (tells_section b st1) in E. assumption.
      - unfold i_bind. destruct (i_section b st1 F (peekable S) (peekable_next next) (mkPeekable s1 None)) as [o1 p1] eqn:E.
        pose proof (proj2 (peekable_told _ next _ _ _ (tells_section b st1 _ _ _ _ _ _ E))) as PN.
        destruct o1 as [st2|e| |]; try exact H. unfold i_loop. destruct p1 as [s3 pe]. cbn [pk_inner pk_peeked] in *.
        rewrite (PN st2 eq_refl) in H. exact H. }
    destruct G as [l Y Q|l s2 Y N2 Q C D| ->].
    + apply (told_settled _ _ _ _ _ _ (b :: l)); [exists s1; auto|]. intros rest. cbn [app length].
      destruct (L (l ++ rest)) as [-> ->]. destruct (Q rest) as [-> ->]. split; [reflexivity|lia].
    + destruct (L l) as [L1 L2].
      apply (told_ended _ _ _ _ _ _ (b :: l) s2); [exists s1; auto|assumption|rewrite L1; assumption| |assumption].
      rewrite L2, C. cbn [length]. lia.
    + apply told_fuel. reflexivity.
Qed.
Lemma steady_sections f : forall f' st, (f <= f')%nat -> steady (l_sections f st) (l_sections f' st).
Proof.
  induction f as [|f IH]; intros f' st L bs.
  - intros N. destruct N. reflexivity.
  - destruct f' as [|f']; [lia|]. cbn [l_sections]. destruct bs as [|b bs]; [reflexivity|].
    apply steady_bind; [apply steady_refl|]. intros u. apply steady_bind; [apply steady_refl|]. intros id.
    destruct (negb _ && _); [apply steady_refl|].
    apply steady_bind; [apply steady_refl|]. intros s2. apply IH. lia.
Qed.
Lemma tells_body : tellsw decided i_body (l_peekable (fun bs => l_sections (Datatypes.S (length bs)) (mkPstate default_module [] 0) bs)).
Proof.
  apply (tells_ext _ _ (fun bs => l_sections (Datatypes.S (length bs)) (mkPstate default_module [] 0) bs)).
  { intros bs. unfold l_peekable. cbn [fst snd cost_add calls]. split; [reflexivity|lia]. }
  apply (tells_fueled decided (fun f => i_loop f (mkPstate default_module [] 0)) (fun f => l_sections f (mkPstate default_module [] 0)) Datatypes.S).
  - exact decided_fuel.
  - intros f. apply tells_loop.
  - intros f f' L. apply steady_sections, L.
  - intros bs. rewrite free_sections. apply safe_sections. lia.
Qed.
Lemma tells_module : tellsw decided i_module l_module.
Proof.
  unfold i_module, l_module.
  assert (B : tells (i_array 4 i_byte) (l_run (p_array 4 p_byte))) by apply (runs_times 4 _ _ runs_byte).
  apply tells_bind; [intros; exact I|exact B|]. intros magic.
  destruct (negb _); [apply tells_decided, tells_fail|].
  apply tells_bind; [intros; exact I|exact B|]. intros version.
  destruct (negb _); [apply tells_decided, tells_fail|].
  exact (tells_map i_body _ ps_result tells_body).
Qed.

(** ** The claims *)
Lemma counting_yields {S} (next : iterator S) l : forall s n s' n', yields (counting next) (s, n) l (s', n') ->
  yields next s l s' /\ n' = n + N.of_nat (length l).
Proof.
  induction l as [|b l IH]; intros s n s' n' H; cbn [yields] in *.
  - injection H as -> ->. split; [reflexivity|cbn [length]; lia].
  - destruct H as ([s1 n1] & E & H). unfold counting in E. cbn [fst snd] in E. destruct (next s) as [v s2] eqn:N. injection E as -> <- <-.
    apply IH in H. destruct H as [Y ->]. split; [exists s2; auto|cbn [length]; lia].
Qed.
Theorem calls_iterator fuel S (next : iterator S) s o s' n : i_module fuel (S * N)%type (counting next) (s, 0) = (o, (s', n)) -> o <> OutOfFuel ->
  (exists l, yields next s l s' /\ n = N.of_nat (length l) /\ forall rest, calls (parsing_cost (l ++ rest)) = n) \/
  (exists l, yields_then_ends next s l s' /\ n = N.of_nat (length l) + 1 /\ calls (parsing_cost l) = n).
Proof.
  intros H NF. apply tells_module in H. destruct H as [l Y Q|l [s1 n1] Y N Q C D| ->]; [| |destruct NF; reflexivity];
    apply counting_yields in Y; destruct Y as [Y ->].
  - left. exists l. split; [assumption|]. split; [lia|]. intros rest. unfold parsing_cost. rewrite (proj2 (Q rest)). lia.
  - right. exists l. unfold counting in N. cbn [fst snd] in N. destruct (next s1) as [v s2] eqn:N1. injection N as -> -> <-.
    split; [exists s1; split; assumption|]. split; [lia|]. unfold parsing_cost. rewrite C. lia.
Qed.
Definition list_next : iterator (list byte) := fun bs => match bs with b :: r => (Some b, r) | [] => (None, []) end.
Lemma list_yields l : forall rest, yields list_next (l ++ rest) l rest.
Proof. induction l as [|b l IH]; intros rest; [reflexivity|]. exists (l ++ rest). split; [reflexivity|apply IH]. Qed.
Lemma yields_list l : forall bs r, yields list_next bs l r -> bs = l ++ r.
Proof.
  induction l as [|b l IH]; intros bs r H; [exact H|]. destruct H as (s1 & E & H). destruct bs as [|b' bs]; [discriminate|].
  injection E as -> ->. cbn [app]. f_equal. apply IH, H.
Qed.
Lemma list_ends bs : yields_then_ends list_next bs bs [].
Proof. exists []. split; [|reflexivity]. rewrite <- (app_nil_r bs) at 1. apply list_yields. Qed.
Theorem calls_exact bs : let consumed := N.of_nat (length bs - length (snd (p_module bs))) in
  calls (parsing_cost bs) = consumed \/ calls (parsing_cost bs) = consumed + 1 /\ snd (p_module bs) = [].
Proof.
  cbv zeta. pose proof (ending_module (2 * length bs + 3)%nat _ list_next bs bs [] (list_ends bs) ltac:(lia)) as E.
  destruct (i_module (2 * length bs + 3)%nat (list byte) list_next bs) as [o r] eqn:H. cbn [fst] in E.
  unfold parsing_cost. pose proof (free_module bs) as F.
  apply tells_module in H. destruct H as [l Y Q|l s1 Y N Q C D|X].
  - apply yields_list in Y. subst bs. left. destruct (Q r) as [Q1 ->]. rewrite <- F, Q1. cbn [snd]. rewrite app_length. lia.
  - apply yields_list in Y. destruct s1; [|discriminate]. rewrite app_nil_r in Y. subst l. right. rewrite C, <- F, Q. cbn [snd length]. split; [lia|reflexivity].
  - exfalso. subst o. symmetry in E. revert E. apply safe_module.
Qed.
Theorem calls_accepted bs m r : p_module bs = (Ok m, r) -> calls (parsing_cost bs) = N.of_nat (length bs) + 1.
Proof.
  intros P. pose proof (ending_module (2 * length bs + 3)%nat _ list_next bs bs [] (list_ends bs) ltac:(lia)) as E.
  destruct (i_module (2 * length bs + 3)%nat (list byte) list_next bs) as [o r'] eqn:H. cbn [fst] in E. rewrite P in E. cbn [fst] in E. subst o.
  apply tells_module in H. destruct H as [l Y Q|l s1 Y N Q C D|X]; [| |discriminate].
  - destruct (Q [x00]) as [Q1 _]. rewrite free_module in Q1. apply module_ok_all in Q1. discriminate.
  - apply yields_list in Y. destruct s1; [|discriminate]. rewrite app_nil_r in Y. subst l. exact C.
Qed.
Lemma yields_counting {S} (next : iterator S) l : forall s n s', yields next s l s' -> yields (counting next) (s, n) l (s', n + N.of_nat (length l)).
Proof.
  induction l as [|b l IH]; intros s n s' H; cbn [yields] in *.
  - cbn [length]. rewrite N.add_0_r. congruence.
  - destruct H as (s1 & E & H). exists (s1, n + 1). unfold counting at 1. cbn [fst snd]. rewrite E. split; [reflexivity|].
    apply (IH _ (n + 1)) in H. cbn [length]. replace (n + N.of_nat (Datatypes.S (length l))) with (n + 1 + N.of_nat (length l)) by lia. exact H.
Qed.
Lemma yields_part {S} (next : iterator S) l' : forall l s s' s1 s2, yields next s l s1 -> next s1 = (None, s2) -> yields next s l' s' ->
  exists r, l = l' ++ r /\ yields next s' r s1.
Proof.
  induction l' as [|b l' IH]; intros l s s' s1 s2 H N H'.
  - cbn [yields] in H'. subst s'. exists l. auto.
  - destruct H' as (s3 & E & H'). destruct l as [|b2 l].
    + cbn [yields] in H. subst s1. congruence.
    + destruct H as (s4 & E2 & H). rewrite E in E2. injection E2 as -> ->.
      destruct (IH _ _ _ _ _ H N H') as (r & -> & R). exists r. auto.
Qed.
Theorem calls_ending fuel S (next : iterator S) s l s1 : yields_then_ends next s l s1 -> (2 * length l + 2 < fuel)%nat ->
  fst (i_module fuel (S * N)%type (counting next) (s, 0)) = fst (p_module l) /\
  snd (snd (i_module fuel (S * N)%type (counting next) (s, 0))) = calls (parsing_cost l).
Proof.
  intros (s0 & Y & NN) L.
  assert (Y2 : yields_then_ends (counting next) (s, 0) l (s1, 0 + N.of_nat (length l) + 1)).
  { exists (s0, 0 + N.of_nat (length l)). split; [apply yields_counting, Y|]. unfold counting. cbn [fst snd]. rewrite NN. reflexivity. }
  pose proof (ending_module fuel _ _ _ _ _ Y2 L) as E. split; [exact E|].
  destruct (i_module fuel (S * N)%type (counting next) (s, 0)) as [o [s' n]] eqn:H. cbn [fst snd] in *.
  apply calls_iterator in H; [|rewrite E; apply safe_module].
  destruct H as [(l' & Y' & _ & C)|(l' & (s3 & Y' & N') & _ & C)].
  - destruct (yields_part _ _ _ _ _ _ _ Y NN Y') as (r & -> & _). symmetry. apply C.
  - destruct (yields_part _ _ _ _ _ _ _ Y NN Y') as (r & -> & R). destruct r as [|b r]; [|destruct R as (s4 & R & _); congruence].
    rewrite app_nil_r. symmetry. exact C.
Qed.
