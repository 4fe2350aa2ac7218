(** Parsing from an iterator that may panic is parsing from one that never does, up to the first panic. *)
From Coq Require Import Lia ZifyN ZifyNat String.
From Verif Require Import ParserFaulty.
Open Scope N_scope.

(** ** The simulation.  [next] does what [pn] does until [pn] panics; from then on its state is [D]ead.  The state of [pn] at that
    moment is kept. *)
Record tracks {S T} (next : iterator S) (pn : faulty T) (R D : T -> S -> Prop) : Prop := {
  tr_live : forall t s, R t s ->
    match pn t with
    | Some (v, t1) => exists s1, next s = (v, s1) /\ R t1 s1
    | None => D t (snd (next s))
    end;
  tr_dead : forall t s, D t s -> D t (snd (next s));
}.
Definition together {S T} {A} (R D : T -> S -> Prop) (x : outcome A * S) (y : outcome A * T) : Prop :=
  (fst x = fst y /\ R (snd y) (snd x)) \/ (fst y = Panic /\ D (snd y) (snd x)).
Definition rel {A} (i : ip A) (j : jp A) : Prop := forall F S T (next : iterator S) (pn : faulty T) R D, tracks next pn R D ->
  (forall t s, R t s -> together R D (i F S next s) (j F T pn t)) /\ (forall t s, D t s -> D t (snd (i F S next s))).

Lemma rel_const {A} (o : outcome A) : rel (fun _ _ _ s => (o, s)) (fun _ _ _ s => (o, s)).
Proof. intros F S T next pn R D TR. split; [intros t s H; left; split; [reflexivity|exact H]|intros t s H; exact H]. Qed.
Lemma rel_ret {A} (a : A) : rel (i_ret a) (j_ret a). Proof. apply rel_const. Qed.
Lemma rel_fail {A} e : rel (@i_fail A e) (j_fail e). Proof. apply rel_const. Qed.
Lemma rel_panic {A} : rel (@i_panic A) j_panic. Proof. apply rel_const. Qed.
Lemma rel_oof {A} : rel (@i_out_of_fuel A) j_out_of_fuel. Proof. apply rel_const. Qed.
Lemma rel_outcome {A} (o : outcome A) : rel (i_outcome o) (j_outcome o). Proof. apply rel_const. Qed.
Lemma rel_byte : rel i_byte j_byte.
Proof.
  intros F S T next pn R D TR. split.
  - intros t s H. pose proof (tr_live _ _ _ _ TR t s H) as L. unfold i_byte, j_byte. destruct (pn t) as [[v t1]|].
    + destruct L as (s1 & -> & L). destruct v; left; split; solve [reflexivity|exact L].
    + right. split; [reflexivity|]. destruct (next s) as [[b|] s1]; exact L.
  - intros t s H. pose proof (tr_dead _ _ _ _ TR t s H) as L. unfold i_byte. destruct (next s) as [[b|] s1]; exact L.
Qed.
Lemma rel_bind {A B} (i : ip A) j (f : A -> ip B) g : rel i j -> (forall a, rel (f a) (g a)) -> rel (i_bind i f) (j_bind j g).
Proof.
  intros I G F S T next pn R D TR. destruct (I F S T next pn R D TR) as [I1 I2].
  assert (K : forall t s, D t s -> D t (snd (match i F S next s with (Ok a, s') => f a F S next s' | (Err e, s') => (Err e, s')
     | (Panic, s') => (Panic, s') | (OutOfFuel, s') => (OutOfFuel, s') end))).
  { intros t s H. specialize (I2 t s H). destruct (i F S next s) as [[a|e| |] s']; cbn [snd] in *; try exact I2.
    apply (proj2 (G a F S T next pn R D TR)), I2. }
  split; [|exact K]. intros t s H. specialize (I1 t s H). unfold i_bind, j_bind.
  destruct (i F S next s) as [o s'], (j F T pn t) as [o' t'].
  destruct I1 as [[E L]|[E L]]; cbn [fst snd] in E, L; subst o'.
  - destruct o as [a|e| |]; [apply (proj1 (G a F S T next pn R D TR)), L|left; split; [reflexivity|exact L]..].
  - right. split; [reflexivity|]. cbn [snd]. destruct o as [a|e| |]; try exact L. apply (proj2 (G a F S T next pn R D TR)), L.
Qed.
(** the bound on the rounds as a parameter *)
Lemma rel_fuel {A} (i : nat -> ip A) j : (forall n, rel (i n) (j n)) -> rel (fun fuel => i fuel fuel) (fun fuel => j fuel fuel).
Proof. intros H F. apply H. Qed.

Ltac r_step := first
  [ apply rel_ret | apply rel_fail | apply rel_panic | apply rel_oof | apply rel_outcome | apply rel_byte | assumption
  | apply rel_bind; [|intro]
  | match goal with |- rel (let '(_, _) := ?c in _) _ => destruct c end
  | match goal with |- rel (if ?c then _ else _) _ => destruct c end
  | match goal with |- rel (match ?c with Some _ => _ | None => _ end) _ => destruct c end ].
Ltac r := cbv zeta; repeat (r_step; cbv zeta).

(** ** Numbers *)
Lemma rel_uleb n size mask : forall result shift, rel (i_uleb_loop n size mask result shift) (j_uleb_loop n size mask result shift).
Proof.
  induction n as [|n IH]; intros result shift; cbn [i_uleb_loop j_uleb_loop]; [apply rel_oof|].
  apply rel_bind; [apply rel_byte|]. intros b. r; apply IH.
Qed.
Lemma rel_sleb n size mask : forall result shift positive, rel (i_sleb_loop n size mask result shift positive) (j_sleb_loop n size mask result shift positive).
Proof.
  induction n as [|n IH]; intros result shift positive; cbn [i_sleb_loop j_sleb_loop]; [apply rel_oof|].
  apply rel_bind; [apply rel_byte|]. intros b. r; apply IH.
Qed.
Lemma rel_unsigned size : rel (i_unsigned size) (j_unsigned size).
Proof.
  intros F. unfold i_unsigned, j_unsigned. destruct (u_from_u8 size 127) as [mask|]; [|apply rel_panic]. apply rel_uleb.
Qed.
Lemma rel_signed size : rel (i_signed size) (j_signed size).
Proof.
  intros F. unfold i_signed, j_signed. destruct (s_from_u8 size 127) as [mask|]; [|apply rel_panic]. apply rel_sleb.
Qed.
Lemma rel_u32 : rel i_u32 j_u32. Proof. apply rel_unsigned. Qed.

(** ** Repetition *)
Lemma rel_times {A} n (i : ip A) j : rel i j -> rel (i_times n i) (j_times n j).
Proof. intros H. induction n as [|n IH]; cbn [i_times j_times]; r. Qed.
Lemma rel_vec {A} (i : ip A) j : rel i j -> rel (i_vec i) (j_vec j).
Proof. intros H. apply rel_bind; [apply rel_u32|]. intros n. apply rel_times, H. Qed.
Lemma rel_unwrapping_vec {A B} (i : ip A) j (u : A -> B) : rel i j -> rel (i_unwrapping_vec i u) (j_unwrapping_vec j u).
Proof. intros H. apply rel_bind; [apply rel_u32|]. intros n. apply rel_times. r. Qed.
Lemma rel_runs {A} k (i : ip A) j : rel i j -> forall acc, rel (i_runs k i acc) (j_runs k j acc).
Proof.
  intros H. induction k as [|k IH]; intros acc; cbn [i_runs j_runs]; [apply rel_ret|].
  apply rel_bind; [apply rel_u32|]. intros n. apply rel_bind; [exact H|]. intros v. apply IH.
Qed.
Lemma rel_compact_vec {A} (i : ip A) j : rel i j -> rel (i_compact_vec i) (j_compact_vec j).
Proof. intros H. apply rel_bind; [apply rel_u32|]. intros k. apply rel_runs, H. Qed.
Lemma rel_float h n : rel (i_float h n) (j_float h n).
Proof. apply rel_bind; [apply rel_times, rel_byte|]. intros; apply rel_ret. Qed.
Lemma rel_string : rel i_string j_string.
Proof. apply rel_bind; [apply rel_unwrapping_vec, rel_byte|]. intros raw. r. Qed.

(** ** Windows *)
Definition live_window {S T} (R : T -> S -> Prop) (v : windowed T) (w : windowed S) : Prop :=
  R (w_inner v) (w_inner w) /\ w_left v = w_left w /\ w_count v = w_count w.
Definition dead_window {S T} (D : T -> S -> Prop) (v : windowed T) (w : windowed S) : Prop := D (w_inner v) (w_inner w).
Lemma tracks_window {S T} (next : iterator S) (pn : faulty T) R D : tracks next pn R D ->
  tracks (windowed_next next) (faulty_windowed pn) (live_window R) (dead_window D).
Proof.
  intros [L K]. split.
  - intros [t n c] [s n' c'] (H & E1 & E2). cbn in H, E1, E2. subst n' c'. unfold faulty_windowed, windowed_next. cbn [w_left w_inner w_count].
    destruct (n =? 0).
    + eexists. split; [reflexivity|]. repeat split. exact H.
    + specialize (L t s H). destruct (pn t) as [[[b|] t1]|].
      * destruct L as (s1 & -> & L). eexists. split; [reflexivity|]. repeat split. exact L.
      * destruct L as (s1 & -> & L). eexists. split; [reflexivity|]. repeat split. exact L.
      * destruct (next s) as [[b|] s1]; exact L.
  - intros [t n c] [s n' c'] H. unfold windowed_next. cbn [w_left w_inner w_count]. destruct (n' =? 0); [exact H|].
    specialize (K t s H). destruct (next s) as [[b|] s1]; exact K.
Qed.
Lemma rel_sized {A} (i : ip A) j : rel i j -> rel (i_sized i) (j_sized j).
Proof.
  intros I. apply rel_bind; [apply rel_u32|]. intros size F S T next pn R D TR.
  destruct (I F _ _ _ _ _ _ (tracks_window next pn R D TR)) as [I1 I2]. split.
  - intros t s H. specialize (I1 (mkWindowed t size 0) (mkWindowed s size 0) (conj H (conj eq_refl eq_refl))).
    destruct (i F _ _ _) as [o w], (j F _ _ _) as [o' v]. destruct I1 as [[E L]|[E L]]; cbn [fst snd] in E, L; subst o'.
    + destruct L as (L & _ & C). rewrite C. destruct o as [a|e| |]; [destruct (negb _)|..]; left; split; solve [reflexivity|exact L].
    + right. split; [reflexivity|]. cbn [snd]. destruct o as [a|e| |]; [destruct (negb _)|..]; exact L.
  - intros t s H. specialize (I2 (mkWindowed t size 0) (mkWindowed s size 0) H).
    destruct (i F _ _ _) as [o w]. cbn [snd] in I2. destruct o as [a|e| |]; [destruct (negb _)|..]; exact I2.
Qed.
Lemma rel_count n : forall k, rel (i_count n k) (j_count n k).
Proof.
  induction n as [|n IH]; intros k; [apply rel_oof|]. intros F S T next pn R D TR. split.
  - intros t s H. pose proof (tr_live _ _ _ _ TR t s H) as L. cbn [i_count j_count]. destruct (pn t) as [[[b|] t1]|].
    + destruct L as (s1 & -> & L). apply (proj1 (IH (k + 1) F S T next pn R D TR)), L.
    + destruct L as (s1 & -> & L). left. split; [reflexivity|exact L].
    + right. split; [reflexivity|]. destruct (next s) as [[b|] s1]; [|exact L]. apply (proj2 (IH (k + 1) F S T next pn R D TR)), L.
  - intros t s H. pose proof (tr_dead _ _ _ _ TR t s H) as L. cbn [i_count]. destruct (next s) as [[b|] s1]; [|exact L].
    apply (proj2 (IH (k + 1) F S T next pn R D TR)), L.
Qed.
Lemma rel_consume : rel i_consume j_consume. Proof. intros F. apply rel_count. Qed.
Lemma rel_custom : rel i_custom j_custom.
Proof. apply rel_bind; [apply rel_string|]. intros n. apply rel_bind; [apply rel_consume|]. intros c. apply rel_ret. Qed.

(** ** Types *)
Ltac m_rel := repeat first
  [ apply rel_ret | apply rel_fail | apply rel_byte | apply rel_u32 | apply rel_string
  | apply rel_vec | apply rel_compact_vec | apply rel_unwrapping_vec
  | assumption | apply rel_bind; [|intro] ].
Ltac b_rel := apply rel_bind; [apply rel_byte|]; intros []; m_rel.
Lemma rel_limits : rel i_limits j_limits. Proof. unfold i_limits, j_limits. b_rel. Qed.
Lemma rel_valty : rel i_valty j_valty. Proof. unfold i_valty, j_valty. b_rel. Qed.
Lemma rel_elemty : rel i_elemty j_elemty. Proof. unfold i_elemty, j_elemty. b_rel. Qed.
Lemma rel_mut : rel i_mut j_mut. Proof. unfold i_mut, j_mut. b_rel. Qed.
Lemma tracks_slice : tracks slice_next faulty_slice eq (fun _ _ => False).
Proof.
  split; [|intros t s []]. intros t s <-. destruct t as [|b t]; eexists; split; reflexivity.
Qed.
Lemma slice_same {A} (i : ip A) j : rel i j -> forall F l, i F _ slice_next l = j F _ faulty_slice l.
Proof.
  intros H F l. destruct (proj1 (H F _ _ _ _ _ _ tracks_slice) l l eq_refl) as [[E1 E2]|[_ []]].
  destruct (i F _ _ l), (j F _ _ l). cbn in *. congruence.
Qed.
Lemma rel_retval : rel i_retval j_retval.
Proof.
  unfold i_retval, j_retval. apply rel_bind; [apply rel_byte|]. intros b.
  assert (G : rel (fun fuel S (next : iterator S) s =>
    match i_valty fuel (list byte) slice_next [b] with
    | (Ok t, _) => (Ok [t], s) | (Err e, _) => (Err e, s) | (Panic, _) => (Panic, s) | (OutOfFuel, _) => (OutOfFuel, s) end)
    (fun fuel S (next : faulty S) s =>
    match j_valty fuel (list byte) faulty_slice [b] with
    | (Ok t, _) => (Ok [t], s) | (Err e, _) => (Err e, s) | (Panic, _) => (Panic, s) | (OutOfFuel, _) => (OutOfFuel, s) end)).
  { intros F S T next pn R D TR. rewrite (slice_same _ _ rel_valty). destruct (j_valty F _ _ _) as [[t|e| |] r0];
    (split; [intros t0 s H; left; split; [reflexivity|exact H]|intros t0 s H; exact H]). }
  destruct b; first [apply rel_ret|exact G].
Qed.
Lemma rel_functy : rel i_functy j_functy. Proof. pose proof rel_valty. unfold i_functy, j_functy. b_rel. Qed.
Lemma rel_tablety : rel i_tablety j_tablety. Proof. pose proof rel_elemty. pose proof rel_limits. unfold i_tablety, j_tablety. m_rel. Qed.
Lemma rel_memty : rel i_memty j_memty. Proof. pose proof rel_limits. unfold i_memty, j_memty. m_rel. Qed.
Lemma rel_globalty : rel i_globalty j_globalty. Proof. pose proof rel_valty. pose proof rel_mut. unfold i_globalty, j_globalty. m_rel. Qed.

(** ** Instructions *)
Lemma rel_expr_of sub sub' : rel sub sub' -> rel (i_expr_of sub) (j_expr_of sub').
Proof.
  intros S. unfold i_expr_of, j_expr_of. apply rel_bind; [assumption|]. intros [e i]. destruct i; first [apply rel_ret|apply rel_fail].
Qed.
Lemma rel_if_of sub sub' : rel sub sub' -> rel (i_if_of sub) (j_if_of sub').
Proof.
  intros S. unfold i_if_of, j_if_of. apply rel_bind; [apply rel_retval|]. intros rt. apply rel_bind; [assumption|].
  intros [b1 n1]. apply rel_bind.
  - destruct (is_else n1); [assumption|apply rel_ret].
  - intros [b2 n2]. destruct (is_end n2); [apply rel_ret|apply rel_fail].
Qed.
Lemma rel_opcode sub sub' b : rel sub sub' -> rel (i_opcode sub b) (j_opcode sub' b).
Proof.
  intros S. pose proof (rel_expr_of _ _ S). pose proof (rel_if_of _ _ S). pose proof rel_u32. pose proof rel_retval.
  pose proof (rel_vec _ _ rel_u32). pose proof (rel_signed 32). pose proof (rel_signed 64).
  pose proof (rel_float LittleEndian 4). pose proof (rel_float LittleEndian 8).
  destruct b; unfold i_opcode, j_opcode, i_labelidx, i_funcidx, i_typeidx, i_tableidx, i_localidx, i_globalidx, i_memidx,
    j_labelidx, j_funcidx, j_typeidx, j_tableidx, j_localidx, j_globalidx, j_memidx;
  first [ apply rel_ret | apply rel_fail | assumption
        | apply rel_bind; [assumption|intros a]; first [apply rel_ret|apply rel_bind; [assumption|intros a']; apply rel_ret]].
Qed.
Lemma rel_instr_sub n : rel (i_instr n) (j_instr n) /\ forall acc, rel (i_subexpr n acc) (j_subexpr n acc).
Proof.
  induction n as [|n [IH1 IH2]]; cbn [i_instr i_subexpr j_instr j_subexpr].
  - split; intros; apply rel_oof.
  - split.
    + apply rel_bind; [apply rel_byte|]. intros b. apply rel_opcode, IH2.
    + intros acc. apply rel_bind; [exact IH1|]. intros i. destruct i; first [apply rel_ret|apply IH2].
Qed.
Lemma rel_expr : rel i_expr j_expr. Proof. intros F. exact (rel_expr_of _ _ (proj2 (rel_instr_sub F) []) F). Qed.
Lemma rel_constexpr : rel i_constexpr j_constexpr. Proof. apply rel_expr. Qed.
Lemma rel_instr_top : rel i_instr_top j_instr_top. Proof. intros F. exact (proj1 (rel_instr_sub F) F). Qed.

(** ** Components of modules *)
Ltac c_rel := pose proof rel_valty; pose proof rel_limits; pose proof rel_functy; pose proof rel_tablety; pose proof rel_memty;
  pose proof rel_globalty; pose proof rel_expr; pose proof rel_constexpr; pose proof rel_u32.
Lemma rel_func : rel i_func j_func. Proof. c_rel. unfold i_func, j_func. m_rel. Qed.
Lemma rel_table : rel i_table j_table. Proof. c_rel. unfold i_table, j_table. m_rel. Qed.
Lemma rel_mem : rel i_mem j_mem. Proof. c_rel. unfold i_mem, j_mem. m_rel. Qed.
Lemma rel_global : rel i_global j_global. Proof. c_rel. unfold i_global, j_global. m_rel. Qed.
Lemma rel_elem : rel i_elem j_elem. Proof. c_rel. unfold i_elem, j_elem, i_tableidx, j_tableidx, i_funcidx, j_funcidx. m_rel. Qed.
Lemma rel_data : rel i_data j_data. Proof. c_rel. unfold i_data, j_data, i_memidx, j_memidx. m_rel. Qed.
Lemma rel_start : rel i_start j_start. Proof. c_rel. unfold i_start, j_start, i_funcidx, j_funcidx. m_rel. Qed.
Lemma rel_importdesc : rel i_importdesc j_importdesc. Proof. c_rel. unfold i_importdesc, j_importdesc, i_typeidx, j_typeidx. b_rel. Qed.
Lemma rel_exportdesc : rel i_exportdesc j_exportdesc.
Proof.
  c_rel. unfold i_exportdesc, j_exportdesc, i_funcidx, j_funcidx, i_tableidx, j_tableidx, i_memidx, j_memidx, i_globalidx, j_globalidx. b_rel.
Qed.
Lemma rel_import : rel i_import j_import. Proof. pose proof rel_importdesc. unfold i_import, j_import. m_rel. Qed.
Lemma rel_export : rel i_export j_export. Proof. pose proof rel_exportdesc. unfold i_export, j_export. m_rel. Qed.
Lemma rel_section id s : rel (i_section id s) (j_section id s).
Proof.
  unfold i_section, j_section, i_typeidx, j_typeidx.
  destruct id; try apply rel_fail; (apply rel_bind; [|intro]); try apply rel_ret;
    try (apply rel_sized; first [apply rel_vec|idtac];
         first [apply rel_functy|apply rel_import|apply rel_u32|apply rel_table|apply rel_mem|apply rel_global|apply rel_export|apply rel_elem|apply rel_data|apply rel_start|apply rel_custom]).
  - apply rel_sized, rel_unwrapping_vec, rel_sized, rel_func.
  - cbv zeta. destruct (negb _); [apply rel_fail|]. destruct (assign_types _ _ _); first [apply rel_ret|apply rel_panic].
Qed.

(** ** The section loop *)
Definition live_peek {S T} (R : T -> S -> Prop) (q : peekable T) (p : peekable S) : Prop :=
  R (pk_inner q) (pk_inner p) /\ pk_peeked q = pk_peeked p.
Definition dead_peek {S T} (D : T -> S -> Prop) (q : peekable T) (p : peekable S) : Prop := D (pk_inner q) (pk_inner p).
Lemma tracks_peek {S T} (next : iterator S) (pn : faulty T) R D : tracks next pn R D ->
  tracks (peekable_next next) (faulty_peekable pn) (live_peek R) (dead_peek D).
Proof.
  intros [L K]. split.
  - intros [t v] [s v'] (H & E). cbn in H, E. subst v'. unfold faulty_peekable, peekable_next. cbn [pk_peeked pk_inner]. destruct v as [v|].
    + eexists. split; [reflexivity|]. split; [exact H|reflexivity].
    + specialize (L t s H). destruct (pn t) as [[v t1]|].
      * destruct L as (s1 & -> & L). eexists. split; [reflexivity|]. split; [exact L|reflexivity].
      * destruct (next s) as [v s1]. exact L.
  - intros [t v] [s v'] H. unfold peekable_next. cbn [pk_peeked pk_inner]. destruct v' as [v'|]; [exact H|].
    specialize (K t s H). destruct (next s) as [w s1]. exact K.
Qed.
Lemma rel_round s : rel (i_round s) (j_round s).
Proof.
  unfold i_round, j_round. apply rel_bind; [apply rel_byte|]. intros id. destruct (_ && _)%bool; [apply rel_fail|apply rel_section].
Qed.
Lemma rel_sections F S T (next : iterator S) (pn : faulty T) R D : tracks next pn R D -> forall n st,
  (forall q p, live_peek R q p -> together (live_peek R) (dead_peek D) (i_sections n st F S next p) (j_sections n st F T pn q)) /\
  (forall q p, dead_peek D q p -> dead_peek D q (snd (i_sections n st F S next p))).
Proof.
  intros TR n. pose proof (tracks_peek _ _ _ _ TR) as TP. destruct TR as [L K].
  induction n as [|n IH]; intros st; cbn [i_sections j_sections].
  { split; intros q p H; [left; split; [reflexivity|exact H]|exact H]. }
  assert (KK : forall q p, dead_peek D q p -> dead_peek D q (snd (match i_round st F (peekable S) (peekable_next next) p with
      | (Ok s2, p2) => i_sections n s2 F S next p2 | (Err e, p2) => (Err e, p2) | (Panic, p2) => (Panic, p2) | (OutOfFuel, p2) => (OutOfFuel, p2) end))).
  { intros q p H. pose proof (proj2 (rel_round st F _ _ _ _ _ _ TP) q p H) as H1. destruct (i_round _ _ _ _ p) as [[s2|e| |] p2]; cbn [snd] in *; try exact H1.
    apply IH, H1. }
  split.
  - intros [t v] [s v'] [H E]. cbn in H, E. subst v'. unfold faulty_peek, peek. cbn [pk_peeked pk_inner].
    assert (GO : forall q p, live_peek R q p -> together (live_peek R) (dead_peek D)
      (match i_round st F (peekable S) (peekable_next next) p with
      | (Ok s2, p2) => i_sections n s2 F S next p2 | (Err e, p2) => (Err e, p2) | (Panic, p2) => (Panic, p2) | (OutOfFuel, p2) => (OutOfFuel, p2) end)
      (match j_round st F (peekable T) (faulty_peekable pn) q with
      | (Ok s2, p2) => j_sections n s2 F T pn p2 | (Err e, p2) => (Err e, p2) | (Panic, p2) => (Panic, p2) | (OutOfFuel, p2) => (OutOfFuel, p2) end)).
    { intros q p H0. pose proof (proj1 (rel_round st F _ _ _ _ _ _ TP) q p H0) as H1.
      destruct (i_round _ _ _ _ p) as [o p2], (j_round _ _ _ _ q) as [o' q2]. destruct H1 as [[E1 L1]|[E1 L1]]; cbn [fst snd] in E1, L1; subst o'.
      - destruct o as [s2|e| |]; [apply IH, L1|left; split; [reflexivity|exact L1]..].
      - right. split; [reflexivity|]. cbn [snd]. destruct o as [s2|e| |]; [apply IH, L1|exact L1..]. }
    destruct v as [[b|]|].
    + apply GO. split; [exact H|reflexivity].
    + left. split; [reflexivity|]. split; [exact H|reflexivity].
    + specialize (L t s H). destruct (pn t) as [[[b|] t1]|].
      * destruct L as (s1 & -> & L). apply GO. split; [exact L|reflexivity].
      * destruct L as (s1 & -> & L). left. split; [reflexivity|]. split; [exact L|reflexivity].
      * right. split; [reflexivity|]. cbn [snd]. destruct (next s) as [[b|] s1]; [apply KK|]; exact L.
  - intros [t v] [s v'] H. unfold peek. cbn [pk_peeked pk_inner]. destruct v' as [[b|]|]; [apply KK, H|exact H|].
    specialize (K t s H). destruct (next s) as [[b|] s1]; [apply KK|]; exact K.
Qed.
Lemma rel_body : rel i_body j_body.
Proof.
  intros F S T next pn R D TR. unfold i_body, j_body. destruct (rel_sections F S T next pn R D TR F (mkPstate default_module [] 0)) as [H1 H2]. split.
  - intros t s H. specialize (H1 (mkPeekable t None) (mkPeekable s None) (conj H eq_refl)).
    destruct (i_sections _ _ _ _ _ _) as [o p], (j_sections _ _ _ _ _ _) as [o' q]. destruct H1 as [[E L]|[E L]]; cbn [fst snd] in E, L; subst o'.
    + left. split; [reflexivity|]. apply L.
    + right. split; [reflexivity|exact L].
  - intros t s H. specialize (H2 (mkPeekable t None) (mkPeekable s None) H). destruct (i_sections _ _ _ _ _ _) as [o p]. exact H2.
Qed.
Lemma rel_module : rel i_module j_module.
Proof.
  unfold i_module, j_module, i_array, j_array. apply rel_bind; [apply rel_times, rel_byte|]. intros magic. destruct (negb _); [apply rel_fail|].
  apply rel_bind; [apply rel_times, rel_byte|]. intros version. destruct (negb _); [apply rel_fail|].
  apply rel_bind; [apply rel_body|]. intros s. apply rel_ret.
Qed.
