(** The canonical encoding is the shortest. *)
From Coq Require Import Lia.
From Verif Require Import SpecEncoder InstrProof SectionsProof EncodeProof DialectProof.
Open Scope N_scope.
Ltac nl := repeat (progress (rewrite ?app_length in *; cbn [length] in *)).

(** ** Integers *)
Lemma u_short k : forall bs, SpecLeb.leb bs -> (length (u_bytes k (uleb_val bs)) <= length bs)%nat.
Proof.
  induction k as [|k IH]; intros bs L; [cbn; lia|]. cbn [u_bytes]. destruct L as [b B|b bs B L].
  - cbn [uleb_val]. unfold payload. rewrite N.mod_small by assumption. rewrite (proj2 (N.ltb_lt _ _)) by lia. cbn. lia.
  - cbn [uleb_val]. destruct (_ <? 128) eqn:E; [cbn; lia|]. cbn [length].
    assert (D : (payload b + 128 * uleb_val bs) / 128 = uleb_val bs).
    { rewrite (N.mul_comm 128), N.div_add by discriminate. unfold payload. rewrite (N.div_small (_ mod _)) by (apply N.mod_lt; discriminate). reflexivity. }
    rewrite D. specialize (IH bs L). lia.
Qed.
Lemma s_short k : forall bs, SpecLeb.leb bs -> (length (s_bytes k (sleb_val bs)) <= length bs)%nat.
Proof.
  induction k as [|k IH]; intros bs L; [cbn; lia|]. cbn [s_bytes]. destruct L as [b B|b bs B L].
  - cbn [sleb_val]. unfold payload7s, payload. rewrite N.mod_small by assumption.
    destruct (_ <? 64) eqn:E; [apply N.ltb_lt in E|apply N.ltb_ge in E];
      (rewrite (proj2 (Z.leb_le _ _)) by lia; rewrite (proj2 (Z.ltb_lt _ _)) by lia; cbn; lia).
  - assert (V : sleb_val (b :: bs) = (Z.of_N (payload b) + 128 * sleb_val bs)%Z) by (destruct L; reflexivity).
    rewrite V. destruct (_ && _)%bool eqn:E; [cbn; lia|]. cbn [length].
    assert (P : payload b < 128) by (apply N.mod_lt; discriminate).
    replace ((Z.of_N (payload b) + 128 * sleb_val bs) / 128)%Z with (sleb_val bs) by (apply Z.div_unique with (r := Z.of_N (payload b)); lia).
    specialize (IH bs L). lia.
Qed.
Lemma le_length k : forall v, length (le_bytes k v) = k.
Proof. induction k as [|k IH]; intros v; cbn; [reflexivity|]. rewrite IH. reflexivity. Qed.

Section Dialect.
Context (fd : fdialect).
(** [e] is at least as short as any encoding *)
Definition shorter {A} (e : A -> list byte) (E : format A) : Prop := forall bs x, E bs x -> (length (e x) <= length bs)%nat.

Lemma sh_u32 : shorter e_u32 (enc_u32 fd).
Proof. intros bs v ((L & <- & _) & _). apply u_short, L. Qed.
Lemma sh_list {A} (e : A -> list byte) (E : format A) : shorter e E -> shorter (flat_map e) (enc_list E).
Proof.
  intros H bs xs (cs & F & ->). induction F as [|c x cs xs X F IH]; [cbn; lia|]. cbn. nl. apply H in X. lia.
Qed.
Lemma sh_vec {A} (e : A -> list byte) (E : format A) : shorter e E -> shorter (e_vec e) (enc_vec fd E).
Proof. intros H bs xs (n & es & -> & N & L). unfold e_vec. nl. apply sh_u32 in N. apply (sh_list e E H) in L. lia. Qed.
Lemma u_mono k : forall v w, v <= w -> (length (u_bytes k v) <= length (u_bytes k w))%nat.
Proof.
  induction k as [|k IH]; intros v w L; [reflexivity|]. cbn [u_bytes]. destruct (v <? 128) eqn:E.
  - destruct (w <? 128); cbn; lia.
  - apply N.ltb_ge in E. rewrite (proj2 (N.ltb_ge w 128)) by lia. cbn [length]. specialize (IH (v / 128) (w / 128)).
    assert (v / 128 <= w / 128) by (apply N.div_le_mono; [discriminate|assumption]). specialize (IH H). lia.
Qed.
Lemma sh_sized {A} (e : A -> list byte) (E : format A) : shorter e E -> shorter (fun x => e_sized (e x)) (enc_sized fd E).
Proof.
  intros H bs x (n & c & -> & N & X). unfold e_sized. nl. apply H in X. apply sh_u32 in N.
  pose proof (u_mono 5 (N.of_nat (length (e x))) (N.of_nat (length c))) as M. specialize (M ltac:(lia)). unfold e_u32 in *. lia.
Qed.
Lemma sh_byte : shorter (fun b => [b]) enc_byte.
Proof. intros bs b ->. reflexivity. Qed.
Lemma sh_name : shorter e_name (enc_name fd).
Proof. intros bs n [V _]. eapply sh_vec; [apply sh_byte|exact V]. Qed.
Lemma sh_valty : shorter e_valty enc_valty.
Proof. intros bs t ->. reflexivity. Qed.
Lemma sh_blockty : shorter e_blockty enc_blockty.
Proof. intros bs rt [[-> ->]|(t & -> & ->)]; reflexivity. Qed.
Lemma sh_functy : shorter e_functy (enc_functy fd).
Proof.
  intros bs t (p & r & -> & P & R). unfold e_functy. nl. apply (sh_vec _ _ sh_valty) in P. apply (sh_vec _ _ sh_valty) in R. lia.
Qed.
Lemma sh_limits : shorter e_limits (enc_limits fd).
Proof.
  intros bs l H. unfold enc_limits, e_limits in *. destruct (lim_max l).
  - destruct H as (a & b & -> & A & B). nl. apply sh_u32 in A. apply sh_u32 in B. lia.
  - destruct H as (a & -> & A). nl. apply sh_u32 in A. lia.
Qed.
Lemma sh_tablety : shorter e_tablety (enc_tablety fd).
Proof. intros bs t H. unfold enc_tablety, e_tablety in *. destruct H as (b & -> & _ & H). apply sh_limits in H. nl. lia. Qed.
Lemma sh_globalty : shorter e_globalty enc_globalty.
Proof. intros bs t H. unfold enc_globalty, e_globalty in *. rewrite H. reflexivity. Qed.

(** ** Code *)
Lemma e_plain i op : plain_opcode i = Some op -> length (e_instr i) = 1%nat.
Proof. intros H. destruct i; try discriminate H; reflexivity. Qed.
Lemma e_index i op x : index_opcode i = Some (op, x) -> e_instr i = op :: e_u32 x.
Proof. intros H. destruct i; try discriminate H; cbn in *; injection H as <- <-; reflexivity. Qed.
Lemma e_memarg i op al off : memarg_opcode i = Some (op, al, off) -> e_instr i = op :: e_u32 al ++ e_u32 off.
Proof. intros H. destruct i; try discriminate H; cbn in *; injection H as <- <- <-; reflexivity. Qed.
Lemma sh_instrs :
  (forall bs i, enc_instr fd bs i -> (length (e_instr i) <= length bs)%nat) /\
  (forall bs is, enc_instrs fd bs is -> (length (flat_map e_instr is) <= length bs)%nat).
Proof.
  apply enc_instr_instrs_ind.
  - intros i op H. rewrite (e_plain _ _ H). reflexivity.
  - intros i op x xb H X. rewrite (e_index _ _ _ H). apply sh_u32 in X. nl. lia.
  - intros i op al off ab ob H A O. rewrite (e_memarg _ _ _ _ H). apply sh_u32 in A. apply sh_u32 in O. nl. lia.
  - intros ls l lsb lb V L. apply (sh_vec _ _ sh_u32) in V. apply sh_u32 in L. cbn [e_instr]. nl. lia.
  - intros ty tab tyb tabb T [R _]. apply sh_u32 in T. apply sh_u32 in R. cbn [e_instr]. nl. lia.
  - intros m mb [R _]. apply sh_u32 in R. cbn [e_instr]. nl. lia.
  - intros m mb [R _]. apply sh_u32 in R. cbn [e_instr]. nl. lia.
  - intros n nb ((L & <- & _) & _). cbn [e_instr]. pose proof (s_short 5 nb L). nl. lia.
  - intros n nb ((L & <- & _) & _). cbn [e_instr]. pose proof (s_short 10 nb L). nl. lia.
  - intros z zb (L & _). cbn [e_instr length]. rewrite le_length, L. reflexivity.
  - intros z zb (L & _). cbn [e_instr length]. rewrite le_length, L. reflexivity.
  - intros rt is rtb isb T _ H. apply sh_blockty in T. cbn [e_instr]. nl. lia.
  - intros rt is rtb isb T _ H. apply sh_blockty in T. cbn [e_instr]. nl. lia.
  - intros rt is rtb isb T _ H. apply sh_blockty in T. cbn [e_instr]. nl. lia.
  - intros rt is1 is2 rtb is1b is2b T _ H1 _ H2. apply sh_blockty in T. destruct is2; cbn [e_instr]; nl; lia.
  - cbn. lia.
  - intros i is ib isb _ H _ H2. cbn [flat_map]. nl. lia.
Qed.
Lemma sh_expr : shorter e_expr (enc_expr fd).
Proof. intros bs e (b & -> & H). apply sh_instrs in H. unfold e_expr. nl. lia. Qed.

(** ** Module components *)
Lemma sh_importdesc : shorter e_importdesc (enc_importdesc fd).
Proof.
  intros bs [x|x|x|x]; cbn [enc_importdesc e_importdesc]; intros (b & -> & H); nl.
  - apply sh_u32 in H. lia.
  - apply sh_tablety in H. lia.
  - apply sh_limits in H. lia.
  - apply sh_globalty in H. cbn in H |- *. lia.
Qed.
Lemma sh_import : shorter e_import (enc_import fd).
Proof.
  intros bs i (a & b & c & -> & A & B & D). unfold e_import. nl. apply sh_name in A. apply sh_name in B. apply sh_importdesc in D. lia.
Qed.
Lemma sh_table : shorter e_table (enc_table fd).
Proof. intros bs t H. exact (sh_tablety _ _ H). Qed.
Lemma sh_mem : shorter e_mem (enc_mem fd).
Proof. intros bs t H. exact (sh_limits _ _ H). Qed.
Lemma sh_global : shorter e_global (enc_global fd).
Proof. intros bs g (a & b & -> & A & B). unfold e_global. nl. apply sh_globalty in A. apply sh_expr in B. cbn in *. lia. Qed.
Lemma sh_exportdesc : shorter e_exportdesc (enc_exportdesc fd).
Proof. intros bs [x|x|x|x]; cbn [enc_exportdesc e_exportdesc]; intros (b & -> & H); nl; apply sh_u32 in H; lia. Qed.
Lemma sh_export : shorter e_export (enc_export fd).
Proof. intros bs x (a & b & -> & A & B). unfold e_export. nl. apply sh_name in A. apply sh_exportdesc in B. lia. Qed.
Lemma sh_start : shorter e_start (enc_start fd).
Proof. intros bs s H. exact (sh_u32 _ _ H). Qed.
Lemma sh_elem : shorter e_elem (enc_elem fd).
Proof.
  intros bs x (a & b & c & -> & A & B & D). unfold e_elem. nl. apply sh_u32 in A. apply sh_expr in B. apply (sh_vec _ _ sh_u32) in D. lia.
Qed.
Lemma sh_data : shorter e_data (enc_data fd).
Proof.
  intros bs x (a & b & c & -> & A & B & D). unfold e_data. nl. apply sh_u32 in A. apply sh_expr in B. apply (sh_vec _ _ sh_byte) in D. lia.
Qed.

(** *** Runs of locals *)
Lemma u_double k : forall v, (length (u_bytes k (2 * v)) <= S (length (u_bytes k v)))%nat.
Proof.
  destruct k as [|k]; intros v; [cbn; lia|]. cbn [u_bytes]. destruct (2 * v <? 128) eqn:E; [cbn; lia|]. apply N.ltb_ge in E.
  cbn [length]. apply le_n_S. destruct (v <? 128) eqn:F.
  - apply N.ltb_lt in F. assert (D : 2 * v / 128 = 1) by (symmetry; apply N.div_unique with (2 * v - 128); lia).
    rewrite D. destruct k; cbn; lia.
  - cbn [length]. assert (L : 2 * v / 128 <= 2 * (v / 128) + 1).
    { pose proof (N.div_mod v 128 ltac:(discriminate)) as D. pose proof (N.mod_lt v 128 ltac:(discriminate)).
      apply N.lt_succ_r, N.div_lt_upper_bound; [discriminate|]. lia. }
    apply (u_mono k) in L. etransitivity; [exact L|]. clear.
    revert v. induction k as [|k IH]; intros v; [cbn; lia|]. cbn [u_bytes]. set (w := v / 128). 
    destruct (2 * w + 1 <? 128) eqn:E; [destruct (w <? 128); cbn; lia|]. apply N.ltb_ge in E. cbn [length]. apply le_n_S.
    destruct (w <? 128) eqn:F.
    + apply N.ltb_lt in F. assert (D : (2 * w + 1) / 128 = 1) by (symmetry; apply N.div_unique with (2 * w + 1 - 128); lia).
      rewrite D. destruct k; cbn; lia.
    + cbn [length]. assert (L : (2 * w + 1) / 128 <= 2 * (w / 128) + 1).
      { pose proof (N.div_mod w 128 ltac:(discriminate)) as D. pose proof (N.mod_lt w 128 ltac:(discriminate)).
        apply N.lt_succ_r, N.div_lt_upper_bound; [discriminate|]. lia. }
      apply (u_mono k) in L. etransitivity; [exact L|]. apply IH.
Qed.
Lemma u_pos v : (1 <= length (e_u32 v))%nat.
Proof. unfold e_u32. cbn [u_bytes]. destruct (v <? 128); cbn [length]; lia. Qed.
Lemma u_add a b : (length (e_u32 (a + b)) <= length (e_u32 a) + length (e_u32 b))%nat.
Proof.
  assert (M : a + b <= 2 * N.max a b) by lia. apply (u_mono 5) in M. pose proof (u_double 5 (N.max a b)) as D.
  pose proof (u_pos a). pose proof (u_pos b). unfold e_u32 in *. destruct (N.max_spec a b) as [[_ E]|[_ E]]; rewrite E in *; lia.
Qed.
Definition run_bytes (rs : list (u32 * valty)) : nat := length (flat_map e_run rs).
Lemma runs_repeat t n l : runs_of (repeat t n ++ l) =
  match n with O => runs_of l | _ =>
    match runs_of l with
    | (k, t') :: rs => if valty_eqb t t' then (N.of_nat n + k, t) :: rs else (N.of_nat n, t) :: (k, t') :: rs
    | [] => [(N.of_nat n, t)]
    end
  end.
Proof.
  induction n as [|n IH]; [reflexivity|]. cbn [repeat app runs_of]. rewrite IH. clear IH.
  assert (T : valty_eqb t t = true) by (destruct t; reflexivity).
  destruct n; [destruct (runs_of l) as [|[k t'] rs]; [reflexivity|]; destruct (valty_eqb t t') eqn:E; [|reflexivity]; rewrite N.add_comm; reflexivity|].
  destruct (runs_of l) as [|[k t'] rs]; [rewrite T; f_equal; f_equal; lia|]. destruct (valty_eqb t t'); rewrite T; f_equal; f_equal; lia.
Qed.
Lemma runs_shorter rs : (length (runs_of (expand_runs rs)) <= length rs)%nat /\ (run_bytes (runs_of (expand_runs rs)) <= run_bytes rs)%nat.
Proof.
  induction rs as [|[n t] rs [IH1 IH2]]; [split; reflexivity|]. unfold expand_runs in *. cbn [flat_map fst snd]. rewrite runs_repeat.
  assert (R : forall n t rs, run_bytes ((n, t) :: rs) = (length (e_u32 n) + 1 + run_bytes rs)%nat).
  { intros. unfold run_bytes, e_run, e_valty. cbn [flat_map fst snd]. nl. reflexivity. }
  destruct (N.to_nat n) as [|k] eqn:E.
  - rewrite R. cbn [length]. lia.
  - rewrite <- E, N2Nat.id. destruct (runs_of _) as [|[k' t'] rs'].
    + rewrite !R. unfold run_bytes at 1. cbn [flat_map length]. lia.
    + destruct (valty_eqb t t'); rewrite !R in *; cbn [length] in *; [|lia]. pose proof (u_add n k'). lia.
Qed.
Lemma sh_func bs f : enc_func fd bs (fn_locals f, fn_body f) -> (length (e_func f) <= length bs)%nat.
Proof.
  intros (rb & eb & runs & -> & (n & es & -> & N & L) & E & _ & B). unfold e_func, e_vec. cbn [fst snd] in *. rewrite E. nl.
  apply sh_expr in B. apply (sh_list e_run) in L.
  2: { intros b r (nb & tb & -> & R & T). unfold e_run. nl. apply sh_u32 in R. apply sh_valty in T. lia. }
  destruct (runs_shorter runs) as [A1 A2]. unfold run_bytes in A2. apply sh_u32 in N.
  pose proof (u_mono 5 (N.of_nat (length (runs_of (expand_runs runs)))) (N.of_nat (length runs))) as M. specialize (M ltac:(lia)). unfold e_u32 in *. lia.
Qed.
End Dialect.

(** ** Sections *)
Section Modules.
Context (fd : fdialect).
Fixpoint weight (k : N) (cs : list (list byte)) (ss : list section) : nat :=
  match cs, ss with
  | c :: cs', s :: ss' => ((if (section_id s =? k)%N then length c else 0) + weight k cs' ss')%nat
  | _, _ => 0%nat
  end.
Lemma weights cs : forall ss, Forall2 (enc_section fd) cs ss ->
  (weight 1 cs ss + weight 2 cs ss + weight 3 cs ss + weight 4 cs ss + weight 5 cs ss + weight 6 cs ss +
   weight 7 cs ss + weight 8 cs ss + weight 9 cs ss + weight 10 cs ss + weight 11 cs ss <= length (concat cs))%nat.
Proof.
  intros ss F. induction F as [|c s cs ss H F IH]; [cbn; lia|]. cbn [weight concat]. rewrite app_length.
  destruct s; cbn [section_id N.eqb Pos.eqb]; lia.
Qed.
Lemma later_empty {A} (get : section -> list A) k : 0 < k -> (forall s, section_id s <> k -> get s = []) ->
  forall ss lo, k <= lo -> increasing lo (ids ss) -> flat_map get ss = [].
Proof.
  intros K G ss lo L I. induction ss as [|s ss IH]; [reflexivity|]. cbn [flat_map]. rewrite IH; [rewrite app_nil_r; apply G|].
  - intros E. assert (C : is_custom s = false) by (destruct s; try reflexivity; cbn in E; lia).
    pose proof (increasing_lt _ _ (section_id s) I (ids_in s (s :: ss) (or_introl eq_refl) C)). lia.
  - unfold ids in *. cbn [filter] in I. destruct (negb (is_custom s)); [|exact I]. destruct I as [H I]. eapply increasing_le; [exact I|]. lia.
Qed.
(** a component comes from one section *)
Lemma component {A} (get : section -> list A) k : 0 < k -> (forall s, section_id s <> k -> get s = []) ->
  forall cs ss, Forall2 (enc_section fd) cs ss -> forall lo, increasing lo (ids ss) ->
  flat_map get ss = [] \/ exists c s, enc_section fd c s /\ section_id s = k /\ flat_map get ss = get s /\ (length c <= weight k cs ss)%nat.
Proof.
  intros K G cs ss F. induction F as [|c s cs ss H F IH]; intros lo I; [left; reflexivity|]. cbn [flat_map weight].
  destruct (N.eq_dec (section_id s) k) as [E|E].
  - right. exists c, s. split; [assumption|]. split; [assumption|]. rewrite E, N.eqb_refl. split; [|lia].
    rewrite (later_empty get k K G ss k); [apply app_nil_r|lia|]. 
    assert (C : is_custom s = false) by (destruct s; try reflexivity; cbn in E; lia).
    unfold ids in *. cbn [filter] in I. rewrite C in I. cbn in I. rewrite E in I. apply I.
  - rewrite (G s E). cbn [app]. destruct (IH lo) as [IHl|(c' & s' & IHr)].
    + unfold ids in *. cbn [filter] in I. destruct (negb (is_custom s)); [|exact I]. destruct I as [? I]. eapply increasing_le; [exact I|]. lia.
    + left. assumption.
    + right. exists c', s'. intuition lia.
Qed.

(** size of an encoded component *)
Definition sec_size (s : list (byte * list byte)) : nat := length (flat_map (fun s => fst s :: e_sized (snd s)) s).
Definition small_secs (s : list (byte * list byte)) : Prop := forall x, In x s -> N.of_nat (length (snd x)) < 2 ^ 32.
Lemma one_section {B} (E : format B) id c (v : B) (x : list byte) :
  (exists b, c = id :: b /\ enc_sized fd E b v) -> (forall bs, E bs v -> (length x <= length bs)%nat) ->
  (sec_size [(id, x)] <= length c)%nat /\ small_secs [(id, x)].
Proof.
  intros (b & -> & n & cont & -> & N & H) S. specialize (S _ H). unfold sec_size, e_sized. cbn [flat_map fst snd]. nl.
  pose proof (u_mono 5 (N.of_nat (length x)) (N.of_nat (length cont))) as M. specialize (M ltac:(lia)).
  pose proof (sh_u32 fd _ _ N) as N'. destruct N as ((_ & _ & N) & _). unfold fits_u in N. split; [unfold e_u32 in *; lia|].
  intros y [<-|[]]. cbn [snd]. lia.
Qed.
Lemma vec_section {A B} (E : format B) (e : A -> list byte) (f : A -> B) id c v w :
  (exists b, c = id :: b /\ enc_sized fd (enc_vec fd E) b v) -> v = map f w -> (forall bs x, E bs (f x) -> (length (e x) <= length bs)%nat) ->
  (sec_size (section_if id e w) <= length c)%nat /\ small_secs (section_if id e w).
Proof.
  intros H -> S. assert (X : (sec_size [(id, e_vec e w)] <= length c)%nat /\ small_secs [(id, e_vec e w)]).
  { eapply (one_section (enc_vec fd E)); [exact H|]. intros bs (n & es & -> & N & L). unfold e_vec. nl. rewrite map_length in N.
    apply sh_u32 in N. destruct L as (cs & F & ->). enough (length (flat_map e w) <= length (concat cs))%nat by lia. clear - F S.
    revert cs F. induction w as [|x w IH]; intros cs F; [cbn; lia|]. cbn [map] in F. inversion F as [|c0 y0 cs0 ys0 H1 H3]; subst. cbn. nl. apply S in H1. apply IH in H3. lia. }
  unfold section_if. destruct w; [|exact X]. split; [cbn; lia|intros x []].
Qed.

Ltac nothing := let E := fresh in let s := fresh in intros s E; destruct s; try reflexivity; destruct E; reflexivity.
Lemma absent_secs {A} id (e : A -> list byte) n : (sec_size (section_if id e []) <= n)%nat /\ small_secs (section_if id e []).
Proof. split; [cbn; lia|intros x []]. Qed.
Lemma comp_section {A} (get : section -> list A) (mk : list A -> section) k id (E : format A) (e : A -> list byte) cs ss lo :
  0 < k -> (forall s, section_id s <> k -> get s = []) ->
  (forall s, section_id s = k -> s = mk (get s)) ->
  (forall c v, enc_section fd c (mk v) -> exists b, c = id :: b /\ enc_sized fd (enc_vec fd E) b v) ->
  shorter e E -> Forall2 (enc_section fd) cs ss -> increasing lo (ids ss) ->
  (sec_size (section_if id e (flat_map get ss)) <= weight k cs ss)%nat /\ small_secs (section_if id e (flat_map get ss)).
Proof.
  intros K G MK EN SH F I. destruct (component get k K G cs ss F lo I) as [->|(c & s & H & S & -> & L)]; [apply absent_secs|].
  rewrite (MK s S) in H. apply EN in H. destruct (vec_section E e (fun x => x) id c (get s) (get s) H) as [S1 S2].
  - rewrite map_id. reflexivity.
  - exact SH.
  - split; [lia|assumption].
Qed.
Lemma small_app a b : small_secs a -> small_secs b -> small_secs (a ++ b).
Proof. intros A B x I. apply in_app_or in I as [I|I]; auto. Qed.
Lemma size_app a b : sec_size (a ++ b) = (sec_size a + sec_size b)%nat.
Proof. unfold sec_size. rewrite flat_map_app, app_length. reflexivity. Qed.
Lemma pair_none cs : pair_funcs [] cs = []. Proof. reflexivity. Qed.
Lemma pair_types ts : forall cs, length ts = length cs -> map fn_ty (pair_funcs ts cs) = ts.
Proof. induction ts as [|t ts IH]; intros [|c cs] L; try discriminate L; [reflexivity|]. cbn in *. unfold pair_funcs in *. cbn. rewrite IH by lia. reflexivity. Qed.
Lemma pair_codes ts : forall cs, length ts = length cs -> map (fun f => (fn_locals f, fn_body f)) (pair_funcs ts cs) = cs.
Proof.
  induction ts as [|t ts IH]; intros [|[l b] cs] L; try discriminate L; [reflexivity|]. cbn in *. unfold pair_funcs in *. cbn. rewrite IH by lia. reflexivity.
Qed.

Theorem sections_short cs ss : Forall2 (enc_section fd) cs ss -> ordered ss -> counts_match fd ss ->
  (sec_size (section_contents (module_of ss)) <= length (concat cs))%nat /\ small_secs (section_contents (module_of ss)).
Proof.
  intros F O CM. change (increasing 0 (ids ss)) in O. pose proof (weights cs ss F) as W.
  unfold section_contents, module_of.
  cbn [m_types m_imports m_tables m_mems m_globals m_exports m_start m_elem m_data m_funcs].
  destruct (comp_section sec_types S_Type 1 x01 (enc_functy fd) e_functy cs ss 0) as [A1 B1]; try assumption; [reflexivity|nothing| | |apply sh_functy|].
  { intros [] E; try discriminate E; reflexivity. } { intros c v H. exact H. }
  destruct (comp_section sec_imports S_Import 2 x02 (enc_import fd) e_import cs ss 0) as [A2 B2]; try assumption; [reflexivity|nothing| | |apply sh_import|].
  { intros [] E; try discriminate E; reflexivity. } { intros c v H. exact H. }
  destruct (comp_section sec_tables S_Table 4 x04 (enc_table fd) e_table cs ss 0) as [A4 B4]; try assumption; [reflexivity|nothing| | |apply sh_table|].
  { intros [] E; try discriminate E; reflexivity. } { intros c v H. exact H. }
  destruct (comp_section sec_mems S_Memory 5 x05 (enc_mem fd) e_mem cs ss 0) as [A5 B5]; try assumption; [reflexivity|nothing| | |apply sh_mem|].
  { intros [] E; try discriminate E; reflexivity. } { intros c v H. exact H. }
  destruct (comp_section sec_globals S_Global 6 x06 (enc_global fd) e_global cs ss 0) as [A6 B6]; try assumption; [reflexivity|nothing| | |apply sh_global|].
  { intros [] E; try discriminate E; reflexivity. } { intros c v H. exact H. }
  destruct (comp_section sec_exports S_Export 7 x07 (enc_export fd) e_export cs ss 0) as [A7 B7]; try assumption; [reflexivity|nothing| | |apply sh_export|].
  { intros [] E; try discriminate E; reflexivity. } { intros c v H. exact H. }
  destruct (comp_section sec_elems S_Element 9 x09 (enc_elem fd) e_elem cs ss 0) as [A9 B9]; try assumption; [reflexivity|nothing| | |apply sh_elem|].
  { intros [] E; try discriminate E; reflexivity. } { intros c v H. exact H. }
  destruct (comp_section sec_datas S_Data 11 x0b (enc_data fd) e_data cs ss 0) as [A11 B11]; try assumption; [reflexivity|nothing| | |apply sh_data|].
  { intros [] E; try discriminate E; reflexivity. } { intros c v H. exact H. }
  assert (X8 : let l := match hd_error (flat_map sec_starts ss) with Some s => [(x08, e_start s)] | None => [] end in
    (sec_size l <= weight 8 cs ss)%nat /\ small_secs l).
  { destruct (component sec_starts 8 ltac:(reflexivity) ltac:(nothing) cs ss F 0 O) as [->|(c & s & H & S & -> & L)]; cbn [hd_error].
    - split; [cbn; lia|intros x []].
    - destruct s; try discriminate S. cbn [sec_starts hd_error]. destruct (one_section (enc_start fd) x08 c v (e_start v) H) as [S1 S2]; [intros bs X; exact (sh_start fd bs v X)|].
      split; [lia|assumption]. }
  destruct X8 as [A8 B8].
  assert (X3 : (sec_size (section_if x03 (fun f => e_u32 (fn_ty f)) (pair_funcs (flat_map sec_typeidxs ss) (flat_map sec_codes ss))) <= weight 3 cs ss)%nat /\
    small_secs (section_if x03 (fun f => e_u32 (fn_ty f)) (pair_funcs (flat_map sec_typeidxs ss) (flat_map sec_codes ss)))).
  { destruct CM as [CM|[_ NC]].
    - destruct (component sec_typeidxs 3 ltac:(reflexivity) ltac:(nothing) cs ss F 0 O) as [E|(c & s & H & S & E & L)].
      + rewrite E. apply absent_secs.
      + destruct s; try discriminate S. cbn [sec_typeidxs] in E. 
        destruct (vec_section (enc_u32 fd) (fun f => e_u32 (fn_ty f)) fn_ty x03 c v (pair_funcs (flat_map sec_typeidxs ss) (flat_map sec_codes ss)) H) as [S1 S2].
        * rewrite pair_types by assumption. symmetry. exact E.
        * intros bs f. apply sh_u32.
        * split; [lia|assumption].
    - rewrite (code_absent ss NC). unfold pair_funcs. replace (combine (flat_map sec_typeidxs ss) (@nil code)) with (@nil (typeidx * code)) by (destruct (flat_map sec_typeidxs ss); reflexivity).
      apply absent_secs. }
  destruct X3 as [A3 B3].
  assert (X10 : (sec_size (section_if x0a e_code (pair_funcs (flat_map sec_typeidxs ss) (flat_map sec_codes ss))) <= weight 10 cs ss)%nat /\
    small_secs (section_if x0a e_code (pair_funcs (flat_map sec_typeidxs ss) (flat_map sec_codes ss)))).
  { destruct CM as [CM|[_ NC]].
    - destruct (component sec_codes 10 ltac:(reflexivity) ltac:(nothing) cs ss F 0 O) as [E|(c & s & H & S & E & L)].
      + rewrite E in CM |- *. destruct (flat_map sec_typeidxs ss); [|discriminate CM]. apply absent_secs.
      + destruct s; try discriminate S. cbn [sec_codes] in E.
        destruct (vec_section (enc_code fd) e_code (fun f => (fn_locals f, fn_body f)) x0a c v (pair_funcs (flat_map sec_typeidxs ss) (flat_map sec_codes ss)) H) as [S1 S2].
        * rewrite pair_codes by assumption. symmetry. exact E.
        * intros bs f (n & cont & -> & N & X). unfold e_code, e_sized. nl. apply sh_func in X. apply sh_u32 in N.
          pose proof (u_mono 5 (N.of_nat (length (e_func f))) (N.of_nat (length cont))) as M. specialize (M ltac:(lia)). unfold e_u32 in *. lia.
        * split; [lia|assumption].
    - rewrite (code_absent ss NC). unfold pair_funcs. replace (combine (flat_map sec_typeidxs ss) (@nil code)) with (@nil (typeidx * code)) by (destruct (flat_map sec_typeidxs ss); reflexivity).
      apply absent_secs. }
  destruct X10 as [A10 B10].
  split; [rewrite !size_app; lia|]. repeat (apply small_app; [assumption|]). assumption.
Qed.
End Modules.
