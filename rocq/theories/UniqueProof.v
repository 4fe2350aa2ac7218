(** The canonical encoding is the only shortest one: every freedom of the format costs bytes. *)
From Coq Require Import Lia.
From Verif Require Import ParserModule SpecEncoder InstrProof SectionsProof EncodeProof DialectProof SizeProof CanonProof CoreClaims.
Open Scope N_scope.

(** [p] is [q], or shorter *)
Definition short (p q : list byte) : Prop := q = p \/ (length p < length q)%nat.
Lemma short_refl p : short p p. Proof. left. reflexivity. Qed.
Lemma short_nil q : short [] q. Proof. destruct q; [left; reflexivity|right; cbn; lia]. Qed.
Lemma short_le p q : short p q -> (length p <= length q)%nat.
Proof. intros [->|L]; lia. Qed.
Lemma short_app a b a' b' : short a a' -> short b b' -> short (a ++ b) (a' ++ b').
Proof.
  intros A B. pose proof (short_le _ _ A). pose proof (short_le _ _ B).
  destruct A as [->|A], B as [->|B]; [left; reflexivity|right..]; rewrite !app_length; lia.
Qed.
Lemma short_cons x a b : short a b -> short (x :: a) (x :: b).
Proof. intros H. apply (short_app [x] a [x] b); [apply short_refl|exact H]. Qed.
Create HintDb sh.
Global Hint Resolve short_refl short_nil short_app short_cons : sh.
Ltac sh := repeat first [apply short_cons | apply short_refl | apply short_nil | apply short_app]; eauto 3 with sh.

(** ** Integers *)
Lemma byte_of_to b : byte_of (Byte.to_N b) = b.
Proof. unfold byte_of. rewrite Byte.of_to_N. reflexivity. Qed.
Lemma top_payload b : 128 <= Byte.to_N b -> Byte.to_N b = payload b + 128.
Proof.
  intros H. unfold payload. pose proof (Byte.to_N_bounded b) as B. pose proof (N.div_mod (Byte.to_N b) 128 ltac:(discriminate)).
  assert (Byte.to_N b / 128 = 1) by (symmetry; apply N.div_unique with (Byte.to_N b - 128); lia). lia.
Qed.
Lemma u_least k : forall bs, SpecLeb.leb bs -> short (u_bytes k (uleb_val bs)) bs.
Proof.
  induction k as [|k IH]; intros bs L; [apply short_nil|]. cbn [u_bytes]. destruct L as [b B|b bs B L].
  - cbn [uleb_val]. unfold payload. rewrite N.mod_small by assumption. rewrite (proj2 (N.ltb_lt _ _)) by lia.
    rewrite N.mul_0_r, N.add_0_r, byte_of_to. apply short_refl.
  - cbn [uleb_val]. assert (P : payload b < 128) by (apply N.mod_lt; discriminate). destruct (_ <? 128) eqn:E.
    + right. destruct L; cbn [length]; lia.
    + assert (D : (payload b + 128 * uleb_val bs) / 128 = uleb_val bs) by (rewrite (N.mul_comm 128), N.div_add, N.div_small by (assumption || discriminate); lia).
      assert (M : (payload b + 128 * uleb_val bs) mod 128 = payload b) by (rewrite (N.mul_comm 128), N.mod_add, N.mod_small by (assumption || discriminate); lia).
      rewrite D, M, <- top_payload, byte_of_to by assumption. apply short_cons, IH, L.
Qed.
Lemma s_least k : forall bs, SpecLeb.leb bs -> short (s_bytes k (sleb_val bs)) bs.
Proof.
  induction k as [|k IH]; intros bs L; [apply short_nil|]. cbn [s_bytes]. destruct L as [b B|b bs B L].
  - cbn [sleb_val]. unfold payload7s, payload. rewrite N.mod_small by assumption.
    destruct (_ <? 64) eqn:E; [apply N.ltb_lt in E|apply N.ltb_ge in E];
      (rewrite (proj2 (Z.leb_le _ _)) by lia; rewrite (proj2 (Z.ltb_lt _ _)) by lia; cbn [andb]).
    + rewrite Z.mod_small by lia. rewrite N2Z.id, byte_of_to. apply short_refl.
    + rewrite <- (Z.mod_unique (Z.of_N (Byte.to_N b) - 128) 128 (-1) (Z.of_N (Byte.to_N b))) by lia. rewrite N2Z.id, byte_of_to. apply short_refl.
  - assert (V : sleb_val (b :: bs) = (Z.of_N (payload b) + 128 * sleb_val bs)%Z) by (destruct L; reflexivity).
    rewrite V. assert (P : payload b < 128) by (apply N.mod_lt; discriminate). destruct (_ && _)%bool eqn:E.
    + right. destruct L; cbn [length]; lia.
    + replace ((Z.of_N (payload b) + 128 * sleb_val bs) / 128)%Z with (sleb_val bs) by (apply Z.div_unique with (r := Z.of_N (payload b)); lia).
      replace ((Z.of_N (payload b) + 128 * sleb_val bs) mod 128)%Z with (Z.of_N (payload b)) by (apply Z.mod_unique with (q := sleb_val bs); lia).
      rewrite N2Z.id, <- top_payload, byte_of_to by assumption. apply short_cons, IH, L.
Qed.
Lemma float_unique k bs v : enc_float k bs v -> bs = le_bytes k v.
Proof. intros H. apply (enc_float_bytes k bs (le_bytes k v) v); [exact H|]. apply le_bytes_ok, H. Qed.

Section Dialect.
Context (fd : fdialect).
Definition least {A} (e : A -> list byte) (E : format A) : Prop := forall bs x, E bs x -> short (e x) bs.
Lemma le_u32 : least e_u32 (enc_u32 fd).
Proof. intros bs v ((L & <- & _) & _). apply u_least, L. Qed.
Lemma le_list {A} (e : A -> list byte) (E : format A) : least e E -> least (flat_map e) (enc_list E).
Proof. intros H bs xs (cs & F & ->). induction F as [|c x cs xs X F IH]; [apply short_refl|]. cbn. apply short_app; [apply H, X|exact IH]. Qed.
Lemma le_vec {A} (e : A -> list byte) (E : format A) : least e E -> least (e_vec e) (enc_vec fd E).
Proof. intros H bs xs (n & es & -> & N & L). apply short_app; [apply le_u32, N|apply (le_list e E H), L]. Qed.
Lemma short_sized x c n : short x c -> enc_u32 fd n (N.of_nat (length c)) -> short (e_sized x) (n ++ c).
Proof.
  intros [->|L] N; unfold e_sized; [apply short_app; [apply le_u32, N|apply short_refl]|]. right. rewrite !app_length.
  apply le_u32, short_le in N. pose proof (u_mono 5 (N.of_nat (length x)) (N.of_nat (length c)) ltac:(lia)). unfold e_u32 in *. lia.
Qed.
Lemma le_sized {A} (e : A -> list byte) (E : format A) : least e E -> least (fun x => e_sized (e x)) (enc_sized fd E).
Proof. intros H bs x (n & c & -> & N & X). apply short_sized; [apply H, X|exact N]. Qed.
Lemma le_byte : least (fun b => [b]) enc_byte.
Proof. intros bs b ->. apply short_refl. Qed.
Lemma le_name : least e_name (enc_name fd).
Proof. intros bs n [V _]. eapply le_vec; [apply le_byte|exact V]. Qed.
Lemma le_valty : least e_valty enc_valty.
Proof. intros bs t ->. apply short_refl. Qed.
Lemma le_blockty : least e_blockty enc_blockty.
Proof. intros bs rt [[-> ->]|(t & -> & ->)]; apply short_refl. Qed.
Lemma le_functy : least e_functy (enc_functy fd).
Proof. intros bs t (p & r & -> & P & R). apply short_cons, short_app; [apply (le_vec _ _ le_valty), P|apply (le_vec _ _ le_valty), R]. Qed.
Lemma le_limits : least e_limits (enc_limits fd).
Proof.
  intros bs l H. unfold enc_limits, e_limits in *. destruct (lim_max l).
  - destruct H as (a & b & -> & A & B). apply short_cons, short_app; apply le_u32; assumption.
  - destruct H as (a & -> & A). apply short_cons, le_u32, A.
Qed.
Lemma le_tablety : least e_tablety (enc_tablety fd).
Proof. intros bs t (b & -> & _ & H). apply short_cons, le_limits, H. Qed.
Lemma le_globalty : least e_globalty enc_globalty.
Proof. intros bs t ->. apply short_refl. Qed.

(** ** Code *)
Lemma e_plain_is i op : plain_opcode i = Some op -> e_instr i = [op].
Proof. intros H. destruct i; try discriminate H; cbn in *; injection H as <-; reflexivity. Qed.
Lemma le_instrs :
  (forall bs i, enc_instr fd bs i -> short (e_instr i) bs) /\
  (forall bs is, enc_instrs fd bs is -> short (flat_map e_instr is) bs).
Proof.
  apply enc_instr_instrs_ind.
  - intros i op H. rewrite (e_plain_is _ _ H). apply short_refl.
  - intros i op x xb H X. rewrite (e_index _ _ _ H). apply short_cons, le_u32, X.
  - intros i op al off ab ob H A O. rewrite (e_memarg _ _ _ _ H). apply short_cons, short_app; apply le_u32; assumption.
  - intros ls l lsb lb V L. apply short_cons, short_app; [apply (le_vec _ _ le_u32), V|apply le_u32, L].
  - intros ty tab tyb tabb T [R _]. apply short_cons, short_app; apply le_u32; assumption.
  - intros m mb [R _]. apply short_cons, le_u32, R.
  - intros m mb [R _]. apply short_cons, le_u32, R.
  - intros n nb ((L & <- & _) & _). apply short_cons, (s_least 5), L.
  - intros n nb ((L & <- & _) & _). apply short_cons, (s_least 10), L.
  - intros z zb H. apply short_cons. rewrite (float_unique _ _ _ H). apply short_refl.
  - intros z zb H. apply short_cons. rewrite (float_unique _ _ _ H). apply short_refl.
  - intros rt is rtb isb T _ H. apply le_blockty in T. cbn [e_instr]. sh.
  - intros rt is rtb isb T _ H. apply le_blockty in T. cbn [e_instr]. sh.
  - intros rt is rtb isb T _ H. apply le_blockty in T. cbn [e_instr]. sh.
  - intros rt is1 is2 rtb is1b is2b T _ H1 _ H2. apply le_blockty in T. destruct is2; cbn [e_instr].
    + right. apply short_le in T. apply short_le in H1. nl. lia.
    + sh.
  - apply short_nil.
  - intros i is ib isb _ H _ H2. cbn [flat_map]. sh.
Qed.
Lemma le_expr : least e_expr (enc_expr fd).
Proof. intros bs e (b & -> & H). apply short_app; [apply le_instrs, H|apply short_refl]. Qed.

(** ** Module components *)
Lemma le_importdesc : least e_importdesc (enc_importdesc fd).
Proof.
  intros bs [x|x|x|x]; cbn [enc_importdesc e_importdesc]; intros (b & -> & H); apply short_cons.
  - apply le_u32, H.
  - apply le_tablety, H.
  - apply le_limits, H.
  - apply le_globalty, H.
Qed.
Lemma le_import : least e_import (enc_import fd).
Proof. intros bs i (a & b & c & -> & A & B & D). repeat apply short_app; [apply le_name, A|apply le_name, B|apply le_importdesc, D]. Qed.
Lemma le_table : least e_table (enc_table fd).
Proof. intros bs t H. exact (le_tablety _ _ H). Qed.
Lemma le_mem : least e_mem (enc_mem fd).
Proof. intros bs t H. exact (le_limits _ _ H). Qed.
Lemma le_global : least e_global (enc_global fd).
Proof. intros bs g (a & b & -> & A & B). apply short_app; [apply le_globalty, A|apply le_expr, B]. Qed.
Lemma le_exportdesc : least e_exportdesc (enc_exportdesc fd).
Proof. intros bs [x|x|x|x]; cbn [enc_exportdesc e_exportdesc]; intros (b & -> & H); apply short_cons, le_u32, H. Qed.
Lemma le_export : least e_export (enc_export fd).
Proof. intros bs x (a & b & -> & A & B). apply short_app; [apply le_name, A|apply le_exportdesc, B]. Qed.
Lemma le_start : least e_start (enc_start fd).
Proof. intros bs s H. exact (le_u32 _ _ H). Qed.
Lemma le_elem : least e_elem (enc_elem fd).
Proof. intros bs x (a & b & c & -> & A & B & D). repeat apply short_app; [apply le_u32, A|apply le_expr, B|apply (le_vec _ _ le_u32), D]. Qed.
Lemma le_data : least e_data (enc_data fd).
Proof. intros bs x (a & b & c & -> & A & B & D). repeat apply short_app; [apply le_u32, A|apply le_expr, B|apply (le_vec _ _ le_byte), D]. Qed.

(** *** Runs of locals: runs of no locals and adjacent runs of one type cost bytes *)
Lemma runs_least rs : runs_of (expand_runs rs) = rs \/ (run_bytes (runs_of (expand_runs rs)) < run_bytes rs)%nat.
Proof.
  induction rs as [|[n t] rs IH]; [left; reflexivity|].
  assert (R : forall n t rs, run_bytes ((n, t) :: rs) = (length (e_u32 n) + 1 + run_bytes rs)%nat).
  { intros. unfold run_bytes, e_run, e_valty. cbn [flat_map fst snd]. nl. reflexivity. }
  pose proof (proj2 (runs_shorter rs)) as S. unfold expand_runs in *. cbn [flat_map fst snd]. rewrite runs_repeat.
  destruct (N.to_nat n) as [|k] eqn:E; [right; rewrite R; lia|]. rewrite <- E, N2Nat.id. clear E.
  destruct (runs_of _) as [|[k' t'] rs'] eqn:E.
  - destruct IH as [<-|IH]; [left; reflexivity|]. right. rewrite !R. unfold run_bytes at 1 in IH. cbn [flat_map length] in IH. unfold run_bytes at 1. cbn [flat_map length]. lia.
  - destruct (valty_eqb t t').
    + right. rewrite !R in *. pose proof (u_add n k'). lia.
    + destruct IH as [<-|IH]; [left; reflexivity|]. right. rewrite !R in *. lia.
Qed.
Lemma le_run : least e_run (enc_run fd).
Proof. intros b r (nb & tb & -> & R & T). apply short_app; [apply le_u32, R|apply le_valty, T]. Qed.
Lemma le_func bs f : enc_func fd bs (fn_locals f, fn_body f) -> short (e_func f) bs.
Proof.
  intros (rb & eb & runs & -> & V & E & _ & B). unfold e_func. cbn [fst snd] in *. rewrite E. apply short_app; [|apply le_expr, B].
  pose proof (le_vec _ _ le_run _ _ V) as S. destruct (runs_least runs) as [->|L]; [exact S|]. right. apply short_le in S. eapply Nat.lt_le_trans; [|exact S].
  unfold e_vec. rewrite !app_length. destruct (runs_shorter runs) as [A _].
  pose proof (u_mono 5 (N.of_nat (length (runs_of (expand_runs runs)))) (N.of_nat (length runs)) ltac:(lia)). unfold run_bytes, e_u32 in *. lia.
Qed.
End Dialect.

(** ** Sections *)
Section Modules.
Context (fd : fdialect).
(** the bytes of the sections of a kind *)
Fixpoint slot (k : N) (cs : list (list byte)) (ss : list section) : list byte :=
  match cs, ss with
  | c :: cs', s :: ss' => (if (section_id s =? k)%N then c else []) ++ slot k cs' ss'
  | _, _ => []
  end.
Definition slots cs ss : list byte :=
  slot 1 cs ss ++ slot 2 cs ss ++ slot 3 cs ss ++ slot 4 cs ss ++ slot 5 cs ss ++ slot 6 cs ss ++
  slot 7 cs ss ++ slot 8 cs ss ++ slot 9 cs ss ++ slot 10 cs ss ++ slot 11 cs ss.
Lemma slots_length cs : forall ss, Forall2 (enc_section fd) cs ss -> length (concat cs) = (length (slot 0 cs ss) + length (slots cs ss))%nat.
Proof.
  intros ss F. induction F as [|c s cs ss H F IH]; [reflexivity|]. unfold slots in *. cbn [slot concat]. rewrite !app_length in *.
  destruct s; cbn [section_id N.eqb Pos.eqb length]; lia.
Qed.
Lemma slot_later k : 0 < k -> forall cs ss lo, Forall2 (enc_section fd) cs ss -> k <= lo -> increasing lo (ids ss) -> slot k cs ss = [].
Proof.
  intros K cs ss lo F L. revert lo L. induction F as [|c s cs ss H F IH]; intros lo L I; [reflexivity|]. cbn [slot].
  unfold ids in *. cbn [filter] in I. destruct (is_custom s) eqn:C; cbn [negb] in I.
  - rewrite (IH lo L I). destruct s; try discriminate C. cbn [section_id]. rewrite (proj2 (N.eqb_neq 0 k)) by lia. reflexivity.
  - destruct I as [J I]. rewrite (IH (section_id s)) by (try lia; exact I). rewrite (proj2 (N.eqb_neq (section_id s) k)) by lia. reflexivity.
Qed.
Lemma slots_in_order cs : forall ss, Forall2 (enc_section fd) cs ss -> forall lo, increasing lo (ids ss) -> slot 0 cs ss = [] -> concat cs = slots cs ss.
Proof.
  intros ss F. induction F as [|c s cs ss H F IH]; intros lo I Z; [reflexivity|]. cbn [slot] in Z. apply app_eq_nil in Z as [Z0 Z].
  assert (C : is_custom s = false). { destruct s; try reflexivity. cbn [enc_section section_id] in *. destruct H as (b & -> & _). discriminate Z0. }
  unfold ids in I. cbn [filter] in I. rewrite C in I. destruct I as [_ I]. change (increasing (section_id s) (ids ss)) in I.
  cbn [concat]. rewrite (IH _ I Z). unfold slots. cbn [slot].
  destruct s; try discriminate C; cbn [section_id N.eqb Pos.eqb app] in *;
    repeat match goal with |- context [slot ?k cs ss] =>
      match type of I with increasing ?lo _ =>
        let b := eval vm_compute in (k <=? lo) in match b with true => rewrite (slot_later k ltac:(reflexivity) cs ss lo F ltac:(discriminate) I) end end end;
    cbn [app]; rewrite ?app_nil_r; reflexivity.
Qed.
Lemma slot_component {A} (get : section -> list A) k : 0 < k -> (forall s, section_id s <> k -> get s = []) ->
  forall cs ss, Forall2 (enc_section fd) cs ss -> forall lo, increasing lo (ids ss) ->
  flat_map get ss = [] \/ exists s, enc_section fd (slot k cs ss) s /\ section_id s = k /\ flat_map get ss = get s.
Proof.
  intros K G cs ss F. induction F as [|c s cs ss H F IH]; intros lo I; [left; reflexivity|]. cbn [flat_map slot].
  destruct (N.eq_dec (section_id s) k) as [E|E].
  - right. exists s. rewrite E, N.eqb_refl.
    assert (C : is_custom s = false) by (destruct s; try reflexivity; cbn in E; lia).
    assert (J : increasing k (ids ss)) by (unfold ids in *; cbn [filter] in I; rewrite C in I; cbn in I; rewrite E in I; apply I).
    rewrite (later_empty get k K G ss k) by (assumption || lia). rewrite (slot_later k K cs ss k) by (assumption || lia). rewrite !app_nil_r. auto.
  - rewrite (G s E), (proj2 (N.eqb_neq _ _) E). cbn [app]. apply (IH lo).
    unfold ids in *. cbn [filter] in I. destruct (negb (is_custom s)); [|exact I]. destruct I as [? I]. eapply increasing_le; [exact I|]. lia.
Qed.
Definition sec_bytes (s : list (byte * list byte)) : list byte := flat_map (fun s => fst s :: e_sized (snd s)) s.
Lemma one_least {B} (E : format B) id c (v : B) (x : list byte) :
  (exists b, c = id :: b /\ enc_sized fd E b v) -> (forall bs, E bs v -> short x bs) -> short (sec_bytes [(id, x)]) c.
Proof.
  intros (b & -> & n & cont & -> & N & H) S. unfold sec_bytes. cbn [flat_map fst snd]. rewrite app_nil_r. apply short_cons. apply (short_sized fd); auto.
Qed.
Lemma vec_least {A B} (E : format B) (e : A -> list byte) (f : A -> B) id c v w :
  (exists b, c = id :: b /\ enc_sized fd (enc_vec fd E) b v) -> v = map f w -> (forall bs x, E bs (f x) -> short (e x) bs) ->
  short (sec_bytes (section_if id e w)) c.
Proof.
  intros H -> S. unfold section_if. destruct w as [|x0 w0]; [apply short_nil|]. set (w := x0 :: w0) in *.
  eapply (one_least (enc_vec fd E)); [exact H|]. intros bs (n & es & -> & N & L). rewrite map_length in N.
  apply short_app; [apply (le_u32 fd), N|]. destruct L as (cs & F & ->). clearbody w. clear - F S.
  revert cs F. induction w as [|x w IH]; intros cs F; [apply short_nil|]. cbn [map] in F. inversion F as [|c0 y0 cs0 ys0 H1 H3]; subst. cbn. apply short_app; auto.
Qed.
Ltac nothing := let E := fresh in let s := fresh in intros s E; destruct s; try reflexivity; destruct E; reflexivity.
Lemma comp_least {A} (get : section -> list A) (mk : list A -> section) k id (E : format A) (e : A -> list byte) cs ss lo :
  0 < k -> (forall s, section_id s <> k -> get s = []) ->
  (forall s, section_id s = k -> s = mk (get s)) ->
  (forall c v, enc_section fd c (mk v) -> exists b, c = id :: b /\ enc_sized fd (enc_vec fd E) b v) ->
  least e E -> Forall2 (enc_section fd) cs ss -> increasing lo (ids ss) ->
  short (sec_bytes (section_if id e (flat_map get ss))) (slot k cs ss).
Proof.
  intros K G MK EN SH F I. destruct (slot_component get k K G cs ss F lo I) as [->|(s & H & S & ->)]; [apply short_nil|].
  rewrite (MK s S) in H. apply EN in H. eapply (vec_least E e (fun x => x)); [exact H|rewrite map_id; reflexivity|exact SH].
Qed.
Theorem sections_least cs ss : Forall2 (enc_section fd) cs ss -> ordered ss -> counts_match fd ss ->
  short (sec_bytes (section_contents (module_of ss))) (concat cs).
Proof.
  intros F O CM. change (increasing 0 (ids ss)) in O.
  assert (S : short (sec_bytes (section_contents (module_of ss))) (slots cs ss)).
  { unfold section_contents, module_of, slots, sec_bytes.
    cbn [m_types m_imports m_tables m_mems m_globals m_exports m_start m_elem m_data m_funcs]. rewrite !flat_map_app.
    repeat apply short_app; match goal with |- short (flat_map _ ?x) _ => change (flat_map (fun s => fst s :: e_sized (snd s)) x) with (sec_bytes x) end.
    - apply (comp_least sec_types S_Type 1 x01 (enc_functy fd) e_functy cs ss 0); try assumption; [reflexivity|nothing| | |apply le_functy].
      + intros [] E; try discriminate E; reflexivity.
      + intros c v H. exact H.
    - apply (comp_least sec_imports S_Import 2 x02 (enc_import fd) e_import cs ss 0); try assumption; [reflexivity|nothing| | |apply le_import].
      + intros [] E; try discriminate E; reflexivity.
      + intros c v H. exact H.
    - destruct CM as [CM|[_ NC]].
      + destruct (slot_component sec_typeidxs 3 ltac:(reflexivity) ltac:(nothing) cs ss F 0 O) as [E|(s & H & S & E)].
        * rewrite E. apply short_nil.
        * destruct s; try discriminate S. cbn [sec_typeidxs] in E.
          eapply (vec_least (enc_u32 fd) (fun f => e_u32 (fn_ty f)) fn_ty x03); [exact H|rewrite pair_types by assumption; symmetry; exact E|].
          intros bs f. apply le_u32.
      + rewrite (code_absent ss NC). unfold pair_funcs. replace (combine (flat_map sec_typeidxs ss) (@nil code)) with (@nil (typeidx * code)) by (destruct (flat_map sec_typeidxs ss); reflexivity).
        apply short_nil.
    - apply (comp_least sec_tables S_Table 4 x04 (enc_table fd) e_table cs ss 0); try assumption; [reflexivity|nothing| | |apply le_table].
      + intros [] E; try discriminate E; reflexivity.
      + intros c v H. exact H.
    - apply (comp_least sec_mems S_Memory 5 x05 (enc_mem fd) e_mem cs ss 0); try assumption; [reflexivity|nothing| | |apply le_mem].
      + intros [] E; try discriminate E; reflexivity.
      + intros c v H. exact H.
    - apply (comp_least sec_globals S_Global 6 x06 (enc_global fd) e_global cs ss 0); try assumption; [reflexivity|nothing| | |apply le_global].
      + intros [] E; try discriminate E; reflexivity.
      + intros c v H. exact H.
    - apply (comp_least sec_exports S_Export 7 x07 (enc_export fd) e_export cs ss 0); try assumption; [reflexivity|nothing| | |apply le_export].
      + intros [] E; try discriminate E; reflexivity.
      + intros c v H. exact H.
    - destruct (slot_component sec_starts 8 ltac:(reflexivity) ltac:(nothing) cs ss F 0 O) as [->|(s & H & S & ->)]; [apply short_nil|].
      destruct s; try discriminate S. cbn [sec_starts hd_error]. eapply (one_least (enc_start fd)); [exact H|]. intros bs X. exact (le_start fd bs v X).
    - apply (comp_least sec_elems S_Element 9 x09 (enc_elem fd) e_elem cs ss 0); try assumption; [reflexivity|nothing| | |apply le_elem].
      + intros [] E; try discriminate E; reflexivity.
      + intros c v H. exact H.
    - destruct CM as [CM|[_ NC]].
      + destruct (slot_component sec_codes 10 ltac:(reflexivity) ltac:(nothing) cs ss F 0 O) as [E|(s & H & S & E)].
        * rewrite E in CM |- *. destruct (flat_map sec_typeidxs ss); [|discriminate CM]. apply short_nil.
        * destruct s; try discriminate S. cbn [sec_codes] in E.
          eapply (vec_least (enc_code fd) e_code (fun f => (fn_locals f, fn_body f)) x0a); [exact H|rewrite pair_codes by assumption; symmetry; exact E|].
          intros bs f (n & cont & -> & N & X). apply (short_sized fd); [apply (le_func fd), X|exact N].
      + rewrite (code_absent ss NC). unfold pair_funcs. replace (combine (flat_map sec_typeidxs ss) (@nil code)) with (@nil (typeidx * code)) by (destruct (flat_map sec_typeidxs ss); reflexivity).
        apply short_nil.
    - apply (comp_least sec_datas S_Data 11 x0b (enc_data fd) e_data cs ss 0); try assumption; [reflexivity|nothing| | |apply le_data].
      + intros [] E; try discriminate E; reflexivity.
      + intros c v H. exact H. }
  destruct (slot 0 cs ss) eqn:Z.
  - rewrite (slots_in_order cs ss F 0 O Z). exact S.
  - right. apply short_le in S. pose proof (slots_length cs ss F) as L. rewrite Z in L. cbn [length] in L. lia.
Qed.
Theorem only_shortest bs m : enc_module fd bs m -> bs = encode m \/ (length (encode m) < length bs)%nat.
Proof.
  intros (body & secs & -> & (cs & F & ->) & O & CM & ->). unfold encode. apply short_app; [apply short_refl|]. apply (sections_least cs secs F O CM).
Qed.
End Modules.
Theorem parsed_shortest bs m : p_module bs = (Ok m, []) -> bs = encode m \/ (length (encode m) < length bs)%nat.
Proof. intros P. apply module_exact in P as [_ E]. apply (only_shortest _ _ _ E). Qed.
(** the files of a module that no other file of it undercuts: one *)
Theorem one_shortest m bs : few_locals m -> p_module bs = (Ok m, []) ->
  ((forall bs', p_module bs' = (Ok m, []) -> (length bs <= length bs')%nat) <-> bs = encode m).
Proof.
  intros L P. split.
  - intros S. destruct (parsed_shortest _ _ P) as [E|E]; [exact E|]. specialize (S _ (proj2 (parsed_canonical _ _ P L))). lia.
  - intros -> bs' P'. apply (parsed_canonical _ _ P' L).
Qed.
