(** The number of lines and the length of the printout. *)
From Coq Require Import String Ascii Lia DecimalString.
From Coq Require DecimalN DecimalZ DecimalFacts HexadecimalN HexadecimalFacts HexadecimalString.
From Verif Require Import SpecTyping SpecFormat SpecParser ParserMeta SectionsProof InstrProof CodeProof HostProof ModuleClaims2 EncodeProof StorageFileProof
  SpecEncoder SpecStack StackProof DebugText SpecDebug DebugLayout DebugProof DebugClaims SpecCost CostProof CostFileProof SpecPrintSize.
Open Scope list_scope.
Open Scope nat_scope.

(** ** Lines of a text *)
Lemma lines_app a b : lines_in (a ++ b)%string = lines_in a + lines_in b.
Proof. induction a as [|c a IH]; [reflexivity|]. cbn [append lines_in]. rewrite IH. lia. Qed.
Lemma lines_free s : free "010" s -> lines_in s = 0.
Proof. induction s as [|c s IH]; [reflexivity|]. intros [H F]. cbn [lines_in]. destruct (Ascii.eqb_spec c "010"); [congruence|]. apply IH, F. Qed.
Lemma lines_sp d : lines_in (sp d) = 0.
Proof. induction d as [|d IH]; [reflexivity|exact IH]. Qed.
Lemma lines_nl s : lines_in (String nln s) = S (lines_in s).
Proof. reflexivity. Qed.
Lemma lines_entries {A} (h : A -> string) l : lines_in (entries h l) = total (fun x => lines_in (h x)) l.
Proof. induction l as [|x l IH]; [reflexivity|]. unfold entries in *. cbn [map]. rewrite DebugLayout.concat_cons, lines_app, IH. reflexivity. Qed.

(** the lines of a tree *)
Fixpoint tlines (t : dtree) : nat :=
  match t with
  | D_leaf _ => 1
  | D_struct _ fs => 2 + list_sum (map (fun f => tlines (snd f)) fs)
  | D_tuple _ ts => 2 + list_sum (map tlines ts)
  | D_list [] => 1
  | D_list ts => 2 + list_sum (map tlines ts)
  end.
Lemma total_in {A} (f g : A -> nat) xs : (forall x, In x xs -> f x = g x) -> total f xs = total g xs.
Proof. intros H. apply Nat.le_antisymm; apply total_le; intros x I; rewrite (H x I); apply le_n. Qed.
Lemma lines_item d u : S (lines_in (pr d u)) = tlines u -> lines_in (item_text d u) = tlines u.
Proof. intros H. unfold item_text. rewrite !lines_app, lines_sp. change (lines_in (String "," newline)) with 1. lia. Qed.
Lemma lines_items d ts : Forall (fun u => wf u -> forall d, S (lines_in (pr d u)) = tlines u) ts -> Forall wf ts ->
  lines_in (entries (item_text d) ts) = list_sum (map tlines ts).
Proof.
  intros IH W. rewrite lines_entries. apply total_in. intros u I. apply lines_item. rewrite Forall_forall in *. apply IH; auto.
Qed.
Lemma lines_pr t : wf t -> forall d, S (lines_in (pr d t)) = tlines t.
Proof.
  induction t as [s|nm fs IH|nm ts IH|ts IH] using dtree_rec'; intros W d.
  - inversion W as [s' [F _] _| | |]; subst. unfold pr. cbn [pretty tlines]. rewrite wpad_free by exact F. rewrite lines_free by exact F. reflexivity.
  - rewrite pr_struct by exact W. inversion W as [|n f P N F| |]; subst. cbn [tlines].
    rewrite !lines_app, lines_nl, !lines_app, lines_sp, lines_free by (apply P). rewrite lines_entries.
    change (lines_in " {") with 0. change (lines_in "}") with 0.
    enough (total (fun f => lines_in (field_text (d + 4) f)) fs = list_sum (map (fun f => tlines (snd f)) fs)) by lia.
    apply total_in. intros f I. rewrite Forall_forall in IH, F. destruct (F f I) as ([A _] & _ & B). specialize (IH f I B (d + 4)).
    unfold field_text. rewrite !lines_app, lines_sp, lines_free by exact A. change (lines_in ": ") with 0. change (lines_in (String "," newline)) with 1. lia.
  - rewrite pr_tuple by exact W. inversion W as [| |n f P N F|]; subst. cbn [tlines].
    rewrite !lines_app, lines_nl, !lines_app, lines_sp, lines_free by (apply P). rewrite (lines_items _ _ IH F).
    change (lines_in "(") with 0. change (lines_in ")") with 0. lia.
  - destruct ts as [|u ts]; [reflexivity|]. rewrite pr_list by exact W. inversion W as [| | |f F]; subst. cbn [tlines].
    rewrite !lines_app, lines_nl, !lines_app, lines_sp. rewrite (lines_items _ _ IH F).
    change (lines_in "[") with 0. change (lines_in "]") with 0. lia.
Qed.

(** ** Lines of a module *)
Lemma tlines_vec {A} (d : A -> dtree) f l : (forall x, In x l -> tlines (d x) = f x) -> tlines (d_vec d l) = list_lines f l.
Proof.
  intros H. destruct l as [|x l]; [reflexivity|]. unfold d_vec. cbn [map tlines list_lines]. f_equal.
  change (list_sum (map tlines (map d (x :: l))) = total f (x :: l)). rewrite map_map. exact (total_in _ _ _ H).
Qed.
Lemma tlines_valtys l : tlines (d_vec d_valty l) = list_lines (fun _ => 1) l.
Proof. apply tlines_vec. reflexivity. Qed.
Lemma tlines_instr std i : tlines (d_instr std i) = instr_lines i.
Proof.
  induction i as [i IH] using instr_children_ind.
  assert (C : forall b, In b (children i) -> tlines (D_tuple "Expr" [D_list (map (d_instr std) b)]) = 2 + list_lines instr_lines b).
  { intros b I. change (2 + (tlines (d_vec (d_instr std) b) + 0) = 2 + list_lines instr_lines b). rewrite (tlines_vec _ instr_lines), Nat.add_0_r; [reflexivity|].
    intros x J. specialize (IH b I). rewrite Forall_forall in IH. apply IH, J. }
  assert (R : forall r, tlines (d_retval r) = result_lines r).
  { intros r. change (2 + (tlines (d_vec d_valty r) + 0) = result_lines r). rewrite tlines_valtys, Nat.add_0_r. reflexivity. }
  destruct i; try reflexivity.
  - change (2 + (tlines (d_retval a) + (tlines (D_tuple "Expr" [D_list (map (d_instr std) b)]) + 0)) = 2 + result_lines a + (2 + list_lines instr_lines b)).
    rewrite R, C by (left; reflexivity). lia.
  - change (2 + (tlines (d_retval a) + (tlines (D_tuple "Expr" [D_list (map (d_instr std) b)]) + 0)) = 2 + result_lines a + (2 + list_lines instr_lines b)).
    rewrite R, C by (left; reflexivity). lia.
  - change (2 + (tlines (d_retval a) + (tlines (D_tuple "Expr" [D_list (map (d_instr std) b)]) + (tlines (D_tuple "Expr" [D_list (map (d_instr std) c)]) + 0)))
      = 2 + result_lines a + (2 + list_lines instr_lines b) + (2 + list_lines instr_lines c)).
    rewrite R, (C b), (C c) by (cbn; auto). lia.
  - change (2 + (tlines (d_vec (d_idx "Label") a) + (3 + 0)) = 2 + list_lines (fun _ => idx_lines) a + idx_lines).
    rewrite (@tlines_vec labelidx _ (fun _ => idx_lines)) by reflexivity. unfold idx_lines. lia.
Qed.
Lemma tlines_code std nm e : tlines (D_tuple nm [d_vec (d_instr std) e]) = code_lines e.
Proof.
  change (2 + (tlines (d_vec (d_instr std) e) + 0) = code_lines e). rewrite (tlines_vec _ instr_lines), Nat.add_0_r by (intros; apply tlines_instr). reflexivity.
Qed.
Lemma tlines_limits l : tlines (d_limits l) = limits_lines l.
Proof. destruct l as [a [b|]]; reflexivity. Qed.
Lemma struct_1 nm a x : tlines (D_struct nm [(a, x)]) = 2 + tlines x.
Proof. change (2 + (tlines x + 0) = 2 + tlines x). lia. Qed.
Lemma struct_2 nm a x b y : tlines (D_struct nm [(a, x); (b, y)]) = 2 + tlines x + tlines y.
Proof. change (2 + (tlines x + (tlines y + 0)) = 2 + tlines x + tlines y). lia. Qed.
Lemma struct_3 nm a x b y c z : tlines (D_struct nm [(a, x); (b, y); (c, z)]) = 2 + tlines x + tlines y + tlines z.
Proof. change (2 + (tlines x + (tlines y + (tlines z + 0))) = 2 + tlines x + tlines y + tlines z). lia. Qed.
Lemma tuple_1 nm x : tlines (D_tuple nm [x]) = 2 + tlines x.
Proof. change (2 + (tlines x + 0) = 2 + tlines x). lia. Qed.
Lemma tlines_tablety t : tlines (d_tablety t) = tablety_lines t.
Proof. unfold d_tablety. rewrite struct_2, tlines_limits. destruct (tt_elem t). reflexivity. Qed.
Lemma tlines_memty t : tlines (d_memty t) = memty_lines t.
Proof. unfold d_memty. rewrite struct_1, tlines_limits. reflexivity. Qed.
Lemma tlines_module std m : tlines (d_module std m) = module_lines m.
Proof.
  unfold d_module. cbn [tlines map snd list_sum fold_right].
  rewrite (tlines_vec d_functy functy_lines), (tlines_vec (d_func std) func_lines), (tlines_vec d_table (fun t => 2 + tablety_lines (tab_ty t))),
    (tlines_vec d_mem (fun t => 2 + memty_lines (mem_ty t))), (tlines_vec (d_global std) global_lines), (tlines_vec (d_elem std) elem_lines),
    (tlines_vec (d_data std) data_lines), (tlines_vec (d_import std) (fun i => 2 + 1 + 1 + importdesc_lines (im_desc i))),
    (tlines_vec (d_export std) (fun e => 2 + 1 + (2 + idx_lines))).
  { unfold module_lines. destruct (m_start m) as [s|]; cbn [d_option]; [change (tlines (D_tuple "Some" [d_start s])) with 7|change (tlines (D_leaf "None")) with 1]; unfold idx_lines; lia. }
  all: intros x _.
  - unfold d_export. rewrite struct_2. destruct (ex_desc x); reflexivity.
  - unfold d_import. rewrite struct_3. destruct (im_desc x); cbn [d_importdesc importdesc_lines]; rewrite tuple_1; rewrite ?tlines_tablety, ?tlines_memty; reflexivity.
  - unfold d_data. rewrite struct_3. unfold d_constexpr. rewrite tlines_code, (tlines_vec d_u8 (fun _ => 1)) by reflexivity. reflexivity.
  - unfold d_elem. rewrite struct_3. unfold d_constexpr. rewrite tlines_code, (tlines_vec (d_idx "Func") (fun _ => idx_lines)) by reflexivity. reflexivity.
  - unfold d_global. rewrite struct_2. unfold d_constexpr. rewrite tlines_code. reflexivity.
  - unfold d_mem. rewrite struct_1, tlines_memty. reflexivity.
  - unfold d_table. rewrite struct_1, tlines_tablety. reflexivity.
  - unfold d_func. rewrite struct_3. unfold d_expr. rewrite tlines_code, tlines_valtys. reflexivity.
  - unfold d_functy. rewrite struct_2, !tlines_valtys. reflexivity.
Qed.
Theorem lines_exact std m : honest std -> Forall utf8 (module_names m) -> lines_in (show_module std m) = module_lines m.
Proof.
  intros H U. unfold show_module, println. rewrite lines_app. change (lines_in newline) with 1. rewrite <- (tlines_module std m).
  rewrite <- (lines_pr _ (module_wf std H m U) 0). unfold pr. rewrite wpad_0. lia.
Qed.
Theorem lines_printed std args fs os c m : honest std -> cli args fs = Exit c [MsgModule m] ->
  exists t, output std args fs os = Some t /\ lines_in t = module_lines m.
Proof. intros H C. exists (show_module std m). split; [eapply output_module, C|]. apply lines_exact; [exact H|eapply printed_names, C]. Qed.

(** ** Lines in terms of the bytes of a file *)
Lemma list_lines_le {A} (f : A -> nat) l : list_lines f l <= 2 + total f l.
Proof. destruct l; cbn [list_lines]; lia. Qed.
Lemma code_of_lines e : code_lines e <= 4 + total instr_lines e.
Proof. unfold code_lines. pose proof (list_lines_le instr_lines e). lia. Qed.
Lemma result_of_lines b r : enc_blockty b r -> result_lines r <= 5 /\ length b = 1.
Proof. intros [[-> ->]|(t & -> & ->)]; cbn; lia. Qed.
Lemma instr_bytes : (forall bs i, enc_instr fd bs i -> 3 * instr_lines i <= 14 * length bs) /\
  (forall bs is, enc_instrs fd bs is -> 3 * total instr_lines is <= 14 * length bs).
Proof.
  assert (C : forall e, 2 + list_lines instr_lines e <= 4 + total instr_lines e) by exact code_of_lines.
  apply enc_instr_instrs_ind; intros.
  all: try (match goal with H : plain_opcode ?i = _ |- _ => destruct i; try discriminate H; cbn; lia end).
  all: try (match goal with H : index_opcode ?i = _ |- _ => match goal with U : enc_u32 _ _ _ |- _ => apply wordy_u32 in U end; destruct i; try discriminate H; cbn; lia end).
  all: try (match goal with H : memarg_opcode ?i = _ |- _ => destruct i; try discriminate H; cbn; lia end).
  - match goal with H : enc_vec _ _ _ _ |- _ => apply vec_count in H; [|apply wordy_u32] end.
    match goal with H : enc_u32 _ _ _ |- _ => apply wordy_u32 in H end. cbn [instr_lines length]. rewrite app_length.
    pose proof (list_lines_le (fun _ : labelidx => idx_lines) ls) as L. rewrite total_len in L. unfold idx_lines in *. unfold labelidx, u32 in *. lia.
  - match goal with H : enc_u32 _ _ _ |- _ => apply wordy_u32 in H end. cbn [instr_lines length]. rewrite app_length. unfold idx_lines. lia.
  - match goal with H : enc_reserved _ _ _ |- _ => destruct H as [H _]; apply wordy_u32 in H end. cbn. lia.
  - match goal with H : enc_reserved _ _ _ |- _ => destruct H as [H _]; apply wordy_u32 in H end. cbn. lia.
  - cbn [instr_lines length]. lia.
  - cbn [instr_lines length]. lia.
  - cbn [instr_lines length]. lia.
  - cbn [instr_lines length]. lia.
  - match goal with H : enc_blockty _ _ |- _ => apply result_of_lines in H; destruct H end. cbn [instr_lines length]. rewrite !app_length. cbn [length]. specialize (C is). lia.
  - match goal with H : enc_blockty _ _ |- _ => apply result_of_lines in H; destruct H end. cbn [instr_lines length]. rewrite !app_length. cbn [length]. specialize (C is). lia.
  - match goal with H : enc_blockty _ _ |- _ => apply result_of_lines in H; destruct H end. cbn [instr_lines length list_lines]. rewrite !app_length. cbn [length]. specialize (C is). lia.
  - match goal with H : enc_blockty _ _ |- _ => apply result_of_lines in H; destruct H end. cbn [instr_lines length]. rewrite !app_length. cbn [length].
    pose proof (C is1). pose proof (C is2). lia.
  - rewrite total_nil. lia.
  - rewrite total_cons, app_length. lia.
Qed.
Lemma code_bytes b e : enc_expr fd b e -> 3 * code_lines e + 2 <= 14 * length b.
Proof. intros (isb & -> & H). apply instr_bytes in H. rewrite app_length. cbn [length]. pose proof (code_of_lines e). lia. Qed.
Lemma lines_weigh {A} (E : format A) (w : A -> nat) bs xs : (forall b x, E b x -> 3 * w x <= 14 * length b) -> enc_list E bs xs -> 3 * total w xs <= 14 * length bs.
Proof. intros W (ch & F & ->). induction F as [|c y ch xs H F IH]; cbn [concat length]; [apply le_n|]. rewrite app_length, total_cons. apply W in H. lia. Qed.
(** the lines of a list besides those of an empty one *)
Definition extra {A} (w : A -> nat) (l : list A) : nat := match l with [] => 0 | _ => 1 + total w l end.
Lemma extra_lines {A} (w : A -> nat) l : list_lines w l = 1 + extra w l.
Proof. destruct l; reflexivity. Qed.
Lemma extra_app {A} (w : A -> nat) l r : extra w (l ++ r) <= extra w l + extra w r.
Proof. destruct l as [|x l]; [apply le_n|]. cbn [app extra]. change (x :: l ++ r) with ((x :: l) ++ r). rewrite total_app. destruct r; cbn [extra]; rewrite ?total_nil; lia. Qed.
Lemma extra_flat {A} (w : A -> nat) (g : section -> list A) secs : extra w (flat_map g secs) <= total (fun s => extra w (g s)) secs.
Proof. induction secs as [|s secs IH]; [apply le_n|]. cbn [flat_map]. rewrite total_cons. pose proof (extra_app w (g s) (flat_map g secs)). lia. Qed.
Lemma sized_lines {A} (E : format A) (w : A -> nat) bs xs : (forall b x, E b x -> 3 * w x <= 14 * length b) -> enc_sized fd (enc_vec fd E) bs xs -> 3 * extra w xs <= 14 * length bs.
Proof.
  intros W (n & es & -> & N & k & es2 & -> & K & H). apply wordy_u32 in N. apply wordy_u32 in K. apply (lines_weigh _ w) in H; [|exact W]. rewrite !app_length.
  destruct xs; cbn [extra]; lia.
Qed.
Definition codes_lines (c : code) : nat := 11 + total instr_lines (snd c).
Definition start_lines (l : list start) : nat := match l with [] => 0 | _ => 6 end.
Definition sheet (s : section) : nat :=
  extra functy_lines (sec_types s) + extra codes_lines (sec_codes s) + extra (fun t => 2 + tablety_lines (tab_ty t)) (sec_tables s)
  + extra (fun t => 2 + memty_lines (mem_ty t)) (sec_mems s) + extra global_lines (sec_globals s) + extra elem_lines (sec_elems s)
  + extra data_lines (sec_datas s) + start_lines (sec_starts s) + extra (fun i => 2 + 1 + 1 + importdesc_lines (im_desc i)) (sec_imports s)
  + extra (fun e : export => 2 + 1 + (2 + idx_lines)) (sec_exports s).
Lemma limits_bytes b l : enc_limits fd b l -> limits_lines l <= 2 * length b /\ 2 <= length b.
Proof.
  intros H. unfold enc_limits in H. unfold limits_lines. destruct (lim_max l).
  - destruct H as (x & y & -> & X & Y). apply wordy_u32 in X. apply wordy_u32 in Y. cbn [length]. rewrite app_length. lia.
  - destruct H as (x & -> & X). apply wordy_u32 in X. cbn [length]. lia.
Qed.
Lemma section_sheet bs s : enc_section fd bs s -> 3 * sheet s <= 14 * length bs.
Proof.
  assert (U : forall b n, enc_u32 fd b n -> 1 <= length b) by exact wordy_u32.
  assert (NM : forall b n, enc_name fd b n -> 1 <= length b) by exact wordy_name.
  assert (VT : forall b (v : list valty), enc_vec fd enc_valty b v -> list_lines (fun _ => 1) v <= 1 + length b /\ 1 <= length b).
  { intros b v H. apply vec_count in H; [|intros c x ->; cbn; lia]. pose proof (list_lines_le (fun _ : valty => 1) v) as L. rewrite total_len in L. lia. }
  destruct s; intros (b & -> & H); unfold sheet; cbn [sec_types sec_imports sec_codes sec_tables sec_mems sec_globals sec_exports sec_starts sec_elems sec_datas start_lines extra length].
  - lia.
  - apply (sized_lines _ functy_lines) in H; [lia|]. intros c x (ps & rs & -> & P & R). apply VT in P as [P P']. apply VT in R as [R R']. cbn [length]. rewrite app_length. unfold functy_lines. lia.
  - apply (sized_lines _ (fun i => 2 + 1 + 1 + importdesc_lines (im_desc i))) in H; [lia|]. intros c x (mb & nb & db & -> & M & N & D). apply NM in M. apply NM in N. rewrite !app_length.
    destruct (im_desc x); destruct D as (xb & -> & D); unfold importdesc_lines; cbn [length].
    + apply U in D. unfold idx_lines. lia.
    + destruct D as (l & -> & _ & D). apply limits_bytes in D. cbn [length]. unfold tablety_lines. lia.
    + apply limits_bytes in D. unfold memty_lines. lia.
    + rewrite D. cbn [length]. unfold globalty_lines. lia.
  - lia.
  - apply (sized_lines _ (fun t => 2 + tablety_lines (tab_ty t))) in H; [lia|]. intros c x (l & -> & _ & D). apply limits_bytes in D. cbn [length]. unfold tablety_lines. lia.
  - apply (sized_lines _ (fun t => 2 + memty_lines (mem_ty t))) in H; [lia|]. intros c x D. apply limits_bytes in D. unfold memty_lines. lia.
  - apply (sized_lines _ global_lines) in H; [lia|]. intros c x (tb & eb & -> & -> & E). apply code_bytes in E. rewrite app_length. unfold global_lines, globalty_lines. cbn [length]. lia.
  - apply (sized_lines _ (fun e : export => 2 + 1 + (2 + idx_lines))) in H; [lia|]. intros c x (nb & db & -> & M & D). apply NM in M. rewrite app_length.
    assert (2 <= length db) by (destruct (ex_desc x); destruct D as (xb & -> & D); apply U in D; cbn [length]; lia). unfold idx_lines. lia.
  - destruct H as (n & c & -> & N & H). apply U in N. apply U in H. rewrite app_length. lia.
  - apply (sized_lines _ elem_lines) in H; [lia|]. intros c x (xb & ob & ib & -> & X & O & V). apply U in X. apply code_bytes in O. apply vec_count in V; [|apply wordy_u32].
    rewrite !app_length. unfold elem_lines. pose proof (list_lines_le (fun _ : funcidx => idx_lines) (el_init x)) as L. rewrite total_len in L. unfold idx_lines in *. unfold funcidx, u32 in *. lia.
  - apply (sized_lines _ codes_lines) in H; [lia|]. intros c x (n & es & -> & N & rb & eb & runs & -> & R & _ & _ & isb & -> & E). apply U in N. apply wordy_vec in R. apply instr_bytes in E.
    rewrite !app_length. cbn [length]. unfold codes_lines. lia.
  - apply (sized_lines _ data_lines) in H; [lia|]. intros c x (xb & ob & ib & -> & X & O & V). apply U in X. apply code_bytes in O. apply vec_count in V; [|intros ? ? ->; cbn; lia].
    rewrite !app_length. unfold data_lines. pose proof (list_lines_le (fun _ : byte => 1) (da_init x)) as L. rewrite total_len in L. unfold idx_lines in *. lia.
Qed.
Lemma pair_sheet ts : forall cs,
  total func_lines (pair_funcs ts cs) <= total codes_lines cs + total (fun f => length (fn_locals f)) (pair_funcs ts cs).
Proof.
  unfold pair_funcs. induction ts as [|t ts IH]; intros [|c cs]; cbn [combine map]; try (rewrite !total_nil; lia). rewrite !total_cons. specialize (IH cs).
  unfold func_lines at 1. unfold codes_lines at 1. cbn [fn_locals fn_body fst snd]. pose proof (code_of_lines (snd c)).
  pose proof (list_lines_le (fun _ : valty => 1) (fst c)) as L. rewrite total_len in L. unfold idx_lines. lia.
Qed.
Lemma pair_extra ts cs : extra func_lines (pair_funcs ts cs) <= extra codes_lines cs + total (fun f => length (fn_locals f)) (pair_funcs ts cs).
Proof.
  pose proof (pair_sheet ts cs) as P. destruct (pair_funcs ts cs) as [|f r] eqn:E; [cbn [extra]; lia|].
  destruct cs as [|c cs]; [|cbn [extra] in *; lia]. exfalso. unfold pair_funcs in E. destruct ts; discriminate E.
Qed.
Lemma start_flat secs : match hd_error (flat_map sec_starts secs) with Some _ => 2 + (2 + idx_lines) | None => 1 end <= 1 + total (fun s => start_lines (sec_starts s)) secs.
Proof.
  induction secs as [|s secs IH]; [apply le_n|]. cbn [flat_map]. rewrite total_cons. destruct (sec_starts s) as [|x l]; cbn [app hd_error start_lines] in *; [exact IH|].
  unfold idx_lines. lia.
Qed.
Theorem lines_file bs m : p_module bs = (Ok m, []) -> 3 * module_lines m + 76 <= 14 * length bs + 3 * declared m.
Proof.
  intros P. apply module_exact in P as [_ (body & secs & -> & EL & _ & _ & ->)]. apply (lines_weigh _ sheet) in EL; [|exact section_sheet].
  rewrite app_length. cbn [preamble length]. enough (module_lines (module_of secs) <= 12 + total sheet secs + declared (module_of secs)) by lia. clear EL.
  unfold module_lines, declared. cbn [module_of m_types m_funcs m_tables m_mems m_globals m_elem m_data m_start m_imports m_exports]. rewrite !extra_lines.
  pose proof (start_flat secs) as ST. pose proof (pair_extra (flat_map sec_typeidxs secs) (flat_map sec_codes secs)) as PE.
  set (d := total _ (pair_funcs _ _)) in *. set (st := match hd_error _ with Some _ => _ | None => _ end) in *. set (fn := extra _ (pair_funcs _ _)) in *. clearbody d st fn.
  unfold sheet. rewrite !total_plus.
  repeat match goal with |- context [extra ?w (flat_map ?g secs)] => pose proof (extra_flat w g secs); set (extra w (flat_map g secs)) in *; clearbody n || idtac end.
  pose proof (extra_flat codes_lines sec_codes secs). lia.
Qed.

(** ** Modules of one function *)
Definition s_func (ls : list valty) (e : expr) : func := {| fn_ty := 0%N; fn_locals := ls; fn_body := e |}.
Definition s_code (ls : list valty) (e : expr) : list byte := e_vec e_code [s_func ls e].
Lemma s_contents ls e : section_contents (solo ls e) = [(x01, [x01; x60; x00; x00]); (x03, [x01; x00]); (x0a, s_code ls e)].
Proof. reflexivity. Qed.
Lemma s_code_length ls e : length (s_code ls e) <= 6 + length (e_func (s_func ls e)).
Proof.
  unfold s_code, e_vec. cbn [length flat_map]. rewrite app_nil_r. change (e_u32 (N.of_nat 1)) with [x01]. unfold e_code, e_sized. cbn [app length]. rewrite app_length.
  unfold e_u32. pose proof (u_bytes_length 5 (N.of_nat (length (e_func (s_func ls e))))). lia.
Qed.
Lemma s_encode ls e : encode (solo ls e) = preamble ++ [x01; x04; x01; x60; x00; x00; x03; x02; x01; x00] ++ x0a :: e_u32 (N.of_nat (length (s_code ls e))) ++ s_code ls e.
Proof.
  unfold encode. rewrite s_contents. cbn [flat_map fst snd]. unfold e_sized. cbn [length]. change (e_u32 (N.of_nat 4)) with [x04]. change (e_u32 (N.of_nat 2)) with [x02].
  cbn [app]. rewrite app_nil_r. reflexivity.
Qed.
Lemma s_length ls e : length (encode (solo ls e)) <= 30 + length (e_func (s_func ls e)).
Proof.
  rewrite s_encode, !app_length. cbn [length]. rewrite app_length. unfold e_u32. pose proof (u_bytes_length 5 (N.of_nat (length (s_code ls e)))).
  pose proof (s_code_length ls e). change (length preamble) with 8. lia.
Qed.
Lemma s_read ls e : well_nested e -> code_in_range e -> (N.of_nat (length ls) < 2 ^ 32)%N -> (N.of_nat (length (e_func (s_func ls e))) < 2 ^ 31)%N ->
  p_module (encode (solo ls e)) = (Ok (solo ls e), []).
Proof.
  intros W R L S. apply round_trip. split; [|split; [|split; [|split]]].
  - repeat constructor.
  - constructor.
  - intros x [<-|[]]. split; assumption.
  - intros f [<-|[]]. exact L.
  - rewrite s_contents. intros s [<-|[<-|[<-|[]]]]; cbn [snd]; try reflexivity. pose proof (s_code_length ls e). lia.
Qed.
(** many local variables *)
Lemma runs_repeat t n : runs_of (repeat t n) = match n with O => [] | _ => [(N.of_nat n, t)] end.
Proof.
  induction n as [|n IH]; [reflexivity|]. cbn [repeat runs_of]. rewrite IH. destruct n as [|n]; [reflexivity|].
  assert (E : valty_eqb t t = true) by (destruct t; reflexivity). rewrite E. f_equal. f_equal. lia.
Qed.
Lemma roomy_code n : length (e_func (s_func (repeat T_I32 n) [])) <= 8.
Proof.
  unfold e_func, s_func. cbn [fn_locals fn_body]. rewrite runs_repeat. destruct n as [|n]; [cbn; lia|]. rewrite app_length. unfold e_vec. cbn [length flat_map].
  rewrite app_length. change (length (e_u32 (N.of_nat 1))) with 1. unfold e_run. cbn [fst snd]. rewrite app_nil_r, app_length. unfold e_u32 at 1.
  pose proof (u_bytes_length 5 (N.of_nat (S n))). change (length (e_valty T_I32)) with 1. change (length (e_expr [])) with 1. lia.
Qed.
Theorem roomy_file n : (N.of_nat n < 2 ^ 32)%N ->
  p_module (encode (roomy n)) = (Ok (roomy n), []) /\ validate (roomy n) = VOk (mkModuleTypes [] []) /\ length (encode (roomy n)) <= 38 /\ n < module_lines (roomy n).
Proof.
  intros L. assert (O : forall j, ~ occurs j []) by (intros j O; inversion O as [? I|? ? ? I]; destruct I). split; [|split; [|split]].
  - apply s_read.
    + split; [exact (O _)|split; [exact (O _)|]]. intros j rt H. destruct (O _ H).
    + intros j H. destruct (O _ H).
    + rewrite repeat_length. exact L.
    + pose proof (roomy_code n). lia.
  - reflexivity.
  - pose proof (s_length (repeat T_I32 n) []). pose proof (roomy_code n). unfold roomy. lia.
  - unfold module_lines, roomy, solo. cbn [m_types m_funcs m_tables m_mems m_globals m_elem m_data m_start m_imports m_exports list_lines].
    rewrite !total_cons. unfold func_lines. cbn [fn_locals]. assert (X : n <= list_lines (fun _ => 1) (repeat T_I32 n)); [|lia].
    destruct n as [|n]; [lia|]. cbn [repeat list_lines]. rewrite total_len. cbn [length]. rewrite repeat_length. lia.
Qed.
(** nested [if]s *)
Lemma occurs_ifs k : forall j, occurs j (ifs k) -> exists k', j = I_If [T_I32] (ifs k') [].
Proof.
  induction k as [|k IH]; intros j O; cbn [ifs] in O.
  - inversion O as [e I|i sub e I]; subst; destruct I.
  - inversion O as [e I|i sub e I S O']; subst.
    + destruct I as [<-|[]]. exists k. reflexivity.
    + destruct I as [<-|[]]. destruct S as [<-|[<-|[]]]; [apply IH, O'|]. inversion O' as [e' I'|i' sub' e' I']; destruct I'.
Qed.
Lemma ifs_length k : length (flat_map e_instr (ifs k)) = 3 * k.
Proof.
  induction k as [|k IH]; [reflexivity|]. cbn [ifs flat_map]. rewrite app_nil_r. cbn [e_instr length e_blockty app]. rewrite !app_length, IH. cbn [length e_valty]. lia.
Qed.
Lemma ifs_lines k : total instr_lines (ifs (S k)) = 14 * k + 13.
Proof.
  induction k as [|k IH]; [reflexivity|]. change (ifs (S (S k))) with [I_If [T_I32] (ifs (S k)) []]. rewrite total_cons, total_nil. cbn [instr_lines].
  assert (E : list_lines instr_lines (ifs (S k)) = 2 + total instr_lines (ifs (S k))) by reflexivity. rewrite E, IH. cbn. lia.
Qed.
Theorem bushy_file k : (N.of_nat k < 2 ^ 29)%N ->
  p_module (encode (bushy k)) = (Ok (bushy k), []) /\ declared (bushy k) = 0 /\ length (encode (bushy k)) <= 3 * k + 32 /\ 14 * k < module_lines (bushy k).
Proof.
  intros L. assert (F : length (e_func (s_func [] (ifs k))) = 3 * k + 2).
  { unfold e_func, s_func. cbn [fn_locals fn_body runs_of]. change (e_vec e_run []) with [x00]. unfold e_expr. rewrite !app_length, ifs_length. cbn [length]. lia. }
  split; [|split; [|split]].
  - apply s_read; [| |reflexivity|rewrite F; lia].
    + repeat split.
      * intros O. apply occurs_ifs in O. destruct O as [k' O]. discriminate O.
      * intros O. apply occurs_ifs in O. destruct O as [k' O]. discriminate O.
      * intros j rt O B. apply occurs_ifs in O. destruct O as [k' ->]. injection B as <-. cbn. lia.
    + intros j O. apply occurs_ifs in O. destruct O as [k' ->]. split; [constructor|exact I].
  - reflexivity.
  - pose proof (s_length [] (ifs k)). unfold bushy. lia.
  - unfold module_lines, bushy, solo. cbn [m_types m_funcs m_tables m_mems m_globals m_elem m_data m_start m_imports m_exports list_lines].
    rewrite !total_cons, !total_nil. unfold func_lines, code_lines. cbn [fn_body]. destruct k as [|k]; [lia|].
    assert (E : list_lines instr_lines (ifs (S k)) = 2 + total instr_lines (ifs (S k))) by reflexivity. rewrite E, ifs_lines. lia.
Qed.
