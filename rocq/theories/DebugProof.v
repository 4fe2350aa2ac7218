(** The printed text of a module determines the module up to NaNs. *)
From Coq Require Import String Ascii Lia DecimalString.
From Coq Require DecimalN DecimalZ.
From Verif Require Import DebugText SpecDebug SpecUtf8 SpecCode DebugLayout DebugNames EncodeProof.
Open Scope string_scope.

(** numbers *)
Lemma uint_nonnil n : N.to_uint n <> Decimal.Nil.
Proof. intros H. pose proof (DecimalN.Unsigned.of_to n) as E. rewrite H in E. cbn in E. subst n. discriminate H. Qed.
Definition read_u32 (s : string) : N := match NilZero.uint_of_string s with Some d => N.of_uint d | None => 0%N end.
Lemma read_u32_ok n : read_u32 (NilZero.string_of_uint (N.to_uint n)) = n.
Proof. unfold read_u32. rewrite NilZero.usu by apply uint_nonnil. apply DecimalN.Unsigned.of_to. Qed.
Definition read_int (s : string) : Z := match NilZero.int_of_string s with Some d => Z.of_int d | None => 0%Z end.
Lemma pos_nonnil p : Pos.to_uint p <> Decimal.Nil.
Proof. intros H. apply (uint_nonnil (N.pos p)). exact H. Qed.
Lemma read_int_ok z : read_int (NilZero.string_of_int (Z.to_int z)) = z.
Proof.
  unfold read_int. rewrite NilZero.isi.
  - apply DecimalZ.of_to.
  - destruct z; cbn; try discriminate. intros H. injection H as H. destruct (pos_nonnil _ H).
  - destruct z; cbn; try discriminate. intros H. injection H as H. destruct (pos_nonnil _ H).
Qed.
Lemma u32_inj a b : d_u32 a = d_u32 b -> a = b.
Proof. unfold d_u32. intros H. injection H as H. rewrite <- (read_u32_ok a), H. apply read_u32_ok. Qed.
Lemma uint_plain d : d <> Decimal.Nil -> plain (NilZero.string_of_uint d) /\ NilZero.string_of_uint d <> "[]".
Proof.
  intros N. assert (F : free "010" (NilZero.string_of_uint d)).
  { assert (H : forall d, free "010" (NilEmpty.string_of_uint d)) by (clear; induction d; cbn; auto; split; try discriminate; assumption).
    unfold NilZero.string_of_uint. destruct d; try apply H. cbn. split; [discriminate|exact I]. }
  split; [split; [exact F|]|]; destruct d; try congruence; cbn; discriminate.
Qed.
Lemma u32_wf n : wf (d_u32 n).
Proof. constructor; apply uint_plain, uint_nonnil. Qed.
Lemma u8_wf b : wf (d_u8 b).
Proof. constructor; apply uint_plain, uint_nonnil. Qed.
Lemma u8_inj a b : d_u8 a = d_u8 b -> a = b.
Proof.
  unfold d_u8, show_u8. intros H. injection H as H. apply (f_equal read_u32) in H. rewrite !read_u32_ok in H.
  apply (f_equal Byte.of_N) in H. rewrite !Byte.of_to_N in H. congruence.
Qed.
Lemma int_wf z : wf (D_leaf (NilZero.string_of_int (Z.to_int z))).
Proof.
  constructor; destruct z as [|p|p]; cbn [Z.to_int NilZero.string_of_int].
  - apply uint_plain. discriminate.
  - apply uint_plain, pos_nonnil.
  - destruct (uint_plain _ (pos_nonnil p)) as [[A _] _]. split; [split; [discriminate|exact A]|discriminate].
  - discriminate.
  - apply uint_plain, pos_nonnil.
  - discriminate.
Qed.

(** reading back an instruction that contains neither a floating point number nor other instructions *)
Definition leaf_table : list (string * instr) :=
  [("Unreachable", I_Unreachable); ("Nop", I_Nop); ("Else", I_Else); ("End", I_End); ("Return", I_Return);
   ("Drop", I_Drop); ("Select", I_Select); ("I32Eqz", I_I32Eqz); ("I32Eq", I_I32Eq); ("I32Ne", I_I32Ne);
   ("I32LtS", I_I32LtS); ("I32LtU", I_I32LtU); ("I32GtS", I_I32GtS); ("I32GtU", I_I32GtU); ("I32LeS", I_I32LeS);
   ("I32LeU", I_I32LeU); ("I32GeS", I_I32GeS); ("I32GeU", I_I32GeU); ("I64Eqz", I_I64Eqz); ("I64Eq", I_I64Eq);
   ("I64Ne", I_I64Ne); ("I64LtS", I_I64LtS); ("I64LtU", I_I64LtU); ("I64GtS", I_I64GtS); ("I64GtU", I_I64GtU);
   ("I64LeS", I_I64LeS); ("I64LeU", I_I64LeU); ("I64GeS", I_I64GeS); ("I64GeU", I_I64GeU); ("F32Eq", I_F32Eq);
   ("F32Ne", I_F32Ne); ("F32Lt", I_F32Lt); ("F32Gt", I_F32Gt); ("F32Le", I_F32Le); ("F32Ge", I_F32Ge);
   ("F64Eq", I_F64Eq); ("F64Ne", I_F64Ne); ("F64Lt", I_F64Lt); ("F64Gt", I_F64Gt); ("F64Le", I_F64Le);
   ("F64Ge", I_F64Ge); ("I32Clz", I_I32Clz); ("I32Ctz", I_I32Ctz); ("I32Popcnt", I_I32Popcnt);
   ("I32Add", I_I32Add); ("I32Sub", I_I32Sub); ("I32Mul", I_I32Mul); ("I32DivS", I_I32DivS);
   ("I32DivU", I_I32DivU); ("I32RemS", I_I32RemS); ("I32RemU", I_I32RemU); ("I32And", I_I32And);
   ("I32Or", I_I32Or); ("I32Xor", I_I32Xor); ("I32Shl", I_I32Shl); ("I32ShrS", I_I32ShrS); ("I32ShrU", I_I32ShrU);
   ("I32Rotl", I_I32Rotl); ("I32Rotr", I_I32Rotr); ("I64Clz", I_I64Clz); ("I64Ctz", I_I64Ctz);
   ("I64Popcnt", I_I64Popcnt); ("I64Add", I_I64Add); ("I64Sub", I_I64Sub); ("I64Mul", I_I64Mul);
   ("I64DivS", I_I64DivS); ("I64DivU", I_I64DivU); ("I64RemS", I_I64RemS); ("I64RemU", I_I64RemU);
   ("I64And", I_I64And); ("I64Or", I_I64Or); ("I64Xor", I_I64Xor); ("I64Shl", I_I64Shl); ("I64ShrS", I_I64ShrS);
   ("I64ShrU", I_I64ShrU); ("I64Rotl", I_I64Rotl); ("I64Rotr", I_I64Rotr); ("F32Abs", I_F32Abs);
   ("F32Neg", I_F32Neg); ("F32Ceil", I_F32Ceil); ("F32Floor", I_F32Floor); ("F32Trunc", I_F32Trunc);
   ("F32Nearest", I_F32Nearest); ("F32Sqrt", I_F32Sqrt); ("F32Add", I_F32Add); ("F32Sub", I_F32Sub);
   ("F32Mul", I_F32Mul); ("F32Div", I_F32Div); ("F32Min", I_F32Min); ("F32Max", I_F32Max);
   ("F32Copysign", I_F32Copysign); ("F64Abs", I_F64Abs); ("F64Neg", I_F64Neg); ("F64Ceil", I_F64Ceil);
   ("F64Floor", I_F64Floor); ("F64Trunc", I_F64Trunc); ("F64Nearest", I_F64Nearest); ("F64Sqrt", I_F64Sqrt);
   ("F64Add", I_F64Add); ("F64Sub", I_F64Sub); ("F64Mul", I_F64Mul); ("F64Div", I_F64Div); ("F64Min", I_F64Min);
   ("F64Max", I_F64Max); ("F64Copysign", I_F64Copysign); ("I32WrapI64", I_I32WrapI64);
   ("I32TruncF32S", I_I32TruncF32S); ("I32TruncF32U", I_I32TruncF32U); ("I32TruncF64S", I_I32TruncF64S);
   ("I32TruncF64U", I_I32TruncF64U); ("I64ExtendI32S", I_I64ExtendI32S); ("I64ExtendI32U", I_I64ExtendI32U);
   ("I64TruncF32S", I_I64TruncF32S); ("I64TruncF32U", I_I64TruncF32U); ("I64TruncF64S", I_I64TruncF64S);
   ("I64TruncF64U", I_I64TruncF64U); ("F32ConvertI32S", I_F32ConvertI32S); ("F32ConvertI32U", I_F32ConvertI32U);
   ("F32ConvertI64S", I_F32ConvertI64S); ("F32ConvertI64U", I_F32ConvertI64U); ("F32DemoteF64", I_F32DemoteF64);
   ("F64ConvertI32S", I_F64ConvertI32S); ("F64ConvertI32U", I_F64ConvertI32U);
   ("F64ConvertI64S", I_F64ConvertI64S); ("F64ConvertI64U", I_F64ConvertI64U); ("F64PromoteF32", I_F64PromoteF32);
   ("I32ReinterpretF32", I_I32ReinterpretF32); ("I64ReinterpretF64", I_I64ReinterpretF64);
   ("F32ReinterpretI32", I_F32ReinterpretI32); ("F64ReinterpretI64", I_F64ReinterpretI64)].
Definition mem_table : list (string * (u32 -> u32 -> instr)) :=
  [("I32Load", I_I32Load); ("I64Load", I_I64Load); ("F32Load", I_F32Load); ("F64Load", I_F64Load);
   ("I32Load8S", I_I32Load8S); ("I32Load8U", I_I32Load8U); ("I32Load16S", I_I32Load16S);
   ("I32Load16U", I_I32Load16U); ("I64Load8S", I_I64Load8S); ("I64Load8U", I_I64Load8U);
   ("I64Load16S", I_I64Load16S); ("I64Load16U", I_I64Load16U); ("I64Load32S", I_I64Load32S);
   ("I64Load32U", I_I64Load32U); ("I32Store", I_I32Store); ("I64Store", I_I64Store); ("F32Store", I_F32Store);
   ("F64Store", I_F64Store); ("I32Store8", I_I32Store8); ("I32Store16", I_I32Store16); ("I64Store8", I_I64Store8);
   ("I64Store16", I_I64Store16); ("I64Store32", I_I64Store32)].
Definition idx_table : list (string * (u32 -> instr)) :=
  [("Br", I_Br); ("BrIf", I_BrIf); ("Call", I_Call); ("LocalGet", I_LocalGet); ("LocalSet", I_LocalSet);
   ("LocalTee", I_LocalTee); ("GlobalGet", I_GlobalGet); ("GlobalSet", I_GlobalSet); ("MemSize", I_MemSize);
   ("MemGrow", I_MemGrow)].
Definition int_table : list (string * (Z -> instr)) :=
  [("ConstI32", I_ConstI32); ("ConstI64", I_ConstI64)].
Fixpoint lookup {A} (s : string) (l : list (string * A)) : option A :=
  match l with [] => None | (k, x) :: l' => if String.eqb s k then Some x else lookup s l' end.
Definition read_idx (t : dtree) : u32 := match t with D_tuple _ [D_leaf a] => read_u32 a | _ => 0%N end.
Definition undo (t : dtree) : option instr :=
  match t with
  | D_leaf s => lookup s leaf_table
  | D_tuple nm [D_leaf a] => option_map (fun f => f (read_int a)) (lookup nm int_table)
  | D_tuple nm [D_tuple k [a]] => option_map (fun f => f (read_idx (D_tuple k [a]))) (lookup nm idx_table)
  | D_tuple nm [D_leaf a; D_leaf b] => option_map (fun f => f (read_u32 a) (read_u32 b)) (lookup nm mem_table)
  | D_tuple nm [D_list l; D_tuple k [a]] => Some (I_BrTable (map read_idx l) (read_idx (D_tuple k [a])))
  | D_tuple nm [D_tuple j [D_leaf a]; D_tuple k [D_leaf b]] => Some (I_CallIndirect (read_u32 a) (read_u32 b))
  | _ => None
  end.
Definition simple (i : instr) : bool :=
  match i with I_Block _ _ | I_Loop _ _ | I_If _ _ _ | I_ConstF32 _ | I_ConstF64 _ => false | _ => true end.
Lemma read_idx_ok nm n : read_idx (d_idx nm n) = n.
Proof. cbn. apply read_u32_ok. Qed.
Lemma read_idxs nm l : map read_idx (map (d_idx nm) l) = l.
Proof. induction l as [|x l IH]; [reflexivity|]. cbn [map]. rewrite IH, read_idx_ok. reflexivity. Qed.
Lemma undo_ok std i : undo (d_instr std i) = if simple i then Some i else None.
Proof.
  destruct i; cbn [d_instr simple undo d_idx d_u32 d_i32 d_i64 d_retval d_vec lookup leaf_table mem_table idx_table int_table String.eqb Ascii.eqb Bool.eqb option_map read_idx];
    rewrite ?read_u32_ok, ?read_int_ok, ?read_idxs; reflexivity.
Qed.

(** lists *)
Lemma vec_inj {A B} (d : A -> dtree) (h : A -> B) l1 l2 :
  (forall x y, In x l1 -> In y l2 -> d x = d y -> h x = h y) -> map d l1 = map d l2 -> map h l1 = map h l2.
Proof.
  revert l2. induction l1 as [|x l1 IH]; intros [|y l2] D H; try discriminate H; [reflexivity|].
  cbn [map] in *. injection H as H1 H2. f_equal.
  - apply D; [left; reflexivity|left; reflexivity|exact H1].
  - apply IH; [|exact H2]. intros a b I J. apply D; right; assumption.
Qed.
Lemma vec_id {A} (d : A -> dtree) l1 l2 : (forall x y, In x l1 -> In y l2 -> d x = d y -> x = y) -> map d l1 = map d l2 -> l1 = l2.
Proof. intros D H. rewrite <- (map_id l1), <- (map_id l2). apply (vec_inj d); assumption. Qed.
Lemma vec_same {A B} (d : A -> dtree) (h : A -> B) (e : B -> dtree) l1 l2 :
  (forall x, d x = e (h x)) -> map h l1 = map h l2 -> map d l1 = map d l2.
Proof.
  intros E H. rewrite (map_ext _ (fun x => e (h x)) E l1), (map_ext _ (fun x => e (h x)) E l2), <- !(map_map h e), H. reflexivity.
Qed.

(** instructions *)
Section Honest.
Variable std : std_texts.
Hypothesis hon : honest std.

Lemma nan_text32 x : std_f32 std (if nan32 x then 0x7FC00000 else x)%N = std_f32 std x.
Proof. destruct (nan32 x) eqn:E; [|reflexivity]. apply (text32 _ hon). right. split; [reflexivity|exact E]. Qed.
Lemma nan_text64 x : std_f64 std (if nan64 x then 0x7FF8000000000000 else x)%N = std_f64 std x.
Proof. destruct (nan64 x) eqn:E; [|reflexivity]. apply (text64 _ hon). right. split; [reflexivity|exact E]. Qed.
Lemma map_one_nan b : Forall (fun i => d_instr std (one_nan i) = d_instr std i) b -> map (d_instr std) (map one_nan b) = map (d_instr std) b.
Proof. intros F. induction F as [|i b H F IH]; [reflexivity|]. cbn [map]. rewrite H, IH. reflexivity. Qed.
Lemma d_one_nan i : d_instr std (one_nan i) = d_instr std i.
Proof.
  induction i as [i IH] using instr_children_ind.
  destruct i; try reflexivity; cbn [one_nan d_instr].
  - rewrite map_one_nan by (apply IH; left; reflexivity). reflexivity.
  - rewrite map_one_nan by (apply IH; left; reflexivity). reflexivity.
  - rewrite !map_one_nan by (apply IH; cbn; auto). reflexivity.
  - rewrite nan_text32. reflexivity.
  - rewrite nan_text64. reflexivity.
Qed.
Lemma valty_inj a b : d_valty a = d_valty b -> a = b.
Proof. destruct a, b; intros H; reflexivity || discriminate H. Qed.
Lemma valtys_inj a b : d_vec d_valty a = d_vec d_valty b -> a = b.
Proof. intros H. injection H as H. apply (vec_id d_valty); [|exact H]. intros x y _ _. apply valty_inj. Qed.
Lemma instr_inj i1 i2 : d_instr std i1 = d_instr std i2 -> one_nan i1 = one_nan i2.
Proof.
  revert i2. induction i1 as [i1 IH] using instr_children_ind. intros i2 H. pose proof H as U. apply (f_equal undo) in U. rewrite !undo_ok in U.
  destruct (simple i1) eqn:S1, (simple i2) eqn:S2; try discriminate U; [injection U as ->; reflexivity|].
  clear U. destruct i1; try discriminate S1; clear S1; destruct i2; try discriminate S2; clear S2; try discriminate H; cbn [d_instr] in H.
  - assert (L : map one_nan b = map one_nan b0).
    { apply (vec_inj (d_instr std)); [|congruence]. intros x y I _. specialize (IH b (or_introl eq_refl)). rewrite Forall_forall in IH. apply IH, I. }
    cbn [one_nan]. rewrite L. f_equal. apply valtys_inj. unfold d_retval in H. congruence.
  - assert (L : map one_nan b = map one_nan b0).
    { apply (vec_inj (d_instr std)); [|congruence]. intros x y I _. specialize (IH b (or_introl eq_refl)). rewrite Forall_forall in IH. apply IH, I. }
    cbn [one_nan]. rewrite L. f_equal. apply valtys_inj. unfold d_retval in H. congruence.
  - assert (L : map one_nan b = map one_nan b0).
    { apply (vec_inj (d_instr std)); [|congruence]. intros x y I _. specialize (IH b (or_introl eq_refl)). rewrite Forall_forall in IH. apply IH, I. }
    assert (M : map one_nan c = map one_nan c0).
    { apply (vec_inj (d_instr std)); [|congruence]. intros x y I _. specialize (IH c (or_intror (or_introl eq_refl))). rewrite Forall_forall in IH. apply IH, I. }
    cbn [one_nan]. rewrite L, M. f_equal. apply valtys_inj. unfold d_retval in H. congruence.
  - injection H as H. apply (text32 _ hon) in H. cbn [one_nan]. destruct H as [->|[-> ->]]; reflexivity.
  - injection H as H. apply (text64 _ hon) in H. cbn [one_nan]. destruct H as [->|[-> ->]]; reflexivity.
Qed.
Lemma code_inj e1 e2 : map (d_instr std) e1 = map (d_instr std) e2 <-> map one_nan e1 = map one_nan e2.
Proof.
  split.
  - apply vec_inj. intros x y _ _. apply instr_inj.
  - apply (vec_same _ _ (d_instr std)). intros x. symmetry. apply d_one_nan.
Qed.

(** components *)
Lemma limits_inj a b : d_limits a = d_limits b -> a = b.
Proof.
  destruct a as [mi [mx|]], b as [mi' [mx'|]]; unfold d_limits; cbn [lim_min lim_max d_option]; intros H; try discriminate H.
  - assert (A : d_u32 mi = d_u32 mi') by congruence. assert (B : d_u32 mx = d_u32 mx') by congruence.
    apply u32_inj in A, B. congruence.
  - assert (A : d_u32 mi = d_u32 mi') by congruence. apply u32_inj in A. congruence.
Qed.
Lemma idx_inj nm a b : d_idx nm a = d_idx nm b -> a = b.
Proof. unfold d_idx. intros H. apply u32_inj. congruence. Qed.
Lemma functy_inj a b : d_functy a = d_functy b -> a = b.
Proof.
  destruct a as [p r], b as [p' r']. unfold d_functy. cbn [ft_params ft_results]. intros H.
  assert (A : d_vec d_valty p = d_vec d_valty p') by congruence.
  assert (B : d_vec d_valty r = d_vec d_valty r') by congruence.
  apply valtys_inj in A, B. congruence.
Qed.
Lemma tablety_inj a b : d_tablety a = d_tablety b -> a = b.
Proof.
  destruct a as [l []], b as [l' []]. unfold d_tablety. cbn [tt_lim tt_elem]. intros H. assert (A : d_limits l = d_limits l') by congruence.
  apply limits_inj in A. congruence.
Qed.
Lemma memty_inj a b : d_memty a = d_memty b -> a = b.
Proof. destruct a as [l], b as [l']. unfold d_memty. cbn [mt_lim]. intros H. assert (A : d_limits l = d_limits l') by congruence. apply limits_inj in A. congruence. Qed.
Lemma mut_inj a b : d_mut a = d_mut b -> a = b.
Proof. destruct a, b; intros H; reflexivity || discriminate H. Qed.
Lemma globalty_inj a b : d_globalty a = d_globalty b -> a = b.
Proof.
  destruct a as [m v], b as [m' v']. unfold d_globalty. cbn [gt_mut gt_val]. intros H. assert (A : d_mut m = d_mut m') by congruence.
  assert (B : d_valty v = d_valty v') by congruence. apply mut_inj in A. apply valty_inj in B. congruence.
Qed.
Definition nan_func (f : func) : func := mkFunc (fn_ty f) (fn_locals f) (map one_nan (fn_body f)).
Definition nan_global (g : global) : global := mkGlobal (glob_ty g) (map one_nan (glob_init g)).
Definition nan_elem (e : elem) : elem := mkElem (el_table e) (map one_nan (el_offset e)) (el_init e).
Definition nan_data (d : data) : data := mkData (da_mem d) (map one_nan (da_offset d)) (da_init d).
Lemma d_exprs e : d_vec (d_instr std) (map one_nan e) = d_vec (d_instr std) e.
Proof. unfold d_vec. rewrite map_one_nan; [reflexivity|]. apply Forall_forall. intros i _. apply d_one_nan. Qed.
Lemma func_inj a b : d_func std a = d_func std b -> nan_func a = nan_func b.
Proof.
  destruct a as [t l e], b as [t' l' e']. unfold d_func, nan_func, d_expr. cbn [fn_ty fn_locals fn_body]. intros H.
  assert (A : d_idx "Type" t = d_idx "Type" t') by congruence. assert (B : d_vec d_valty l = d_vec d_valty l') by congruence.
  assert (C : map one_nan e = map one_nan e') by (apply code_inj; unfold d_vec in H; congruence).
  apply idx_inj in A. apply valtys_inj in B. congruence.
Qed.
Lemma func_same a : d_func std a = d_func std (nan_func a).
Proof. destruct a as [t l e]. unfold d_func, nan_func, d_expr. cbn [fn_ty fn_locals fn_body]. rewrite d_exprs. reflexivity. Qed.
Lemma table_inj a b : d_table a = d_table b -> a = b.
Proof. destruct a as [t], b as [t']. unfold d_table. cbn [tab_ty]. intros H. assert (A : d_tablety t = d_tablety t') by congruence. apply tablety_inj in A. congruence. Qed.
Lemma mem_inj a b : d_mem a = d_mem b -> a = b.
Proof. destruct a as [t], b as [t']. unfold d_mem. cbn [mem_ty]. intros H. assert (A : d_memty t = d_memty t') by congruence. apply memty_inj in A. congruence. Qed.
Lemma global_inj a b : d_global std a = d_global std b -> nan_global a = nan_global b.
Proof.
  destruct a as [t e], b as [t' e']. unfold d_global, nan_global, d_constexpr. cbn [glob_ty glob_init]. intros H.
  assert (A : d_globalty t = d_globalty t') by congruence.
  assert (C : map one_nan e = map one_nan e') by (apply code_inj; unfold d_vec in H; congruence).
  apply globalty_inj in A. congruence.
Qed.
Lemma global_same a : d_global std a = d_global std (nan_global a).
Proof. destruct a as [t e]. unfold d_global, nan_global, d_constexpr. cbn [glob_ty glob_init]. rewrite d_exprs. reflexivity. Qed.
Lemma elem_inj a b : d_elem std a = d_elem std b -> nan_elem a = nan_elem b.
Proof.
  destruct a as [t e l], b as [t' e' l']. unfold d_elem, nan_elem, d_constexpr. cbn [el_table el_offset el_init]. intros H.
  assert (A : d_idx "Table" t = d_idx "Table" t') by congruence.
  assert (B : map (d_idx "Func") l = map (d_idx "Func") l') by (unfold d_vec in H; congruence).
  assert (C : map one_nan e = map one_nan e') by (apply code_inj; unfold d_vec in H; congruence).
  apply idx_inj in A. apply vec_id in B; [|intros x y _ _; apply idx_inj]. congruence.
Qed.
Lemma elem_same a : d_elem std a = d_elem std (nan_elem a).
Proof. destruct a as [t e l]. unfold d_elem, nan_elem, d_constexpr. cbn [el_table el_offset el_init]. rewrite d_exprs. reflexivity. Qed.
Lemma data_inj a b : d_data std a = d_data std b -> nan_data a = nan_data b.
Proof.
  destruct a as [t e l], b as [t' e' l']. unfold d_data, nan_data, d_constexpr. cbn [da_mem da_offset da_init]. intros H.
  assert (A : d_idx "Mem" t = d_idx "Mem" t') by congruence.
  assert (B : map d_u8 l = map d_u8 l') by (unfold d_vec in H; congruence).
  assert (C : map one_nan e = map one_nan e') by (apply code_inj; unfold d_vec in H; congruence).
  apply idx_inj in A. apply vec_id in B; [|intros x y _ _; apply u8_inj]. congruence.
Qed.
Lemma data_same a : d_data std a = d_data std (nan_data a).
Proof. destruct a as [t e l]. unfold d_data, nan_data, d_constexpr. cbn [da_mem da_offset da_init]. rewrite d_exprs. reflexivity. Qed.
Lemma start_inj a b : d_option d_start a = d_option d_start b -> a = b.
Proof.
  destruct a as [[a]|], b as [[b]|]; cbn [d_option d_start st_func]; intros H; try discriminate H; [|reflexivity].
  assert (A : d_idx "Func" a = d_idx "Func" b) by (unfold d_start in H; cbn [st_func] in H; congruence). apply idx_inj in A. congruence.
Qed.
Lemma importdesc_inj a b : d_importdesc a = d_importdesc b -> a = b.
Proof.
  destruct a, b; cbn [d_importdesc]; intros H; try discriminate H; f_equal.
  - apply (idx_inj "Type"). congruence.
  - apply tablety_inj. congruence.
  - apply memty_inj. congruence.
  - apply globalty_inj. congruence.
Qed.
Lemma exportdesc_inj a b : d_exportdesc a = d_exportdesc b -> a = b.
Proof.
  destruct a, b; cbn [d_exportdesc]; intros H; try discriminate H; f_equal.
  - apply (idx_inj "Func"). congruence.
  - apply (idx_inj "Table"). congruence.
  - apply (idx_inj "Mem"). congruence.
  - apply (idx_inj "Global"). congruence.
Qed.
Lemma import_inj a b : utf8 (im_module a) -> utf8 (im_name a) -> utf8 (im_module b) -> utf8 (im_name b) ->
  d_import std a = d_import std b -> a = b.
Proof.
  destruct a as [m n d], b as [m' n' d']. unfold d_import. cbn [im_module im_name im_desc]. intros U1 U2 V1 V2 H.
  assert (A : d_name std m = d_name std m') by congruence. assert (B : d_name std n = d_name std n') by congruence.
  assert (C : d_importdesc d = d_importdesc d') by congruence. apply name_inj in A, B; [|assumption..]. apply importdesc_inj in C. congruence.
Qed.
Lemma export_inj a b : utf8 (ex_name a) -> utf8 (ex_name b) -> d_export std a = d_export std b -> a = b.
Proof.
  destruct a as [n d], b as [n' d']. unfold d_export. cbn [ex_name ex_desc]. intros U1 V1 H.
  assert (A : d_name std n = d_name std n') by congruence. assert (C : d_exportdesc d = d_exportdesc d') by congruence.
  apply name_inj in A; [|assumption..]. apply exportdesc_inj in C. congruence.
Qed.
Lemma names_import m i : Forall utf8 (module_names m) -> In i (m_imports m) -> utf8 (im_module i) /\ utf8 (im_name i).
Proof.
  unfold module_names. rewrite Forall_forall. intros F I. split; apply F, in_or_app; left; apply in_flat_map; exists i; (split; [exact I|cbn; auto]).
Qed.
Lemma names_export m x : Forall utf8 (module_names m) -> In x (m_exports m) -> utf8 (ex_name x).
Proof. unfold module_names. rewrite Forall_forall. intros F I. apply F, in_or_app. right. apply in_map, I. Qed.
Lemma module_inj m1 m2 : Forall utf8 (module_names m1) -> Forall utf8 (module_names m2) ->
  d_module std m1 = d_module std m2 <-> module_one_nan m1 = module_one_nan m2.
Proof.
  intros U1 U2. split.
  - intros H. unfold d_module in H. injection H as H1 H2 H3 H4 H5 H6 H7 H8 H9 H10. unfold module_one_nan, map_code. f_equal.
    + apply (vec_id d_functy); [|exact H1]. intros x y _ _. apply functy_inj.
    + apply (vec_inj (d_func std) nan_func); [|exact H2]. intros x y _ _. apply func_inj.
    + apply (vec_id d_table); [|exact H3]. intros x y _ _. apply table_inj.
    + apply (vec_id d_mem); [|exact H4]. intros x y _ _. apply mem_inj.
    + apply (vec_inj (d_global std) nan_global); [|exact H5]. intros x y _ _. apply global_inj.
    + apply (vec_inj (d_elem std) nan_elem); [|exact H6]. intros x y _ _. apply elem_inj.
    + apply (vec_inj (d_data std) nan_data); [|exact H7]. intros x y _ _. apply data_inj.
    + apply start_inj, H8.
    + apply (vec_id (d_import std)); [|exact H9]. intros x y I J.
      apply (names_import _ _ U1) in I. apply (names_import _ _ U2) in J. destruct I, J. apply import_inj; assumption.
    + apply (vec_id (d_export std)); [|exact H10]. intros x y I J.
      apply (names_export _ _ U1) in I. apply (names_export _ _ U2) in J. apply export_inj; assumption.
  - unfold module_one_nan, map_code. intros H. injection H as H1 H2 H3 H4 H5 H6 H7 H8 H9 H10.
    unfold d_module, d_vec. rewrite H1, H3, H4, H8, H9, H10.
    rewrite (vec_same _ nan_func (d_func std) _ _ func_same H2), (vec_same _ nan_global (d_global std) _ _ global_same H5),
      (vec_same _ nan_elem (d_elem std) _ _ elem_same H6), (vec_same _ nan_data (d_data std) _ _ data_same H7). reflexivity.
Qed.

(** well-formedness *)
Ltac word := split; [cbn; repeat split; discriminate|cbn; discriminate].
Lemma float_plain s : float_text s -> plain s /\ s <> "[]".
Proof.
  intros [N F]. destruct s as [|c s]; [congruence|]. cbn [list_ascii_of_string] in F. split; [split|].
  - clear N. change (c :: list_ascii_of_string s) with (list_ascii_of_string (String c s)) in F. induction (String c s) as [|x r IH]; [exact I|].
    cbn [list_ascii_of_string] in F. inversion F; subst. split; [intros ->; discriminate|auto].
  - inversion F; subst. intros ->. discriminate.
  - intros E. injection E as -> _. inversion F. discriminate.
Qed.
Lemma leaf_wf s : plain s -> s <> "[]" -> wf (D_leaf s).
Proof. intros. constructor; assumption. Qed.
Lemma tuple1_wf nm t : plain nm -> wf t -> wf (D_tuple nm [t]).
Proof. intros. constructor; [assumption|discriminate|repeat constructor; assumption]. Qed.
Lemma tuple2_wf nm t u : plain nm -> wf t -> wf u -> wf (D_tuple nm [t; u]).
Proof. intros. constructor; [assumption|discriminate|repeat constructor; assumption]. Qed.
Lemma tuple3_wf nm t u v : plain nm -> wf t -> wf u -> wf v -> wf (D_tuple nm [t; u; v]).
Proof. intros. constructor; [assumption|discriminate|repeat constructor; assumption]. Qed.
Lemma vec_wf {A} (d : A -> dtree) l : (forall x, In x l -> wf (d x)) -> wf (d_vec d l).
Proof. intros H. constructor. apply Forall_forall. intros t I. apply in_map_iff in I. destruct I as (x & <- & I). auto. Qed.
Lemma option_wf {A} (d : A -> dtree) o : (forall x, wf (d x)) -> wf (d_option d o).
Proof. intros H. destruct o; cbn [d_option]; [apply tuple1_wf; [word|apply H]|apply leaf_wf; [word|discriminate] ]. Qed.
Lemma idx_wf nm n : plain nm -> wf (d_idx nm n).
Proof. intros P. apply tuple1_wf; [exact P|apply u32_wf]. Qed.
Lemma valty_wf t : wf (d_valty t).
Proof. destruct t; (apply leaf_wf; [word|discriminate]). Qed.
Lemma valtys_wf l : wf (d_vec d_valty l).
Proof. apply vec_wf. intros x _. apply valty_wf. Qed.
Lemma instr_wf i : wf (d_instr std i).
Proof.
  induction i as [i IH] using instr_children_ind.
  assert (C : forall b, In b (children i) -> wf (D_tuple "Expr" [D_list (map (d_instr std) b)])).
  { intros b I. apply tuple1_wf; [word|]. apply (vec_wf (d_instr std)). intros x J. specialize (IH b I). rewrite Forall_forall in IH. apply IH, J. }
  destruct i; cbn [d_instr];
    first [ apply leaf_wf; [word|discriminate]
          | apply tuple1_wf; [word|first [apply idx_wf; word|apply int_wf|apply leaf_wf; apply float_plain; first [apply (chars32 _ hon)|apply (chars64 _ hon)]]]
          | apply tuple2_wf; [word|first [apply idx_wf; word|apply u32_wf]|first [apply idx_wf; word|apply u32_wf]]
          | idtac ].
  - apply tuple2_wf; [word| |apply C; left; reflexivity]. apply tuple1_wf; [word|apply valtys_wf].
  - apply tuple2_wf; [word| |apply C; left; reflexivity]. apply tuple1_wf; [word|apply valtys_wf].
  - apply tuple3_wf; [word| |apply C; left; reflexivity|apply C; right; left; reflexivity]. apply tuple1_wf; [word|apply valtys_wf].
  - apply tuple2_wf; [word| |apply idx_wf; word]. apply (vec_wf (d_idx "Label")). intros x _. apply idx_wf. word.
Qed.
Lemma exprs_wf nm e : plain nm -> wf (D_tuple nm [d_vec (d_instr std) e]).
Proof. intros P. apply tuple1_wf; [exact P|]. apply vec_wf. intros x _. apply instr_wf. Qed.
Ltac field := split; [word|split; [cbn; repeat split; discriminate|] ].
Ltac record := constructor; [word|discriminate|repeat (apply Forall_cons; [field; cbn [snd]|]); try apply Forall_nil].
Lemma limits_wf l : wf (d_limits l).
Proof. record; [apply u32_wf|apply option_wf, u32_wf]. Qed.
Lemma functy_wf t : wf (d_functy t).
Proof. record; apply valtys_wf. Qed.
Lemma tablety_wf t : wf (d_tablety t).
Proof. record; [apply limits_wf|]. destruct (tt_elem t). apply leaf_wf; [word|discriminate]. Qed.
Lemma memty_wf t : wf (d_memty t).
Proof. record. apply limits_wf. Qed.
Lemma globalty_wf t : wf (d_globalty t).
Proof. record; [destruct (gt_mut t); (apply leaf_wf; [word|discriminate])|apply valty_wf]. Qed.
Lemma module_wf m : Forall utf8 (module_names m) -> wf (d_module std m).
Proof.
  intros U. record; try (apply vec_wf; intros x I).
  - apply functy_wf.
  - record; [apply idx_wf; word|apply valtys_wf|apply exprs_wf; word].
  - record. apply tablety_wf.
  - record. apply memty_wf.
  - record; [apply globalty_wf|apply exprs_wf; word].
  - record; [apply idx_wf; word|apply exprs_wf; word|]. apply vec_wf. intros y _. apply idx_wf. word.
  - record; [apply idx_wf; word|apply exprs_wf; word|]. apply vec_wf. intros y _. apply u8_wf.
  - apply option_wf. intros x. record. apply idx_wf. word.
  - apply (names_import _ _ U) in I. destruct I. record; [apply name_wf; assumption..|].
    destruct (im_desc x); (apply tuple1_wf; [word|]); [apply idx_wf; word|apply tablety_wf|apply memty_wf|apply globalty_wf].
  - apply (names_export _ _ U) in I. record; [apply name_wf; assumption|].
    destruct (ex_desc x); (apply tuple1_wf; [word|]); apply idx_wf; word.
Qed.
Lemma show_module_exact m1 m2 : Forall utf8 (module_names m1) -> Forall utf8 (module_names m2) ->
  show_module std m1 = show_module std m2 <-> module_one_nan m1 = module_one_nan m2.
Proof.
  intros U1 U2. rewrite <- module_inj by assumption. split.
  - unfold show_module, println. intros H. apply snoc_inv in H. destruct H as [H _]. apply pretty_inj; [apply module_wf; assumption..|exact H].
  - unfold show_module. intros ->. reflexivity.
Qed.
End Honest.
