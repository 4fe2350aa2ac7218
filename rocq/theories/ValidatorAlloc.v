(** The memory that validation uses.
    Models the same functions as ValidatorModule.v and ValidatorHost.v, with the vectors that they build: [Vec::push] and
    [collect] in validation/{stacks,context,module}.rs. *)
From Verif Require Export ParserAlloc ValidatorHost.
Open Scope list_scope.
Open Scope N_scope.

(** A result, and the events in the order in which they happen *)
Definition vw (A : Type) : Type := vres A * list event.
Definition w_run {A} (r : vres A) : vw A := (r, []).
Definition w_note (e : event) : vw unit := (VOk tt, [e]).
Definition w_bind {A B} (p : vw A) (f : A -> vw B) : vw B :=
  match p with
  | (VOk a, l) => let '(r, l') := f a in (r, l ++ l')
  | (VErr, l) => (VErr, l)
  | (VPanic, l) => (VPanic, l)
  end.
Notation "x <=~ p ;; q" := (w_bind p (fun x => q)) (at level 61, p at next level, right associativity).
Definition count {A} (l : list A) : N := N.of_nat (List.length l).

(** stacks.rs:54-58, one push for each operand *)
Definition w_push_operands (ops : list valty) (s : stacks) : vw stacks :=
  _ <=~ match ops with [] => w_run (VOk tt) | _ :: _ => w_note (Hold V_Operand (count (operands s) + count ops)) end ;;
  w_run (VOk (push_operands ops s)).
(** stacks.rs:67-74 *)
Definition w_push_frame (label out : list valty) (s : stacks) : vw stacks :=
  _ <=~ w_note (Hold V_Frame (count (frames s) + 1)) ;; w_run (VOk (push_frame label out s)).
(** instr.rs:72-80 *)
Definition w_else (s : stacks) : vw stacks := rs <=~ w_run (pop_frame s) ;; w_push_frame (fst rs) (fst rs) (snd rs).
Definition w_end (s : stacks) : vw stacks := rs <=~ w_run (pop_frame s) ;; w_push_operands (fst rs) (snd rs).

(** the loop of instr.rs:9-11 *)
Definition w_seq (v : instr -> stacks -> vw stacks) : list instr -> stacks -> vw stacks :=
  fix go (is : list instr) (s : stacks) : vw stacks :=
    match is with
    | [] => w_run (VOk s)
    | i :: is' => s <=~ v i s ;; go is' s
    end.

(** instr.rs:42-761 *)
Fixpoint w_instr (checks : bool) (bits : N) (c : context) (i : instr) (s : stacks) {struct i} : vw stacks :=
  match i with
  | I_Block a b => (* 51-56 *)
    s <=~ w_push_frame a a s ;;
    s <=~ w_seq (w_instr checks bits c) b s ;;
    w_end s
  | I_Loop a b => (* 57-62 *)
    s <=~ w_push_frame [] a s ;;
    s <=~ w_seq (w_instr checks bits c) b s ;;
    w_end s
  | I_If a b d => (* 63-71 *)
    s <=~ w_run (pop_operands [T_I32] s) ;;
    s <=~ w_push_frame a a s ;;
    s <=~ w_seq (w_instr checks bits c) b s ;;
    s <=~ w_else s ;;
    s <=~ w_seq (w_instr checks bits c) d s ;;
    w_end s
  | I_Else => (* 72-75 *)
    w_else s
  | I_End => (* 77-80 *)
    w_end s
  | I_BrIf a => (* 86-91 *)
    fr <=~ w_run (h_labelidx checks bits s a) ;;
    s <=~ w_run (pop_operands [T_I32] s) ;;
    s <=~ w_run (pop_operands (f_label fr) s) ;;
    w_push_operands (f_label fr) s
  | I_Call a => (* 109-113 *)
    ft <=~ w_run (v_funcidx c a) ;;
    s <=~ w_run (pop_operands (ft_params ft) s) ;;
    w_push_operands (ft_results ft) s
  | I_CallIndirect a b => (* 114-123 *)
    tt <=~ w_run (v_tableidx c b) ;;
    ft <=~ w_run (v_typeidx c a) ;;
    if negb (elemty_eqb (tt_elem tt) FuncRef) then w_run VErr else
    s <=~ w_run (pop_operands [T_I32] s) ;;
    s <=~ w_run (pop_operands (ft_params ft) s) ;;
    w_push_operands (ft_results ft) s
  | I_Unreachable | I_Nop | I_Br _ | I_BrTable _ _ | I_Return | I_Drop | I_LocalSet _ | I_GlobalSet _
  | I_I32Store _ _ | I_I64Store _ _ | I_F32Store _ _ | I_F64Store _ _ | I_I32Store8 _ _ | I_I32Store16 _ _
  | I_I64Store8 _ _ | I_I64Store16 _ _ | I_I64Store32 _ _ => (* nothing is pushed *)
    w_run (h_instr checks bits c i s)
  | _ => (* the last thing that the other arms do is to push one operand *)
    s <=~ w_run (v_instr c i s) ;;
    _ <=~ w_note (Hold V_Operand (count (operands s))) ;;
    w_run (VOk s)
  end.

(** instr.rs:16-40 *)
Fixpoint w_constexpr (checks : bool) (bits : N) (c : context) (is : constexpr) (s : stacks) : vw stacks :=
  match is with
  | [] => w_run (VOk s)
  | i :: is' =>
    _ <=~ w_run (v_const_check c i) ;;
    s <=~ w_instr checks bits c i s ;;
    w_constexpr checks bits c is' s
  end.

(** ** Context: context.rs *)
(** [n] elements have been pushed *)
Definition grown (n : nat) : list event := match n with O => [] | S _ => [Hold V_Ref (N.of_nat n)] end.
Definition w_grown {A} (a : A) (n : nat) : vw A := (VOk a, grown n).
(** context.rs:24-32 *)
Fixpoint w_imported_funcs (imports : list import) (c : context) : vw context :=
  match imports with
  | [] => w_run (VOk c)
  | im :: ims =>
    match im_desc im with
    | ID_Func idx =>
      t <=~ w_run (v_typeidx c idx) ;;
      _ <=~ w_note (Hold V_Ref (count (c_funcs c) + 1)) ;;
      w_imported_funcs ims (push_func c t)
    | _ => w_imported_funcs ims c
    end
  end.
(** context.rs:58-64 *)
Fixpoint w_funcs (funcs : list func) (c : context) : vw context :=
  match funcs with
  | [] => w_run (VOk c)
  | f :: fs =>
    t <=~ w_run (v_typeidx c (fn_ty f)) ;;
    _ <=~ w_note (Hold V_Ref (count (c_funcs c) + 1)) ;;
    w_funcs fs (push_func c t)
  end.
(** context.rs:84-98 *)
Definition w_context (m : module) : vw context :=
  let c := use_types (m_types m) default_context in
  c <=~ w_grown c (List.length (c_types c)) ;;
  c <=~ w_imported_funcs (m_imports m) c ;;
  let c := use_imported_tables (m_imports m) c in
  c <=~ w_grown c (List.length (c_tables c)) ;;
  let c := use_imported_mems (m_imports m) c in
  c <=~ w_grown c (List.length (c_mems c)) ;;
  let c := use_imported_globals (m_imports m) c in
  c <=~ w_grown c (List.length (c_globals c)) ;;
  c <=~ w_funcs (m_funcs m) c ;;
  let c := use_tables (m_tables m) c in
  c <=~ w_grown c (List.length (c_tables c)) ;;
  let c := use_mems (m_mems m) c in
  c <=~ w_grown c (List.length (c_mems c)) ;;
  let c := use_globals (m_globals m) c in
  w_grown c (List.length (c_globals c)).

(** ** Components: module.rs *)
(** module.rs:95-114; line 101 collects references to the parameters and local variables *)
Definition w_func (checks : bool) (bits : N) (f : func) (cs : vctx) : vw (functy * vctx) :=
  let '(c, s) := cs in
  t <=~ w_run (v_typeidx c (fn_ty f)) ;;
  let r := ft_results t in
  let c := set_ret c (Some r) in
  _ <=~ w_note (Reserve V_Ref (count (ft_params t) + count (fn_locals f))) ;;
  let c := set_locals c (ft_params t ++ fn_locals f) in
  s <=~ w_push_frame r r s ;;
  s <=~ w_seq (w_instr checks bits c) (fn_body f) s ;;
  rs <=~ w_run (pop_frame s) ;;
  let s := snd rs in
  if stacks_not_empty s then w_run VErr
  else
    let c := set_locals c [] in
    let c := set_ret c None in
    w_run (VOk (t, (c, s))).
(** module.rs:138-143, 157-163 and 177-183 *)
Definition w_const_body (checks : bool) (bits : N) (r : list valty) (e : constexpr) (cs : vctx) : vw vctx :=
  let '(c, s) := cs in
  s <=~ w_push_frame r r s ;;
  s <=~ w_constexpr checks bits c e s ;;
  rs <=~ w_run (pop_frame s) ;;
  let s := snd rs in
  if stacks_not_empty s then w_run VErr else w_run (VOk (c, s)).
(** module.rs:132-147 *)
Definition w_global (checks : bool) (bits : N) (g : global) (cs : vctx) : vw (globalty * vctx) :=
  _ <=~ w_run (v_globalty (glob_ty g)) ;;
  cs <=~ w_const_body checks bits [gt_val (glob_ty g)] (glob_init g) cs ;;
  w_run (VOk (glob_ty g, cs)).
(** module.rs:149-170 *)
Definition w_elem (checks : bool) (bits : N) (e : elem) (cs : vctx) : vw (unit * vctx) :=
  t <=~ w_run (v_tableidx (fst cs) (el_table e)) ;;
  if negb (elemty_eqb (tt_elem t) FuncRef) then w_run VErr
  else
    cs <=~ w_const_body checks bits [T_I32] (el_offset e) cs ;;
    _ <=~ w_run (v_elem_init (fst cs) (el_init e)) ;;
    w_run (VOk (tt, cs)).
(** module.rs:172-187 *)
Definition w_data (checks : bool) (bits : N) (d : data) (cs : vctx) : vw (unit * vctx) :=
  _ <=~ w_run (v_memidx (fst cs) (da_mem d)) ;;
  cs <=~ w_const_body checks bits [T_I32] (da_offset d) cs ;;
  w_run (VOk (tt, cs)).
(** module.rs:36-69 *)
Fixpoint w_each {A B} (v : A -> vctx -> vw (B * vctx)) (xs : list A) (cs : vctx) : vw (list B * vctx) :=
  match xs with
  | [] => w_run (VOk ([], cs))
  | x :: xs' =>
    r <=~ v x cs ;;
    rs <=~ w_each v xs' (snd r) ;;
    w_run (VOk (fst r :: fst rs, snd rs))
  end.

(** module.rs:21-93.  Lines 60 and 65: [Vec::with_capacity]; lines 78-80: [collect]; line 81: [sort] asks for room for no more
    elements than that. *)
Definition w_validate (checks : bool) (bits : N) (m : module) : vw module_types :=
  c <=~ w_context m ;;
  let cs : vctx := (c, empty_stacks) in
  cg <=~ w_grown (use_globals (m_globals m) default_context) (List.length (m_globals m)) ;;
  let csg : vctx := (cg, empty_stacks) in
  r <=~ w_run (v_each v_type_item (m_types m) cs) ;; let cs := snd r in
  r <=~ w_each (w_func checks bits) (m_funcs m) cs ;; let cs := snd r in
  r <=~ w_run (v_each v_table (m_tables m) cs) ;; let cs := snd r in
  r <=~ w_run (v_each v_mem (m_mems m) cs) ;; let cs := snd r in
  r <=~ w_each (w_global checks bits) (m_globals m) csg ;;
  r <=~ w_each (w_elem checks bits) (m_elem m) cs ;; let cs := snd r in
  r <=~ w_each (w_data checks bits) (m_data m) cs ;; let cs := snd r in
  cs <=~ w_run (match m_start m with
                | Some st => r <-- v_start st cs ;; VOk (snd r)
                | None => VOk cs
                end) ;;
  _ <=~ w_note (Reserve V_External (count (m_imports m))) ;;
  ims <=~ w_run (v_each v_import (m_imports m) cs) ;; let cs := snd ims in
  _ <=~ w_note (Reserve V_External (count (m_exports m))) ;;
  exs <=~ w_run (v_each v_export (m_exports m) cs) ;;
  if negb (Nat.leb (List.length (m_tables m)) 1) then w_run VErr
  else if negb (Nat.leb (List.length (m_mems m)) 1) then w_run VErr
  else
    _ <=~ w_note (Reserve V_Ref (count (m_exports m))) ;;
    if negb (export_names_distinct (m_exports m)) then w_run VErr
    else w_run (VOk (mkModuleTypes (fst ims) (fst exs))).

(** What validation asks for, in order *)
Definition checking (checks : bool) (bits : N) (m : module) : list event := snd (w_validate checks bits m).
(** As [parse_within] *)
Definition validate_within (allows : event -> bool) (checks : bool) (bits : N) (m : module) : vres module_types :=
  if forallb allows (checking checks bits m) then fst (w_validate checks bits m) else VPanic.
