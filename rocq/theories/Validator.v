(** Validation of types, indices and instructions.
    Models whasm/src/validation/{stacks,context,idx,ty,instr}.rs. *)
From Verif Require Export Structure.
Open Scope N_scope.

(** validation/mod.rs:13 and error.rs:5-9: a result whose only error is
    [UnexpectedEndOfFile], plus a panic. *)
Inductive vres (A : Type) := VOk (a : A) | VErr | VPanic.
Arguments VOk {A}. Arguments VErr {A}. Arguments VPanic {A}.
(** the [?] operator *)
Definition vbind {A B} (r : vres A) (f : A -> vres B) : vres B :=
  match r with VOk a => f a | VErr => VErr | VPanic => VPanic end.
Notation "x <-- r ;; q" := (vbind r (fun x => q))
  (at level 61, r at next level, right associativity).

(** ** Stacks: validation/stacks.rs *)

(** stacks.rs:4-9 *)
Inductive operand := Unknown | Val (t : valty).
(** derived [PartialEq], stacks.rs:4 *)
Definition operand_eqb (a b : operand) : bool :=
  match a, b with
  | Unknown, Unknown => true
  | Val x, Val y => valty_eqb x y
  | _, _ => false
  end.

(** stacks.rs:17-24 *)
Record frame := mkFrame {
  f_label : list valty;
  f_out : list valty;
  f_height : nat;
  f_unreachable : bool;
}.

(** stacks.rs:26-30.  Both vectors are kept with their last element (the top) first. *)
Record stacks := mkStacks { operands : list operand; frames : list frame }.
Definition empty_stacks : stacks := mkStacks [] [].

(** stacks.rs:33-35 *)
Definition push_operand (op : operand) (s : stacks) : stacks :=
  mkStacks (op :: operands s) (frames s).

(** stacks.rs:37-52 *)
Definition pop_operand (op : operand) (s : stacks) : vres (operand * stacks) :=
  match frames s with
  | [] => VErr
  | fr :: _ =>
    if (Nat.eqb (length (operands s)) (f_height fr) && f_unreachable fr)%bool then VOk (op, s)
    else if Nat.eqb (length (operands s)) (f_height fr) then VErr
    else
      match operands s with
      | [] => VPanic                                               (* unwrap, line 45 *)
      | val :: ops =>
        let s' := mkStacks ops (frames s) in
        match val, op with
        | Unknown, _ => VOk (op, s')
        | _, Unknown => VOk (val, s')
        | _, _ => if operand_eqb val op then VOk (val, s') else VErr
        end
      end
  end.

(** stacks.rs:54-58 *)
Definition push_operands (ops : list valty) (s : stacks) : stacks :=
  fold_left (fun s op => push_operand (Val op) s) ops s.

(** stacks.rs:61-63, the loop over the reversed slice *)
Fixpoint pop_all (ops : list valty) (s : stacks) : vres stacks :=
  match ops with
  | [] => VOk s
  | op :: ops' => ts <-- pop_operand (Val op) s ;; pop_all ops' (snd ts)
  end.
(** stacks.rs:60-65 *)
Definition pop_operands (ops : list valty) (s : stacks) : vres stacks := pop_all (rev ops) s.

(** stacks.rs:67-74 *)
Definition push_frame (label out : list valty) (s : stacks) : stacks :=
  mkStacks (operands s) (mkFrame label out (length (operands s)) false :: frames s).

(** stacks.rs:76-86 *)
Definition pop_frame (s : stacks) : vres (list valty * stacks) :=
  match frames s with
  | [] => VErr
  | fr :: _ =>
    let out := f_out fr in
    let height := f_height fr in
    s <-- pop_operands out s ;;
    if negb (Nat.eqb (length (operands s)) height) then VErr
    else
      match frames s with
      | [] => VErr
      | _ :: frs => VOk (out, mkStacks (operands s) frs)
      end
  end.

(** [Vec::truncate] *)
Definition truncate {A} (height : nat) (ops : list A) : list A := skipn (length ops - height) ops.

(** stacks.rs:88-94 *)
Definition s_unreachable (s : stacks) : vres stacks :=
  match frames s with
  | [] => VErr
  | fr :: frs =>
    VOk (mkStacks (truncate (f_height fr) (operands s))
                  (mkFrame (f_label fr) (f_out fr) (f_height fr) true :: frs))
  end.

(** ** Context: validation/context.rs:4-15.
    The field [labels] is written nowhere and read nowhere; the field [stacks] is passed separately. *)
Record context := mkContext {
  c_types : list functy;
  c_funcs : list functy;
  c_tables : list tablety;
  c_mems : list memty;
  c_globals : list globalty;
  c_locals : list valty;
  c_ret : option (list valty);
}.
(** [Context::default()] *)
Definition default_context : context := mkContext [] [] [] [] [] [] None.

(** ** Indices: validation/idx.rs.
    Bounds check, then [Vec] indexing (which panics out of bounds). *)
Definition v_lookup {A} (xs : list A) (idx : N) : vres A :=
  if N.of_nat (length xs) <=? idx then VErr
  else match nth_error xs (N.to_nat idx) with Some x => VOk x | None => VPanic end.
(** idx.rs:4-13 *)
Definition v_typeidx (c : context) (i : typeidx) : vres functy := v_lookup (c_types c) i.
(** idx.rs:15-24 *)
Definition v_funcidx (c : context) (i : funcidx) : vres functy := v_lookup (c_funcs c) i.
(** idx.rs:26-35 *)
Definition v_tableidx (c : context) (i : tableidx) : vres tablety := v_lookup (c_tables c) i.
(** idx.rs:37-46 *)
Definition v_memidx (c : context) (i : memidx) : vres memty := v_lookup (c_mems c) i.
(** idx.rs:48-57 *)
Definition v_globalidx (c : context) (i : globalidx) : vres globalty := v_lookup (c_globals c) i.
(** idx.rs:59-68 *)
Definition v_localidx (c : context) (i : localidx) : vres valty := v_lookup (c_locals c) i.

(** idx.rs:70-83.  [usize] arithmetic is exact here (64-bit host); see [label_slot] for other widths.
    [frames[idx]] counts from the bottom of the stack. *)
Definition v_labelidx (s : stacks) (i : labelidx) : vres frame :=
  let len := N.of_nat (length (frames s)) in
  if negb (i + 1 <? len) then VErr
  else
    let idx := len - i - 1 in
    match nth_error (rev (frames s)) (N.to_nat idx) with Some fr => VOk fr | None => VPanic end.

(** idx.rs:73-80 on a host whose [usize] has [bits] bits, for [len] frames: the position that is
    looked up.  [checks]: overflow checks enabled (debug build); otherwise arithmetic wraps. *)
Definition usize_add (checks : bool) (bits a b : N) : vres N :=
  if a + b <? 2 ^ bits then VOk (a + b)
  else if checks then VPanic else VOk ((a + b) mod 2 ^ bits).
Definition usize_sub (checks : bool) (bits a b : N) : vres N :=
  if b <=? a then VOk (a - b)
  else if checks then VPanic else VOk (a + 2 ^ bits - b).
Definition label_slot (checks : bool) (bits : N) (i : labelidx) (len : N) : vres N :=
  let idx := i mod 2 ^ bits in
  idx1 <-- usize_add checks bits idx 1 ;;
  if negb (idx1 <? len) then VErr
  else
    d <-- usize_sub checks bits len idx ;;
    slot <-- usize_sub checks bits d 1 ;;
    if slot <? len then VOk slot else VPanic.

(** ** Types: validation/ty.rs *)
(** ty.rs:4-14 *)
Definition v_limits (l : limits) : vres N :=
  let max := match lim_max l with Some m => m | None => lim_min l end in
  if negb (lim_min l <=? max) then VErr else VOk max.
(** ty.rs:16-24 *)
Definition v_functy (t : functy) : vres unit :=
  if negb (Nat.leb (length (ft_results t)) 1) then VErr else VOk tt.
(** ty.rs:26-35; [std::u32::MAX] *)
Definition v_tablety (t : tablety) : vres unit :=
  range <-- v_limits (tt_lim t) ;;
  if negb (range <=? 0xFFFFFFFF) then VErr else VOk tt.
(** ty.rs:37-46; [std::u16::MAX] *)
Definition v_memty (t : memty) : vres unit :=
  range <-- v_limits (mt_lim t) ;;
  if negb (range <=? 0xFFFF) then VErr else VOk tt.
(** ty.rs:48-53 *)
Definition v_globalty (t : globalty) : vres unit := VOk tt.

(** derived [PartialEq] on ty::Elem and ty::Mut, structure/ty.rs:16-19 and 41-42 *)
Definition elemty_eqb (a b : elemty) : bool := match a, b with FuncRef, FuncRef => true end.
Definition mut_eqb (a b : mut) : bool :=
  match a, b with Const, Const | Var, Var => true | _, _ => false end.

(** ** Instructions: validation/instr.rs *)

(** instr.rs:763-773; the alignment check is commented out in the source *)
Definition v_load (c : context) (_align _size : N) (val : valty) (s : stacks) : vres stacks :=
  _ <-- v_memidx c 0 ;;
  s <-- pop_operands [T_I32] s ;;
  VOk (push_operands [val] s).

(** instr.rs:775-784 *)
Definition v_store (c : context) (_align _size : N) (val : valty) (s : stacks) : vres stacks :=
  _ <-- v_memidx c 0 ;;
  pop_operands [T_I32; val] s.

(** instr.rs:72-75 *)
Definition v_else (s : stacks) : vres stacks :=
  rs <-- pop_frame s ;; VOk (push_frame (fst rs) (fst rs) (snd rs)).

(** instr.rs:77-80 *)
Definition v_end (s : stacks) : vres stacks :=
  rs <-- pop_frame s ;; VOk (push_operands (fst rs) (snd rs)).

(** instr.rs:94-99 *)
Fixpoint v_br_table_labels (s : stacks) (fr : frame) (ls : list labelidx) : vres unit :=
  match ls with
  | [] => VOk tt
  | l :: ls' =>
    frm <-- v_labelidx s l ;;
    if negb (valtys_eqb (f_label fr) (f_label frm)) then VErr
    else v_br_table_labels s fr ls'
  end.

(** the loop of instr.rs:9-11 *)
Definition v_seq (v : instr -> stacks -> vres stacks) : list instr -> stacks -> vres stacks :=
  fix go (is : list instr) (s : stacks) : vres stacks :=
    match is with
    | [] => VOk s
    | i :: is' => s <-- v i s ;; go is' s
    end.

(** instr.rs:42-761.  Comments give the lines of each arm.  Only [ctx.stacks] is modified by these
    arms, so [c] is a parameter.  [ret.validate] (ty.rs:55-60) returns the slice itself. *)
Fixpoint v_instr (c : context) (i : instr) (s : stacks) {struct i} : vres stacks :=
  match i with
  | I_Unreachable => (* 47-49 *)
    s_unreachable s
  | I_Nop => (* 50 *)
    VOk s
  | I_Block a b => (* 51-56 *)
    let s := push_frame a a s in
    s <-- v_seq (v_instr c) b s ;;
    v_end s
  | I_Loop a b => (* 57-62 *)
    let s := push_frame [] a s in
    s <-- v_seq (v_instr c) b s ;;
    v_end s
  | I_If a b d => (* 63-71 *)
    s <-- pop_operands [T_I32] s ;;
    let s := push_frame a a s in
    s <-- v_seq (v_instr c) b s ;;
    s <-- v_else s ;;
    s <-- v_seq (v_instr c) d s ;;
    v_end s
  | I_Else => (* 72-75 *)
    v_else s
  | I_End => (* 77-80 *)
    v_end s
  | I_Br a => (* 81-85 *)
    fr <-- v_labelidx s a ;;
    s <-- pop_operands (f_label fr) s ;;
    s_unreachable s
  | I_BrIf a => (* 86-91 *)
    fr <-- v_labelidx s a ;;
    s <-- pop_operands [T_I32] s ;;
    s <-- pop_operands (f_label fr) s ;;
    VOk (push_operands (f_label fr) s)
  | I_BrTable a b => (* 92-103 *)
    fr <-- v_labelidx s b ;;
    _ <-- v_br_table_labels s fr a ;;
    s <-- pop_operands [T_I32] s ;;
    s <-- pop_operands (f_label fr) s ;;
    s_unreachable s
  | I_Return => (* 104-108 *)
    r <-- match c_ret c with Some r => VOk r | None => VErr end ;;
    s <-- pop_operands r s ;;
    s_unreachable s
  | I_Call a => (* 109-113 *)
    ft <-- v_funcidx c a ;;
    s <-- pop_operands (ft_params ft) s ;;
    VOk (push_operands (ft_results ft) s)
  | I_CallIndirect a b => (* 114-123 *)
    tt <-- v_tableidx c b ;;
    ft <-- v_typeidx c a ;;
    if negb (elemty_eqb (tt_elem tt) FuncRef) then VErr else
    s <-- pop_operands [T_I32] s ;;
    s <-- pop_operands (ft_params ft) s ;;
    VOk (push_operands (ft_results ft) s)
  | I_Drop => (* 126-128 *)
    ts <-- pop_operand Unknown s ;;
    VOk (snd ts)
  | I_Select => (* 129-134 *)
    s <-- pop_operands [T_I32] s ;;
    ts1 <-- pop_operand Unknown s ;;
    ts2 <-- pop_operand (fst ts1) (snd ts1) ;;
    VOk (push_operand (fst ts2) (snd ts2))
  | I_LocalGet a => (* 137-140 *)
    t <-- v_localidx c a ;;
    VOk (push_operands [t] s)
  | I_LocalSet a => (* 141-144 *)
    t <-- v_localidx c a ;;
    pop_operands [t] s
  | I_LocalTee a => (* 145-149 *)
    t <-- v_localidx c a ;;
    s <-- pop_operands [t] s ;;
    VOk (push_operands [t] s)
  | I_GlobalGet a => (* 150-153 *)
    gt <-- v_globalidx c a ;;
    VOk (push_operands [gt_val gt] s)
  | I_GlobalSet a => (* 154-160 *)
    gt <-- v_globalidx c a ;;
    if negb (mut_eqb (gt_mut gt) Var) then VErr else
    pop_operands [gt_val gt] s
  | I_I32Load a b => v_load c b 32 T_I32 s (* 163-165 *)
  | I_I64Load a b => v_load c b 64 T_I64 s (* 166-168 *)
  | I_F32Load a b => v_load c b 32 T_F32 s (* 169-171 *)
  | I_F64Load a b => v_load c b 64 T_F64 s (* 172-174 *)
  | I_I32Load8S a b => v_load c b 8 T_I32 s (* 175-177 *)
  | I_I32Load8U a b => v_load c b 8 T_I32 s (* 178-180 *)
  | I_I32Load16S a b => v_load c b 16 T_I32 s (* 181-183 *)
  | I_I32Load16U a b => v_load c b 16 T_I32 s (* 184-186 *)
  | I_I64Load8S a b => v_load c b 8 T_I64 s (* 187-189 *)
  | I_I64Load8U a b => v_load c b 8 T_I64 s (* 190-192 *)
  | I_I64Load16S a b => v_load c b 16 T_I64 s (* 193-195 *)
  | I_I64Load16U a b => v_load c b 16 T_I64 s (* 196-198 *)
  | I_I64Load32S a b => v_load c b 32 T_I64 s (* 199-201 *)
  | I_I64Load32U a b => v_load c b 32 T_I64 s (* 202-204 *)
  | I_I32Store a b => v_store c b 32 T_I32 s (* 206-208 *)
  | I_I64Store a b => v_store c b 64 T_I64 s (* 209-211 *)
  | I_F32Store a b => v_store c b 32 T_F32 s (* 212-214 *)
  | I_F64Store a b => v_store c b 64 T_F64 s (* 215-217 *)
  | I_I32Store8 a b => v_store c b 8 T_I32 s (* 218-220 *)
  | I_I32Store16 a b => v_store c b 16 T_I32 s (* 221-223 *)
  | I_I64Store8 a b => v_store c b 8 T_I64 s (* 224-226 *)
  | I_I64Store16 a b => v_store c b 16 T_I64 s (* 227-229 *)
  | I_I64Store32 a b => v_store c b 32 T_I64 s (* 230-232 *)
  | I_MemSize a => (* 234-237 *)
    _ <-- v_memidx c a ;;
    VOk (push_operands [T_I32] s)
  | I_MemGrow a => (* 238-242 *)
    _ <-- v_memidx c a ;;
    s <-- pop_operands [T_I32] s ;;
    VOk (push_operands [T_I32] s)
  | I_ConstI32 a => VOk (push_operands [T_I32] s) (* 244-246 *)
  | I_ConstI64 a => VOk (push_operands [T_I64] s) (* 247-249 *)
  | I_ConstF32 a => VOk (push_operands [T_F32] s) (* 250-252 *)
  | I_ConstF64 a => VOk (push_operands [T_F64] s) (* 253-255 *)
  | I_I32Eqz => s <-- pop_operands [T_I32] s ;; VOk (push_operands [T_I32] s) (* 257-260 *)
  | I_I32Eq => s <-- pop_operands [T_I32; T_I32] s ;; VOk (push_operands [T_I32] s) (* 261-264 *)
  | I_I32Ne => s <-- pop_operands [T_I32; T_I32] s ;; VOk (push_operands [T_I32] s) (* 265-268 *)
  | I_I32LtS => s <-- pop_operands [T_I32; T_I32] s ;; VOk (push_operands [T_I32] s) (* 269-272 *)
  | I_I32LtU => s <-- pop_operands [T_I32; T_I32] s ;; VOk (push_operands [T_I32] s) (* 273-276 *)
  | I_I32GtS => s <-- pop_operands [T_I32; T_I32] s ;; VOk (push_operands [T_I32] s) (* 277-280 *)
  | I_I32GtU => s <-- pop_operands [T_I32; T_I32] s ;; VOk (push_operands [T_I32] s) (* 281-284 *)
  | I_I32LeS => s <-- pop_operands [T_I32; T_I32] s ;; VOk (push_operands [T_I32] s) (* 285-288 *)
  | I_I32LeU => s <-- pop_operands [T_I32; T_I32] s ;; VOk (push_operands [T_I32] s) (* 289-292 *)
  | I_I32GeS => s <-- pop_operands [T_I32; T_I32] s ;; VOk (push_operands [T_I32] s) (* 293-296 *)
  | I_I32GeU => s <-- pop_operands [T_I32; T_I32] s ;; VOk (push_operands [T_I32] s) (* 297-300 *)
  | I_I64Eqz => s <-- pop_operands [T_I64] s ;; VOk (push_operands [T_I32] s) (* 302-305 *)
  | I_I64Eq => s <-- pop_operands [T_I64; T_I64] s ;; VOk (push_operands [T_I32] s) (* 306-309 *)
  | I_I64Ne => s <-- pop_operands [T_I64; T_I64] s ;; VOk (push_operands [T_I32] s) (* 310-313 *)
  | I_I64LtS => s <-- pop_operands [T_I64; T_I64] s ;; VOk (push_operands [T_I32] s) (* 314-317 *)
  | I_I64LtU => s <-- pop_operands [T_I64; T_I64] s ;; VOk (push_operands [T_I32] s) (* 318-321 *)
  | I_I64GtS => s <-- pop_operands [T_I64; T_I64] s ;; VOk (push_operands [T_I32] s) (* 322-325 *)
  | I_I64GtU => s <-- pop_operands [T_I64; T_I64] s ;; VOk (push_operands [T_I32] s) (* 326-329 *)
  | I_I64LeS => s <-- pop_operands [T_I64; T_I64] s ;; VOk (push_operands [T_I32] s) (* 330-333 *)
  | I_I64LeU => s <-- pop_operands [T_I64; T_I64] s ;; VOk (push_operands [T_I32] s) (* 334-337 *)
  | I_I64GeS => s <-- pop_operands [T_I64; T_I64] s ;; VOk (push_operands [T_I32] s) (* 338-341 *)
  | I_I64GeU => s <-- pop_operands [T_I64; T_I64] s ;; VOk (push_operands [T_I32] s) (* 342-345 *)
  | I_F32Eq => s <-- pop_operands [T_F32; T_F32] s ;; VOk (push_operands [T_I32] s) (* 347-350 *)
  | I_F32Ne => s <-- pop_operands [T_F32; T_F32] s ;; VOk (push_operands [T_I32] s) (* 351-354 *)
  | I_F32Lt => s <-- pop_operands [T_F32; T_F32] s ;; VOk (push_operands [T_I32] s) (* 355-358 *)
  | I_F32Gt => s <-- pop_operands [T_F32; T_F32] s ;; VOk (push_operands [T_I32] s) (* 359-362 *)
  | I_F32Le => s <-- pop_operands [T_F32; T_F32] s ;; VOk (push_operands [T_I32] s) (* 363-366 *)
  | I_F32Ge => s <-- pop_operands [T_F32; T_F32] s ;; VOk (push_operands [T_I32] s) (* 367-370 *)
  | I_F64Eq => s <-- pop_operands [T_F64; T_F64] s ;; VOk (push_operands [T_I32] s) (* 372-375 *)
  | I_F64Ne => s <-- pop_operands [T_F64; T_F64] s ;; VOk (push_operands [T_I32] s) (* 376-379 *)
  | I_F64Lt => s <-- pop_operands [T_F64; T_F64] s ;; VOk (push_operands [T_I32] s) (* 380-383 *)
  | I_F64Gt => s <-- pop_operands [T_F64; T_F64] s ;; VOk (push_operands [T_I32] s) (* 384-387 *)
  | I_F64Le => s <-- pop_operands [T_F64; T_F64] s ;; VOk (push_operands [T_I32] s) (* 388-391 *)
  | I_F64Ge => s <-- pop_operands [T_F64; T_F64] s ;; VOk (push_operands [T_I32] s) (* 392-395 *)
  | I_I32Clz => s <-- pop_operands [T_I32] s ;; VOk (push_operands [T_I32] s) (* 397-400 *)
  | I_I32Ctz => s <-- pop_operands [T_I32] s ;; VOk (push_operands [T_I32] s) (* 401-404 *)
  | I_I32Popcnt => s <-- pop_operands [T_I32] s ;; VOk (push_operands [T_I32] s) (* 405-408 *)
  | I_I32Add => s <-- pop_operands [T_I32; T_I32] s ;; VOk (push_operands [T_I32] s) (* 409-412 *)
  | I_I32Sub => s <-- pop_operands [T_I32; T_I32] s ;; VOk (push_operands [T_I32] s) (* 413-416 *)
  | I_I32Mul => s <-- pop_operands [T_I32; T_I32] s ;; VOk (push_operands [T_I32] s) (* 417-420 *)
  | I_I32DivS => s <-- pop_operands [T_I32; T_I32] s ;; VOk (push_operands [T_I32] s) (* 421-424 *)
  | I_I32DivU => s <-- pop_operands [T_I32; T_I32] s ;; VOk (push_operands [T_I32] s) (* 425-428 *)
  | I_I32RemS => s <-- pop_operands [T_I32; T_I32] s ;; VOk (push_operands [T_I32] s) (* 429-432 *)
  | I_I32RemU => s <-- pop_operands [T_I32; T_I32] s ;; VOk (push_operands [T_I32] s) (* 433-436 *)
  | I_I32And => s <-- pop_operands [T_I32; T_I32] s ;; VOk (push_operands [T_I32] s) (* 437-440 *)
  | I_I32Or => s <-- pop_operands [T_I32; T_I32] s ;; VOk (push_operands [T_I32] s) (* 441-444 *)
  | I_I32Xor => s <-- pop_operands [T_I32; T_I32] s ;; VOk (push_operands [T_I32] s) (* 445-448 *)
  | I_I32Shl => s <-- pop_operands [T_I32; T_I32] s ;; VOk (push_operands [T_I32] s) (* 449-452 *)
  | I_I32ShrS => s <-- pop_operands [T_I32; T_I32] s ;; VOk (push_operands [T_I32] s) (* 453-456 *)
  | I_I32ShrU => s <-- pop_operands [T_I32; T_I32] s ;; VOk (push_operands [T_I32] s) (* 457-460 *)
  | I_I32Rotl => s <-- pop_operands [T_I32; T_I32] s ;; VOk (push_operands [T_I32] s) (* 461-464 *)
  | I_I32Rotr => s <-- pop_operands [T_I32; T_I32] s ;; VOk (push_operands [T_I32] s) (* 465-468 *)
  | I_I64Clz => s <-- pop_operands [T_I64] s ;; VOk (push_operands [T_I64] s) (* 470-473 *)
  | I_I64Ctz => s <-- pop_operands [T_I64] s ;; VOk (push_operands [T_I64] s) (* 474-477 *)
  | I_I64Popcnt => s <-- pop_operands [T_I64] s ;; VOk (push_operands [T_I64] s) (* 478-481 *)
  | I_I64Add => s <-- pop_operands [T_I64; T_I64] s ;; VOk (push_operands [T_I64] s) (* 482-485 *)
  | I_I64Sub => s <-- pop_operands [T_I64; T_I64] s ;; VOk (push_operands [T_I64] s) (* 486-489 *)
  | I_I64Mul => s <-- pop_operands [T_I64; T_I64] s ;; VOk (push_operands [T_I64] s) (* 490-493 *)
  | I_I64DivS => s <-- pop_operands [T_I64; T_I64] s ;; VOk (push_operands [T_I64] s) (* 494-497 *)
  | I_I64DivU => s <-- pop_operands [T_I64; T_I64] s ;; VOk (push_operands [T_I64] s) (* 498-501 *)
  | I_I64RemS => s <-- pop_operands [T_I64; T_I64] s ;; VOk (push_operands [T_I64] s) (* 502-505 *)
  | I_I64RemU => s <-- pop_operands [T_I64; T_I64] s ;; VOk (push_operands [T_I64] s) (* 506-509 *)
  | I_I64And => s <-- pop_operands [T_I64; T_I64] s ;; VOk (push_operands [T_I64] s) (* 510-513 *)
  | I_I64Or => s <-- pop_operands [T_I64; T_I64] s ;; VOk (push_operands [T_I64] s) (* 514-517 *)
  | I_I64Xor => s <-- pop_operands [T_I64; T_I64] s ;; VOk (push_operands [T_I64] s) (* 518-521 *)
  | I_I64Shl => s <-- pop_operands [T_I64; T_I64] s ;; VOk (push_operands [T_I64] s) (* 522-525 *)
  | I_I64ShrS => s <-- pop_operands [T_I64; T_I64] s ;; VOk (push_operands [T_I64] s) (* 526-529 *)
  | I_I64ShrU => s <-- pop_operands [T_I64; T_I64] s ;; VOk (push_operands [T_I64] s) (* 530-533 *)
  | I_I64Rotl => s <-- pop_operands [T_I64; T_I64] s ;; VOk (push_operands [T_I64] s) (* 534-537 *)
  | I_I64Rotr => s <-- pop_operands [T_I64; T_I64] s ;; VOk (push_operands [T_I64] s) (* 538-541 *)
  | I_F32Abs => s <-- pop_operands [T_F32] s ;; VOk (push_operands [T_F32] s) (* 543-546 *)
  | I_F32Neg => s <-- pop_operands [T_F32] s ;; VOk (push_operands [T_F32] s) (* 547-550 *)
  | I_F32Ceil => s <-- pop_operands [T_F32] s ;; VOk (push_operands [T_F32] s) (* 551-554 *)
  | I_F32Floor => s <-- pop_operands [T_F32] s ;; VOk (push_operands [T_F32] s) (* 555-558 *)
  | I_F32Trunc => s <-- pop_operands [T_F32] s ;; VOk (push_operands [T_F32] s) (* 559-562 *)
  | I_F32Nearest => s <-- pop_operands [T_F32] s ;; VOk (push_operands [T_F32] s) (* 563-566 *)
  | I_F32Sqrt => s <-- pop_operands [T_F32] s ;; VOk (push_operands [T_F32] s) (* 567-570 *)
  | I_F32Add => s <-- pop_operands [T_F32; T_F32] s ;; VOk (push_operands [T_F32] s) (* 571-574 *)
  | I_F32Sub => s <-- pop_operands [T_F32; T_F32] s ;; VOk (push_operands [T_F32] s) (* 575-578 *)
  | I_F32Mul => s <-- pop_operands [T_F32; T_F32] s ;; VOk (push_operands [T_F32] s) (* 579-582 *)
  | I_F32Div => s <-- pop_operands [T_F32; T_F32] s ;; VOk (push_operands [T_F32] s) (* 583-586 *)
  | I_F32Min => s <-- pop_operands [T_F32; T_F32] s ;; VOk (push_operands [T_F32] s) (* 587-590 *)
  | I_F32Max => s <-- pop_operands [T_F32; T_F32] s ;; VOk (push_operands [T_F32] s) (* 591-594 *)
  | I_F32Copysign => s <-- pop_operands [T_F32; T_F32] s ;; VOk (push_operands [T_F32] s) (* 595-598 *)
  | I_F64Abs => s <-- pop_operands [T_F64] s ;; VOk (push_operands [T_F64] s) (* 600-603 *)
  | I_F64Neg => s <-- pop_operands [T_F64] s ;; VOk (push_operands [T_F64] s) (* 604-607 *)
  | I_F64Ceil => s <-- pop_operands [T_F64] s ;; VOk (push_operands [T_F64] s) (* 608-611 *)
  | I_F64Floor => s <-- pop_operands [T_F64] s ;; VOk (push_operands [T_F64] s) (* 612-615 *)
  | I_F64Trunc => s <-- pop_operands [T_F64] s ;; VOk (push_operands [T_F64] s) (* 616-619 *)
  | I_F64Nearest => s <-- pop_operands [T_F64] s ;; VOk (push_operands [T_F64] s) (* 620-623 *)
  | I_F64Sqrt => s <-- pop_operands [T_F64] s ;; VOk (push_operands [T_F64] s) (* 624-627 *)
  | I_F64Add => s <-- pop_operands [T_F64; T_F64] s ;; VOk (push_operands [T_F64] s) (* 628-631 *)
  | I_F64Sub => s <-- pop_operands [T_F64; T_F64] s ;; VOk (push_operands [T_F64] s) (* 632-635 *)
  | I_F64Mul => s <-- pop_operands [T_F64; T_F64] s ;; VOk (push_operands [T_F64] s) (* 636-639 *)
  | I_F64Div => s <-- pop_operands [T_F64; T_F64] s ;; VOk (push_operands [T_F64] s) (* 640-643 *)
  | I_F64Min => s <-- pop_operands [T_F64; T_F64] s ;; VOk (push_operands [T_F64] s) (* 644-647 *)
  | I_F64Max => s <-- pop_operands [T_F64; T_F64] s ;; VOk (push_operands [T_F64] s) (* 648-651 *)
  | I_F64Copysign => s <-- pop_operands [T_F64; T_F64] s ;; VOk (push_operands [T_F64] s) (* 652-655 *)
  | I_I32WrapI64 => s <-- pop_operands [T_I64] s ;; VOk (push_operands [T_I32] s) (* 657-660 *)
  | I_I32TruncF32S => s <-- pop_operands [T_F32] s ;; VOk (push_operands [T_I32] s) (* 661-664 *)
  | I_I32TruncF32U => s <-- pop_operands [T_F32] s ;; VOk (push_operands [T_I32] s) (* 665-668 *)
  | I_I32TruncF64S => s <-- pop_operands [T_F64] s ;; VOk (push_operands [T_I32] s) (* 669-672 *)
  | I_I32TruncF64U => s <-- pop_operands [T_F64] s ;; VOk (push_operands [T_I32] s) (* 673-676 *)
  | I_I64ExtendI32S => s <-- pop_operands [T_I32] s ;; VOk (push_operands [T_I64] s) (* 677-680 *)
  | I_I64ExtendI32U => s <-- pop_operands [T_I32] s ;; VOk (push_operands [T_I64] s) (* 681-684 *)
  | I_I64TruncF32S => s <-- pop_operands [T_F32] s ;; VOk (push_operands [T_I64] s) (* 685-688 *)
  | I_I64TruncF32U => s <-- pop_operands [T_F32] s ;; VOk (push_operands [T_I64] s) (* 689-692 *)
  | I_I64TruncF64S => s <-- pop_operands [T_F64] s ;; VOk (push_operands [T_I64] s) (* 693-696 *)
  | I_I64TruncF64U => s <-- pop_operands [T_F64] s ;; VOk (push_operands [T_I64] s) (* 697-700 *)
  | I_F32ConvertI32S => s <-- pop_operands [T_I32] s ;; VOk (push_operands [T_F32] s) (* 701-704 *)
  | I_F32ConvertI32U => s <-- pop_operands [T_I32] s ;; VOk (push_operands [T_F32] s) (* 705-708 *)
  | I_F32ConvertI64S => s <-- pop_operands [T_I64] s ;; VOk (push_operands [T_F32] s) (* 709-712 *)
  | I_F32ConvertI64U => s <-- pop_operands [T_I64] s ;; VOk (push_operands [T_F32] s) (* 713-716 *)
  | I_F32DemoteF64 => s <-- pop_operands [T_F64] s ;; VOk (push_operands [T_F32] s) (* 717-720 *)
  | I_F64ConvertI32S => s <-- pop_operands [T_I32] s ;; VOk (push_operands [T_F64] s) (* 721-724 *)
  | I_F64ConvertI32U => s <-- pop_operands [T_I32] s ;; VOk (push_operands [T_F64] s) (* 725-728 *)
  | I_F64ConvertI64S => s <-- pop_operands [T_I64] s ;; VOk (push_operands [T_F64] s) (* 729-732 *)
  | I_F64ConvertI64U => s <-- pop_operands [T_I64] s ;; VOk (push_operands [T_F64] s) (* 733-736 *)
  | I_F64PromoteF32 => s <-- pop_operands [T_F32] s ;; VOk (push_operands [T_F64] s) (* 737-740 *)
  | I_I32ReinterpretF32 => s <-- pop_operands [T_F32] s ;; VOk (push_operands [T_I32] s) (* 741-744 *)
  | I_I64ReinterpretF64 => s <-- pop_operands [T_F64] s ;; VOk (push_operands [T_I64] s) (* 745-748 *)
  | I_F32ReinterpretI32 => s <-- pop_operands [T_I32] s ;; VOk (push_operands [T_F32] s) (* 749-752 *)
  | I_F64ReinterpretI64 => s <-- pop_operands [T_I64] s ;; VOk (push_operands [T_F64] s) (* 753-756 *)  end.

(** instr.rs:5-14 *)
Definition v_expr (c : context) (e : expr) (s : stacks) : vres stacks := v_seq (v_instr c) e s.

(** instr.rs:21-35 *)
Definition v_const_check (c : context) (i : instr) : vres unit :=
  match i with
  | I_ConstI32 _ => VOk tt
  | I_ConstI64 _ => VOk tt
  | I_ConstF32 _ => VOk tt
  | I_ConstF64 _ => VOk tt
  | I_GlobalGet idx =>
    gt <-- v_globalidx c idx ;;
    if negb (mut_eqb (gt_mut gt) Const) then VErr else VOk tt
  | _ => VErr
  end.
(** instr.rs:16-40 *)
Fixpoint v_constexpr (c : context) (e : constexpr) (s : stacks) : vres stacks :=
  match e with
  | [] => VOk s
  | i :: e' =>
    _ <-- v_const_check c i ;;
    s <-- v_instr c i s ;;
    v_constexpr c e' s
  end.
