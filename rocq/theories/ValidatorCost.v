(** The time that validation takes.  Models the functions of [Validator] and [ValidatorModule] once more, with the number of steps:
    an instruction visited, an operand or a frame pushed or popped, an index looked up, an element of a vector visited by a
    loop, compared or collected.  Each takes a bounded time (pushing on the average, since vectors double).
    Not counted: sorting the export names (module.rs:78-82), which is the standard library's. *)
From Verif Require Export ValidatorModule.
Open Scope N_scope.

(** A result, and the steps taken *)
Definition kv (A : Type) : Type := vres A * nat.
Definition k_run {A} (r : vres A) : kv A := (r, 0%nat).
Definition k_ret {A} (a : A) : kv A := (VOk a, 0%nat).
Definition k_step {A} (r : vres A) : kv A := (r, 1%nat).
Definition k_steps (n : nat) : kv unit := (VOk tt, n).
Definition k_bind {A B} (p : kv A) (f : A -> kv B) : kv B :=
  match p with
  | (VOk a, n) => let r := f a in (fst r, (n + snd r)%nat)
  | (VErr, n) => (VErr, n)
  | (VPanic, n) => (VPanic, n)
  end.
Notation "x <-# p ;; q" := (k_bind p (fun x => q)) (at level 61, p at next level, right associativity).

(** ** Stacks: stacks.rs:32-94 *)
Definition k_push_operands (ops : list valty) (s : stacks) : kv stacks := (VOk (push_operands ops s), length ops).
Fixpoint k_pop_all (ops : list valty) (s : stacks) : kv stacks :=
  match ops with
  | [] => k_ret s
  | op :: ops' => ts <-# k_step (pop_operand (Val op) s) ;; k_pop_all ops' (snd ts)
  end.
Definition k_pop_operands (ops : list valty) (s : stacks) : kv stacks := k_pop_all (rev ops) s.
Definition k_push_frame (label out : list valty) (s : stacks) : kv stacks := k_step (VOk (push_frame label out s)).
Definition k_pop_frame (s : stacks) : kv (list valty * stacks) :=
  fr <-# k_step (match frames s with [] => VErr | fr :: _ => VOk fr end) ;;
  s <-# k_pop_operands (f_out fr) s ;;
  if negb (Nat.eqb (length (operands s)) (f_height fr)) then k_run VErr
  else
    match frames s with
    | [] => k_run VErr
    | _ :: frs => k_ret (f_out fr, mkStacks (operands s) frs)
    end.

(** ** Instructions: instr.rs *)
Definition k_load (c : context) (_align _size : N) (val : valty) (s : stacks) : kv stacks :=
  _ <-# k_step (v_memidx c 0) ;; s <-# k_pop_operands [T_I32] s ;; k_push_operands [val] s.
Definition k_store (c : context) (_align _size : N) (val : valty) (s : stacks) : kv stacks :=
  _ <-# k_step (v_memidx c 0) ;; k_pop_operands [T_I32; val] s.
Definition k_else (s : stacks) : kv stacks := rs <-# k_pop_frame s ;; k_push_frame (fst rs) (fst rs) (snd rs).
Definition k_end (s : stacks) : kv stacks := rs <-# k_pop_frame s ;; k_push_operands (fst rs) (snd rs).
(** instr.rs:94-99: a label is looked up and its types are compared *)
Fixpoint k_br_table_labels (s : stacks) (fr : frame) (ls : list labelidx) : kv unit :=
  match ls with
  | [] => k_ret tt
  | l :: ls' =>
    frm <-# k_step (v_labelidx s l) ;;
    _ <-# k_steps (length (f_label fr)) ;;
    if negb (valtys_eqb (f_label fr) (f_label frm)) then k_run VErr
    else k_br_table_labels s fr ls'
  end.
(** the loop of instr.rs:9-11: each instruction is one step, and what it does *)
Definition k_seq (v : instr -> stacks -> kv stacks) : list instr -> stacks -> kv stacks :=
  fix go (is : list instr) (s : stacks) : kv stacks :=
    match is with
    | [] => k_ret s
    | i :: is' => _ <-# k_steps 1 ;; s <-# v i s ;; go is' s
    end.
Fixpoint k_instr (c : context) (i : instr) (s : stacks) {struct i} : kv stacks :=
  match i with
  | I_Unreachable => (* 47-49 *)
    k_step (s_unreachable s)
  | I_Nop => (* 50 *)
    k_ret s
  | I_Block a b => (* 51-56 *)
    s <-# k_push_frame a a s ;;
    s <-# k_seq (k_instr c) b s ;;
    k_end s
  | I_Loop a b => (* 57-62 *)
    s <-# k_push_frame [] a s ;;
    s <-# k_seq (k_instr c) b s ;;
    k_end s
  | I_If a b d => (* 63-71 *)
    s <-# k_pop_operands [T_I32] s ;;
    s <-# k_push_frame a a s ;;
    s <-# k_seq (k_instr c) b s ;;
    s <-# k_else s ;;
    s <-# k_seq (k_instr c) d s ;;
    k_end s
  | I_Else => (* 72-75 *)
    k_else s
  | I_End => (* 77-80 *)
    k_end s
  | I_Br a => (* 81-85 *)
    fr <-# k_step (v_labelidx s a) ;;
    s <-# k_pop_operands (f_label fr) s ;;
    k_step (s_unreachable s)
  | I_BrIf a => (* 86-91 *)
    fr <-# k_step (v_labelidx s a) ;;
    s <-# k_pop_operands [T_I32] s ;;
    s <-# k_pop_operands (f_label fr) s ;;
    k_push_operands (f_label fr) s
  | I_BrTable a b => (* 92-103 *)
    fr <-# k_step (v_labelidx s b) ;;
    _ <-# k_br_table_labels s fr a ;;
    s <-# k_pop_operands [T_I32] s ;;
    s <-# k_pop_operands (f_label fr) s ;;
    k_step (s_unreachable s)
  | I_Return => (* 104-108 *)
    r <-# k_run (match c_ret c with Some r => VOk r | None => VErr end) ;;
    s <-# k_pop_operands r s ;;
    k_step (s_unreachable s)
  | I_Call a => (* 109-113 *)
    ft <-# k_step (v_funcidx c a) ;;
    s <-# k_pop_operands (ft_params ft) s ;;
    k_push_operands (ft_results ft) s
  | I_CallIndirect a b => (* 114-123 *)
    tt <-# k_step (v_tableidx c b) ;;
    ft <-# k_step (v_typeidx c a) ;;
    if negb (elemty_eqb (tt_elem tt) FuncRef) then k_run VErr else
    s <-# k_pop_operands [T_I32] s ;;
    s <-# k_pop_operands (ft_params ft) s ;;
    k_push_operands (ft_results ft) s
  | I_Drop => (* 126-128 *)
    ts <-# k_step (pop_operand Unknown s) ;;
    k_ret (snd ts)
  | I_Select => (* 129-134 *)
    s <-# k_pop_operands [T_I32] s ;;
    ts1 <-# k_step (pop_operand Unknown s) ;;
    ts2 <-# k_step (pop_operand (fst ts1) (snd ts1)) ;;
    k_step (VOk (push_operand (fst ts2) (snd ts2)))
  | I_LocalGet a => (* 137-140 *)
    t <-# k_step (v_localidx c a) ;;
    k_push_operands [t] s
  | I_LocalSet a => (* 141-144 *)
    t <-# k_step (v_localidx c a) ;;
    k_pop_operands [t] s
  | I_LocalTee a => (* 145-149 *)
    t <-# k_step (v_localidx c a) ;;
    s <-# k_pop_operands [t] s ;;
    k_push_operands [t] s
  | I_GlobalGet a => (* 150-153 *)
    gt <-# k_step (v_globalidx c a) ;;
    k_push_operands [gt_val gt] s
  | I_GlobalSet a => (* 154-160 *)
    gt <-# k_step (v_globalidx c a) ;;
    if negb (mut_eqb (gt_mut gt) Var) then k_run VErr else
    k_pop_operands [gt_val gt] s
  | I_I32Load a b => k_load c b 32 T_I32 s (* 163-165 *)
  | I_I64Load a b => k_load c b 64 T_I64 s (* 166-168 *)
  | I_F32Load a b => k_load c b 32 T_F32 s (* 169-171 *)
  | I_F64Load a b => k_load c b 64 T_F64 s (* 172-174 *)
  | I_I32Load8S a b => k_load c b 8 T_I32 s (* 175-177 *)
  | I_I32Load8U a b => k_load c b 8 T_I32 s (* 178-180 *)
  | I_I32Load16S a b => k_load c b 16 T_I32 s (* 181-183 *)
  | I_I32Load16U a b => k_load c b 16 T_I32 s (* 184-186 *)
  | I_I64Load8S a b => k_load c b 8 T_I64 s (* 187-189 *)
  | I_I64Load8U a b => k_load c b 8 T_I64 s (* 190-192 *)
  | I_I64Load16S a b => k_load c b 16 T_I64 s (* 193-195 *)
  | I_I64Load16U a b => k_load c b 16 T_I64 s (* 196-198 *)
  | I_I64Load32S a b => k_load c b 32 T_I64 s (* 199-201 *)
  | I_I64Load32U a b => k_load c b 32 T_I64 s (* 202-204 *)
  | I_I32Store a b => k_store c b 32 T_I32 s (* 206-208 *)
  | I_I64Store a b => k_store c b 64 T_I64 s (* 209-211 *)
  | I_F32Store a b => k_store c b 32 T_F32 s (* 212-214 *)
  | I_F64Store a b => k_store c b 64 T_F64 s (* 215-217 *)
  | I_I32Store8 a b => k_store c b 8 T_I32 s (* 218-220 *)
  | I_I32Store16 a b => k_store c b 16 T_I32 s (* 221-223 *)
  | I_I64Store8 a b => k_store c b 8 T_I64 s (* 224-226 *)
  | I_I64Store16 a b => k_store c b 16 T_I64 s (* 227-229 *)
  | I_I64Store32 a b => k_store c b 32 T_I64 s (* 230-232 *)
  | I_MemSize a => (* 234-237 *)
    _ <-# k_step (v_memidx c a) ;;
    k_push_operands [T_I32] s
  | I_MemGrow a => (* 238-242 *)
    _ <-# k_step (v_memidx c a) ;;
    s <-# k_pop_operands [T_I32] s ;;
    k_push_operands [T_I32] s
  | I_ConstI32 a => k_push_operands [T_I32] s (* 244-246 *)
  | I_ConstI64 a => k_push_operands [T_I64] s (* 247-249 *)
  | I_ConstF32 a => k_push_operands [T_F32] s (* 250-252 *)
  | I_ConstF64 a => k_push_operands [T_F64] s (* 253-255 *)
  | I_I32Eqz => s <-# k_pop_operands [T_I32] s ;; k_push_operands [T_I32] s (* 257-260 *)
  | I_I32Eq => s <-# k_pop_operands [T_I32; T_I32] s ;; k_push_operands [T_I32] s (* 261-264 *)
  | I_I32Ne => s <-# k_pop_operands [T_I32; T_I32] s ;; k_push_operands [T_I32] s (* 265-268 *)
  | I_I32LtS => s <-# k_pop_operands [T_I32; T_I32] s ;; k_push_operands [T_I32] s (* 269-272 *)
  | I_I32LtU => s <-# k_pop_operands [T_I32; T_I32] s ;; k_push_operands [T_I32] s (* 273-276 *)
  | I_I32GtS => s <-# k_pop_operands [T_I32; T_I32] s ;; k_push_operands [T_I32] s (* 277-280 *)
  | I_I32GtU => s <-# k_pop_operands [T_I32; T_I32] s ;; k_push_operands [T_I32] s (* 281-284 *)
  | I_I32LeS => s <-# k_pop_operands [T_I32; T_I32] s ;; k_push_operands [T_I32] s (* 285-288 *)
  | I_I32LeU => s <-# k_pop_operands [T_I32; T_I32] s ;; k_push_operands [T_I32] s (* 289-292 *)
  | I_I32GeS => s <-# k_pop_operands [T_I32; T_I32] s ;; k_push_operands [T_I32] s (* 293-296 *)
  | I_I32GeU => s <-# k_pop_operands [T_I32; T_I32] s ;; k_push_operands [T_I32] s (* 297-300 *)
  | I_I64Eqz => s <-# k_pop_operands [T_I64] s ;; k_push_operands [T_I32] s (* 302-305 *)
  | I_I64Eq => s <-# k_pop_operands [T_I64; T_I64] s ;; k_push_operands [T_I32] s (* 306-309 *)
  | I_I64Ne => s <-# k_pop_operands [T_I64; T_I64] s ;; k_push_operands [T_I32] s (* 310-313 *)
  | I_I64LtS => s <-# k_pop_operands [T_I64; T_I64] s ;; k_push_operands [T_I32] s (* 314-317 *)
  | I_I64LtU => s <-# k_pop_operands [T_I64; T_I64] s ;; k_push_operands [T_I32] s (* 318-321 *)
  | I_I64GtS => s <-# k_pop_operands [T_I64; T_I64] s ;; k_push_operands [T_I32] s (* 322-325 *)
  | I_I64GtU => s <-# k_pop_operands [T_I64; T_I64] s ;; k_push_operands [T_I32] s (* 326-329 *)
  | I_I64LeS => s <-# k_pop_operands [T_I64; T_I64] s ;; k_push_operands [T_I32] s (* 330-333 *)
  | I_I64LeU => s <-# k_pop_operands [T_I64; T_I64] s ;; k_push_operands [T_I32] s (* 334-337 *)
  | I_I64GeS => s <-# k_pop_operands [T_I64; T_I64] s ;; k_push_operands [T_I32] s (* 338-341 *)
  | I_I64GeU => s <-# k_pop_operands [T_I64; T_I64] s ;; k_push_operands [T_I32] s (* 342-345 *)
  | I_F32Eq => s <-# k_pop_operands [T_F32; T_F32] s ;; k_push_operands [T_I32] s (* 347-350 *)
  | I_F32Ne => s <-# k_pop_operands [T_F32; T_F32] s ;; k_push_operands [T_I32] s (* 351-354 *)
  | I_F32Lt => s <-# k_pop_operands [T_F32; T_F32] s ;; k_push_operands [T_I32] s (* 355-358 *)
  | I_F32Gt => s <-# k_pop_operands [T_F32; T_F32] s ;; k_push_operands [T_I32] s (* 359-362 *)
  | I_F32Le => s <-# k_pop_operands [T_F32; T_F32] s ;; k_push_operands [T_I32] s (* 363-366 *)
  | I_F32Ge => s <-# k_pop_operands [T_F32; T_F32] s ;; k_push_operands [T_I32] s (* 367-370 *)
  | I_F64Eq => s <-# k_pop_operands [T_F64; T_F64] s ;; k_push_operands [T_I32] s (* 372-375 *)
  | I_F64Ne => s <-# k_pop_operands [T_F64; T_F64] s ;; k_push_operands [T_I32] s (* 376-379 *)
  | I_F64Lt => s <-# k_pop_operands [T_F64; T_F64] s ;; k_push_operands [T_I32] s (* 380-383 *)
  | I_F64Gt => s <-# k_pop_operands [T_F64; T_F64] s ;; k_push_operands [T_I32] s (* 384-387 *)
  | I_F64Le => s <-# k_pop_operands [T_F64; T_F64] s ;; k_push_operands [T_I32] s (* 388-391 *)
  | I_F64Ge => s <-# k_pop_operands [T_F64; T_F64] s ;; k_push_operands [T_I32] s (* 392-395 *)
  | I_I32Clz => s <-# k_pop_operands [T_I32] s ;; k_push_operands [T_I32] s (* 397-400 *)
  | I_I32Ctz => s <-# k_pop_operands [T_I32] s ;; k_push_operands [T_I32] s (* 401-404 *)
  | I_I32Popcnt => s <-# k_pop_operands [T_I32] s ;; k_push_operands [T_I32] s (* 405-408 *)
  | I_I32Add => s <-# k_pop_operands [T_I32; T_I32] s ;; k_push_operands [T_I32] s (* 409-412 *)
  | I_I32Sub => s <-# k_pop_operands [T_I32; T_I32] s ;; k_push_operands [T_I32] s (* 413-416 *)
  | I_I32Mul => s <-# k_pop_operands [T_I32; T_I32] s ;; k_push_operands [T_I32] s (* 417-420 *)
  | I_I32DivS => s <-# k_pop_operands [T_I32; T_I32] s ;; k_push_operands [T_I32] s (* 421-424 *)
  | I_I32DivU => s <-# k_pop_operands [T_I32; T_I32] s ;; k_push_operands [T_I32] s (* 425-428 *)
  | I_I32RemS => s <-# k_pop_operands [T_I32; T_I32] s ;; k_push_operands [T_I32] s (* 429-432 *)
  | I_I32RemU => s <-# k_pop_operands [T_I32; T_I32] s ;; k_push_operands [T_I32] s (* 433-436 *)
  | I_I32And => s <-# k_pop_operands [T_I32; T_I32] s ;; k_push_operands [T_I32] s (* 437-440 *)
  | I_I32Or => s <-# k_pop_operands [T_I32; T_I32] s ;; k_push_operands [T_I32] s (* 441-444 *)
  | I_I32Xor => s <-# k_pop_operands [T_I32; T_I32] s ;; k_push_operands [T_I32] s (* 445-448 *)
  | I_I32Shl => s <-# k_pop_operands [T_I32; T_I32] s ;; k_push_operands [T_I32] s (* 449-452 *)
  | I_I32ShrS => s <-# k_pop_operands [T_I32; T_I32] s ;; k_push_operands [T_I32] s (* 453-456 *)
  | I_I32ShrU => s <-# k_pop_operands [T_I32; T_I32] s ;; k_push_operands [T_I32] s (* 457-460 *)
  | I_I32Rotl => s <-# k_pop_operands [T_I32; T_I32] s ;; k_push_operands [T_I32] s (* 461-464 *)
  | I_I32Rotr => s <-# k_pop_operands [T_I32; T_I32] s ;; k_push_operands [T_I32] s (* 465-468 *)
  | I_I64Clz => s <-# k_pop_operands [T_I64] s ;; k_push_operands [T_I64] s (* 470-473 *)
  | I_I64Ctz => s <-# k_pop_operands [T_I64] s ;; k_push_operands [T_I64] s (* 474-477 *)
  | I_I64Popcnt => s <-# k_pop_operands [T_I64] s ;; k_push_operands [T_I64] s (* 478-481 *)
  | I_I64Add => s <-# k_pop_operands [T_I64; T_I64] s ;; k_push_operands [T_I64] s (* 482-485 *)
  | I_I64Sub => s <-# k_pop_operands [T_I64; T_I64] s ;; k_push_operands [T_I64] s (* 486-489 *)
  | I_I64Mul => s <-# k_pop_operands [T_I64; T_I64] s ;; k_push_operands [T_I64] s (* 490-493 *)
  | I_I64DivS => s <-# k_pop_operands [T_I64; T_I64] s ;; k_push_operands [T_I64] s (* 494-497 *)
  | I_I64DivU => s <-# k_pop_operands [T_I64; T_I64] s ;; k_push_operands [T_I64] s (* 498-501 *)
  | I_I64RemS => s <-# k_pop_operands [T_I64; T_I64] s ;; k_push_operands [T_I64] s (* 502-505 *)
  | I_I64RemU => s <-# k_pop_operands [T_I64; T_I64] s ;; k_push_operands [T_I64] s (* 506-509 *)
  | I_I64And => s <-# k_pop_operands [T_I64; T_I64] s ;; k_push_operands [T_I64] s (* 510-513 *)
  | I_I64Or => s <-# k_pop_operands [T_I64; T_I64] s ;; k_push_operands [T_I64] s (* 514-517 *)
  | I_I64Xor => s <-# k_pop_operands [T_I64; T_I64] s ;; k_push_operands [T_I64] s (* 518-521 *)
  | I_I64Shl => s <-# k_pop_operands [T_I64; T_I64] s ;; k_push_operands [T_I64] s (* 522-525 *)
  | I_I64ShrS => s <-# k_pop_operands [T_I64; T_I64] s ;; k_push_operands [T_I64] s (* 526-529 *)
  | I_I64ShrU => s <-# k_pop_operands [T_I64; T_I64] s ;; k_push_operands [T_I64] s (* 530-533 *)
  | I_I64Rotl => s <-# k_pop_operands [T_I64; T_I64] s ;; k_push_operands [T_I64] s (* 534-537 *)
  | I_I64Rotr => s <-# k_pop_operands [T_I64; T_I64] s ;; k_push_operands [T_I64] s (* 538-541 *)
  | I_F32Abs => s <-# k_pop_operands [T_F32] s ;; k_push_operands [T_F32] s (* 543-546 *)
  | I_F32Neg => s <-# k_pop_operands [T_F32] s ;; k_push_operands [T_F32] s (* 547-550 *)
  | I_F32Ceil => s <-# k_pop_operands [T_F32] s ;; k_push_operands [T_F32] s (* 551-554 *)
  | I_F32Floor => s <-# k_pop_operands [T_F32] s ;; k_push_operands [T_F32] s (* 555-558 *)
  | I_F32Trunc => s <-# k_pop_operands [T_F32] s ;; k_push_operands [T_F32] s (* 559-562 *)
  | I_F32Nearest => s <-# k_pop_operands [T_F32] s ;; k_push_operands [T_F32] s (* 563-566 *)
  | I_F32Sqrt => s <-# k_pop_operands [T_F32] s ;; k_push_operands [T_F32] s (* 567-570 *)
  | I_F32Add => s <-# k_pop_operands [T_F32; T_F32] s ;; k_push_operands [T_F32] s (* 571-574 *)
  | I_F32Sub => s <-# k_pop_operands [T_F32; T_F32] s ;; k_push_operands [T_F32] s (* 575-578 *)
  | I_F32Mul => s <-# k_pop_operands [T_F32; T_F32] s ;; k_push_operands [T_F32] s (* 579-582 *)
  | I_F32Div => s <-# k_pop_operands [T_F32; T_F32] s ;; k_push_operands [T_F32] s (* 583-586 *)
  | I_F32Min => s <-# k_pop_operands [T_F32; T_F32] s ;; k_push_operands [T_F32] s (* 587-590 *)
  | I_F32Max => s <-# k_pop_operands [T_F32; T_F32] s ;; k_push_operands [T_F32] s (* 591-594 *)
  | I_F32Copysign => s <-# k_pop_operands [T_F32; T_F32] s ;; k_push_operands [T_F32] s (* 595-598 *)
  | I_F64Abs => s <-# k_pop_operands [T_F64] s ;; k_push_operands [T_F64] s (* 600-603 *)
  | I_F64Neg => s <-# k_pop_operands [T_F64] s ;; k_push_operands [T_F64] s (* 604-607 *)
  | I_F64Ceil => s <-# k_pop_operands [T_F64] s ;; k_push_operands [T_F64] s (* 608-611 *)
  | I_F64Floor => s <-# k_pop_operands [T_F64] s ;; k_push_operands [T_F64] s (* 612-615 *)
  | I_F64Trunc => s <-# k_pop_operands [T_F64] s ;; k_push_operands [T_F64] s (* 616-619 *)
  | I_F64Nearest => s <-# k_pop_operands [T_F64] s ;; k_push_operands [T_F64] s (* 620-623 *)
  | I_F64Sqrt => s <-# k_pop_operands [T_F64] s ;; k_push_operands [T_F64] s (* 624-627 *)
  | I_F64Add => s <-# k_pop_operands [T_F64; T_F64] s ;; k_push_operands [T_F64] s (* 628-631 *)
  | I_F64Sub => s <-# k_pop_operands [T_F64; T_F64] s ;; k_push_operands [T_F64] s (* 632-635 *)
  | I_F64Mul => s <-# k_pop_operands [T_F64; T_F64] s ;; k_push_operands [T_F64] s (* 636-639 *)
  | I_F64Div => s <-# k_pop_operands [T_F64; T_F64] s ;; k_push_operands [T_F64] s (* 640-643 *)
  | I_F64Min => s <-# k_pop_operands [T_F64; T_F64] s ;; k_push_operands [T_F64] s (* 644-647 *)
  | I_F64Max => s <-# k_pop_operands [T_F64; T_F64] s ;; k_push_operands [T_F64] s (* 648-651 *)
  | I_F64Copysign => s <-# k_pop_operands [T_F64; T_F64] s ;; k_push_operands [T_F64] s (* 652-655 *)
  | I_I32WrapI64 => s <-# k_pop_operands [T_I64] s ;; k_push_operands [T_I32] s (* 657-660 *)
  | I_I32TruncF32S => s <-# k_pop_operands [T_F32] s ;; k_push_operands [T_I32] s (* 661-664 *)
  | I_I32TruncF32U => s <-# k_pop_operands [T_F32] s ;; k_push_operands [T_I32] s (* 665-668 *)
  | I_I32TruncF64S => s <-# k_pop_operands [T_F64] s ;; k_push_operands [T_I32] s (* 669-672 *)
  | I_I32TruncF64U => s <-# k_pop_operands [T_F64] s ;; k_push_operands [T_I32] s (* 673-676 *)
  | I_I64ExtendI32S => s <-# k_pop_operands [T_I32] s ;; k_push_operands [T_I64] s (* 677-680 *)
  | I_I64ExtendI32U => s <-# k_pop_operands [T_I32] s ;; k_push_operands [T_I64] s (* 681-684 *)
  | I_I64TruncF32S => s <-# k_pop_operands [T_F32] s ;; k_push_operands [T_I64] s (* 685-688 *)
  | I_I64TruncF32U => s <-# k_pop_operands [T_F32] s ;; k_push_operands [T_I64] s (* 689-692 *)
  | I_I64TruncF64S => s <-# k_pop_operands [T_F64] s ;; k_push_operands [T_I64] s (* 693-696 *)
  | I_I64TruncF64U => s <-# k_pop_operands [T_F64] s ;; k_push_operands [T_I64] s (* 697-700 *)
  | I_F32ConvertI32S => s <-# k_pop_operands [T_I32] s ;; k_push_operands [T_F32] s (* 701-704 *)
  | I_F32ConvertI32U => s <-# k_pop_operands [T_I32] s ;; k_push_operands [T_F32] s (* 705-708 *)
  | I_F32ConvertI64S => s <-# k_pop_operands [T_I64] s ;; k_push_operands [T_F32] s (* 709-712 *)
  | I_F32ConvertI64U => s <-# k_pop_operands [T_I64] s ;; k_push_operands [T_F32] s (* 713-716 *)
  | I_F32DemoteF64 => s <-# k_pop_operands [T_F64] s ;; k_push_operands [T_F32] s (* 717-720 *)
  | I_F64ConvertI32S => s <-# k_pop_operands [T_I32] s ;; k_push_operands [T_F64] s (* 721-724 *)
  | I_F64ConvertI32U => s <-# k_pop_operands [T_I32] s ;; k_push_operands [T_F64] s (* 725-728 *)
  | I_F64ConvertI64S => s <-# k_pop_operands [T_I64] s ;; k_push_operands [T_F64] s (* 729-732 *)
  | I_F64ConvertI64U => s <-# k_pop_operands [T_I64] s ;; k_push_operands [T_F64] s (* 733-736 *)
  | I_F64PromoteF32 => s <-# k_pop_operands [T_F32] s ;; k_push_operands [T_F64] s (* 737-740 *)
  | I_I32ReinterpretF32 => s <-# k_pop_operands [T_F32] s ;; k_push_operands [T_I32] s (* 741-744 *)
  | I_I64ReinterpretF64 => s <-# k_pop_operands [T_F64] s ;; k_push_operands [T_I64] s (* 745-748 *)
  | I_F32ReinterpretI32 => s <-# k_pop_operands [T_I32] s ;; k_push_operands [T_F32] s (* 749-752 *)
  | I_F64ReinterpretI64 => s <-# k_pop_operands [T_I64] s ;; k_push_operands [T_F64] s (* 753-756 *)  end.

Definition k_expr (c : context) (e : expr) (s : stacks) : kv stacks := k_seq (k_instr c) e s.
Fixpoint k_constexpr (c : context) (e : constexpr) (s : stacks) : kv stacks :=
  match e with
  | [] => k_ret s
  | i :: e' => _ <-# k_steps 1 ;; _ <-# k_step (v_const_check c i) ;; s <-# k_instr c i s ;; k_constexpr c e' s
  end.

(** ** Building a context: context.rs:17-99 *)
Fixpoint k_imported_funcs (imports : list import) (c : context) : kv context :=
  match imports with
  | [] => k_ret c
  | im :: ims =>
    _ <-# k_steps 1 ;;
    match im_desc im with
    | ID_Func idx => t <-# k_step (v_typeidx c idx) ;; k_imported_funcs ims (push_func c t)
    | _ => k_imported_funcs ims c
    end
  end.
Fixpoint k_funcs (funcs : list func) (c : context) : kv context :=
  match funcs with
  | [] => k_ret c
  | f :: fs => _ <-# k_steps 1 ;; t <-# k_step (v_typeidx c (fn_ty f)) ;; k_funcs fs (push_func c t)
  end.
Definition k_context_from (m : module) : kv context :=
  _ <-# k_steps (length (m_types m)) ;;
  let c := use_types (m_types m) default_context in
  c <-# k_imported_funcs (m_imports m) c ;;
  _ <-# k_steps (length (m_imports m)) ;;
  let c := use_imported_tables (m_imports m) c in
  _ <-# k_steps (length (m_imports m)) ;;
  let c := use_imported_mems (m_imports m) c in
  _ <-# k_steps (length (m_imports m)) ;;
  let c := use_imported_globals (m_imports m) c in
  c <-# k_funcs (m_funcs m) c ;;
  _ <-# k_steps (length (m_tables m)) ;;
  let c := use_tables (m_tables m) c in
  _ <-# k_steps (length (m_mems m)) ;;
  let c := use_mems (m_mems m) c in
  _ <-# k_steps (length (m_globals m)) ;;
  let c := use_globals (m_globals m) c in
  k_ret c.

(** ** Module components: module.rs *)
(** module.rs:95-114: the local variables are collected anew for each function (line 102) *)
Definition k_func (f : func) (cs : vctx) : kv (functy * vctx) :=
  let '(c, s) := cs in
  t <-# k_step (v_typeidx c (fn_ty f)) ;;
  let r := ft_results t in
  let c := set_ret c (Some r) in
  _ <-# k_steps (length (ft_params t) + length (fn_locals f)) ;;
  let c := set_locals c (ft_params t ++ fn_locals f) in
  s <-# k_push_frame r r s ;;
  s <-# k_expr c (fn_body f) s ;;
  rs <-# k_pop_frame s ;;
  let s := snd rs in
  if stacks_not_empty s then k_run VErr
  else
    let c := set_locals c [] in
    let c := set_ret c None in
    k_ret (t, (c, s)).
Definition k_const_body (r : list valty) (e : constexpr) (cs : vctx) : kv vctx :=
  let '(c, s) := cs in
  s <-# k_push_frame r r s ;;
  s <-# k_constexpr c e s ;;
  rs <-# k_pop_frame s ;;
  let s := snd rs in
  if stacks_not_empty s then k_run VErr else k_ret (c, s).
Definition k_global (g : global) (cs : vctx) : kv (globalty * vctx) :=
  _ <-# k_run (v_globalty (glob_ty g)) ;;
  cs <-# k_const_body [gt_val (glob_ty g)] (glob_init g) cs ;;
  k_ret (glob_ty g, cs).
Fixpoint k_elem_init (c : context) (init : list funcidx) : kv unit :=
  match init with
  | [] => k_ret tt
  | i :: is => _ <-# k_step (v_funcidx c i) ;; k_elem_init c is
  end.
Definition k_elem (e : elem) (cs : vctx) : kv (unit * vctx) :=
  t <-# k_step (v_tableidx (fst cs) (el_table e)) ;;
  if negb (elemty_eqb (tt_elem t) FuncRef) then k_run VErr
  else
    cs <-# k_const_body [T_I32] (el_offset e) cs ;;
    _ <-# k_elem_init (fst cs) (el_init e) ;;
    k_ret (tt, cs).
Definition k_data (d : data) (cs : vctx) : kv (unit * vctx) :=
  _ <-# k_step (v_memidx (fst cs) (da_mem d)) ;;
  cs <-# k_const_body [T_I32] (da_offset d) cs ;;
  k_ret (tt, cs).
(** The loops of module.rs:36-69; what the loop bodies of types, tables, memories, imports and exports do takes a bounded time. *)
Fixpoint k_each {A B} (v : A -> vctx -> kv (B * vctx)) (xs : list A) (cs : vctx) : kv (list B * vctx) :=
  match xs with
  | [] => k_ret ([], cs)
  | x :: xs' =>
    _ <-# k_steps 1 ;;
    r <-# v x cs ;;
    rs <-# k_each v xs' (snd r) ;;
    k_ret (fst r :: fst rs, snd rs)
  end.
Definition k_once {A B} (v : A -> vctx -> vres (B * vctx)) (x : A) (cs : vctx) : kv (B * vctx) := k_step (v x cs).
(** module.rs:29-93; the names are collected in line 78-80 *)
Definition k_module (m : module) : kv module_types :=
  c <-# k_context_from m ;;
  let cs : vctx := (c, empty_stacks) in
  _ <-# k_steps (length (m_globals m)) ;;
  let csg : vctx := (use_globals (m_globals m) default_context, empty_stacks) in
  r <-# k_each (k_once v_type_item) (m_types m) cs ;; let cs := snd r in
  r <-# k_each k_func (m_funcs m) cs ;; let cs := snd r in
  r <-# k_each (k_once v_table) (m_tables m) cs ;; let cs := snd r in
  r <-# k_each (k_once v_mem) (m_mems m) cs ;; let cs := snd r in
  r <-# k_each k_global (m_globals m) csg ;;
  r <-# k_each k_elem (m_elem m) cs ;; let cs := snd r in
  r <-# k_each k_data (m_data m) cs ;; let cs := snd r in
  cs <-# match m_start m with
         | Some st => r <-# k_once v_start st cs ;; k_ret (snd r)
         | None => k_ret cs
         end ;;
  ims <-# k_each (k_once v_import) (m_imports m) cs ;; let cs := snd ims in
  exs <-# k_each (k_once v_export) (m_exports m) cs ;;
  if negb (Nat.leb (length (m_tables m)) 1) then k_run VErr
  else if negb (Nat.leb (length (m_mems m)) 1) then k_run VErr
  else
    _ <-# k_steps (length (m_exports m)) ;;
    if negb (export_names_distinct (m_exports m)) then k_run VErr
    else k_ret (mkModuleTypes (fst ims) (fst exs)).
Definition validation_steps (m : module) : nat := snd (k_module m).
