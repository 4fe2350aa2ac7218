(** Validation of single components in a context of the caller.  Models whasm/src/validation once more, with what is left of
    the context when a call fails: [validate(&mut ctx)] and the methods of [Context] and [Stacks] are public.
    The lines are those cited in [Validator] and [ValidatorModule]. *)
From Verif Require Export ValidatorModule.
Open Scope N_scope.

(** A method with [&mut Stacks]: the result, and the stacks after the call (also after an error or a panic) *)
Definition sv (A : Type) : Type := stacks -> vres A * stacks.
Definition sv_ret {A} (a : A) : sv A := fun s => (VOk a, s).
Definition sv_run {A} (r : vres A) : sv A := fun s => (r, s).
Definition sv_read {A} (f : stacks -> vres A) : sv A := fun s => (f s, s).
Definition sv_bind {A B} (p : sv A) (f : A -> sv B) : sv B := fun s =>
  match p s with
  | (VOk a, s') => f a s'
  | (VErr, s') => (VErr, s')
  | (VPanic, s') => (VPanic, s')
  end.
Notation "x <-| p ;; q" := (sv_bind p (fun x => q)) (at level 61, p at next level, right associativity).

(** ** Stacks: stacks.rs:32-94 *)
Definition t_push_operand (op : operand) : sv unit := fun s => (VOk tt, push_operand op s).
(** stacks.rs:37-52: the operand is gone even if it does not match *)
Definition t_pop_operand (op : operand) : sv operand := fun s =>
  match frames s with
  | [] => (VErr, s)
  | fr :: _ =>
    if (Nat.eqb (length (operands s)) (f_height fr) && f_unreachable fr)%bool then (VOk op, s)
    else if Nat.eqb (length (operands s)) (f_height fr) then (VErr, s)
    else
      match operands s with
      | [] => (VPanic, s)
      | val :: ops =>
        let s' := mkStacks ops (frames s) in
        match val, op with
        | Unknown, _ => (VOk op, s')
        | _, Unknown => (VOk val, s')
        | _, _ => if operand_eqb val op then (VOk val, s') else (VErr, s')
        end
      end
  end.
Definition t_push_operands (ops : list valty) : sv unit := fun s => (VOk tt, push_operands ops s).
Fixpoint t_pop_all (ops : list valty) : sv unit :=
  match ops with
  | [] => sv_ret tt
  | op :: ops' => _ <-| t_pop_operand (Val op) ;; t_pop_all ops'
  end.
Definition t_pop_operands (ops : list valty) : sv unit := t_pop_all (rev ops).
Definition t_push_frame (label out : list valty) : sv unit := fun s => (VOk tt, push_frame label out s).
(** stacks.rs:76-86: the frame stays unless everything is in order *)
Definition t_pop_frame : sv (list valty) := fun s =>
  match frames s with
  | [] => (VErr, s)
  | fr :: _ =>
    (_ <-| t_pop_operands (f_out fr) ;; fun s =>
      if negb (Nat.eqb (length (operands s)) (f_height fr)) then (VErr, s)
      else
        match frames s with
        | [] => (VErr, s)
        | _ :: frs => (VOk (f_out fr), mkStacks (operands s) frs)
        end) s
  end.
Definition t_unreachable : sv unit := fun s =>
  match s_unreachable s with VOk s' => (VOk tt, s') | VErr => (VErr, s) | VPanic => (VPanic, s) end.

(** ** Instructions: instr.rs *)
Definition t_load (c : context) (_align _size : N) (val : valty) : sv unit :=
  _ <-| sv_run (v_memidx c 0) ;; _ <-| t_pop_operands [T_I32] ;; t_push_operands [val].
Definition t_store (c : context) (_align _size : N) (val : valty) : sv unit :=
  _ <-| sv_run (v_memidx c 0) ;; t_pop_operands [T_I32; val].
Definition t_else : sv unit := r <-| t_pop_frame ;; t_push_frame r r.
Definition t_end : sv unit := r <-| t_pop_frame ;; t_push_operands r.
Definition t_seq (v : instr -> sv unit) : list instr -> sv unit :=
  fix go (is : list instr) : sv unit :=
    match is with
    | [] => sv_ret tt
    | i :: is' => _ <-| v i ;; go is'
    end.
Fixpoint t_instr (c : context) (i : instr) {struct i} : sv unit :=
  match i with
  | I_Unreachable => (* 47-49 *)
    t_unreachable
  | I_Nop => (* 50 *)
    sv_ret tt
  | I_Block a b => (* 51-56 *)
    _ <-| t_push_frame a a ;;
    _ <-| t_seq (t_instr c) b ;;
    t_end
  | I_Loop a b => (* 57-62 *)
    _ <-| t_push_frame [] a ;;
    _ <-| t_seq (t_instr c) b ;;
    t_end
  | I_If a b d => (* 63-71 *)
    _ <-| t_pop_operands [T_I32] ;;
    _ <-| t_push_frame a a ;;
    _ <-| t_seq (t_instr c) b ;;
    _ <-| t_else ;;
    _ <-| t_seq (t_instr c) d ;;
    t_end
  | I_Else => (* 72-75 *)
    t_else
  | I_End => (* 77-80 *)
    t_end
  | I_Br a => (* 81-85 *)
    fr <-| sv_read (fun s => v_labelidx s a) ;;
    _ <-| t_pop_operands (f_label fr) ;;
    t_unreachable
  | I_BrIf a => (* 86-91 *)
    fr <-| sv_read (fun s => v_labelidx s a) ;;
    _ <-| t_pop_operands [T_I32] ;;
    _ <-| t_pop_operands (f_label fr) ;;
    t_push_operands (f_label fr)
  | I_BrTable a b => (* 92-103 *)
    fr <-| sv_read (fun s => v_labelidx s b) ;;
    _ <-| sv_read (fun s => v_br_table_labels s fr a) ;;
    _ <-| t_pop_operands [T_I32] ;;
    _ <-| t_pop_operands (f_label fr) ;;
    t_unreachable
  | I_Return => (* 104-108 *)
    r <-| sv_run (match c_ret c with Some r => VOk r | None => VErr end) ;;
    _ <-| t_pop_operands r ;;
    t_unreachable
  | I_Call a => (* 109-113 *)
    ft <-| sv_run (v_funcidx c a) ;;
    _ <-| t_pop_operands (ft_params ft) ;;
    t_push_operands (ft_results ft)
  | I_CallIndirect a b => (* 114-123 *)
    tt <-| sv_run (v_tableidx c b) ;;
    ft <-| sv_run (v_typeidx c a) ;;
    if negb (elemty_eqb (tt_elem tt) FuncRef) then sv_run VErr else
    _ <-| t_pop_operands [T_I32] ;;
    _ <-| t_pop_operands (ft_params ft) ;;
    t_push_operands (ft_results ft)
  | I_Drop => (* 126-128 *)
    _ <-| t_pop_operand Unknown ;;
    sv_ret tt
  | I_Select => (* 129-134 *)
    _ <-| t_pop_operands [T_I32] ;;
    o1 <-| t_pop_operand Unknown ;;
    o2 <-| t_pop_operand o1 ;;
    t_push_operand o2
  | I_LocalGet a => (* 137-140 *)
    t <-| sv_run (v_localidx c a) ;;
    t_push_operands [t]
  | I_LocalSet a => (* 141-144 *)
    t <-| sv_run (v_localidx c a) ;;
    t_pop_operands [t]
  | I_LocalTee a => (* 145-149 *)
    t <-| sv_run (v_localidx c a) ;;
    _ <-| t_pop_operands [t] ;;
    t_push_operands [t]
  | I_GlobalGet a => (* 150-153 *)
    gt <-| sv_run (v_globalidx c a) ;;
    t_push_operands [gt_val gt]
  | I_GlobalSet a => (* 154-160 *)
    gt <-| sv_run (v_globalidx c a) ;;
    if negb (mut_eqb (gt_mut gt) Var) then sv_run VErr else
    t_pop_operands [gt_val gt]
  | I_I32Load a b => t_load c b 32 T_I32 (* 163-165 *)
  | I_I64Load a b => t_load c b 64 T_I64 (* 166-168 *)
  | I_F32Load a b => t_load c b 32 T_F32 (* 169-171 *)
  | I_F64Load a b => t_load c b 64 T_F64 (* 172-174 *)
  | I_I32Load8S a b => t_load c b 8 T_I32 (* 175-177 *)
  | I_I32Load8U a b => t_load c b 8 T_I32 (* 178-180 *)
  | I_I32Load16S a b => t_load c b 16 T_I32 (* 181-183 *)
  | I_I32Load16U a b => t_load c b 16 T_I32 (* 184-186 *)
  | I_I64Load8S a b => t_load c b 8 T_I64 (* 187-189 *)
  | I_I64Load8U a b => t_load c b 8 T_I64 (* 190-192 *)
  | I_I64Load16S a b => t_load c b 16 T_I64 (* 193-195 *)
  | I_I64Load16U a b => t_load c b 16 T_I64 (* 196-198 *)
  | I_I64Load32S a b => t_load c b 32 T_I64 (* 199-201 *)
  | I_I64Load32U a b => t_load c b 32 T_I64 (* 202-204 *)
  | I_I32Store a b => t_store c b 32 T_I32 (* 206-208 *)
  | I_I64Store a b => t_store c b 64 T_I64 (* 209-211 *)
  | I_F32Store a b => t_store c b 32 T_F32 (* 212-214 *)
  | I_F64Store a b => t_store c b 64 T_F64 (* 215-217 *)
  | I_I32Store8 a b => t_store c b 8 T_I32 (* 218-220 *)
  | I_I32Store16 a b => t_store c b 16 T_I32 (* 221-223 *)
  | I_I64Store8 a b => t_store c b 8 T_I64 (* 224-226 *)
  | I_I64Store16 a b => t_store c b 16 T_I64 (* 227-229 *)
  | I_I64Store32 a b => t_store c b 32 T_I64 (* 230-232 *)
  | I_MemSize a => (* 234-237 *)
    _ <-| sv_run (v_memidx c a) ;;
    t_push_operands [T_I32]
  | I_MemGrow a => (* 238-242 *)
    _ <-| sv_run (v_memidx c a) ;;
    _ <-| t_pop_operands [T_I32] ;;
    t_push_operands [T_I32]
  | I_ConstI32 a => t_push_operands [T_I32] (* 244-246 *)
  | I_ConstI64 a => t_push_operands [T_I64] (* 247-249 *)
  | I_ConstF32 a => t_push_operands [T_F32] (* 250-252 *)
  | I_ConstF64 a => t_push_operands [T_F64] (* 253-255 *)
  | I_I32Eqz => _ <-| t_pop_operands [T_I32] ;; t_push_operands [T_I32] (* 257-260 *)
  | I_I32Eq => _ <-| t_pop_operands [T_I32; T_I32] ;; t_push_operands [T_I32] (* 261-264 *)
  | I_I32Ne => _ <-| t_pop_operands [T_I32; T_I32] ;; t_push_operands [T_I32] (* 265-268 *)
  | I_I32LtS => _ <-| t_pop_operands [T_I32; T_I32] ;; t_push_operands [T_I32] (* 269-272 *)
  | I_I32LtU => _ <-| t_pop_operands [T_I32; T_I32] ;; t_push_operands [T_I32] (* 273-276 *)
  | I_I32GtS => _ <-| t_pop_operands [T_I32; T_I32] ;; t_push_operands [T_I32] (* 277-280 *)
  | I_I32GtU => _ <-| t_pop_operands [T_I32; T_I32] ;; t_push_operands [T_I32] (* 281-284 *)
  | I_I32LeS => _ <-| t_pop_operands [T_I32; T_I32] ;; t_push_operands [T_I32] (* 285-288 *)
  | I_I32LeU => _ <-| t_pop_operands [T_I32; T_I32] ;; t_push_operands [T_I32] (* 289-292 *)
  | I_I32GeS => _ <-| t_pop_operands [T_I32; T_I32] ;; t_push_operands [T_I32] (* 293-296 *)
  | I_I32GeU => _ <-| t_pop_operands [T_I32; T_I32] ;; t_push_operands [T_I32] (* 297-300 *)
  | I_I64Eqz => _ <-| t_pop_operands [T_I64] ;; t_push_operands [T_I32] (* 302-305 *)
  | I_I64Eq => _ <-| t_pop_operands [T_I64; T_I64] ;; t_push_operands [T_I32] (* 306-309 *)
  | I_I64Ne => _ <-| t_pop_operands [T_I64; T_I64] ;; t_push_operands [T_I32] (* 310-313 *)
  | I_I64LtS => _ <-| t_pop_operands [T_I64; T_I64] ;; t_push_operands [T_I32] (* 314-317 *)
  | I_I64LtU => _ <-| t_pop_operands [T_I64; T_I64] ;; t_push_operands [T_I32] (* 318-321 *)
  | I_I64GtS => _ <-| t_pop_operands [T_I64; T_I64] ;; t_push_operands [T_I32] (* 322-325 *)
  | I_I64GtU => _ <-| t_pop_operands [T_I64; T_I64] ;; t_push_operands [T_I32] (* 326-329 *)
  | I_I64LeS => _ <-| t_pop_operands [T_I64; T_I64] ;; t_push_operands [T_I32] (* 330-333 *)
  | I_I64LeU => _ <-| t_pop_operands [T_I64; T_I64] ;; t_push_operands [T_I32] (* 334-337 *)
  | I_I64GeS => _ <-| t_pop_operands [T_I64; T_I64] ;; t_push_operands [T_I32] (* 338-341 *)
  | I_I64GeU => _ <-| t_pop_operands [T_I64; T_I64] ;; t_push_operands [T_I32] (* 342-345 *)
  | I_F32Eq => _ <-| t_pop_operands [T_F32; T_F32] ;; t_push_operands [T_I32] (* 347-350 *)
  | I_F32Ne => _ <-| t_pop_operands [T_F32; T_F32] ;; t_push_operands [T_I32] (* 351-354 *)
  | I_F32Lt => _ <-| t_pop_operands [T_F32; T_F32] ;; t_push_operands [T_I32] (* 355-358 *)
  | I_F32Gt => _ <-| t_pop_operands [T_F32; T_F32] ;; t_push_operands [T_I32] (* 359-362 *)
  | I_F32Le => _ <-| t_pop_operands [T_F32; T_F32] ;; t_push_operands [T_I32] (* 363-366 *)
  | I_F32Ge => _ <-| t_pop_operands [T_F32; T_F32] ;; t_push_operands [T_I32] (* 367-370 *)
  | I_F64Eq => _ <-| t_pop_operands [T_F64; T_F64] ;; t_push_operands [T_I32] (* 372-375 *)
  | I_F64Ne => _ <-| t_pop_operands [T_F64; T_F64] ;; t_push_operands [T_I32] (* 376-379 *)
  | I_F64Lt => _ <-| t_pop_operands [T_F64; T_F64] ;; t_push_operands [T_I32] (* 380-383 *)
  | I_F64Gt => _ <-| t_pop_operands [T_F64; T_F64] ;; t_push_operands [T_I32] (* 384-387 *)
  | I_F64Le => _ <-| t_pop_operands [T_F64; T_F64] ;; t_push_operands [T_I32] (* 388-391 *)
  | I_F64Ge => _ <-| t_pop_operands [T_F64; T_F64] ;; t_push_operands [T_I32] (* 392-395 *)
  | I_I32Clz => _ <-| t_pop_operands [T_I32] ;; t_push_operands [T_I32] (* 397-400 *)
  | I_I32Ctz => _ <-| t_pop_operands [T_I32] ;; t_push_operands [T_I32] (* 401-404 *)
  | I_I32Popcnt => _ <-| t_pop_operands [T_I32] ;; t_push_operands [T_I32] (* 405-408 *)
  | I_I32Add => _ <-| t_pop_operands [T_I32; T_I32] ;; t_push_operands [T_I32] (* 409-412 *)
  | I_I32Sub => _ <-| t_pop_operands [T_I32; T_I32] ;; t_push_operands [T_I32] (* 413-416 *)
  | I_I32Mul => _ <-| t_pop_operands [T_I32; T_I32] ;; t_push_operands [T_I32] (* 417-420 *)
  | I_I32DivS => _ <-| t_pop_operands [T_I32; T_I32] ;; t_push_operands [T_I32] (* 421-424 *)
  | I_I32DivU => _ <-| t_pop_operands [T_I32; T_I32] ;; t_push_operands [T_I32] (* 425-428 *)
  | I_I32RemS => _ <-| t_pop_operands [T_I32; T_I32] ;; t_push_operands [T_I32] (* 429-432 *)
  | I_I32RemU => _ <-| t_pop_operands [T_I32; T_I32] ;; t_push_operands [T_I32] (* 433-436 *)
  | I_I32And => _ <-| t_pop_operands [T_I32; T_I32] ;; t_push_operands [T_I32] (* 437-440 *)
  | I_I32Or => _ <-| t_pop_operands [T_I32; T_I32] ;; t_push_operands [T_I32] (* 441-444 *)
  | I_I32Xor => _ <-| t_pop_operands [T_I32; T_I32] ;; t_push_operands [T_I32] (* 445-448 *)
  | I_I32Shl => _ <-| t_pop_operands [T_I32; T_I32] ;; t_push_operands [T_I32] (* 449-452 *)
  | I_I32ShrS => _ <-| t_pop_operands [T_I32; T_I32] ;; t_push_operands [T_I32] (* 453-456 *)
  | I_I32ShrU => _ <-| t_pop_operands [T_I32; T_I32] ;; t_push_operands [T_I32] (* 457-460 *)
  | I_I32Rotl => _ <-| t_pop_operands [T_I32; T_I32] ;; t_push_operands [T_I32] (* 461-464 *)
  | I_I32Rotr => _ <-| t_pop_operands [T_I32; T_I32] ;; t_push_operands [T_I32] (* 465-468 *)
  | I_I64Clz => _ <-| t_pop_operands [T_I64] ;; t_push_operands [T_I64] (* 470-473 *)
  | I_I64Ctz => _ <-| t_pop_operands [T_I64] ;; t_push_operands [T_I64] (* 474-477 *)
  | I_I64Popcnt => _ <-| t_pop_operands [T_I64] ;; t_push_operands [T_I64] (* 478-481 *)
  | I_I64Add => _ <-| t_pop_operands [T_I64; T_I64] ;; t_push_operands [T_I64] (* 482-485 *)
  | I_I64Sub => _ <-| t_pop_operands [T_I64; T_I64] ;; t_push_operands [T_I64] (* 486-489 *)
  | I_I64Mul => _ <-| t_pop_operands [T_I64; T_I64] ;; t_push_operands [T_I64] (* 490-493 *)
  | I_I64DivS => _ <-| t_pop_operands [T_I64; T_I64] ;; t_push_operands [T_I64] (* 494-497 *)
  | I_I64DivU => _ <-| t_pop_operands [T_I64; T_I64] ;; t_push_operands [T_I64] (* 498-501 *)
  | I_I64RemS => _ <-| t_pop_operands [T_I64; T_I64] ;; t_push_operands [T_I64] (* 502-505 *)
  | I_I64RemU => _ <-| t_pop_operands [T_I64; T_I64] ;; t_push_operands [T_I64] (* 506-509 *)
  | I_I64And => _ <-| t_pop_operands [T_I64; T_I64] ;; t_push_operands [T_I64] (* 510-513 *)
  | I_I64Or => _ <-| t_pop_operands [T_I64; T_I64] ;; t_push_operands [T_I64] (* 514-517 *)
  | I_I64Xor => _ <-| t_pop_operands [T_I64; T_I64] ;; t_push_operands [T_I64] (* 518-521 *)
  | I_I64Shl => _ <-| t_pop_operands [T_I64; T_I64] ;; t_push_operands [T_I64] (* 522-525 *)
  | I_I64ShrS => _ <-| t_pop_operands [T_I64; T_I64] ;; t_push_operands [T_I64] (* 526-529 *)
  | I_I64ShrU => _ <-| t_pop_operands [T_I64; T_I64] ;; t_push_operands [T_I64] (* 530-533 *)
  | I_I64Rotl => _ <-| t_pop_operands [T_I64; T_I64] ;; t_push_operands [T_I64] (* 534-537 *)
  | I_I64Rotr => _ <-| t_pop_operands [T_I64; T_I64] ;; t_push_operands [T_I64] (* 538-541 *)
  | I_F32Abs => _ <-| t_pop_operands [T_F32] ;; t_push_operands [T_F32] (* 543-546 *)
  | I_F32Neg => _ <-| t_pop_operands [T_F32] ;; t_push_operands [T_F32] (* 547-550 *)
  | I_F32Ceil => _ <-| t_pop_operands [T_F32] ;; t_push_operands [T_F32] (* 551-554 *)
  | I_F32Floor => _ <-| t_pop_operands [T_F32] ;; t_push_operands [T_F32] (* 555-558 *)
  | I_F32Trunc => _ <-| t_pop_operands [T_F32] ;; t_push_operands [T_F32] (* 559-562 *)
  | I_F32Nearest => _ <-| t_pop_operands [T_F32] ;; t_push_operands [T_F32] (* 563-566 *)
  | I_F32Sqrt => _ <-| t_pop_operands [T_F32] ;; t_push_operands [T_F32] (* 567-570 *)
  | I_F32Add => _ <-| t_pop_operands [T_F32; T_F32] ;; t_push_operands [T_F32] (* 571-574 *)
  | I_F32Sub => _ <-| t_pop_operands [T_F32; T_F32] ;; t_push_operands [T_F32] (* 575-578 *)
  | I_F32Mul => _ <-| t_pop_operands [T_F32; T_F32] ;; t_push_operands [T_F32] (* 579-582 *)
  | I_F32Div => _ <-| t_pop_operands [T_F32; T_F32] ;; t_push_operands [T_F32] (* 583-586 *)
  | I_F32Min => _ <-| t_pop_operands [T_F32; T_F32] ;; t_push_operands [T_F32] (* 587-590 *)
  | I_F32Max => _ <-| t_pop_operands [T_F32; T_F32] ;; t_push_operands [T_F32] (* 591-594 *)
  | I_F32Copysign => _ <-| t_pop_operands [T_F32; T_F32] ;; t_push_operands [T_F32] (* 595-598 *)
  | I_F64Abs => _ <-| t_pop_operands [T_F64] ;; t_push_operands [T_F64] (* 600-603 *)
  | I_F64Neg => _ <-| t_pop_operands [T_F64] ;; t_push_operands [T_F64] (* 604-607 *)
  | I_F64Ceil => _ <-| t_pop_operands [T_F64] ;; t_push_operands [T_F64] (* 608-611 *)
  | I_F64Floor => _ <-| t_pop_operands [T_F64] ;; t_push_operands [T_F64] (* 612-615 *)
  | I_F64Trunc => _ <-| t_pop_operands [T_F64] ;; t_push_operands [T_F64] (* 616-619 *)
  | I_F64Nearest => _ <-| t_pop_operands [T_F64] ;; t_push_operands [T_F64] (* 620-623 *)
  | I_F64Sqrt => _ <-| t_pop_operands [T_F64] ;; t_push_operands [T_F64] (* 624-627 *)
  | I_F64Add => _ <-| t_pop_operands [T_F64; T_F64] ;; t_push_operands [T_F64] (* 628-631 *)
  | I_F64Sub => _ <-| t_pop_operands [T_F64; T_F64] ;; t_push_operands [T_F64] (* 632-635 *)
  | I_F64Mul => _ <-| t_pop_operands [T_F64; T_F64] ;; t_push_operands [T_F64] (* 636-639 *)
  | I_F64Div => _ <-| t_pop_operands [T_F64; T_F64] ;; t_push_operands [T_F64] (* 640-643 *)
  | I_F64Min => _ <-| t_pop_operands [T_F64; T_F64] ;; t_push_operands [T_F64] (* 644-647 *)
  | I_F64Max => _ <-| t_pop_operands [T_F64; T_F64] ;; t_push_operands [T_F64] (* 648-651 *)
  | I_F64Copysign => _ <-| t_pop_operands [T_F64; T_F64] ;; t_push_operands [T_F64] (* 652-655 *)
  | I_I32WrapI64 => _ <-| t_pop_operands [T_I64] ;; t_push_operands [T_I32] (* 657-660 *)
  | I_I32TruncF32S => _ <-| t_pop_operands [T_F32] ;; t_push_operands [T_I32] (* 661-664 *)
  | I_I32TruncF32U => _ <-| t_pop_operands [T_F32] ;; t_push_operands [T_I32] (* 665-668 *)
  | I_I32TruncF64S => _ <-| t_pop_operands [T_F64] ;; t_push_operands [T_I32] (* 669-672 *)
  | I_I32TruncF64U => _ <-| t_pop_operands [T_F64] ;; t_push_operands [T_I32] (* 673-676 *)
  | I_I64ExtendI32S => _ <-| t_pop_operands [T_I32] ;; t_push_operands [T_I64] (* 677-680 *)
  | I_I64ExtendI32U => _ <-| t_pop_operands [T_I32] ;; t_push_operands [T_I64] (* 681-684 *)
  | I_I64TruncF32S => _ <-| t_pop_operands [T_F32] ;; t_push_operands [T_I64] (* 685-688 *)
  | I_I64TruncF32U => _ <-| t_pop_operands [T_F32] ;; t_push_operands [T_I64] (* 689-692 *)
  | I_I64TruncF64S => _ <-| t_pop_operands [T_F64] ;; t_push_operands [T_I64] (* 693-696 *)
  | I_I64TruncF64U => _ <-| t_pop_operands [T_F64] ;; t_push_operands [T_I64] (* 697-700 *)
  | I_F32ConvertI32S => _ <-| t_pop_operands [T_I32] ;; t_push_operands [T_F32] (* 701-704 *)
  | I_F32ConvertI32U => _ <-| t_pop_operands [T_I32] ;; t_push_operands [T_F32] (* 705-708 *)
  | I_F32ConvertI64S => _ <-| t_pop_operands [T_I64] ;; t_push_operands [T_F32] (* 709-712 *)
  | I_F32ConvertI64U => _ <-| t_pop_operands [T_I64] ;; t_push_operands [T_F32] (* 713-716 *)
  | I_F32DemoteF64 => _ <-| t_pop_operands [T_F64] ;; t_push_operands [T_F32] (* 717-720 *)
  | I_F64ConvertI32S => _ <-| t_pop_operands [T_I32] ;; t_push_operands [T_F64] (* 721-724 *)
  | I_F64ConvertI32U => _ <-| t_pop_operands [T_I32] ;; t_push_operands [T_F64] (* 725-728 *)
  | I_F64ConvertI64S => _ <-| t_pop_operands [T_I64] ;; t_push_operands [T_F64] (* 729-732 *)
  | I_F64ConvertI64U => _ <-| t_pop_operands [T_I64] ;; t_push_operands [T_F64] (* 733-736 *)
  | I_F64PromoteF32 => _ <-| t_pop_operands [T_F32] ;; t_push_operands [T_F64] (* 737-740 *)
  | I_I32ReinterpretF32 => _ <-| t_pop_operands [T_F32] ;; t_push_operands [T_I32] (* 741-744 *)
  | I_I64ReinterpretF64 => _ <-| t_pop_operands [T_F64] ;; t_push_operands [T_I64] (* 745-748 *)
  | I_F32ReinterpretI32 => _ <-| t_pop_operands [T_I32] ;; t_push_operands [T_F32] (* 749-752 *)
  | I_F64ReinterpretI64 => _ <-| t_pop_operands [T_I64] ;; t_push_operands [T_F64] (* 753-756 *)
  end.

Definition t_expr (c : context) (e : expr) : sv unit := t_seq (t_instr c) e.
Fixpoint t_constexpr (c : context) (e : constexpr) : sv unit :=
  match e with
  | [] => sv_ret tt
  | i :: e' => _ <-| sv_run (v_const_check c i) ;; _ <-| t_instr c i ;; t_constexpr c e'
  end.

(** ** Methods with [&mut Context] *)
Definition cv (A : Type) : Type := vctx -> vres A * vctx.
Definition cv_ret {A} (a : A) : cv A := fun cs => (VOk a, cs).
Definition cv_read {A} (f : vctx -> vres A) : cv A := fun cs => (f cs, cs).
Definition cv_update (f : context -> context) : cv unit := fun cs => (VOk tt, (f (fst cs), snd cs)).
Definition cv_stacks {A} (p : context -> sv A) : cv A := fun cs => let rs := p (fst cs) (snd cs) in (fst rs, (fst cs, snd rs)).
Definition cv_bind {A B} (p : cv A) (f : A -> cv B) : cv B := fun cs =>
  match p cs with
  | (VOk a, cs') => f a cs'
  | (VErr, cs') => (VErr, cs')
  | (VPanic, cs') => (VPanic, cs')
  end.
Notation "x <=| p ;; q" := (cv_bind p (fun x => q)) (at level 61, p at next level, right associativity).

(** context.rs:24-32 and 58-64: what was pushed before an error stays *)
Fixpoint t_use_imported_funcs (imports : list import) : cv unit :=
  match imports with
  | [] => cv_ret tt
  | im :: ims =>
    match im_desc im with
    | ID_Func idx => t <=| cv_read (fun cs => v_typeidx (fst cs) idx) ;; _ <=| cv_update (fun c => push_func c t) ;; t_use_imported_funcs ims
    | _ => t_use_imported_funcs ims
    end
  end.
Fixpoint t_use_funcs (funcs : list func) : cv unit :=
  match funcs with
  | [] => cv_ret tt
  | f :: fs => t <=| cv_read (fun cs => v_typeidx (fst cs) (fn_ty f)) ;; _ <=| cv_update (fun c => push_func c t) ;; t_use_funcs fs
  end.

(** ** Module components: module.rs *)
Definition t_check_empty : cv unit := cv_read (fun cs => if stacks_not_empty (snd cs) then VErr else VOk tt).
(** module.rs:95-114 *)
Definition t_func (f : func) : cv functy :=
  t <=| cv_read (fun cs => v_typeidx (fst cs) (fn_ty f)) ;;
  let r := ft_results t in
  _ <=| cv_update (fun c => set_ret c (Some r)) ;;
  _ <=| cv_update (fun c => set_locals c (ft_params t ++ fn_locals f)) ;;
  _ <=| cv_stacks (fun _ => t_push_frame r r) ;;
  _ <=| cv_stacks (fun c => t_expr c (fn_body f)) ;;
  _ <=| cv_stacks (fun _ => t_pop_frame) ;;
  _ <=| t_check_empty ;;
  _ <=| cv_update (fun c => set_locals c []) ;;
  _ <=| cv_update (fun c => set_ret c None) ;;
  cv_ret t.
Definition t_const_body (r : list valty) (e : constexpr) : cv unit :=
  _ <=| cv_stacks (fun _ => t_push_frame r r) ;;
  _ <=| cv_stacks (fun c => t_constexpr c e) ;;
  _ <=| cv_stacks (fun _ => t_pop_frame) ;;
  t_check_empty.
(** module.rs:132-147 *)
Definition t_global (g : global) : cv globalty :=
  _ <=| cv_read (fun _ => v_globalty (glob_ty g)) ;;
  _ <=| t_const_body [gt_val (glob_ty g)] (glob_init g) ;;
  cv_ret (glob_ty g).
(** module.rs:149-170 *)
Definition t_elem (e : elem) : cv unit :=
  t <=| cv_read (fun cs => v_tableidx (fst cs) (el_table e)) ;;
  _ <=| cv_read (fun _ => if negb (elemty_eqb (tt_elem t) FuncRef) then VErr else VOk tt) ;;
  _ <=| t_const_body [T_I32] (el_offset e) ;;
  cv_read (fun cs => v_elem_init (fst cs) (el_init e)).
(** module.rs:172-187 *)
Definition t_data (d : data) : cv unit :=
  _ <=| cv_read (fun cs => v_memidx (fst cs) (da_mem d)) ;;
  t_const_body [T_I32] (da_offset d).
(** The other components (module.rs:116-130, 189-260, ty.rs, idx.rs) only read the context. *)
Definition t_reading {A} (v : vctx -> vres (A * vctx)) : cv A := cv_read (fun cs => r <-- v cs ;; VOk (fst r)).

(** ** The public methods *)
Inductive call :=
(* [validate] of what the crate can parse *)
| On_Instr (i : instr) | On_Expr (e : expr) | On_Const (e : constexpr)
| On_Func (f : func) | On_Table (t : table) | On_Mem (t : mem) | On_Global (g : global) | On_Elem (e : elem) | On_Data (d : data)
| On_Start (st : start) | On_Import (im : import) | On_Export (ex : export) | On_Module (m : module)
| On_FuncTy (t : functy) | On_TableTy (t : tablety) | On_MemTy (t : memty) | On_GlobalTy (t : globalty) | On_Limits (l : limits) | On_RetVal (t : list valty)
| On_TypeIdx (x : typeidx) | On_FuncIdx (x : funcidx) | On_TableIdx (x : tableidx) | On_MemIdx (x : memidx) | On_GlobalIdx (x : globalidx)
| On_LocalIdx (x : localidx) | On_LabelIdx (x : labelidx)
(* [Stacks] *)
| Push_Operand (op : operand) | Pop_Operand (op : operand) | Push_Operands (ops : list valty) | Pop_Operands (ops : list valty)
| Push_Frame (label out : list valty) | Pop_Frame | Unreachable
(* [Context] *)
| Use_Types (l : list functy) | Use_ImportedFuncs (l : list import) | Use_ImportedTables (l : list import) | Use_ImportedMems (l : list import)
| Use_ImportedGlobals (l : list import) | Use_Funcs (l : list func) | Use_Tables (l : list table) | Use_Mems (l : list mem) | Use_Globals (l : list global).
(** the result apart from what [Ok] contains *)
Definition cv_void {A} (p : cv A) : cv unit := _ <=| p ;; cv_ret tt.
Definition perform (k : call) : cv unit :=
  match k with
  | On_Instr i => cv_stacks (fun c => t_instr c i)
  | On_Expr e => cv_stacks (fun c => t_expr c e)
  | On_Const e => cv_stacks (fun c => t_constexpr c e)
  | On_Func f => cv_void (t_func f)
  | On_Table t => cv_void (t_reading (v_table t))
  | On_Mem t => cv_void (t_reading (v_mem t))
  | On_Global g => cv_void (t_global g)
  | On_Elem e => t_elem e
  | On_Data d => t_data d
  | On_Start st => cv_void (t_reading (v_start st))
  | On_Import im => cv_void (t_reading (v_import im))
  | On_Export ex => cv_void (t_reading (v_export ex))
  | On_Module m => cv_void (cv_read (fun _ => v_module m))      (* module.rs:31: the context is not used *)
  | On_FuncTy t => cv_void (cv_read (fun _ => v_functy t))
  | On_TableTy t => cv_void (cv_read (fun _ => v_tablety t))
  | On_MemTy t => cv_void (cv_read (fun _ => v_memty t))
  | On_GlobalTy t => cv_void (cv_read (fun _ => v_globalty t))
  | On_Limits l => cv_void (cv_read (fun _ => v_limits l))
  | On_RetVal t => cv_ret tt                                    (* ty.rs:55-60 *)
  | On_TypeIdx x => cv_void (cv_read (fun cs => v_typeidx (fst cs) x))
  | On_FuncIdx x => cv_void (cv_read (fun cs => v_funcidx (fst cs) x))
  | On_TableIdx x => cv_void (cv_read (fun cs => v_tableidx (fst cs) x))
  | On_MemIdx x => cv_void (cv_read (fun cs => v_memidx (fst cs) x))
  | On_GlobalIdx x => cv_void (cv_read (fun cs => v_globalidx (fst cs) x))
  | On_LocalIdx x => cv_void (cv_read (fun cs => v_localidx (fst cs) x))
  | On_LabelIdx x => cv_void (cv_read (fun cs => v_labelidx (snd cs) x))
  | Push_Operand op => cv_stacks (fun _ => t_push_operand op)
  | Pop_Operand op => cv_void (cv_stacks (fun _ => t_pop_operand op))
  | Push_Operands ops => cv_stacks (fun _ => t_push_operands ops)
  | Pop_Operands ops => cv_stacks (fun _ => t_pop_operands ops)
  | Push_Frame label out => cv_stacks (fun _ => t_push_frame label out)
  | Pop_Frame => cv_void (cv_stacks (fun _ => t_pop_frame))
  | Unreachable => cv_stacks (fun _ => t_unreachable)
  | Use_Types l => cv_update (use_types l)
  | Use_ImportedFuncs l => t_use_imported_funcs l
  | Use_ImportedTables l => cv_update (use_imported_tables l)
  | Use_ImportedMems l => cv_update (use_imported_mems l)
  | Use_ImportedGlobals l => cv_update (use_imported_globals l)
  | Use_Funcs l => t_use_funcs l
  | Use_Tables l => cv_update (use_tables l)
  | Use_Mems l => cv_update (use_mems l)
  | Use_Globals l => cv_update (use_globals l)
  end.
(** calls one after another, whatever their results *)
Fixpoint perform_all (ks : list call) (cs : vctx) : list (vres unit) * vctx :=
  match ks with
  | [] => ([], cs)
  | k :: ks' => let rs := perform k cs in let rest := perform_all ks' (snd rs) in (fst rs :: fst rest, snd rest)
  end.
(** [Context::default()] *)
Definition default_vctx : vctx := (default_context, empty_stacks).
