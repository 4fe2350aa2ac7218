(** The memory that the parser uses: the vectors that it builds, and the call stack.
    Models the same functions as ParserCore.v, ParserInstr.v and ParserModule.v, with what they ask of the
    allocator, [Vec::with_capacity] and [Vec::push], and with their recursion. *)
From Coq Require Import String.
From Verif Require Export ParserModule.
Open Scope list_scope.
Open Scope N_scope.

(** The element types of the vectors of a parse; the last line, those of validation: references, operands and frames
    (validation/stacks.rs:6-24), and the types of imports and exports *)
Inductive vkind :=
| V_U8 | V_Val | V_Func_ty | V_Import | V_Type | V_Table | V_Mem | V_Global | V_Export | V_Elem | V_Func | V_Data
| V_Funcidx | V_Label | V_Instr
| V_Ref | V_Operand | V_Frame | V_External.
(** [Reserve k n]: a new vector with room for [n] elements is asked for, before any of them is read.
    [Hold k n]: a vector has grown to [n] elements, one by one.
    [Nest n]: instructions nested [n] deep are about to be read, by calls nested [n] deep. *)
Inductive event := Reserve (k : vkind) (n : N) | Hold (k : vkind) (n : N) | Nest (n : N).

(** A parser, and the events in the order in which they happen *)
Definition ap (A : Type) : Type := list byte -> (outcome A * list byte) * list event.
Definition a_run {A} (p : parser A) : ap A := fun bs => (p bs, []).
Definition a_note (e : event) : ap unit := fun bs => ((Ok tt, bs), [e]).
Definition a_bind {A B} (p : ap A) (f : A -> ap B) : ap B := fun bs =>
  match p bs with
  | ((Ok a, r), l) => let '(x, l') := f a r in (x, l ++ l')
  | ((Err e, r), l) => ((Err e, r), l)
  | ((Panic, r), l) => ((Panic, r), l)
  | ((OutOfFuel, r), l) => ((OutOfFuel, r), l)
  end.
Notation "x <=+ p ;; q" := (a_bind p (fun x => q)) (at level 61, p at next level, right associativity).
Definition a_ret {A} (a : A) : ap A := a_run (ret a).
Definition a_fail {A} (e : perror) : ap A := a_run (fail e).

Fixpoint a_times {A} (n : nat) (p : ap A) : ap (list A) :=
  match n with
  | O => a_ret []
  | S n' => x <=+ p ;; xs <=+ a_times n' p ;; a_ret (x :: xs)
  end.
(** binary/core/vec.rs:55-64, line 58 *)
Definition a_vec {A} (k : vkind) (p : ap A) : ap (list A) :=
  n <=+ a_run p_u32 ;; _ <=+ a_note (Reserve k n) ;; a_times (N.to_nat n) p.
(** binary/core/vec.rs:86-96, line 90 *)
Definition a_unwrapping_vec {A B} (k : vkind) (p : ap A) (u : A -> B) : ap (list B) :=
  n <=+ a_run p_u32 ;; _ <=+ a_note (Reserve k n) ;; a_times (N.to_nat n) (x <=+ p ;; a_ret (u x)).
(** binary/core/vec.rs:66-80; lines 74-76 push [n] elements *)
Fixpoint a_runs {A} (j : nat) (k : vkind) (p : ap A) (result : list A) : ap (list A) :=
  match j with
  | O => a_ret result
  | S j' =>
    n <=+ a_run p_u32 ;;
    val <=+ p ;;
    _ <=+ a_note (Hold k (N.of_nat (List.length result) + n)) ;;
    a_runs j' k p (result ++ repeat val (N.to_nat n))
  end.
Definition a_compact_vec {A} (k : vkind) (p : ap A) : ap (list A) :=
  j <=+ a_run p_u32 ;; a_runs (N.to_nat j) k p [].
(** binary/core/sized.rs:46-60 *)
Definition a_sized {A} (p : ap A) : ap A :=
  size <=+ a_run p_u32 ;;
  fun bs =>
    let window := firstn (N.to_nat size) bs in
    let after := skipn (N.to_nat size) bs in
    match p window with
    | ((Ok result, r), l) =>
      let count := N.of_nat (List.length window - List.length r) in
      if negb (size =? count) then ((Err SizeMissmatch, r ++ after), l)
      else ((Ok result, r ++ after), l)
    | ((o, r), l) => ((o, r ++ after), l)
    end.
(** binary/core/string.rs:18-23; [String::from_utf8] keeps the vector *)
Definition a_string : ap name :=
  raw <=+ a_unwrapping_vec V_U8 (a_run p_byte) (fun b => b) ;;
  if utf8_valid raw then a_ret raw else a_fail InvalidUtf8Encoding.

(** binary/ty.rs:46-58; line 54 makes a vector of one element *)
Definition a_retval : ap retval :=
  r <=+ a_run p_retval ;;
  match r with
  | [] => a_ret r
  | _ :: _ => _ <=+ a_note (Hold V_Val 1) ;; a_ret r
  end.
(** binary/ty.rs:60-71 *)
Definition a_functy : ap functy :=
  b <=+ a_run p_byte ;;
  match b with
  | x60 =>
    ps <=+ a_vec V_Val (a_run p_valty) ;; rs <=+ a_vec V_Val (a_run p_valty) ;;
    a_ret {| ft_params := ps; ft_results := rs |}
  | id => a_fail (InvalidVariantId id "ty::Func")
  end.

(** binary/instr.rs:6-14, 243-274 *)
Definition a_expr_of (sub : ap (list instr * instr)) : ap (list instr) :=
  se <=+ sub ;;
  match se with
  | (e, I_End) => a_ret e
  | (_, I_Else) => a_fail (UnexpectedOpcode "Else")
  | (_, _) => a_fail (UnexpectedOpcode "Unknown")
  end.
Definition a_if_of (sub : ap (list instr * instr)) : ap instr :=
  ret_val <=+ a_retval ;;
  bn <=+ sub ;;
  let '(branch_1, next) := bn in
  b2n <=+ (if is_else next then sub else a_ret ([], next)) ;;
  let '(branch_2, next) := b2n in
  if is_end next then a_ret (I_If ret_val branch_1 branch_2)
  else a_fail (UnexpectedOpcode "Unknown").
(** binary/instr.rs:26-221.  Only the arms below build vectors; the other arms are those of [p_opcode],
    which do not use its first argument. *)
Definition a_opcode (sub : ap (list instr * instr)) (b : byte) : ap instr :=
  match b with
  | x02 => a <=+ a_retval ;; b <=+ a_expr_of sub ;; a_ret (I_Block a b)
  | x03 => a <=+ a_retval ;; b <=+ a_expr_of sub ;; a_ret (I_Loop a b)
  | x04 => a_if_of sub
  | x0e => a <=+ a_vec V_Label (a_run p_labelidx) ;; b <=+ a_run p_labelidx ;; a_ret (I_BrTable a b)
  | _ => a_run (p_opcode out_of_fuel b)
  end.
(** binary/instr.rs:23-223 and 225-241; line 236 pushes.  Lines 8, 251 and 257 call [SubExpr::parse] for [Instr::parse]
    (lines 30-32), which line 232 of [SubExpr::parse] has called: [d] counts these calls. *)
Fixpoint a_instr (fuel : nat) (d : nat) : ap instr :=
  match fuel with
  | O => a_run out_of_fuel
  | S f => b <=+ a_run p_byte ;; a_opcode (_ <=+ a_note (Nest (N.of_nat (S d))) ;; a_subexpr f (S d) []) b
  end
with a_subexpr (fuel : nat) (d : nat) (expr : list instr) : ap (list instr * instr) :=
  match fuel with
  | O => a_run out_of_fuel
  | S f =>
    next <=+ a_instr f d ;;
    match next with
    | I_End => a_ret (expr, next)
    | I_Else => a_ret (expr, next)
    | _ => _ <=+ a_note (Hold V_Instr (N.of_nat (S (List.length expr)))) ;; a_subexpr f d (expr ++ [next])
    end
  end.
Definition a_expr : ap expr := fun bs => a_expr_of (a_subexpr (fuel_for (List.length bs)) 0 []) bs.

(** binary/module.rs:74-85, 103-138, 153-183 *)
Definition a_func : ap func :=
  locals <=+ a_compact_vec V_Val (a_run p_valty) ;;
  body <=+ a_expr ;;
  a_ret {| fn_ty := 0; fn_locals := locals; fn_body := body |}.
Definition a_global : ap global :=
  t <=+ a_run p_globalty ;; i <=+ a_expr ;; a_ret {| glob_ty := t; glob_init := i |}.
Definition a_elem : ap elem :=
  t <=+ a_run p_tableidx ;; o <=+ a_expr ;; i <=+ a_vec V_Funcidx (a_run p_funcidx) ;;
  a_ret {| el_table := t; el_offset := o; el_init := i |}.
Definition a_data : ap data :=
  m <=+ a_run p_memidx ;; o <=+ a_expr ;; i <=+ a_unwrapping_vec V_U8 (a_run p_byte) (fun b => b) ;;
  a_ret {| da_mem := m; da_offset := o; da_init := i |}.
Definition a_import : ap import :=
  m <=+ a_string ;; n <=+ a_string ;; d <=+ a_run p_importdesc ;;
  a_ret {| im_module := m; im_name := n; im_desc := d |}.
Definition a_export : ap export :=
  n <=+ a_string ;; d <=+ a_run p_exportdesc ;; a_ret {| ex_name := n; ex_desc := d |}.
(** binary/module.rs:7-11 *)
Definition a_custom : ap (name * N) := n <=+ a_string ;; c <=+ a_run p_consume ;; a_ret (n, c).

(** binary/module.rs:42-67 *)
Definition a_section (id : byte) (s : pstate) : ap pstate :=
  let m := ps_result s in
  match id with
  | x00 => _ <=+ a_sized a_custom ;; a_ret s
  | x01 => v <=+ a_sized (a_vec V_Func_ty a_functy) ;; a_ret (with_result s (set_types m v))
  | x02 => v <=+ a_sized (a_vec V_Import a_import) ;; a_ret (with_result s (set_imports m v))
  | x03 => v <=+ a_sized (a_vec V_Type (a_run p_typeidx)) ;; a_ret (mkPstate m v (ps_last_id s))
  | x04 => v <=+ a_sized (a_vec V_Table (a_run p_table)) ;; a_ret (with_result s (set_tables m v))
  | x05 => v <=+ a_sized (a_vec V_Mem (a_run p_mem)) ;; a_ret (with_result s (set_mems m v))
  | x06 => v <=+ a_sized (a_vec V_Global a_global) ;; a_ret (with_result s (set_globals m v))
  | x07 => v <=+ a_sized (a_vec V_Export a_export) ;; a_ret (with_result s (set_exports m v))
  | x08 => v <=+ a_sized (a_run p_start) ;; a_ret (with_result s (set_start m (Some v)))
  | x09 => v <=+ a_sized (a_vec V_Elem a_elem) ;; a_ret (with_result s (set_elem m v))
  | x0a =>
    funcs <=+ a_sized (a_unwrapping_vec V_Func (a_sized a_func) (fun f => f)) ;;
    let n := List.length (ps_func_types s) in
    if negb (Nat.eqb (List.length funcs) n) then a_fail UnexpectedEndOfFile
    else
      match assign_types n funcs (ps_func_types s) with
      | Ok fs => a_ret (with_result s (set_funcs m fs))
      | _ => a_run panic
      end
  | x0b => v <=+ a_sized (a_vec V_Data a_data) ;; a_ret (with_result s (set_data m v))
  | _ => a_fail (InvalidSectionId id)
  end.
(** binary/module.rs:30-68 *)
Fixpoint a_sections (fuel : nat) (s : pstate) : ap pstate := fun bs =>
  match fuel with
  | O => ((OutOfFuel, bs), [])
  | S f =>
    match bs with
    | [] => ((Ok s, []), [])
    | _ =>
      (id <=+ a_run p_byte ;;
       if negb (byte_is id 0x00) && (Byte.to_N id <=? ps_last_id s)
       then a_fail (UnexpectedSectionId id)
       else
         let s1 := if byte_is id 0x00 then s
                   else mkPstate (ps_result s) (ps_func_types s) (Byte.to_N id) in
         s2 <=+ a_section id s1 ;;
         a_sections f s2) bs
    end
  end.
(** binary/module.rs:13-72 *)
Definition a_module : ap module :=
  magic <=+ a_run (p_array 4 p_byte) ;;
  if negb (bytes_are magic [0x00; 0x61; 0x73; 0x6D]) then a_fail InvalidPreambleMagic
  else
    version <=+ a_run (p_array 4 p_byte) ;;
    if negb (bytes_are version [1; 0; 0; 0]) then a_fail InvalidPreambleVersion
    else fun bs =>
      (s <=+ a_sections (S (List.length bs)) (mkPstate default_module [] 0) ;;
       a_ret (ps_result s)) bs.

(** What the parser asks for, in order *)
Definition requests (bs : list byte) : list event := snd (a_module bs).

(** [allows] says which requests the host satisfies: [Vec] panics when the bytes of a vector exceed
    [isize::MAX], and the process is aborted when the allocator has no such block, and when the call stack overflows (all are
    [Panic] here).
    After a request that is not satisfied nothing more is asked for. *)
Definition parse_within (allows : event -> bool) (bs : list byte) : outcome module :=
  if forallb allows (requests bs) then fst (fst (a_module bs)) else Panic.
