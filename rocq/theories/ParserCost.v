(** The time that parsing takes.  Models the functions of [ParserCore], [ParserInstr] and [ParserModule] once more, with the
    number of steps: a call of [next] on the iterator or on an adapter around it, a round of a loop, an element pushed, a byte
    looked at in a string.  Each takes a bounded time (pushing on the average, since vectors double). *)
From Coq Require Import String.
From Verif Require Export ParserModule.
Open Scope list_scope.
Open Scope N_scope.

(** [calls]: of [next] on the iterator that the parser was given.  [steps]: all, these included, without [copies]: of the
    types of local variables, which a file may announce by their number. *)
Record cost := mkCost { calls : N; steps_taken : N; copies : N }.
Definition no_cost : cost := mkCost 0 0 0.
Definition cost_add (x y : cost) : cost := mkCost (calls x + calls y) (steps_taken x + steps_taken y) (copies x + copies y).

(** A parser, and what it has cost *)
Definition lp (A : Type) : Type := list byte -> (outcome A * list byte) * cost.
(** Parsers without vectors: they call [next] once for every byte that they take, and once more if there is none *)
Definition pulls {A} (bs : list byte) (x : outcome A * list byte) : N :=
  N.of_nat (List.length bs - List.length (snd x)) + match fst x with Err UnexpectedEndOfFile => 1 | _ => 0 end.
Definition l_run {A} (p : parser A) : lp A := fun bs => let x := p bs in (x, mkCost (pulls bs x) (pulls bs x) 0).
Definition l_ret {A} (a : A) : lp A := fun bs => ((Ok a, bs), no_cost).
Definition l_fail {A} (e : perror) : lp A := fun bs => ((Err e, bs), no_cost).
Definition l_out_of_fuel {A} : lp A := fun bs => ((OutOfFuel, bs), no_cost).
Definition l_panic {A} : lp A := fun bs => ((Panic, bs), no_cost).
Definition l_steps (n : N) : lp unit := fun bs => ((Ok tt, bs), mkCost 0 n 0).
Definition l_copies (n : N) : lp unit := fun bs => ((Ok tt, bs), mkCost 0 0 n).
Definition l_bind {A B} (p : lp A) (f : A -> lp B) : lp B := fun bs =>
  match p bs with
  | ((Ok a, r), k) => let x := f a r in (fst x, cost_add k (snd x))
  | ((Err e, r), k) => ((Err e, r), k)
  | ((Panic, r), k) => ((Panic, r), k)
  | ((OutOfFuel, r), k) => ((OutOfFuel, r), k)
  end.
Notation "x <=. p ;; q" := (l_bind p (fun x => q)) (at level 61, p at next level, right associativity).

(** binary/core/vec.rs:59-61 and 91-93: a round, an element, a push *)
Fixpoint l_times {A} (n : nat) (p : lp A) : lp (list A) :=
  match n with
  | O => l_ret []
  | S n' => _ <=. l_steps 1 ;; x <=. p ;; _ <=. l_steps 1 ;; xs <=. l_times n' p ;; l_ret (x :: xs)
  end.
(** binary/core/vec.rs:55-64; reserving memory does not touch it *)
Definition l_vec {A} (p : lp A) : lp (list A) := n <=. l_run p_u32 ;; l_times (N.to_nat n) p.
(** binary/core/vec.rs:86-96 *)
Definition l_unwrapping_vec {A B} (p : lp A) (u : A -> B) : lp (list B) :=
  n <=. l_run p_u32 ;; l_times (N.to_nat n) (x <=. p ;; l_ret (u x)).
(** binary/core/vec.rs:66-80; lines 74-76 push [n] elements *)
Fixpoint l_runs {A} (j : nat) (p : lp A) (result : list A) : lp (list A) :=
  match j with
  | O => l_ret result
  | S j' =>
    _ <=. l_steps 1 ;;
    n <=. l_run p_u32 ;;
    val <=. p ;;
    _ <=. l_copies n ;;
    l_runs j' p (result ++ repeat val (N.to_nat n))
  end.
Definition l_compact_vec {A} (p : lp A) : lp (list A) := j <=. l_run p_u32 ;; l_runs (N.to_nat j) p [].
(** binary/core/sized.rs:46-60: a call on [Inspect] is one on [Take], which passes the first [size] of them on *)
Definition l_sized {A} (p : lp A) : lp A :=
  size <=. l_run p_u32 ;;
  fun bs =>
    let window := firstn (N.to_nat size) bs in
    let after := skipn (N.to_nat size) bs in
    let x := p window in
    let inner := snd x in
    let k := mkCost (N.min (calls inner) size) (steps_taken inner + calls inner * 2) (copies inner) in
    match fst x with
    | (Ok result, r) =>
      let count := N.of_nat (List.length window - List.length r) in
      if negb (size =? count) then ((Err SizeMissmatch, r ++ after), k)
      else ((Ok result, r ++ after), k)
    | (o, r) => ((o, r ++ after), k)
    end.
(** binary/core/sized.rs:84-89: [count] calls [next] until there is no more *)
Definition l_consume : lp N := fun bs =>
  let n := N.of_nat (List.length bs) in ((Ok n, []), mkCost (n + 1) (n + 1) 0).
(** binary/core/string.rs:18-23; the check of the encoding looks at each byte *)
Definition l_string : lp name :=
  raw <=. l_unwrapping_vec (l_run p_byte) (fun b => b) ;;
  _ <=. l_steps (N.of_nat (List.length raw)) ;;
  if utf8_valid raw then l_ret raw else l_fail InvalidUtf8Encoding.

(** binary/ty.rs:46-58; line 54 makes a vector of one element *)
Definition l_retval : lp retval :=
  r <=. l_run p_retval ;; _ <=. l_steps (N.of_nat (List.length r)) ;; l_ret r.
(** binary/ty.rs:60-71 *)
Definition l_functy : lp functy :=
  b <=. l_run p_byte ;;
  match b with
  | x60 =>
    ps <=. l_vec (l_run p_valty) ;; rs <=. l_vec (l_run p_valty) ;;
    l_ret {| ft_params := ps; ft_results := rs |}
  | id => l_fail (InvalidVariantId id "ty::Func")
  end.

(** binary/instr.rs:6-14, 243-274 *)
Definition l_expr_of (sub : lp (list instr * instr)) : lp (list instr) :=
  se <=. sub ;;
  match se with
  | (e, I_End) => l_ret e
  | (_, I_Else) => l_fail (UnexpectedOpcode "Else")
  | (_, _) => l_fail (UnexpectedOpcode "Unknown")
  end.
Definition l_if_of (sub : lp (list instr * instr)) : lp instr :=
  ret_val <=. l_retval ;;
  bn <=. sub ;;
  let '(branch_1, next) := bn in
  b2n <=. (if is_else next then sub else l_ret ([], next)) ;;
  let '(branch_2, next) := b2n in
  if is_end next then l_ret (I_If ret_val branch_1 branch_2)
  else l_fail (UnexpectedOpcode "Unknown").
(** binary/instr.rs:26-221; the other arms are those of [p_opcode], which do not use its first argument *)
Definition l_opcode (sub : lp (list instr * instr)) (b : byte) : lp instr :=
  match b with
  | x02 => a <=. l_retval ;; b <=. l_expr_of sub ;; l_ret (I_Block a b)
  | x03 => a <=. l_retval ;; b <=. l_expr_of sub ;; l_ret (I_Loop a b)
  | x04 => l_if_of sub
  | x0e => a <=. l_vec (l_run p_labelidx) ;; b <=. l_run p_labelidx ;; l_ret (I_BrTable a b)
  | _ => l_run (p_opcode out_of_fuel b)
  end.
(** binary/instr.rs:23-223 and 225-241: a round, an instruction, a push (line 236) *)
Fixpoint l_instr (fuel : nat) : lp instr :=
  match fuel with
  | O => l_out_of_fuel
  | S f => b <=. l_run p_byte ;; l_opcode (l_subexpr f []) b
  end
with l_subexpr (fuel : nat) (expr : list instr) : lp (list instr * instr) :=
  match fuel with
  | O => l_out_of_fuel
  | S f =>
    _ <=. l_steps 1 ;;
    next <=. l_instr f ;;
    match next with
    | I_End => l_ret (expr, next)
    | I_Else => l_ret (expr, next)
    | _ => _ <=. l_steps 1 ;; l_subexpr f (expr ++ [next])
    end
  end.
Definition l_expr : lp expr := fun bs => l_expr_of (l_subexpr (fuel_for (List.length bs)) []) bs.

(** binary/module.rs:74-85, 103-138, 153-183 *)
Definition l_func : lp func :=
  locals <=. l_compact_vec (l_run p_valty) ;;
  body <=. l_expr ;;
  l_ret {| fn_ty := 0; fn_locals := locals; fn_body := body |}.
Definition l_global : lp global :=
  t <=. l_run p_globalty ;; i <=. l_expr ;; l_ret {| glob_ty := t; glob_init := i |}.
Definition l_elem : lp elem :=
  t <=. l_run p_tableidx ;; o <=. l_expr ;; i <=. l_vec (l_run p_funcidx) ;;
  l_ret {| el_table := t; el_offset := o; el_init := i |}.
Definition l_data : lp data :=
  m <=. l_run p_memidx ;; o <=. l_expr ;; i <=. l_unwrapping_vec (l_run p_byte) (fun b => b) ;;
  l_ret {| da_mem := m; da_offset := o; da_init := i |}.
Definition l_import : lp import :=
  m <=. l_string ;; n <=. l_string ;; d <=. l_run p_importdesc ;;
  l_ret {| im_module := m; im_name := n; im_desc := d |}.
Definition l_export : lp export :=
  n <=. l_string ;; d <=. l_run p_exportdesc ;; l_ret {| ex_name := n; ex_desc := d |}.
(** binary/module.rs:7-11 *)
Definition l_custom : lp (name * N) := n <=. l_string ;; c <=. l_consume ;; l_ret (n, c).

(** binary/module.rs:42-67; the loop of lines 61-63 has one round for each function *)
Definition l_section (id : byte) (s : pstate) : lp pstate :=
  let m := ps_result s in
  match id with
  | x00 => _ <=. l_sized l_custom ;; l_ret s
  | x01 => v <=. l_sized (l_vec l_functy) ;; l_ret (with_result s (set_types m v))
  | x02 => v <=. l_sized (l_vec l_import) ;; l_ret (with_result s (set_imports m v))
  | x03 => v <=. l_sized (l_vec (l_run p_typeidx)) ;; l_ret (mkPstate m v (ps_last_id s))
  | x04 => v <=. l_sized (l_vec (l_run p_table)) ;; l_ret (with_result s (set_tables m v))
  | x05 => v <=. l_sized (l_vec (l_run p_mem)) ;; l_ret (with_result s (set_mems m v))
  | x06 => v <=. l_sized (l_vec l_global) ;; l_ret (with_result s (set_globals m v))
  | x07 => v <=. l_sized (l_vec l_export) ;; l_ret (with_result s (set_exports m v))
  | x08 => v <=. l_sized (l_run p_start) ;; l_ret (with_result s (set_start m (Some v)))
  | x09 => v <=. l_sized (l_vec l_elem) ;; l_ret (with_result s (set_elem m v))
  | x0a =>
    funcs <=. l_sized (l_unwrapping_vec (l_sized l_func) (fun f => f)) ;;
    let n := List.length (ps_func_types s) in
    if negb (Nat.eqb (List.length funcs) n) then l_fail UnexpectedEndOfFile
    else
      _ <=. l_steps (N.of_nat n) ;;
      match assign_types n funcs (ps_func_types s) with
      | Ok fs => l_ret (with_result s (set_funcs m fs))
      | _ => l_panic
      end
  | x0b => v <=. l_sized (l_vec l_data) ;; l_ret (with_result s (set_data m v))
  | _ => l_fail (InvalidSectionId id)
  end.
(** binary/module.rs:30-68: a round begins with [peek], which at the end calls [next] once more; else what it has got is the
    next byte *)
Fixpoint l_sections (fuel : nat) (s : pstate) : lp pstate := fun bs =>
  match fuel with
  | O => ((OutOfFuel, bs), no_cost)
  | S f =>
    match bs with
    | [] => ((Ok s, []), mkCost 1 2 0)
    | _ =>
      (_ <=. l_steps 1 ;;
       id <=. l_run p_byte ;;
       if negb (byte_is id 0x00) && (Byte.to_N id <=? ps_last_id s)
       then l_fail (UnexpectedSectionId id)
       else
         let s1 := if byte_is id 0x00 then s
                   else mkPstate (ps_result s) (ps_func_types s) (Byte.to_N id) in
         s2 <=. l_section id s1 ;;
         l_sections f s2) bs
    end
  end.
(** binary/module.rs:27: a call on [Peekable] is one on the iterator *)
Definition l_peekable {A} (p : lp A) : lp A := fun bs =>
  let x := p bs in (fst x, cost_add (snd x) (mkCost 0 (calls (snd x)) 0)).
(** binary/module.rs:13-72 *)
Definition l_module : lp module :=
  magic <=. l_run (p_array 4 p_byte) ;;
  if negb (bytes_are magic [0x00; 0x61; 0x73; 0x6D]) then l_fail InvalidPreambleMagic
  else
    version <=. l_run (p_array 4 p_byte) ;;
    if negb (bytes_are version [1; 0; 0; 0]) then l_fail InvalidPreambleVersion
    else fun bs =>
      (s <=. l_peekable (l_sections (S (List.length bs)) (mkPstate default_module [] 0)) ;;
       l_ret (ps_result s)) bs.
Definition parsing_cost (bs : list byte) : cost := snd (l_module bs).
