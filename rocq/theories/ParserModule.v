(** Parsers of module components and of modules.  Models whasm/src/binary/module.rs. *)
From Coq Require Import String.
From Verif Require Export ParserInstr.
Open Scope N_scope.

(** binary/module.rs:74-85 *)
Definition p_func : parser func :=
  locals <- p_compact_vec p_valty ;;
  body <- p_expr ;;
  ret {| fn_ty := 0; fn_locals := locals; fn_body := body |}.

(** binary/module.rs:87-93 *)
Definition p_table : parser table := t <- p_tablety ;; ret {| tab_ty := t |}.

(** binary/module.rs:95-101 *)
Definition p_mem : parser mem := t <- p_memty ;; ret {| mem_ty := t |}.

(** binary/module.rs:103-110 *)
Definition p_global : parser global :=
  t <- p_globalty ;; i <- p_constexpr ;; ret {| glob_ty := t; glob_init := i |}.

(** binary/module.rs:112-120 *)
Definition p_elem : parser elem :=
  t <- p_tableidx ;; o <- p_constexpr ;; i <- p_vec p_funcidx ;;
  ret {| el_table := t; el_offset := o; el_init := i |}.

(** binary/module.rs:122-130 *)
Definition p_data : parser data :=
  m <- p_memidx ;; o <- p_constexpr ;; i <- p_unwrapping_vec p_byte (fun b => b) ;;
  ret {| da_mem := m; da_offset := o; da_init := i |}.

(** binary/module.rs:132-138 *)
Definition p_start : parser start := f <- p_funcidx ;; ret {| st_func := f |}.

(** binary/module.rs:140-151 *)
Definition p_importdesc : parser importdesc :=
  b <- p_byte ;;
  match b with
  | x00 => t <- p_typeidx ;; ret (ID_Func t)
  | x01 => t <- p_tablety ;; ret (ID_Table t)
  | x02 => t <- p_memty ;; ret (ID_Mem t)
  | x03 => t <- p_globalty ;; ret (ID_Global t)
  | id => fail (InvalidVariantId id "module::desc::Import")
  end.

(** binary/module.rs:153-164 *)
Definition p_exportdesc : parser exportdesc :=
  b <- p_byte ;;
  match b with
  | x00 => i <- p_funcidx ;; ret (ED_Func i)
  | x01 => i <- p_tableidx ;; ret (ED_Table i)
  | x02 => i <- p_memidx ;; ret (ED_Mem i)
  | x03 => i <- p_globalidx ;; ret (ED_Global i)
  | id => fail (InvalidVariantId id "module::desc::Export")
  end.

(** binary/module.rs:166-174 *)
Definition p_import : parser import :=
  m <- p_string ;; n <- p_string ;; d <- p_importdesc ;;
  ret {| im_module := m; im_name := n; im_desc := d |}.

(** binary/module.rs:176-183 *)
Definition p_export : parser export :=
  n <- p_string ;; d <- p_exportdesc ;; ret {| ex_name := n; ex_desc := d |}.

(** binary/module.rs:7-11, the payload of a custom section *)
Definition p_custom : parser (name * N) := n <- p_string ;; c <- p_consume ;; ret (n, c).

(** Assignments to the fields of [result] *)
Definition set_types m v := mkModule v (m_funcs m) (m_tables m) (m_mems m) (m_globals m) (m_elem m) (m_data m) (m_start m) (m_imports m) (m_exports m).
Definition set_funcs m v := mkModule (m_types m) v (m_tables m) (m_mems m) (m_globals m) (m_elem m) (m_data m) (m_start m) (m_imports m) (m_exports m).
Definition set_tables m v := mkModule (m_types m) (m_funcs m) v (m_mems m) (m_globals m) (m_elem m) (m_data m) (m_start m) (m_imports m) (m_exports m).
Definition set_mems m v := mkModule (m_types m) (m_funcs m) (m_tables m) v (m_globals m) (m_elem m) (m_data m) (m_start m) (m_imports m) (m_exports m).
Definition set_globals m v := mkModule (m_types m) (m_funcs m) (m_tables m) (m_mems m) v (m_elem m) (m_data m) (m_start m) (m_imports m) (m_exports m).
Definition set_elem m v := mkModule (m_types m) (m_funcs m) (m_tables m) (m_mems m) (m_globals m) v (m_data m) (m_start m) (m_imports m) (m_exports m).
Definition set_data m v := mkModule (m_types m) (m_funcs m) (m_tables m) (m_mems m) (m_globals m) (m_elem m) v (m_start m) (m_imports m) (m_exports m).
Definition set_start m v := mkModule (m_types m) (m_funcs m) (m_tables m) (m_mems m) (m_globals m) (m_elem m) (m_data m) v (m_imports m) (m_exports m).
Definition set_imports m v := mkModule (m_types m) (m_funcs m) (m_tables m) (m_mems m) (m_globals m) (m_elem m) (m_data m) (m_start m) v (m_exports m).
Definition set_exports m v := mkModule (m_types m) (m_funcs m) (m_tables m) (m_mems m) (m_globals m) (m_elem m) (m_data m) (m_start m) (m_imports m) v.

(** binary/module.rs:61-63: [for i in 0..n { funcs[i].ty = func_types[i] }]; the index [i] runs over
    both vectors, and indexing past the end of either would panic. *)
Definition set_fn_ty (f : func) (t : typeidx) : func := mkFunc t (fn_locals f) (fn_body f).
Fixpoint assign_types (n : nat) (funcs : list func) (func_types : list typeidx)
    : outcome (list func) :=
  match n with
  | O => Ok funcs
  | S n' =>
    match funcs, func_types with
    | f :: fs, t :: ts =>
      match assign_types n' fs ts with
      | Ok r => Ok (set_fn_ty f t :: r)
      | o => o
      end
    | _, _ => Panic
    end
  end.

(** The local variables of [Module::parse], binary/module.rs:24-28 *)
Record pstate := mkPstate {
  ps_result : module;
  ps_func_types : list typeidx;
  ps_last_id : N;
}.
Definition with_result (s : pstate) (m : module) : pstate :=
  mkPstate m (ps_func_types s) (ps_last_id s).

(** binary/module.rs:42-67, the body of one section with identifier [id] *)
Definition p_section (id : byte) (s : pstate) : parser pstate :=
  let m := ps_result s in
  match id with
  | x00 => _ <- p_sized p_custom ;; ret s
  | x01 => v <- p_sized (p_vec p_functy) ;; ret (with_result s (set_types m v))
  | x02 => v <- p_sized (p_vec p_import) ;; ret (with_result s (set_imports m v))
  | x03 => v <- p_sized (p_vec p_typeidx) ;; ret (mkPstate m v (ps_last_id s))
  | x04 => v <- p_sized (p_vec p_table) ;; ret (with_result s (set_tables m v))
  | x05 => v <- p_sized (p_vec p_mem) ;; ret (with_result s (set_mems m v))
  | x06 => v <- p_sized (p_vec p_global) ;; ret (with_result s (set_globals m v))
  | x07 => v <- p_sized (p_vec p_export) ;; ret (with_result s (set_exports m v))
  | x08 => v <- p_sized p_start ;; ret (with_result s (set_start m (Some v)))
  | x09 => v <- p_sized (p_vec p_elem) ;; ret (with_result s (set_elem m v))
  | x0a =>
    funcs <- p_sized (p_unwrapping_vec (p_sized p_func) (fun f => f)) ;;
    let n := List.length (ps_func_types s) in
    if negb (Nat.eqb (List.length funcs) n) then fail UnexpectedEndOfFile
    else
      match assign_types n funcs (ps_func_types s) with
      | Ok fs => ret (with_result s (set_funcs m fs))
      | _ => panic
      end
  | x0b => v <- p_sized (p_vec p_data) ;; ret (with_result s (set_data m v))
  | _ => fail (InvalidSectionId id)
  end.

(** binary/module.rs:30-68, the [while] loop; each round reads at least one byte, so
    [S (length bs)] rounds are enough fuel. *)
Fixpoint p_sections (fuel : nat) (s : pstate) : parser pstate := fun bs =>
  match fuel with
  | O => (OutOfFuel, bs)
  | S f =>
    match bs with
    | [] => (Ok s, [])                                    (* [bin.peek()] is [None] *)
    | _ =>
      (id <- p_byte ;;
       if negb (byte_is id 0x00) && (Byte.to_N id <=? ps_last_id s)
       then fail (UnexpectedSectionId id)
       else
         let s1 := if byte_is id 0x00 then s
                   else mkPstate (ps_result s) (ps_func_types s) (Byte.to_N id) in
         s2 <- p_section id s1 ;;
         p_sections f s2) bs
    end
  end.

(** binary/module.rs:13-72 *)
Definition p_module : parser module :=
  magic <- p_array 4 p_byte ;;
  if negb (bytes_are magic [0x00; 0x61; 0x73; 0x6D]) then fail InvalidPreambleMagic
  else
    version <- p_array 4 p_byte ;;
    if negb (bytes_are version [1; 0; 0; 0]) then fail InvalidPreambleVersion
    else fun bs =>
      (s <- p_sections (S (List.length bs)) (mkPstate default_module [] 0) ;;
       ret (ps_result s)) bs.
