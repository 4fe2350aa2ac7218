(** Validation of module components and modules.
    Models whasm/src/validation/context.rs:17-99 and module.rs. *)
From Verif Require Export Validator.
Open Scope N_scope.

(** ** Building a context: context.rs:17-99 *)

(** [ctx.field.push(x)] *)
Definition push_type c x := mkContext (c_types c ++ [x]) (c_funcs c) (c_tables c) (c_mems c) (c_globals c) (c_locals c) (c_ret c).
Definition push_func c x := mkContext (c_types c) (c_funcs c ++ [x]) (c_tables c) (c_mems c) (c_globals c) (c_locals c) (c_ret c).
Definition push_table c x := mkContext (c_types c) (c_funcs c) (c_tables c ++ [x]) (c_mems c) (c_globals c) (c_locals c) (c_ret c).
Definition push_mem c x := mkContext (c_types c) (c_funcs c) (c_tables c) (c_mems c ++ [x]) (c_globals c) (c_locals c) (c_ret c).
Definition push_global c x := mkContext (c_types c) (c_funcs c) (c_tables c) (c_mems c) (c_globals c ++ [x]) (c_locals c) (c_ret c).
(** [ctx.locals = v], [ctx.ret = v] *)
Definition set_locals c v := mkContext (c_types c) (c_funcs c) (c_tables c) (c_mems c) (c_globals c) v (c_ret c).
Definition set_ret c v := mkContext (c_types c) (c_funcs c) (c_tables c) (c_mems c) (c_globals c) (c_locals c) v.

(** context.rs:18-22 *)
Definition use_types (types : list functy) (c : context) : context :=
  fold_left push_type types c.

(** context.rs:24-32 *)
Fixpoint use_imported_funcs (imports : list import) (c : context) : vres context :=
  match imports with
  | [] => VOk c
  | im :: ims =>
    match im_desc im with
    | ID_Func idx => t <-- v_typeidx c idx ;; use_imported_funcs ims (push_func c t)
    | _ => use_imported_funcs ims c
    end
  end.

(** context.rs:34-40 *)
Definition use_imported_tables (imports : list import) (c : context) : context :=
  fold_left (fun c im => match im_desc im with ID_Table t => push_table c t | _ => c end) imports c.

(** context.rs:42-48 *)
Definition use_imported_mems (imports : list import) (c : context) : context :=
  fold_left (fun c im => match im_desc im with ID_Mem t => push_mem c t | _ => c end) imports c.

(** context.rs:50-56 *)
Definition use_imported_globals (imports : list import) (c : context) : context :=
  fold_left (fun c im => match im_desc im with ID_Global t => push_global c t | _ => c end) imports c.

(** context.rs:58-64 *)
Fixpoint use_funcs (funcs : list func) (c : context) : vres context :=
  match funcs with
  | [] => VOk c
  | f :: fs => t <-- v_typeidx c (fn_ty f) ;; use_funcs fs (push_func c t)
  end.

(** context.rs:66-70 *)
Definition use_tables (tables : list table) (c : context) : context :=
  fold_left (fun c t => push_table c (tab_ty t)) tables c.

(** context.rs:72-76 *)
Definition use_mems (mems : list mem) (c : context) : context :=
  fold_left (fun c m => push_mem c (mem_ty m)) mems c.

(** context.rs:78-82 *)
Definition use_globals (globals : list global) (c : context) : context :=
  fold_left (fun c g => push_global c (glob_ty g)) globals c.

(** context.rs:84-98 *)
Definition context_from (m : module) : vres context :=
  let c := use_types (m_types m) default_context in
  c <-- use_imported_funcs (m_imports m) c ;;
  let c := use_imported_tables (m_imports m) c in
  let c := use_imported_mems (m_imports m) c in
  let c := use_imported_globals (m_imports m) c in
  c <-- use_funcs (m_funcs m) c ;;
  let c := use_tables (m_tables m) c in
  let c := use_mems (m_mems m) c in
  let c := use_globals (m_globals m) c in
  VOk c.

(** ** Module components: module.rs.
    [&mut Context] is the pair of the context and its stacks. *)
Definition vctx : Type := context * stacks.

(** [!frames.is_empty() || !operands.is_empty()], module.rs:106, 141, 161, 181 *)
Definition stacks_not_empty (s : stacks) : bool :=
  match frames s, operands s with [], [] => false | _, _ => true end.

(** module.rs:95-114 *)
Definition v_func (f : func) (cs : vctx) : vres (functy * vctx) :=
  let '(c, s) := cs in
  t <-- v_typeidx c (fn_ty f) ;;
  let r := ft_results t in
  let c := set_ret c (Some r) in
  let c := set_locals c (ft_params t ++ fn_locals f) in
  let s := push_frame r r s in
  s <-- v_expr c (fn_body f) s ;;
  rs <-- pop_frame s ;;
  let s := snd rs in
  if stacks_not_empty s then VErr
  else
    let c := set_locals c [] in
    let c := set_ret c None in
    VOk (t, (c, s)).

(** module.rs:116-122 *)
Definition v_table (t : table) (cs : vctx) : vres (tablety * vctx) :=
  _ <-- v_tablety (tab_ty t) ;; VOk (tab_ty t, cs).

(** module.rs:124-130 *)
Definition v_mem (m : mem) (cs : vctx) : vres (memty * vctx) :=
  _ <-- v_memty (mem_ty m) ;; VOk (mem_ty m, cs).

(** A constant expression checked against result types [r]: the common lines of module.rs:138-143,
    157-163 and 177-183. *)
Definition v_const_body (r : list valty) (e : constexpr) (cs : vctx) : vres vctx :=
  let '(c, s) := cs in
  let s := push_frame r r s in
  s <-- v_constexpr c e s ;;
  rs <-- pop_frame s ;;
  let s := snd rs in
  if stacks_not_empty s then VErr else VOk (c, s).

(** module.rs:132-147 *)
Definition v_global (g : global) (cs : vctx) : vres (globalty * vctx) :=
  _ <-- v_globalty (glob_ty g) ;;
  cs <-- v_const_body [gt_val (glob_ty g)] (glob_init g) cs ;;
  VOk (glob_ty g, cs).

(** module.rs:165-167 *)
Fixpoint v_elem_init (c : context) (init : list funcidx) : vres unit :=
  match init with
  | [] => VOk tt
  | i :: is => _ <-- v_funcidx c i ;; v_elem_init c is
  end.
(** module.rs:149-170 *)
Definition v_elem (e : elem) (cs : vctx) : vres (unit * vctx) :=
  t <-- v_tableidx (fst cs) (el_table e) ;;
  if negb (elemty_eqb (tt_elem t) FuncRef) then VErr
  else
    cs <-- v_const_body [T_I32] (el_offset e) cs ;;
    _ <-- v_elem_init (fst cs) (el_init e) ;;
    VOk (tt, cs).

(** module.rs:172-187 *)
Definition v_data (d : data) (cs : vctx) : vres (unit * vctx) :=
  _ <-- v_memidx (fst cs) (da_mem d) ;;
  cs <-- v_const_body [T_I32] (da_offset d) cs ;;
  VOk (tt, cs).

(** module.rs:189-198 *)
Definition v_start (st : start) (cs : vctx) : vres (unit * vctx) :=
  t <-- v_funcidx (fst cs) (st_func st) ;;
  if negb (valtys_eqb (ft_params t) []) || negb (valtys_eqb (ft_results t) []) then VErr
  else VOk (tt, cs).

(** module.rs:13-18 *)
Inductive external :=
| X_Func (t : functy) | X_Table (t : tablety) | X_Mem (t : memty) | X_Global (t : globalty).
(** module.rs:8-11 *)
Record module_types := mkModuleTypes { mt_imports : list external; mt_exports : list external }.

(** module.rs:200-222 and 248-253 *)
Definition v_import (im : import) (cs : vctx) : vres (external * vctx) :=
  match im_desc im with
  | ID_Func idx => t <-- v_typeidx (fst cs) idx ;; VOk (X_Func t, cs)
  | ID_Table t => _ <-- v_tablety t ;; VOk (X_Table t, cs)
  | ID_Mem t => _ <-- v_memty t ;; VOk (X_Mem t, cs)
  | ID_Global t => _ <-- v_globalty t ;; VOk (X_Global t, cs)
  end.

(** module.rs:224-246 and 255-260 *)
Definition v_export (ex : export) (cs : vctx) : vres (external * vctx) :=
  match ex_desc ex with
  | ED_Func idx => t <-- v_funcidx (fst cs) idx ;; VOk (X_Func t, cs)
  | ED_Table idx => t <-- v_tableidx (fst cs) idx ;; VOk (X_Table t, cs)
  | ED_Mem idx => t <-- v_memidx (fst cs) idx ;; VOk (X_Mem t, cs)
  | ED_Global idx => t <-- v_globalidx (fst cs) idx ;; VOk (X_Global t, cs)
  end.

(** The loops of module.rs:36-69: validate each item in turn, keep the results in order. *)
Fixpoint v_each {A B} (v : A -> vctx -> vres (B * vctx)) (xs : list A) (cs : vctx)
    : vres (list B * vctx) :=
  match xs with
  | [] => VOk ([], cs)
  | x :: xs' =>
    r <-- v x cs ;;
    rs <-- v_each v xs' (snd r) ;;
    VOk (fst r :: fst rs, snd rs)
  end.

(** module.rs:36-38 *)
Definition v_type_item (t : functy) (cs : vctx) : vres (unit * vctx) :=
  _ <-- v_functy t ;; VOk (tt, cs).

(** Order on [&String]: lexicographic on bytes *)
Fixpoint name_leb (a b : name) : bool :=
  match a, b with
  | [], _ => true
  | _ :: _, [] => false
  | x :: a', y :: b' =>
    if Byte.to_N x <? Byte.to_N y then true
    else if Byte.to_N x =? Byte.to_N y then name_leb a' b'
    else false
  end.
Fixpoint name_eqb (a b : name) : bool :=
  match a, b with
  | [], [] => true
  | x :: a', y :: b' => (Byte.to_N x =? Byte.to_N y) && name_eqb a' b'
  | _, _ => false
  end.
(** [Vec::sort] (Rust standard library, a stable sort), as insertion sort *)
Fixpoint insert_name (x : name) (l : list name) : list name :=
  match l with
  | [] => [x]
  | y :: l' => if name_leb x y then x :: l else y :: insert_name x l'
  end.
Fixpoint sort_names (l : list name) : list name :=
  match l with
  | [] => []
  | x :: l' => insert_name x (sort_names l')
  end.
(** [Vec::dedup] (Rust standard library): drops every element equal to its predecessor. *)
Fixpoint dedup_after (prev : name) (l : list name) : list name :=
  match l with
  | [] => []
  | y :: l' => if name_eqb prev y then dedup_after prev l' else y :: dedup_after y l'
  end.
Definition dedup (l : list name) : list name :=
  match l with
  | [] => []
  | x :: l' => x :: dedup_after x l'
  end.

(** module.rs:78-86 *)
Definition export_names_distinct (exports : list export) : bool :=
  Nat.eqb (length (dedup (sort_names (map ex_name exports)))) (length exports).

(** module.rs:29-93 *)
Definition v_module (m : module) : vres module_types :=
  c <-- context_from m ;;
  let cs : vctx := (c, empty_stacks) in
  let csg : vctx := (use_globals (m_globals m) default_context, empty_stacks) in
  r <-- v_each v_type_item (m_types m) cs ;; let cs := snd r in
  r <-- v_each v_func (m_funcs m) cs ;; let cs := snd r in
  r <-- v_each v_table (m_tables m) cs ;; let cs := snd r in
  r <-- v_each v_mem (m_mems m) cs ;; let cs := snd r in
  r <-- v_each v_global (m_globals m) csg ;;
  r <-- v_each v_elem (m_elem m) cs ;; let cs := snd r in
  r <-- v_each v_data (m_data m) cs ;; let cs := snd r in
  cs <-- match m_start m with
         | Some st => r <-- v_start st cs ;; VOk (snd r)
         | None => VOk cs
         end ;;
  ims <-- v_each v_import (m_imports m) cs ;; let cs := snd ims in
  exs <-- v_each v_export (m_exports m) cs ;;
  if negb (Nat.leb (length (m_tables m)) 1) then VErr
  else if negb (Nat.leb (length (m_mems m)) 1) then VErr
  else if negb (export_names_distinct (m_exports m)) then VErr
  else VOk (mkModuleTypes (fst ims) (fst exs)).

(** module.rs:21-27, the public entry point *)
Definition validate (m : module) : vres module_types := v_module m.
