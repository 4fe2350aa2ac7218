(** Linking a module statically to another one that exports what it imports. *)
From Verif Require Export SpecLink.
Open Scope N_scope.

(** what a module exports under a name *)
Fixpoint exported (n : name) (es : list export) : option exportdesc :=
  match es with
  | [] => None
  | e :: es => if list_eq_dec Byte.byte_eq_dec (ex_name e) n then Some (ex_desc e) else exported n es
  end.

(** [supplies lib d m i]: what [lib] exports as [d] is of the type that [m] asks for with [i]. *)
Definition supplies (lib : module) (d : exportdesc) (m : module) (i : importdesc) : Prop :=
  match d, i with
  | ED_Func y, ID_Func t => exists t' ft, at_index (func_index lib) y t' /\ at_index (m_types lib) t' ft /\ at_index (m_types m) t ft
  | ED_Table y, ID_Table t => at_index (table_space lib) y t
  | ED_Mem y, ID_Mem t => at_index (mem_space lib) y t
  | ED_Global y, ID_Global t => at_index (global_space lib) y t
  | _, _ => False
  end.
(** Every import of [m] is supplied by the export of [lib] that has its name. *)
Definition supplied (lib m : module) : Prop :=
  forall i, In i (m_imports m) -> exists d, exported (im_name i) (m_exports lib) = Some d /\ supplies lib d m (im_desc i).

(** The new index of [x]: for one of the imports, whose names are [names], what [lib] exports under the name;
    for a definition, its place behind the [n] things that [lib] has. *)
Definition relocated (lib : module) (index : exportdesc -> N) (names : list name) (n : nat) (x : N) : N :=
  match nth_error names (N.to_nat x) with
  | Some a => match exported a (m_exports lib) with Some d => index d | None => 0 end
  | None => x - N.of_nat (length names) + N.of_nat n
  end.
Definition index_of (d : exportdesc) : N := match d with ED_Func x | ED_Table x | ED_Mem x | ED_Global x => x end.
Definition names_of (kind : importdesc -> bool) (m : module) : list name := map im_name (filter (fun i => kind (im_desc i)) (m_imports m)).
Definition of_func (d : importdesc) : bool := match d with ID_Func _ => true | _ => false end.
Definition of_table (d : importdesc) : bool := match d with ID_Table _ => true | _ => false end.
Definition of_mem (d : importdesc) : bool := match d with ID_Mem _ => true | _ => false end.
Definition of_global (d : importdesc) : bool := match d with ID_Global _ => true | _ => false end.
Definition linking (lib m : module) : renumbering :=
  mkRenumbering (fun x => x + N.of_nat (length (m_types lib)))
    (relocated lib index_of (names_of of_func m) (length (func_index lib)))
    (relocated lib index_of (names_of of_table m) (length (table_space lib)))
    (relocated lib index_of (names_of of_mem m) (length (mem_space lib)))
    (relocated lib index_of (names_of of_global m) (length (global_space lib)))
    (fun x => x + N.of_nat (length (m_globals lib))).

(** The linked module: everything of [lib], then everything of [m] except the imports.  It starts as [m] does, if it does. *)
Definition linked (lib m : module) : module :=
  let r := linking lib m in
  mkModule (m_types lib ++ m_types m) (m_funcs lib ++ map (renumber_func r) (m_funcs m)) (m_tables lib ++ m_tables m)
    (m_mems lib ++ m_mems m) (m_globals lib ++ map (renumber_global r) (m_globals m))
    (m_elem lib ++ map (renumber_elem r) (m_elem m)) (m_data lib ++ map (renumber_data r) (m_data m))
    (match m_start m with Some s => Some (renumber_start r s) | None => m_start lib end)
    (m_imports lib) (m_exports lib ++ map (renumber_export r) (m_exports m)).
