(** What the indices of a module denote, which indices a component of a module uses, and the removal of definitions. *)
From Verif Require Export SpecLink SpecVerdict.
Open Scope N_scope.

(** index [x] of the index space [s] denotes [d]: a type index a function type, a function index the type of a function *)
Definition denotes (m : module) (s : space) (x : N) (d : ext) : Prop :=
  match s, d with
  | S_Type, Ext_Func t => at_index (m_types m) x t
  | S_Func, Ext_Func t => exists y, at_index (func_index m) x y /\ at_index (m_types m) y t
  | S_Table, Ext_Table t => at_index (table_space m) x t
  | S_Mem, Ext_Mem t => at_index (mem_space m) x t
  | S_Global, Ext_Global t => at_index (global_space m) x t
  | _, _ => False
  end.
(** in the initialisers of globals the code looks up the globals that the module defines (see C36) *)
Definition denotes_init (m : module) (x : N) (t : globalty) : Prop := at_index (map glob_ty (m_globals m)) x t.

(** ** The indices that components use *)
Definition code_uses (e : expr) (s : space) (x : N) : Prop := exists j, occurs j e /\ In (s, x) (refs j).
Definition func_uses (f : func) (s : space) (x : N) : Prop := (s = S_Type /\ x = fn_ty f) \/ code_uses (fn_body f) s x.
Definition elem_uses (e : elem) (s : space) (x : N) : Prop :=
  (s = S_Table /\ x = el_table e) \/ (s = S_Func /\ In x (el_init e)) \/ code_uses (el_offset e) s x.
Definition data_uses (d : data) (s : space) (x : N) : Prop := (s = S_Mem /\ x = da_mem d) \/ code_uses (da_offset d) s x.
Definition start_uses (st : start) (s : space) (x : N) : Prop := s = S_Func /\ x = st_func st.
Definition import_uses (i : import) (s : space) (x : N) : Prop := s = S_Type /\ im_desc i = ID_Func x.
Definition export_uses (e : export) (s : space) (x : N) : Prop :=
  match ex_desc e with
  | ED_Func y => s = S_Func /\ x = y
  | ED_Table y => s = S_Table /\ x = y
  | ED_Mem y => s = S_Mem /\ x = y
  | ED_Global y => s = S_Global /\ x = y
  end.

(** the new indices denote what the old ones denote, as far as they are used *)
Definition new_index (r : renumbering) (s : space) (x : N) : N :=
  match s with
  | S_Type => rn_type r x | S_Func => rn_func r x | S_Table => rn_table r x | S_Mem => rn_mem r x | S_Global => rn_global r x
  | S_Local => x
  end.
Definition kept (r : renumbering) (m m' : module) (uses : space -> N -> Prop) : Prop :=
  forall s x d, uses s x -> denotes m s x d -> denotes m' s (new_index r s x) d.

(** Every component of [m'] is a component of an accepted module, with other indices for the same things.  The module and the
    indices can be different ones for each component. *)
Record composed (m' : module) : Prop := {
  co_types : forall t, In t (m_types m') -> exists m, accepted m /\ In t (m_types m);
  co_funcs : forall f', In f' (m_funcs m') -> exists m r f, accepted m /\ In f (m_funcs m) /\ f' = renumber_func r f /\
    kept r m m' (func_uses f);
  co_tables : forall t, In t (m_tables m') -> exists m, accepted m /\ In t (m_tables m);
  co_mems : forall t, In t (m_mems m') -> exists m, accepted m /\ In t (m_mems m);
  co_globals : forall g', In g' (m_globals m') -> exists m r g, accepted m /\ In g (m_globals m) /\ g' = renumber_global r g /\
    forall x t, occurs (I_GlobalGet x) (glob_init g) -> denotes_init m x t -> denotes_init m' (rn_init r x) t;
  co_elem : forall e', In e' (m_elem m') -> exists m r e, accepted m /\ In e (m_elem m) /\ e' = renumber_elem r e /\
    kept r m m' (elem_uses e);
  co_data : forall d', In d' (m_data m') -> exists m r d, accepted m /\ In d (m_data m) /\ d' = renumber_data r d /\
    kept r m m' (data_uses d);
  co_start : forall s', m_start m' = Some s' -> exists m r s, accepted m /\ m_start m = Some s /\ s' = renumber_start r s /\
    kept r m m' (start_uses s);
  co_imports : forall i', In i' (m_imports m') -> exists m r i, accepted m /\ In i (m_imports m) /\
    im_desc i' = renumber_importdesc r (im_desc i) /\ kept r m m' (import_uses i);
  co_exports : forall e', In e' (m_exports m') -> exists m r e, accepted m /\ In e (m_exports m) /\
    ex_desc e' = renumber_exportdesc r (ex_desc e) /\ kept r m m' (export_uses e);
}.

(** ** Removing definitions.  [k s x]: what has index [x] in [s] stays. *)
(** the elements of [l], the first of which has index [n], that stay *)
Fixpoint pick {A} (k : N -> bool) (n : N) (l : list A) : list A :=
  match l with
  | [] => []
  | x :: l' => if k n then x :: pick k (n + 1) l' else pick k (n + 1) l'
  end.
(** how many of the indices below [x] stay: the new index of [x] *)
Fixpoint staying (k : N -> bool) (x : nat) : N :=
  match x with O => 0 | S x' => staying k x' + (if k (N.of_nat x') then 1 else 0) end.
Definition count_imports (m : module) (s : space) : N :=
  N.of_nat match s with
           | S_Func => length (imported_funcs (m_imports m))
           | S_Table => length (imported_tables (m_imports m))
           | S_Mem => length (imported_mems (m_imports m))
           | S_Global => length (imported_globals (m_imports m))
           | S_Type | S_Local => O
           end.
(** imports and local variables always stay *)
Definition stays (k : space -> N -> bool) (m : module) (s : space) (x : N) : bool :=
  match s with S_Local => true | _ => ((x <? count_imports m s) || k s x)%bool end.
Definition closing_up (k : space -> N -> bool) (m : module) : renumbering :=
  let new s x := staying (stays k m s) (N.to_nat x) in
  mkRenumbering (new S_Type) (new S_Func) (new S_Table) (new S_Mem) (new S_Global)
    (fun x => new S_Global (count_imports m S_Global + x) - count_imports m S_Global).
Definition without (k : space -> N -> bool) (m : module) : module :=
  let r := closing_up k m in
  let left {A} s (l : list A) := pick (k s) (count_imports m s) l in
  mkModule (left S_Type (m_types m)) (map (renumber_func r) (left S_Func (m_funcs m))) (left S_Table (m_tables m)) (left S_Mem (m_mems m))
    (map (renumber_global r) (left S_Global (m_globals m))) (map (renumber_elem r) (m_elem m)) (map (renumber_data r) (m_data m))
    (option_map (renumber_start r) (m_start m))
    (map (fun i => mkImport (im_module i) (im_name i) (renumber_importdesc r (im_desc i))) (m_imports m))
    (map (renumber_export r) (m_exports m)).
(** what stays uses only what stays *)
Record closed (k : space -> N -> bool) (m : module) : Prop := {
  cl_funcs : forall f s x, In f (pick (k S_Func) (count_imports m S_Func) (m_funcs m)) -> func_uses f s x -> stays k m s x = true;
  cl_globals : forall g x, In g (pick (k S_Global) (count_imports m S_Global) (m_globals m)) -> occurs (I_GlobalGet x) (glob_init g) ->
    k S_Global (count_imports m S_Global + x) = true;
  cl_elem : forall e s x, In e (m_elem m) -> elem_uses e s x -> stays k m s x = true;
  cl_data : forall d s x, In d (m_data m) -> data_uses d s x -> stays k m s x = true;
  cl_start : forall st s x, m_start m = Some st -> start_uses st s x -> stays k m s x = true;
  cl_imports : forall i s x, In i (m_imports m) -> import_uses i s x -> stays k m s x = true;
  cl_exports : forall e s x, In e (m_exports m) -> export_uses e s x -> stays k m s x = true;
}.

(** ** Other type indices *)
Definition only_types (g : N -> N) : renumbering := mkRenumbering g (fun x => x) (fun x => x) (fun x => x) (fun x => x) (fun x => x).
Definition retyped (g : N -> N) (m : module) : module :=
  let r := only_types g in
  mkModule (m_types m) (map (renumber_func r) (m_funcs m)) (m_tables m) (m_mems m) (m_globals m) (m_elem m) (m_data m) (m_start m)
    (map (fun i => mkImport (im_module i) (im_name i) (renumber_importdesc r (im_desc i))) (m_imports m)) (m_exports m).
