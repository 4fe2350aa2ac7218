(** Where the verdict of the code and the official one can differ, for stating that nothing else makes a difference. *)
From Verif Require Export SpecEdit.
Open Scope N_scope.

(** [global.get x] is a constant of type [t] over the globals [gs]. *)
Definition reads (gs : list globalty) (x : N) (t : valty) : Prop :=
  exists g, at_index gs x g /\ gt_mut g = Const /\ gt_val g = t.
(** Every global that is initialised from a global reads a constant of its own type among [gs]. *)
Definition inits_read (gs : list globalty) (m : module) : Prop :=
  forall g x, In g (m_globals m) -> glob_init g = [I_GlobalGet x] -> reads gs x (gt_val (glob_ty g)).

(** What the official rules demand and the code does not check. *)
Definition unchecked (m : module) : Prop :=
  (forall f, In f (m_funcs m) -> natural_alignment (fn_body f)) /\
  inits_read (imported_globals (m_imports m)) m /\
  (length (table_space m) <= 1)%nat /\ (length (mem_space m) <= 1)%nat.
(** What the code demands and the official rules do not. *)
Definition overchecked (m : module) : Prop :=
  (forall f, In f (m_funcs m) -> no_own_jump (fn_body f)) /\
  inits_read (map glob_ty (m_globals m)) m /\
  small_memories m.

(** a global that is initialised from a global needs an imported one of its type *)
Definition inits_fit (m : module) : Prop := forall g x, In g (m_globals m) -> glob_init g = [I_GlobalGet x] ->
  exists t, at_index (imported_globals (m_imports m)) x t /\ gt_val t = gt_val (glob_ty g).
