(** Modules that differ in one component, for stating which components a verdict depends on. *)
From Verif Require Export SpecRefs.

Definition with_exports (m : module) (x : list export) : module :=
  mkModule (m_types m) (m_funcs m) (m_tables m) (m_mems m) (m_globals m) (m_elem m) (m_data m) (m_start m) (m_imports m) x.
Definition with_start (m : module) (x : option start) : module :=
  mkModule (m_types m) (m_funcs m) (m_tables m) (m_mems m) (m_globals m) (m_elem m) (m_data m) x (m_imports m) (m_exports m).
Definition with_elem (m : module) (x : list elem) : module :=
  mkModule (m_types m) (m_funcs m) (m_tables m) (m_mems m) (m_globals m) x (m_data m) (m_start m) (m_imports m) (m_exports m).
Definition with_data (m : module) (x : list data) : module :=
  mkModule (m_types m) (m_funcs m) (m_tables m) (m_mems m) (m_globals m) (m_elem m) x (m_start m) (m_imports m) (m_exports m).
(** the function definitions, keeping their types: other bodies and locals *)
Definition with_funcs (m : module) (x : list func) : module :=
  mkModule (m_types m) x (m_tables m) (m_mems m) (m_globals m) (m_elem m) (m_data m) (m_start m) (m_imports m) (m_exports m).
(** the contents of the index spaces and the segments *)
Definition with_contents (m : module) (fs : list func) (gs : list global) (es : list elem) (ds : list data) : module :=
  mkModule (m_types m) fs (m_tables m) (m_mems m) gs es ds (m_start m) (m_imports m) (m_exports m).

(** no read of a global in the initialiser of a global *)
Definition no_global_get (e : expr) : Prop := forall x, ~ occurs (I_GlobalGet x) e.
(** all limits are 32-bit numbers *)
Definition limits_u32 (m : module) : Prop :=
  Forall (fun t => Forall (fun n => (n < 2 ^ 32)%N) (limits_u32s (tt_lim t))) (table_space m).
(** all memories have less than 65536 pages *)
Definition small_memories (m : module) : Prop :=
  Forall (fun t => Forall (fun n => (n < 2 ^ 16)%N) (limits_u32s (mt_lim t))) (mem_space m).
