(** Files as sequences of sections that are not looked into: an identifier, a size, that many bytes. *)
From Verif Require Export SpecFormat.
Open Scope N_scope.

Record piece := mkPiece { pc_id : byte; pc_size : list byte; pc_body : list byte }.
(** the size, read as an integer of 32 bits, is the number of bytes that follow *)
Definition well_sized (p : piece) : Prop := enc_unsigned 32 (pc_size p) (N.of_nat (length (pc_body p))).
Definition piece_bytes (p : piece) : list byte := pc_id p :: pc_size p ++ pc_body p.
Definition file (ps : list piece) : list byte := preamble ++ flat_map piece_bytes ps.

(** non-custom sections in increasing order of their identifiers *)
Definition in_order (ps : list piece) : Prop :=
  increasing 0 (map (fun p => Byte.to_N (pc_id p)) (filter (fun p => negb (Byte.eqb (pc_id p) x00)) ps)).

(** Two files mixed: of each kind, the sections of the second file where [pick] says so, of the first otherwise;
    custom sections in front. *)
Definition of_kind (id : byte) (ps : list piece) : list piece := filter (fun p => Byte.eqb (pc_id p) id) ps.
Definition kinds : list byte := [x00; x01; x02; x03; x04; x05; x06; x07; x08; x09; x0a; x0b].
Definition mix_pieces (pick : byte -> bool) (ps ps' : list piece) : list piece :=
  flat_map (fun id => of_kind id (if pick id then ps' else ps)) kinds.

(** Two modules mixed in the same way.  Functions take their types from one and their bodies from the other
    if section 3 and section 10 are picked from different files. *)
Definition retype (f g : func) : func := mkFunc (fn_ty f) (fn_locals g) (fn_body g).
Definition mix_funcs (ts cs : list func) : list func := map (fun fg => retype (fst fg) (snd fg)) (combine ts cs).
Definition mix_modules (pick : byte -> bool) (m m' : module) : module :=
  let from id := if pick id then m' else m in {|
  m_types := m_types (from x01);
  m_imports := m_imports (from x02);
  m_funcs := mix_funcs (m_funcs (from x03)) (m_funcs (from x0a));
  m_tables := m_tables (from x04);
  m_mems := m_mems (from x05);
  m_globals := m_globals (from x06);
  m_exports := m_exports (from x07);
  m_start := m_start (from x08);
  m_elem := m_elem (from x09);
  m_data := m_data (from x0b) |}.
(** Function and code sections belong together: picked from the same file, or as many functions in both *)
Definition compatible (pick : byte -> bool) (m m' : module) : Prop :=
  pick x03 = pick x0a \/ (length (m_funcs m) = length (m_funcs m') /\ m_funcs m <> []).

(** declares functions, or gives their code *)
Definition about_functions (p : piece) : bool := Byte.eqb (pc_id p) x03 || Byte.eqb (pc_id p) x0a.
