(** What may follow the bytes of a file. *)
From Verif Require Export ParserCore SpecPieces.
Open Scope N_scope.

(** the file has a section that is not custom, of this or of a later kind *)
Definition past (qs : list piece) (b : byte) : bool :=
  existsb (fun q => negb (Byte.eqb (pc_id q) x00) && (Byte.to_N b <=? Byte.to_N (pc_id q))) qs.
(** why a byte, with at most one more after it, cannot follow the sections [qs] *)
Definition refusal (qs : list piece) (b : byte) : perror :=
  if negb (Byte.eqb b x00) && past qs b then UnexpectedSectionId b
  else if 11 <? Byte.to_N b then InvalidSectionId b
  else UnexpectedEndOfFile.
(** the second module has every component that the first one has, unchanged; where the first one has nothing,
    the second may have anything *)
Definition kept {A} (a a' : list A) : Prop := a = [] \/ a' = a.
Definition grows (m m' : module) : Prop :=
  kept (m_types m) (m_types m') /\ kept (m_imports m) (m_imports m') /\ kept (m_funcs m) (m_funcs m') /\
  kept (m_tables m) (m_tables m') /\ kept (m_mems m) (m_mems m') /\ kept (m_globals m) (m_globals m') /\
  kept (m_exports m) (m_exports m') /\ (m_start m = None \/ m_start m' = m_start m) /\
  kept (m_elem m) (m_elem m') /\ kept (m_data m) (m_data m').
