(** A canonical encoder of modules: shortest integers, run-length compressed locals, empty sections
    omitted.  Specification for the round trip property, independent of the parser. *)
From Verif Require Export SpecFormat SpecCode.
Open Scope N_scope.

Definition byte_of (n : N) : byte := match Byte.of_N n with Some b => b | None => x00 end.
(** LEB-128 with at most [k] bytes *)
Fixpoint u_bytes (k : nat) (v : N) : list byte :=
  match k with
  | O => []
  | S k' => if v <? 128 then [byte_of v] else byte_of (v mod 128 + 128) :: u_bytes k' (v / 128)
  end.
Fixpoint s_bytes (k : nat) (v : Z) : list byte :=
  match k with
  | O => []
  | S k' =>
    if ((-64 <=? v) && (v <? 64))%Z then [byte_of (Z.to_N (v mod 128))]
    else byte_of (Z.to_N (v mod 128) + 128) :: s_bytes k' (v / 128)
  end.
Fixpoint le_bytes (k : nat) (v : N) : list byte :=
  match k with O => [] | S k' => byte_of (v mod 256) :: le_bytes k' (v / 256) end.
Definition e_u32 (v : N) : list byte := u_bytes 5 v.
Definition e_vec {A} (e : A -> list byte) (v : list A) : list byte :=
  e_u32 (N.of_nat (length v)) ++ flat_map e v.
Definition e_name (n : name) : list byte := e_vec (fun b => [b]) n.
Definition e_sized (c : list byte) : list byte := e_u32 (N.of_nat (length c)) ++ c.

Definition e_valty (t : valty) : list byte := [valty_byte t].
Definition e_blockty (rt : retval) : list byte := match rt with [t] => [valty_byte t] | _ => [x40] end.
Definition e_functy (t : functy) : list byte := x60 :: e_vec e_valty (ft_params t) ++ e_vec e_valty (ft_results t).
Definition e_limits (l : limits) : list byte :=
  match lim_max l with
  | None => x00 :: e_u32 (lim_min l)
  | Some mx => x01 :: e_u32 (lim_min l) ++ e_u32 mx
  end.
Definition e_tablety (t : tablety) : list byte := x70 :: e_limits (tt_lim t).
Definition e_globalty (t : globalty) : list byte := [valty_byte (gt_val t); mut_byte (gt_mut t)].

Fixpoint e_instr (i : instr) : list byte :=
  match i with
  | I_Block rt b => x02 :: e_blockty rt ++ flat_map e_instr b ++ [x0b]
  | I_Loop rt b => x03 :: e_blockty rt ++ flat_map e_instr b ++ [x0b]
  | I_If rt b [] => x04 :: e_blockty rt ++ flat_map e_instr b ++ [x0b]
  | I_If rt b c => x04 :: e_blockty rt ++ flat_map e_instr b ++ [x05] ++ flat_map e_instr c ++ [x0b]
  | I_BrTable ls l => x0e :: e_vec e_u32 ls ++ e_u32 l
  | I_CallIndirect t x => x11 :: e_u32 t ++ e_u32 x
  | I_MemSize x => x3f :: e_u32 x
  | I_MemGrow x => x40 :: e_u32 x
  | I_ConstI32 n => x41 :: s_bytes 5 n
  | I_ConstI64 n => x42 :: s_bytes 10 n
  | I_ConstF32 z => x43 :: le_bytes 4 z
  | I_ConstF64 z => x44 :: le_bytes 8 z
  | _ =>
    match plain_opcode i with
    | Some op => [op]
    | None =>
      match index_opcode i with
      | Some (op, x) => op :: e_u32 x
      | None =>
        match memarg_opcode i with
        | Some (op, al, off) => op :: e_u32 al ++ e_u32 off
        | None => []
        end
      end
    end
  end.
Definition e_expr (e : expr) : list byte := flat_map e_instr e ++ [x0b].

Definition e_importdesc (d : importdesc) : list byte :=
  match d with
  | ID_Func x => x00 :: e_u32 x
  | ID_Table t => x01 :: e_tablety t
  | ID_Mem t => x02 :: e_limits (mt_lim t)
  | ID_Global t => x03 :: e_globalty t
  end.
Definition e_import (i : import) : list byte := e_name (im_module i) ++ e_name (im_name i) ++ e_importdesc (im_desc i).
Definition e_table (t : table) : list byte := e_tablety (tab_ty t).
Definition e_mem (t : mem) : list byte := e_limits (mt_lim (mem_ty t)).
Definition e_global (g : global) : list byte := e_globalty (glob_ty g) ++ e_expr (glob_init g).
Definition e_exportdesc (d : exportdesc) : list byte :=
  match d with
  | ED_Func x => x00 :: e_u32 x
  | ED_Table x => x01 :: e_u32 x
  | ED_Mem x => x02 :: e_u32 x
  | ED_Global x => x03 :: e_u32 x
  end.
Definition e_export (x : export) : list byte := e_name (ex_name x) ++ e_exportdesc (ex_desc x).
Definition e_start (s : start) : list byte := e_u32 (st_func s).
Definition e_elem (x : elem) : list byte := e_u32 (el_table x) ++ e_expr (el_offset x) ++ e_vec e_u32 (el_init x).
Definition e_data (x : data) : list byte :=
  e_u32 (da_mem x) ++ e_expr (da_offset x) ++ e_vec (fun b => [b]) (da_init x).

(** maximal runs *)
Fixpoint runs_of (l : list valty) : list (u32 * valty) :=
  match l with
  | [] => []
  | t :: l' =>
    match runs_of l' with
    | (n, t') :: rs => if valty_eqb t t' then (n + 1, t) :: rs else (1, t) :: (n, t') :: rs
    | [] => [(1, t)]
    end
  end.
Definition e_run (r : u32 * valty) : list byte := e_u32 (fst r) ++ e_valty (snd r).
Definition e_func (f : func) : list byte := e_vec e_run (runs_of (fn_locals f)) ++ e_expr (fn_body f).
Definition e_code (f : func) : list byte := e_sized (e_func f).

(** The sections of a module: identifier and contents *)
Definition section_if {A} (id : byte) (e : A -> list byte) (v : list A) : list (byte * list byte) :=
  match v with [] => [] | _ => [(id, e_vec e v)] end.
Definition section_contents (m : module) : list (byte * list byte) :=
  section_if x01 e_functy (m_types m)
  ++ section_if x02 e_import (m_imports m)
  ++ section_if x03 (fun f => e_u32 (fn_ty f)) (m_funcs m)
  ++ section_if x04 e_table (m_tables m)
  ++ section_if x05 e_mem (m_mems m)
  ++ section_if x06 e_global (m_globals m)
  ++ section_if x07 e_export (m_exports m)
  ++ match m_start m with Some s => [(x08, e_start s)] | None => [] end
  ++ section_if x09 e_elem (m_elem m)
  ++ section_if x0a e_code (m_funcs m)
  ++ section_if x0b e_data (m_data m).
Definition encode (m : module) : list byte :=
  preamble ++ flat_map (fun s => fst s :: e_sized (snd s)) (section_contents m).

(** All reserved indices are zero, as the official format requires *)
Definition reserved_zero (e : expr) : Prop :=
  forall j, occurs j e ->
    match j with I_CallIndirect _ x | I_MemSize x | I_MemGrow x => x = 0 | _ => True end.
(** Which modules have an encoding: numbers in range, UTF-8 names, well nested code, no section of 4 GiB,
    fewer than 2^32 locals per function *)
Definition representable (m : module) : Prop :=
  Forall (fun n => n < 2 ^ 32) (module_u32s m) /\ Forall utf8 (module_names m) /\
  (forall e, In e (module_exprs m) -> well_nested e /\ code_in_range e) /\
  (forall f, In f (m_funcs m) -> N.of_nat (length (fn_locals f)) < 2 ^ 32) /\
  (forall s, In s (section_contents m) -> N.of_nat (length (snd s)) < 2 ^ 32).
(** fewer than 2^32 locals per function *)
Definition few_locals (m : module) : Prop := forall f, In f (m_funcs m) -> N.of_nat (length (fn_locals f)) < 2 ^ 32.
