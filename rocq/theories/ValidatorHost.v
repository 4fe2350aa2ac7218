(** Validation on a host whose [usize] has [bits] bits (32 or 64), with or without overflow checks.
    Label lookup is the only arithmetic on [usize] in the validator (validation/idx.rs:70-83); a u32 converted to
    [usize] keeps its value on these hosts.  Everything that looks up no label is the function of Validator.v. *)
From Verif Require Export ParserModule ValidatorModule Cli.
From Coq Require Import String.
Open Scope N_scope.

(** idx.rs:70-83 *)
Definition h_labelidx (checks : bool) (bits : N) (s : stacks) (i : labelidx) : vres frame :=
  slot <-- label_slot checks bits i (N.of_nat (List.length (frames s))) ;;
  match nth_error (rev (frames s)) (N.to_nat slot) with Some fr => VOk fr | None => VPanic end.

(** instr.rs:94-99 *)
Fixpoint h_br_table_labels (checks : bool) (bits : N) (s : stacks) (fr : frame) (ls : list labelidx) : vres unit :=
  match ls with
  | [] => VOk tt
  | l :: ls' =>
    frm <-- h_labelidx checks bits s l ;;
    if negb (valtys_eqb (f_label fr) (f_label frm)) then VErr
    else h_br_table_labels checks bits s fr ls'
  end.

(** instr.rs:42-761 *)
Fixpoint h_instr (checks : bool) (bits : N) (c : context) (i : instr) (s : stacks) {struct i} : vres stacks :=
  match i with
  | I_Block a b => (* 51-56 *)
    let s := push_frame a a s in
    s <-- v_seq (h_instr checks bits c) b s ;;
    v_end s
  | I_Loop a b => (* 57-62 *)
    let s := push_frame [] a s in
    s <-- v_seq (h_instr checks bits c) b s ;;
    v_end s
  | I_If a b d => (* 63-71 *)
    s <-- pop_operands [T_I32] s ;;
    let s := push_frame a a s in
    s <-- v_seq (h_instr checks bits c) b s ;;
    s <-- v_else s ;;
    s <-- v_seq (h_instr checks bits c) d s ;;
    v_end s
  | I_Br a => (* 81-85 *)
    fr <-- h_labelidx checks bits s a ;;
    s <-- pop_operands (f_label fr) s ;;
    s_unreachable s
  | I_BrIf a => (* 86-91 *)
    fr <-- h_labelidx checks bits s a ;;
    s <-- pop_operands [T_I32] s ;;
    s <-- pop_operands (f_label fr) s ;;
    VOk (push_operands (f_label fr) s)
  | I_BrTable a b => (* 92-103 *)
    fr <-- h_labelidx checks bits s b ;;
    _ <-- h_br_table_labels checks bits s fr a ;;
    s <-- pop_operands [T_I32] s ;;
    s <-- pop_operands (f_label fr) s ;;
    s_unreachable s
  | _ => v_instr c i s (* no label *)
  end.

(** module.rs:95-114 *)
Definition h_func (checks : bool) (bits : N) (f : func) (cs : vctx) : vres (functy * vctx) :=
  let '(c, s) := cs in
  t <-- v_typeidx c (fn_ty f) ;;
  let r := ft_results t in
  let c := set_ret c (Some r) in
  let c := set_locals c (ft_params t ++ fn_locals f) in
  let s := push_frame r r s in
  s <-- v_seq (h_instr checks bits c) (fn_body f) s ;;
  rs <-- pop_frame s ;;
  let s := snd rs in
  if stacks_not_empty s then VErr
  else
    let c := set_locals c [] in
    let c := set_ret c None in
    VOk (t, (c, s)).

(** module.rs:21-93.  Constant expressions are checked instruction by instruction to be constants or [global.get]
    (instr.rs:14-40) before they are validated, so they look up no labels. *)
Definition h_validate (checks : bool) (bits : N) (m : module) : vres module_types :=
  c <-- context_from m ;;
  let cs : vctx := (c, empty_stacks) in
  let csg : vctx := (use_globals (m_globals m) default_context, empty_stacks) in
  r <-- v_each v_type_item (m_types m) cs ;; let cs := snd r in
  r <-- v_each (h_func checks bits) (m_funcs m) cs ;; let cs := snd r in
  r <-- v_each v_table (m_tables m) cs ;; let cs := snd r in
  r <-- v_each v_mem (m_mems m) cs ;; let cs := snd r in
  r <-- v_each v_global (m_globals m) csg ;;
  r <-- v_each v_elem (m_elem m) cs ;; let cs := snd r in
  r <-- v_each v_data (m_data m) cs ;; let cs := snd r in
  cs <-- match m_start m with
         | Some st => r <-- v_start st cs ;; VOk (snd r)
         | None => VOk cs
         end ;;
  ims <-- v_each v_import (m_imports m) cs ;; let cs := snd ims in
  exs <-- v_each v_export (m_exports m) cs ;;
  if negb (Nat.leb (List.length (m_tables m)) 1) then VErr
  else if negb (Nat.leb (List.length (m_mems m)) 1) then VErr
  else if negb (export_names_distinct (m_exports m)) then VErr
  else VOk (mkModuleTypes (fst ims) (fst exs)).

(** parser/src/main.rs:6-49 on such a host *)
Definition h_cli (checks : bool) (bits : N) (args : list string) (fs : string -> file) : cli_result :=
  match config_new args with
  | None => match args with [] => Crash | _ => Exit 1 [MsgUsage] end
  | Some cfg =>
    match fs (cfg_filename cfg) with
    | CannotOpen => Exit 1 [MsgOpen]
    | CannotRead => Exit 1 [MsgRead]
    | Contents buffer =>
      match fst (p_module buffer) with
      | Err e => Exit 1 [MsgParse e]
      | Panic => Crash
      | OutOfFuel => Crash
      | Ok m =>
        match h_validate checks bits m with
        | VErr => Exit 1 [MsgValidate]
        | VPanic => Crash
        | VOk _ => Exit 0 (if cfg_print cfg then [MsgModule m] else [])
        end
      end
    end
  end.
