(** Sessions: calls one after another on one context of the validator. *)
From Coq Require Import Sorted.
From Verif Require Import ValidatorState SpecTyping SpecModule SpecVerdict.

(** Every frame begins at or below the operands above it, the lower frames lower.  Newly created stacks are so. *)
Definition settled (s : stacks) : Prop := Sorted ge (length (operands s) :: map f_height (frames s)).

(** [validate] of a part of a module; its code has no pseudo instructions *)
Definition component (k : call) : Prop :=
  match k with
  | On_Func f => no_pseudo (fn_body f)
  | On_Table _ | On_Mem _ | On_Global _ | On_Elem _ | On_Data _ | On_Start _ | On_Import _ | On_Export _ | On_Module _ => True
  | On_FuncTy _ | On_TableTy _ | On_MemTy _ | On_GlobalTy _ | On_Limits _ | On_RetVal _ => True
  | On_TypeIdx _ | On_FuncIdx _ | On_TableIdx _ | On_MemIdx _ | On_GlobalIdx _ => True
  | _ => False
  end.
(** ... with code *)
Definition with_code (k : call) : Prop :=
  match k with On_Func _ | On_Global _ | On_Elem _ | On_Data _ => True | _ => False end.
Definition accepts (k : call) (cs : vctx) : Prop := fst (perform k cs) = VOk tt.
(** what is left of the context *)
Definition after (ks : list call) (cs : vctx) : vctx := snd (perform_all ks cs).
Definition all_ok (ks : list call) (cs : vctx) : Prop := Forall (eq (VOk tt)) (fst (perform_all ks cs)).

(** Validation of a module as calls *)
Definition parts (m : module) : list call :=
  map On_FuncTy (m_types m) ++ map On_Func (m_funcs m) ++ map On_Table (m_tables m) ++ map On_Mem (m_mems m) ++
  map On_Elem (m_elem m) ++ map On_Data (m_data m) ++ match m_start m with Some st => [On_Start st] | None => [] end ++
  map On_Import (m_imports m) ++ map On_Export (m_exports m).
Definition building (m : module) : list call :=
  [Use_Types (m_types m); Use_ImportedFuncs (m_imports m); Use_ImportedTables (m_imports m); Use_ImportedMems (m_imports m);
   Use_ImportedGlobals (m_imports m); Use_Funcs (m_funcs m); Use_Tables (m_tables m); Use_Mems (m_mems m); Use_Globals (m_globals m)].

(** What makes a call that only looks accept; the others are not mentioned.  Among the frames one is that of the function:
    it is no label *)
Definition below {A} (x : N) (xs : list A) : Prop := (x < N.of_nat (length xs))%N.
Definition table_ok (t : tablety) : Prop := limits_ok (2 ^ 32 - 1) (tt_lim t).
Definition mem_ok (t : memty) : Prop := limits_ok (2 ^ 16 - 1) (mt_lim t).
Definition criterion (k : call) (cs : vctx) : option Prop :=
  let c := fst cs in
  match k with
  | On_Table t => Some (table_ok (tab_ty t))
  | On_Mem t => Some (mem_ok (mem_ty t))
  | On_Start st => Some (at_index (c_funcs c) (st_func st) (mkFuncTy [] []))
  | On_Import im => Some match im_desc im with
    | ID_Func x => below x (c_types c) | ID_Table t => table_ok t | ID_Mem t => mem_ok t | ID_Global _ => True end
  | On_Export ex => Some match ex_desc ex with
    | ED_Func x => below x (c_funcs c) | ED_Table x => below x (c_tables c) | ED_Mem x => below x (c_mems c) | ED_Global x => below x (c_globals c) end
  | On_Module m => Some (accepted m)
  | On_FuncTy t => Some (length (ft_results t) <= 1)%nat
  | On_TableTy t => Some (table_ok t)
  | On_MemTy t => Some (mem_ok t)
  | On_GlobalTy _ | On_RetVal _ => Some True
  | On_Limits l => Some (forall x, lim_max l = Some x -> (lim_min l <= x)%N)
  | On_TypeIdx x => Some (below x (c_types c))
  | On_FuncIdx x => Some (below x (c_funcs c))
  | On_TableIdx x => Some (below x (c_tables c))
  | On_MemIdx x => Some (below x (c_mems c))
  | On_GlobalIdx x => Some (below x (c_globals c))
  | On_LocalIdx x => Some (below x (c_locals c))
  | On_LabelIdx x => Some (below (x + 1) (frames (snd cs)))
  | _ => None
  end.

(** What a call on the stacks does: whether it succeeds, and the stacks that it leaves.  The first operand and the first frame
    are on top *)
Inductive does : call -> stacks -> bool -> stacks -> Prop :=
| does_push op ops frs : does (Push_Operand op) (mkStacks ops frs) true (mkStacks (op :: ops) frs)
| does_pushes ts ops frs : does (Push_Operands ts) (mkStacks ops frs) true (mkStacks (rev (map Val ts) ++ ops) frs)
| does_pop_nowhere op ops : does (Pop_Operand op) (mkStacks ops []) false (mkStacks ops [])
(* nothing is left of the frame: that is right in unreachable code *)
| does_pop_none op ops f frs : length ops = f_height f ->
    does (Pop_Operand op) (mkStacks ops (f :: frs)) (f_unreachable f) (mkStacks ops (f :: frs))
| does_pop_equal op ops f frs : length (op :: ops) <> f_height f -> does (Pop_Operand op) (mkStacks (op :: ops) (f :: frs)) true (mkStacks ops (f :: frs))
| does_pop_unknown op ops f frs : length (Unknown :: ops) <> f_height f -> does (Pop_Operand op) (mkStacks (Unknown :: ops) (f :: frs)) true (mkStacks ops (f :: frs))
| does_pop_any op ops f frs : length (op :: ops) <> f_height f -> does (Pop_Operand Unknown) (mkStacks (op :: ops) (f :: frs)) true (mkStacks ops (f :: frs))
| does_pop_other t u ops f frs : length (Val t :: ops) <> f_height f -> t <> u -> does (Pop_Operand (Val u)) (mkStacks (Val t :: ops) (f :: frs)) false (mkStacks ops (f :: frs))
(* from the last to the first, as far as it goes *)
| does_pops_none s : does (Pop_Operands []) s true s
| does_pops_stop ts t s s' : does (Pop_Operand (Val t)) s false s' -> does (Pop_Operands (ts ++ [t])) s false s'
| does_pops ts t s s1 b s2 : does (Pop_Operand (Val t)) s true s1 -> does (Pop_Operands ts) s1 b s2 -> does (Pop_Operands (ts ++ [t])) s b s2
| does_push_frame l o ops frs : does (Push_Frame l o) (mkStacks ops frs) true (mkStacks ops (mkFrame l o (length ops) false :: frs))
| does_pop_frame_nowhere ops : does Pop_Frame (mkStacks ops []) false (mkStacks ops [])
| does_pop_frame_short ops f frs s' : does (Pop_Operands (f_out f)) (mkStacks ops (f :: frs)) false s' -> does Pop_Frame (mkStacks ops (f :: frs)) false s'
| does_pop_frame_long ops f frs s' : does (Pop_Operands (f_out f)) (mkStacks ops (f :: frs)) true s' -> length (operands s') <> f_height f ->
    does Pop_Frame (mkStacks ops (f :: frs)) false s'
| does_pop_frame ops f frs ops' : does (Pop_Operands (f_out f)) (mkStacks ops (f :: frs)) true (mkStacks ops' (f :: frs)) -> length ops' = f_height f ->
    does Pop_Frame (mkStacks ops (f :: frs)) true (mkStacks ops' frs)
| does_unreachable_nowhere ops : does Unreachable (mkStacks ops []) false (mkStacks ops [])
| does_unreachable above below f frs : length below = f_height f ->
    does Unreachable (mkStacks (above ++ below) (f :: frs)) true (mkStacks below (mkFrame (f_label f) (f_out f) (f_height f) true :: frs)).
Definition on_stacks (k : call) : Prop :=
  match k with Push_Operand _ | Push_Operands _ | Pop_Operand _ | Pop_Operands _ | Push_Frame _ _ | Pop_Frame | Unreachable => True | _ => False end.
