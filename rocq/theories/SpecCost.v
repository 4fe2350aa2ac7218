(** How long validation should take, from the text of a module. *)
From Verif Require Export SpecTyping.
Open Scope nat_scope.

(** Operands that a function of this type takes and gives *)
Definition turnover (t : functy) : nat := length (ft_params t) + length (ft_results t).
(** The entry of an index; what is not there costs nothing *)
Definition entry (ws : list nat) (x : N) : nat := nth (N.to_nat x) ws 0.

(** The steps for an instruction: one for itself, one for each index in it, one for each operand taken and given, and for
    structured instructions one for each frame that is set up or taken down, and what is inside.
    [ts], [fs]: turnover of the types and functions; [r]: number of results; [ls]: width of the labels. *)
Fixpoint time (ts fs : list nat) (r : nat) (ls : list nat) (i : instr) : nat :=
  1 + match i with
      | I_Block a b => 2 + 2 * length a + list_sum (map (time ts fs r (length a :: ls)) b)
      | I_Loop a b => 2 + 2 * length a + list_sum (map (time ts fs r (0 :: ls)) b)
      | I_If a b d => 5 + 3 * length a + list_sum (map (time ts fs r (length a :: ls)) b)
                      + list_sum (map (time ts fs r (length a :: ls)) d)
      | I_Br l => 2 + entry ls l
      | I_BrIf l => 2 + 2 * entry ls l
      | I_BrTable xs l => 3 + entry ls l + length xs * (1 + entry ls l)
      | I_Return => 1 + r
      | I_Call x => 1 + entry fs x
      | I_CallIndirect x _ => 3 + entry ts x
      | I_Nop => 0
      | I_Unreachable | I_Drop => 1
      | I_Select => 4
      | I_LocalGet _ | I_LocalSet _ | I_GlobalGet _ | I_GlobalSet _ | I_MemSize _ => 2
      | I_LocalTee _ | I_MemGrow _ => 3
      | _ =>
        match plain_type i with
        | Some (t1, t2) => length t1 + length t2
        | None => 3
        end
      end.
Definition total {A} (f : A -> nat) (xs : list A) : nat := list_sum (map f xs).
(** A constant expression: there is also the check that it is constant; one frame; one result *)
Definition const_time (ts fs : list nat) (e : constexpr) : nat := 3 + total (fun i => 1 + time ts fs 0 [1] i) e.

Definition type_widths (m : module) : list nat := map turnover (m_types m).
Definition imported_func (im : import) : list typeidx := match im_desc im with ID_Func x => [x] | _ => [] end.
Definition func_widths (m : module) : list nat :=
  map (entry (type_widths m)) (flat_map imported_func (m_imports m) ++ map fn_ty (m_funcs m)).
(** A function: its type, its local variables one by one, its frame, its results *)
Definition func_time (m : module) (f : func) : nat :=
  let r := entry (map (fun t => length (ft_results t)) (m_types m)) (fn_ty f) in
  let p := entry (map (fun t => length (ft_params t)) (m_types m)) (fn_ty f) in
  3 + p + length (fn_locals f) + r + total (time (type_widths m) (func_widths m) r [r]) (fn_body f).
(** Everything listed in the module is also visited when the context is built and when it is checked. *)
Definition module_time (m : module) : nat :=
  let k := const_time (type_widths m) (func_widths m) in
  3 * length (m_types m)
  + 6 * length (m_imports m) + length (flat_map imported_func (m_imports m))
  + total (fun f => 3 + func_time m f) (m_funcs m)
  + 3 * length (m_tables m) + 3 * length (m_mems m)
  + total (fun g => 3 + k (glob_init g)) (m_globals m)
  + total (fun e => 2 + k (el_offset e) + length (el_init e)) (m_elem m)
  + total (fun d => 2 + k (da_offset d)) (m_data m)
  + match m_start m with Some _ => 1 | None => 0 end
  + 3 * length (m_exports m).

(** All local variables declared *)
Definition declared (m : module) : nat := total (fun f => length (fn_locals f)) (m_funcs m).

(** Time that grows with the square: a function with [k] parameters that is called [k] times *)
Definition slow (k : nat) : module :=
  {| m_types := [mkFuncTy (repeat T_I32 k) []];
     m_funcs := [{| fn_ty := 0%N; fn_locals := []; fn_body := I_Unreachable :: repeat (I_Call 0%N) k |}];
     m_tables := []; m_mems := []; m_globals := []; m_elem := []; m_data := []; m_start := None; m_imports := []; m_exports := [] |}.
