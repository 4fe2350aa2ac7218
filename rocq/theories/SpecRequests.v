(** The memory that validation asks for, request by request, from the text of a module. *)
From Verif Require Export SpecTyping ParserAlloc.
Open Scope nat_scope.

(** How many operands something takes, and how many it gives *)
Definition exchange : Type := nat * nat.
Definition exchange_of (t : functy) : exchange := (length (ft_params t), length (ft_results t)).
Definition entry_of {A} (d : A) (xs : list A) (x : N) : A := nth (N.to_nat x) xs d.

(** A vector of this kind has grown to [n] elements; nothing is asked for if there are none *)
Definition grows (k : vkind) (n : nat) : list event := match n with O => [] | S _ => [Hold k (N.of_nat n)] end.
(** one by one, from [n] to [n + more] *)
Definition grows_by_one (k : vkind) (n more : nat) : list event := map (fun i => Hold k (N.of_nat i)) (seq (S n) more).

(** What the instructions take and give that are neither structured nor jumps.
    [ts], [fs]: the types and functions; [ls]: the widths of the labels. *)
Definition exchanges (ts fs : list exchange) (ls : list nat) (i : instr) : exchange :=
  match i with
  | I_BrIf l => (1 + entry_of 0 ls l, entry_of 0 ls l)
  | I_Call x => entry_of (0, 0) fs x
  | I_CallIndirect x _ => (1 + fst (entry_of (0, 0) ts x), snd (entry_of (0, 0) ts x))
  | I_Drop | I_LocalSet _ | I_GlobalSet _ => (1, 0)
  | I_Select => (3, 1)
  | I_LocalGet _ | I_GlobalGet _ | I_MemSize _ => (0, 1)
  | I_LocalTee _ | I_MemGrow _ => (1, 1)
  | _ =>
    match plain_type i, load_type i, store_type i with
    | Some (t1, t2), _, _ => (length t1, length t2)
    | _, Some _, _ => (1, 1)
    | _, _, Some _ => (2, 0)
    | _, _, _ => (0, 0)
    end
  end.

(** An instruction inside of [d] frames, the innermost at height [base], with [h] operands above it: what is asked for, and
    how many operands there are above the frame afterwards.  In unreachable code operands may be taken that are not there.
    Operands are pushed together; a frame is pushed for each structured instruction, and once more at [else]. *)
Fixpoint asks (ts fs : list exchange) (ls : list nat) (d base h : nat) (i : instr) {struct i} : list event * nat :=
  let inside := fix go (ls : list nat) (base h : nat) (e : list instr) : list event :=
    match e with
    | [] => []
    | i :: e' => fst (asks ts fs ls (S d) base h i) ++ go ls base (snd (asks ts fs ls (S d) base h i)) e'
    end in
  let frame := Hold V_Frame (N.of_nat (S d)) in
  let gives (h n : nat) := match n with O => [] | S _ => [Hold V_Operand (N.of_nat (base + h + n))] end in
  match i with
  | I_Block a b => (frame :: inside (length a :: ls) (base + h) 0 b ++ gives h (length a), h + length a)
  | I_Loop a b => (frame :: inside (0 :: ls) (base + h) 0 b ++ gives h (length a), h + length a)
  | I_If a b c =>
    let h := h - 1 in
    (frame :: inside (length a :: ls) (base + h) 0 b ++ frame :: inside (length a :: ls) (base + h) 0 c ++ gives h (length a),
     h + length a)
  | I_Unreachable | I_Br _ | I_BrTable _ _ | I_Return => ([], 0)
  | _ => let '(t, g) := exchanges ts fs ls i in (gives (h - t) g, h - t + g)
  end.
Fixpoint asks_all (ts fs : list exchange) (ls : list nat) (d base h : nat) (e : list instr) : list event :=
  match e with
  | [] => []
  | i :: e' => fst (asks ts fs ls d base h i) ++ asks_all ts fs ls d base (snd (asks ts fs ls d base h i)) e'
  end.

(** ** Modules *)
Definition importing {A} (f : importdesc -> option A) (m : module) : list A :=
  flat_map (fun im => match f (im_desc im) with Some a => [a] | None => [] end) (m_imports m).
Definition func_imports (m : module) : list typeidx := importing (fun d => match d with ID_Func x => Some x | _ => None end) m.
Definition table_imports (m : module) : nat := length (importing (fun d => match d with ID_Table t => Some t | _ => None end) m).
Definition mem_imports (m : module) : nat := length (importing (fun d => match d with ID_Mem t => Some t | _ => None end) m).
Definition global_imports (m : module) : nat := length (importing (fun d => match d with ID_Global t => Some t | _ => None end) m).
Definition type_exchanges (m : module) : list exchange := map exchange_of (m_types m).
Definition func_exchanges (m : module) : list exchange := map (entry_of (0, 0) (type_exchanges m)) (func_imports m ++ map fn_ty (m_funcs m)).

(** The context: references to the types, to the types of functions one by one, to tables, memories and globals, first those
    imported, then all; finally another context with the module's own globals only *)
Definition context_asks (m : module) : list event :=
  let n := length (func_imports m) in
  grows V_Ref (length (m_types m)) ++
  grows_by_one V_Ref 0 n ++ grows V_Ref (table_imports m) ++ grows V_Ref (mem_imports m) ++ grows V_Ref (global_imports m) ++
  grows_by_one V_Ref n (length (m_funcs m)) ++ grows V_Ref (table_imports m + length (m_tables m)) ++
  grows V_Ref (mem_imports m + length (m_mems m)) ++ grows V_Ref (global_imports m + length (m_globals m)) ++
  grows V_Ref (length (m_globals m)).
(** A function: references to its parameters and local variables, the frame of its body, the body *)
Definition func_asks (m : module) (f : func) : list event :=
  let '(p, r) := entry_of (0, 0) (type_exchanges m) (fn_ty f) in
  Reserve V_Ref (N.of_nat (p + length (fn_locals f))) :: Hold V_Frame 1 :: asks_all (type_exchanges m) (func_exchanges m) [r] 1 0 0 (fn_body f).
(** A constant expression: its frame, and an operand for each instruction *)
Definition const_asks (e : constexpr) : list event := Hold V_Frame 1 :: grows_by_one V_Operand 0 (length e).
Definition module_asks (m : module) : list event :=
  context_asks m ++ flat_map (func_asks m) (m_funcs m) ++ flat_map (fun g => const_asks (glob_init g)) (m_globals m) ++
  flat_map (fun e => const_asks (el_offset e)) (m_elem m) ++ flat_map (fun d => const_asks (da_offset d)) (m_data m) ++
  [Reserve V_External (N.of_nat (length (m_imports m))); Reserve V_External (N.of_nat (length (m_exports m)));
   Reserve V_Ref (N.of_nat (length (m_exports m)))].
