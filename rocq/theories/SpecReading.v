(** The memory that reading a file asks for, request by request, from what the file says. *)
From Verif Require Export SpecFormat ParserAlloc.
Open Scope N_scope.

(** [needs A]: which requests reading a value makes, in order.  A value can be written in more than one way; where this
    matters there is more than one list. *)
Definition needs (A : Type) : Type := A -> list event -> Prop.
Definition lengthN {A} (xs : list A) : N := N.of_nat (length xs).
Definition no_needs {A} : needs A := fun _ l => l = [].
(** room for all the elements of a vector at once, then what the elements ask for *)
Definition vec_needs {A} (k : vkind) (R : needs A) : needs (list A) := fun xs l =>
  exists ls, Forall2 R xs ls /\ l = Reserve k (lengthN xs) :: concat ls.
Definition name_needs : needs name := fun n l => l = [Reserve V_U8 (lengthN n)].
Definition functy_needs : needs functy := fun t l => l = [Reserve V_Val (lengthN (ft_params t)); Reserve V_Val (lengthN (ft_results t))].
(** a vector of one element for a block with a result *)
Definition blockty_needs (r : retval) : list event := match r with [] => [] | _ :: _ => [Hold V_Val 1] end.

(** Instructions inside of [d] others.  Code has no length in front of it: its vector grows to [1], [2], … elements, after each
    instruction; an empty branch of a conditional can be written or left out. *)
Inductive instr_needs : nat -> instr -> list event -> Prop :=
| N_block d r e l : code_needs (S d) 0 e l -> instr_needs d (I_Block r e) (blockty_needs r ++ Nest (N.of_nat (S d)) :: l)
| N_loop d r e l : code_needs (S d) 0 e l -> instr_needs d (I_Loop r e) (blockty_needs r ++ Nest (N.of_nat (S d)) :: l)
| N_if d r e l : code_needs (S d) 0 e l -> instr_needs d (I_If r e []) (blockty_needs r ++ Nest (N.of_nat (S d)) :: l)
| N_else d r e e' l l' : code_needs (S d) 0 e l -> code_needs (S d) 0 e' l' ->
    instr_needs d (I_If r e e') (blockty_needs r ++ Nest (N.of_nat (S d)) :: l ++ Nest (N.of_nat (S d)) :: l')
| N_table d ls x : instr_needs d (I_BrTable ls x) [Reserve V_Label (lengthN ls)]
| N_other d i : (forall r e, i <> I_Block r e) -> (forall r e, i <> I_Loop r e) -> (forall r e e', i <> I_If r e e') ->
    (forall ls x, i <> I_BrTable ls x) -> instr_needs d i []
(** [n] instructions have been read *)
with code_needs : nat -> nat -> list instr -> list event -> Prop :=
| N_nil d n : code_needs d n [] []
| N_cons d n i e l l' : instr_needs d i l -> code_needs d (S n) e l' -> code_needs d n (i :: e) (l ++ Hold V_Instr (N.of_nat (S n)) :: l').
Definition expr_needs : needs expr := code_needs 0 0.

(** Local variables are written in groups of one type; their vector grows by a group at a time.  [n] have been read. *)
Fixpoint group_needs (n : N) (groups : list (u32 * valty)) : list event :=
  match groups with
  | [] => []
  | (k, _) :: gs => Hold V_Val (n + k) :: group_needs (n + k) gs
  end.
Definition body_needs : needs code := fun c l =>
  exists groups l', expand_runs groups = fst c /\ expr_needs (snd c) l' /\ l = group_needs 0 groups ++ l'.
Definition import_needs : needs import := fun i l => l = [Reserve V_U8 (lengthN (im_module i)); Reserve V_U8 (lengthN (im_name i))].
Definition export_needs : needs export := fun e l => l = [Reserve V_U8 (lengthN (ex_name e))].
Definition global_needs : needs global := fun g => expr_needs (glob_init g).
Definition elem_needs : needs elem := fun e l => exists l', expr_needs (el_offset e) l' /\ l = l' ++ [Reserve V_Funcidx (lengthN (el_init e))].
Definition data_needs : needs data := fun d l => exists l', expr_needs (da_offset d) l' /\ l = l' ++ [Reserve V_U8 (lengthN (da_init d))].

(** Of a custom section only the name is kept *)
Definition section_needs : needs section := fun s =>
  match s with
  | S_Custom c => name_needs (fst c)
  | S_Type v => vec_needs V_Func_ty functy_needs v
  | S_Import v => vec_needs V_Import import_needs v
  | S_Function v => vec_needs V_Type no_needs v
  | S_Table v => vec_needs V_Table no_needs v
  | S_Memory v => vec_needs V_Mem no_needs v
  | S_Global v => vec_needs V_Global global_needs v
  | S_Export v => vec_needs V_Export export_needs v
  | S_Start v => no_needs v
  | S_Element v => vec_needs V_Elem elem_needs v
  | S_Code v => vec_needs V_Func body_needs v
  | S_Data v => vec_needs V_Data data_needs v
  end.
Definition sections_need : needs (list section) := fun ss l => exists ls, Forall2 section_needs ss ls /\ l = concat ls.

(** ** What does not depend on how a module is written *)
(** Requests for vectors that are not empty, other than for local variables (and the types of blocks, of the same kind) *)
Definition settled_by_module (e : event) : bool :=
  match e with Reserve _ n => 0 <? n | Hold V_Val _ => false | Hold _ _ => true | Nest _ => false end.
Definition room_for (k : vkind) (n : nat) : list event := match n with O => [] | S _ => [Reserve k (N.of_nat n)] end.
Fixpoint instr_room (i : instr) : list event :=
  let code := fix go (n : nat) (e : list instr) : list event :=
    match e with [] => [] | i :: e' => instr_room i ++ Hold V_Instr (N.of_nat (S n)) :: go (S n) e' end in
  match i with
  | I_Block _ e | I_Loop _ e => code O e
  | I_If _ e e' => code O e ++ code O e'
  | I_BrTable ls _ => room_for V_Label (length ls)
  | _ => []
  end.
Fixpoint code_room (n : nat) (e : list instr) : list event :=
  match e with [] => [] | i :: e' => instr_room i ++ Hold V_Instr (N.of_nat (S n)) :: code_room (S n) e' end.
Definition list_room {A} (k : vkind) (f : A -> list event) (xs : list A) : list event := room_for k (length xs) ++ flat_map f xs.
Definition module_room (m : module) : list event :=
  list_room V_Func_ty (fun t => room_for V_Val (length (ft_params t)) ++ room_for V_Val (length (ft_results t))) (m_types m) ++
  list_room V_Import (fun i => room_for V_U8 (length (im_module i)) ++ room_for V_U8 (length (im_name i))) (m_imports m) ++
  list_room V_Type (fun _ => []) (m_funcs m) ++
  list_room V_Table (fun _ => []) (m_tables m) ++
  list_room V_Mem (fun _ => []) (m_mems m) ++
  list_room V_Global (fun g => code_room 0 (glob_init g)) (m_globals m) ++
  list_room V_Export (fun e => room_for V_U8 (length (ex_name e))) (m_exports m) ++
  list_room V_Elem (fun e => code_room 0 (el_offset e) ++ room_for V_Funcidx (length (el_init e))) (m_elem m) ++
  list_room V_Func (fun f => code_room 0 (fn_body f)) (m_funcs m) ++
  list_room V_Data (fun d => code_room 0 (da_offset d) ++ room_for V_U8 (length (da_init d))) (m_data m).
