(** Execution of WebAssembly code, after chapter 4 of the WebAssembly 1.0 specification, as an interpreter with
    fuel.  Where the specification asserts something "due to validation" the interpreter checks it and reports
    [R_Stuck].  What numeric instructions compute, how memories work and what host functions do is a parameter. *)
From Verif Require Export SpecModule.
Open Scope N_scope.

(** 4.2.1 Values: a type and a bit pattern *)
Inductive value := mkValue (t : valty) (bits : N).
Definition type_of (v : value) : valty := let 'mkValue t _ := v in t.
Definition bits_of (v : value) : N := let 'mkValue _ b := v in b.
Definition is_zero (v : value) : bool := bits_of v =? 0.

(** ** The machine: numeric instructions and memories *)
Record machine := mkMachine {
  memory : Type;
  mach_num : instr -> list value -> option (list value);         (* operands and results, top last; None: trap *)
  mach_load : instr -> memory -> value -> option value;          (* address *)
  mach_store : instr -> memory -> value -> value -> option memory;   (* address, value *)
  mach_size : memory -> value;
  mach_grow : memory -> value -> memory * value;
  mach_new : memty -> memory;                                    (* a fresh memory *)
  mach_init : memory -> value -> list byte -> option memory;     (* write a data segment; None: out of bounds *)
}.
(** It respects the types of instructions *)
Record machine_ok (M : machine) : Prop := {
  num_ok : forall i ts1 ts2 vs r, plain_type i = Some (ts1, ts2) -> map type_of vs = ts1 -> mach_num M i vs = Some r -> map type_of r = ts2;
  const_ok : forall i ts, plain_type i = Some ([], ts) -> mach_num M i [] <> None;     (* constants do not trap *)
  load_ok : forall i a n t mm v r, load_type i = Some (a, n, t) -> mach_load M i mm v = Some r -> type_of r = t;
  size_ok : forall mm, type_of (mach_size M mm) = T_I32;
  grow_ok : forall mm v, type_of (snd (mach_grow M mm v)) = T_I32;
}.

(** ** 4.2.3 Store.  A table entry is the address of a function. *)
Record store (M : machine) := mkStore {
  s_globals : list value;
  s_tables : list (list (option nat));
  s_mems : list (memory M);
}.
Arguments mkStore {M}. Arguments s_globals {M}. Arguments s_tables {M}. Arguments s_mems {M}.
(** 4.2.6 Functions: those of the module, and host functions ([None]: trap) *)
Inductive finst (M : machine) :=
| F_Wasm (t : functy) (f : func)
| F_Host (t : functy) (h : store M -> list value -> option (store M * list value)).
Arguments F_Wasm {M}. Arguments F_Host {M}.
Definition finst_type {M} (f : finst M) : functy := match f with F_Wasm t _ | F_Host t _ => t end.

(** ** Configurations and results.  Operand stacks are lists whose head is the top. *)
Record conf (M : machine) := mkConf { c_stack : list value; c_vars : list value; c_store : store M }.
Arguments mkConf {M}. Arguments c_stack {M}. Arguments c_vars {M}. Arguments c_store {M}.
Inductive result (M : machine) :=
| R_Normal (c : conf M)
| R_Branch (l : nat) (vs : list value) (c : conf M)    (* to label [l] with operands [vs] *)
| R_Return (vs : list value) (st : store M)
| R_Trap
| R_Stuck                                              (* the specification does not say what happens *)
| R_Fuel.
Arguments R_Normal {M}. Arguments R_Branch {M}. Arguments R_Return {M}. Arguments R_Trap {M}. Arguments R_Stuck {M}. Arguments R_Fuel {M}.

Fixpoint valtys_same (a b : list valty) : bool :=
  match a, b with
  | [], [] => true
  | x :: a', y :: b' => match x, y with T_I32, T_I32 | T_I64, T_I64 | T_F32, T_F32 | T_F64, T_F64 => valtys_same a' b' | _, _ => false end
  | _, _ => false
  end.
Definition functy_same (a b : functy) : bool :=
  (valtys_same (ft_params a) (ft_params b) && valtys_same (ft_results a) (ft_results b))%bool.
(** [take ts vs]: values of types [ts] on top of [vs], and the rest *)
Definition take (ts : list valty) (vs : list value) : option (list value * list value) :=
  let n := length ts in
  if valtys_same (map type_of (rev (firstn n vs))) ts then Some (rev (firstn n vs), skipn n vs) else None.
Fixpoint set_nth {A} (n : nat) (x : A) (l : list A) : list A :=
  match l, n with
  | [], _ => []
  | _ :: l', O => x :: l'
  | y :: l', S n' => y :: set_nth n' x l'
  end.

Section Exec.
Context (M : machine) (types : list functy) (funcs : list (finst M)).
Notation conf := (conf M). Notation result := (result M).

Definition with_stack (c : conf) (vs : list value) : conf := mkConf vs (c_vars c) (c_store c).
Definition with_vars (c : conf) (vs : list value) : conf := mkConf (c_stack c) vs (c_store c).
Definition with_store (c : conf) (s : store M) : conf := mkConf (c_stack c) (c_vars c) s.
(** [vs] (top last) on top of the stack [rest] *)
Definition push (vs : list value) (rest : list value) (c : conf) : result := R_Normal (with_stack c (rev vs ++ rest)).

(** operands of types [ts], or stuck *)
Definition pop (ts : list valty) (c : conf) (k : list value -> conf -> result) : result :=
  match take ts (c_stack c) with Some (vs, rest) => k vs (with_stack c rest) | None => R_Stuck end.
Definition pop1 (t : valty) (c : conf) (k : value -> conf -> result) : result :=
  pop [t] c (fun vs c => match vs with [v] => k v c | _ => R_Stuck end).
Definition found {A} (o : option A) (k : A -> result) : result := match o with Some a => k a | None => R_Stuck end.
Definition or_trap {A} (o : option A) (k : A -> result) : result := match o with Some a => k a | None => R_Trap end.
Definition at_N {A} (xs : list A) (i : N) : option A := nth_error xs (N.to_nat i).

(** 4.4.6 Sequences *)
Fixpoint run_seq (run : instr -> conf -> result) (is : list instr) (c : conf) : result :=
  match is with
  | [] => R_Normal c
  | i :: is' => match run i c with R_Normal c' => run_seq run is' c' | r => r end
  end.

(** 4.4.6: a block that ends, or that is left by a branch to its label [0]; its operands must have the types [rt] *)
Definition leave (rt : list valty) (outer : list value) (vs : list value) (c : conf) : result :=
  if valtys_same (map type_of vs) rt then push vs outer c else R_Stuck.
Definition run_block (rt : list valty) (outer : list value) (on_branch : list value -> conf -> result) (r : result) : result :=
  match r with
  | R_Normal c => leave rt outer (rev (c_stack c)) c
  | R_Branch O vs c => on_branch vs c
  | R_Branch (S l) vs c => R_Branch l vs c
  | r => r
  end.
(** a branch to label [l] takes the operands the label expects *)
Definition branch (labels : list (list valty)) (l : labelidx) (c : conf) : result :=
  found (at_N labels l) (fun ts => pop ts c (fun vs c => R_Branch (N.to_nat l) vs c)).

(** 4.4.7: the initial value of a local *)
Definition zero (t : valty) : value := mkValue t 0.
(** the results of a function body, for the caller *)
Definition finish (ft : functy) (caller : conf) (r : result) : result :=
  let results vs st := if valtys_same (map type_of vs) (ft_results ft) then push vs (c_stack caller) (with_store caller st) else R_Stuck in
  match r with
  | R_Normal c => results (rev (c_stack c)) (c_store c)
  | R_Branch O vs c => results vs (c_store c)
  | R_Branch (S _) _ _ => R_Stuck
  | R_Return vs st => results vs st
  | r => r
  end.

(** 4.4 Instructions.  [labels]: the operand types of the labels, innermost first; [ret]: of a return *)
Fixpoint exec (fuel : nat) (labels : list (list valty)) (ret : list valty) (i : instr) (c : conf) {struct fuel} : result :=
  match fuel with
  | O => R_Fuel
  | S n =>
    let call (f : finst M) (c : conf) : result :=
      pop (ft_params (finst_type f)) c (fun args c =>
        match f with
        | F_Host t h => or_trap (h (c_store c) args) (fun sr =>
            if valtys_same (map type_of (snd sr)) (ft_results t) then push (snd sr) (c_stack c) (with_store c (fst sr)) else R_Stuck)
        | F_Wasm t fn =>
          finish t c (run_seq (exec n [ft_results t] (ft_results t)) (fn_body fn)
                        (mkConf [] (args ++ map zero (fn_locals fn)) (c_store c)))
        end) in
    match plain_type i, load_type i, store_type i with
    | Some (ts1, _), _, _ => (* 4.4.1 *)
      pop ts1 c (fun vs c => or_trap (mach_num M i vs) (fun r => push r (c_stack c) c))
    | _, Some _, _ => (* 4.4.4 *)
      found (nth_error (s_mems (c_store c)) 0) (fun mm =>
        pop1 T_I32 c (fun a c => or_trap (mach_load M i mm a) (fun v => push [v] (c_stack c) c)))
    | _, _, Some (_, _, t) =>
      found (nth_error (s_mems (c_store c)) 0) (fun mm =>
        pop1 t c (fun v c => pop1 T_I32 c (fun a c =>
          or_trap (mach_store M i mm a v) (fun mm' =>
            R_Normal (with_store c (mkStore (s_globals (c_store c)) (s_tables (c_store c)) (set_nth 0 mm' (s_mems (c_store c)))))))))
    | _, _, _ =>
      match i with
      | I_Unreachable => R_Trap
      | I_Nop => R_Normal c
      (* 4.4.2 *)
      | I_Drop => match c_stack c with _ :: vs => R_Normal (with_stack c vs) | [] => R_Stuck end
      | I_Select => pop1 T_I32 c (fun z c =>
          match c_stack c with
          | v2 :: v1 :: vs =>
            if valtys_same [type_of v1] [type_of v2] then push [if is_zero z then v2 else v1] vs c else R_Stuck
          | _ => R_Stuck
          end)
      (* 4.4.3 *)
      | I_LocalGet x => found (at_N (c_vars c) x) (fun v => push [v] (c_stack c) c)
      | I_LocalSet x => found (at_N (c_vars c) x) (fun old => pop1 (type_of old) c (fun v c =>
          R_Normal (with_vars c (set_nth (N.to_nat x) v (c_vars c)))))
      | I_LocalTee x => found (at_N (c_vars c) x) (fun old => pop1 (type_of old) c (fun v c =>
          push [v] (c_stack c) (with_vars c (set_nth (N.to_nat x) v (c_vars c)))))
      | I_GlobalGet x => found (at_N (s_globals (c_store c)) x) (fun v => push [v] (c_stack c) c)
      | I_GlobalSet x => found (at_N (s_globals (c_store c)) x) (fun old => pop1 (type_of old) c (fun v c =>
          R_Normal (with_store c (mkStore (set_nth (N.to_nat x) v (s_globals (c_store c))) (s_tables (c_store c)) (s_mems (c_store c))))))
      (* 4.4.4 *)
      | I_MemSize x => found (at_N (s_mems (c_store c)) x) (fun mm => push [mach_size M mm] (c_stack c) c)
      | I_MemGrow x => found (at_N (s_mems (c_store c)) x) (fun mm => pop1 T_I32 c (fun v c =>
          let mr := mach_grow M mm v in
          push [snd mr] (c_stack c)
            (with_store c (mkStore (s_globals (c_store c)) (s_tables (c_store c)) (set_nth (N.to_nat x) (fst mr) (s_mems (c_store c)))))))
      (* 4.4.5 *)
      | I_Block rt b =>
        run_block rt (c_stack c) (leave rt (c_stack c)) (run_seq (exec n (rt :: labels) ret) b (with_stack c []))
      | I_Loop rt b =>
        run_block rt (c_stack c) (fun vs c' => match vs with [] => exec n labels ret i (with_stack c' (c_stack c)) | _ => R_Stuck end)
                  (run_seq (exec n ([] :: labels) ret) b (with_stack c []))
      | I_If rt b1 b2 => pop1 T_I32 c (fun z c =>
          run_block rt (c_stack c) (leave rt (c_stack c))
                    (run_seq (exec n (rt :: labels) ret) (if is_zero z then b2 else b1) (with_stack c [])))
      | I_Br l => branch labels l c
      | I_BrIf l => pop1 T_I32 c (fun z c => if is_zero z then R_Normal c else branch labels l c)
      | I_BrTable ls l => pop1 T_I32 c (fun z c => branch labels (nth (N.to_nat (bits_of z)) ls l) c)
      | I_Return => pop ret c (fun vs c => R_Return vs (c_store c))
      | I_Call x => found (at_N funcs x) (fun f => call f c)
      | I_CallIndirect x y => found (at_N (s_tables (c_store c)) y) (fun tb => found (at_N types x) (fun ft =>
          pop1 T_I32 c (fun z c =>
            or_trap (match at_N tb (bits_of z) with Some (Some a) => Some a | _ => None end) (fun a =>
              found (nth_error funcs a) (fun f =>
                if functy_same (finst_type f) ft then call f c else R_Trap)))))
      | _ => R_Stuck
      end
    end
  end.

(** 4.5.5 Invocation of the function at address [a]; the results are on the stack *)
Definition invoke (fuel : nat) (a : nat) (args : list value) (st : store M) : result :=
  exec fuel [] [] (I_Call (N.of_nat a)) (mkConf (rev args) [] st).
End Exec.

(** ** 4.5.4 Instantiation *)
(** the value of a constant expression, if it has one *)
Definition eval_init {M} (st : store M) (e : constexpr) : option value :=
  match run_seq M (exec M [] [] 1 [] []) e (mkConf [] [] st) with
  | R_Normal c => match c_stack c with [v] => Some v | _ => None end
  | _ => None
  end.
Inductive inst_result (M : machine) := Inst_Ok (st : store M) | Inst_Fail | Inst_Stuck | Inst_Fuel.
Arguments Inst_Ok {M}. Arguments Inst_Fail {M}. Arguments Inst_Stuck {M}. Arguments Inst_Fuel {M}.
Fixpoint all_some {A B} (f : A -> option B) (xs : list A) : option (list B) :=
  match xs with
  | [] => Some []
  | x :: xs' => match f x, all_some f xs' with Some y, Some ys => Some (y :: ys) | _, _ => None end
  end.
(** writes an element segment at offset [v]; None: out of bounds *)
Definition write_elem (tb : list (option nat)) (v : value) (xs : list funcidx) : option (list (option nat)) :=
  let off := N.to_nat (bits_of v) in
  if Nat.leb (off + length xs) (length tb)
  then Some (firstn off tb ++ map (fun x => Some (N.to_nat x)) xs ++ skipn (off + length xs) tb) else None.
Fixpoint init_elems {M} (es : list elem) (st : store M) : inst_result M :=
  match es with
  | [] => Inst_Ok st
  | e :: es' =>
    match eval_init st (el_offset e), at_N (s_tables st) (el_table e) with
    | Some v, Some tb =>
      match write_elem tb v (el_init e) with
      | Some tb' => init_elems es' (mkStore (s_globals st) (set_nth (N.to_nat (el_table e)) tb' (s_tables st)) (s_mems st))
      | None => Inst_Fail
      end
    | _, _ => Inst_Stuck
    end
  end.
Fixpoint init_datas {M} (ds : list data) (st : store M) : inst_result M :=
  match ds with
  | [] => Inst_Ok st
  | d :: ds' =>
    match eval_init st (da_offset d), at_N (s_mems st) (da_mem d) with
    | Some v, Some mm =>
      match mach_init M mm v (da_init d) with
      | Some mm' => init_datas ds' (mkStore (s_globals st) (s_tables st) (set_nth (N.to_nat (da_mem d)) mm' (s_mems st)))
      | None => Inst_Fail
      end
    | _, _ => Inst_Stuck
    end
  end.
Definition run_start {M} (m : module) (fs : list (finst M)) (fuel : nat) (st : store M) : inst_result M :=
  match m_start m with
  | None => Inst_Ok st
  | Some s =>
    match invoke M (m_types m) fs fuel (N.to_nat (st_func s)) [] st with
    | R_Normal c => Inst_Ok (c_store c)
    | R_Trap => Inst_Fail
    | R_Fuel => Inst_Fuel
    | _ => Inst_Stuck
    end
  end.
(** [imp]: the imported globals, tables and memories; [fs]: all functions.  The initialisers of globals see the
    imported globals only. *)
Definition instantiate {M} (m : module) (imp : store M) (fs : list (finst M)) (fuel : nat) : inst_result M :=
  match all_some (fun g => eval_init imp (glob_init g)) (m_globals m) with
  | None => Inst_Stuck
  | Some vs =>
    let st := mkStore (s_globals imp ++ vs)
                      (s_tables imp ++ map (fun t => repeat None (N.to_nat (lim_min (tt_lim (tab_ty t))))) (m_tables m))
                      (s_mems imp ++ map (fun x => mach_new M (mem_ty x)) (m_mems m)) in
    match init_elems (m_elem m) st with
    | Inst_Ok st => match init_datas (m_data m) st with Inst_Ok st => run_start m fs fuel st | r => r end
    | r => r
    end
  end.

(** ** What it means to be safe *)
(** 4.5.2: a store that fits the context [C] of a module; function addresses are below [n] *)
Record store_ok {M} (C : tenv) (n : nat) (st : store M) : Prop := {
  so_globals : map type_of (s_globals st) = map gt_val (te_globals C);
  so_tables : length (s_tables st) = length (te_tables C);
  so_mems : length (s_mems st) = length (te_mems C);
  so_entries : Forall (Forall (fun e => forall a, e = Some a -> (a < n)%nat)) (s_tables st);
}.
(** immutable globals keep their values *)
Definition same_constants {M} (C : tenv) (st st' : store M) : Prop :=
  forall x g, at_index (te_globals C) x g -> gt_mut g = Const -> at_N (s_globals st') x = at_N (s_globals st) x.
(** host functions respect types, the store and immutability *)
Definition host_ok {M} (C : tenv) (n : nat) (f : finst M) : Prop :=
  match f with
  | F_Wasm _ _ => False
  | F_Host t h => forall st args st' r, store_ok C n st -> map type_of args = ft_params t -> h st args = Some (st', r) ->
      map type_of r = ft_results t /\ store_ok C n st' /\ same_constants C st st'
  end.
(** the functions of an instance of [m]: imported ones, those of the module, and any others (the entries of tables
    may refer to functions of other modules) *)
Definition instance_funcs {M} (m : module) (fts : list functy) (imported others : list (finst M)) : list (finst M) :=
  imported ++ map (fun p => F_Wasm (fst p) (snd p)) (combine (skipn (length imported) fts) (m_funcs m)) ++ others.
(** calling function [a] with arguments of its types gives results of its types, traps or runs forever *)
Definition safe_call {M} (C : tenv) (types : list functy) (fs : list (finst M)) (st : store M) : Prop :=
  forall fuel a f args, nth_error fs a = Some f -> map type_of args = ft_params (finst_type f) ->
    match invoke M types fs fuel a args st with
    | R_Normal c => map type_of (rev (c_stack c)) = ft_results (finst_type f) /\ store_ok C (length fs) (c_store c) /\ same_constants C st (c_store c)
    | R_Trap | R_Fuel => True
    | R_Branch _ _ _ | R_Return _ _ | R_Stuck => False
    end.

(** imports that fit the import section of [m] *)
Definition imports_fit {M} (m : module) (n : nat) (imp : store M) : Prop :=
  store_ok (mkTenv [] [] (imported_tables (m_imports m)) (imported_mems (m_imports m)) (imported_globals (m_imports m)) [] [] None) n imp.
