(** A small machine, and modules to run on it. *)
From Verif Require Import SpecExec SpecVerdict ParserModule SpecFormat ModuleClaims2 ValidityWitnesses DeviationProof InstProof.
Open Scope N_scope.

(** some arithmetic on i32; everything else gives 0 *)
Definition demo_num (i : instr) (vs : list N) : N :=
  let w := 2 ^ 32 in
  match i, vs with
  | I_ConstI32 a, [] => Z.to_N (a mod 2 ^ 32)%Z
  | I_I32Add, [a; b] => (a + b) mod w
  | I_I32Sub, [a; b] => (a + w - b) mod w
  | I_I32Mul, [a; b] => (a * b) mod w
  | I_I32Eqz, [a] => if a =? 0 then 1 else 0
  | _, _ => 0
  end.
(** memories are lists of bytes given by their numbers; only byte-sized accesses do something *)
Definition demo_machine : machine := {|
  memory := list N;
  mach_num := fun i vs => match plain_type i with Some (_, ts) => Some (map (fun t => mkValue t (demo_num i (map bits_of vs))) ts) | None => None end;
  mach_load := fun i mm a => match load_type i with Some (_, _, t) => option_map (fun b => mkValue t b) (at_N mm (bits_of a)) | None => None end;
  mach_store := fun i mm a v => match at_N mm (bits_of a) with Some _ => Some (set_nth (N.to_nat (bits_of a)) (bits_of v mod 256) mm) | None => None end;
  mach_size := fun mm => mkValue T_I32 (N.of_nat (length mm));
  mach_grow := fun mm _ => (mm, mkValue T_I32 (2 ^ 32 - 1));
  mach_new := fun _ => repeat 0 16;
  mach_init := fun mm a bs =>
    let off := N.to_nat (bits_of a) in
    if Nat.leb (off + length bs) (length mm) then Some (firstn off mm ++ map Byte.to_N bs ++ skipn (off + length bs) mm) else None;
|}.
Lemma demo_machine_ok : machine_ok demo_machine.
Proof.
  split; cbn.
  - intros i ts1 ts2 vs r E _. rewrite E. intros [= <-]. rewrite map_map. cbn. apply map_id.
  - intros i ts E. rewrite E. discriminate.
  - intros i a n t mm v r E. rewrite E. destruct (at_N mm (bits_of v)); [|discriminate]. intros [= <-]. reflexivity.
  - reflexivity.
  - reflexivity.
Qed.

(** the same, but every numeric instruction with operands traps *)
Definition trapping_machine : machine := {|
  memory := list N;
  mach_num := fun i vs => match vs with [] => mach_num demo_machine i [] | _ => None end;
  mach_load := mach_load demo_machine;
  mach_store := mach_store demo_machine;
  mach_size := mach_size demo_machine;
  mach_grow := mach_grow demo_machine;
  mach_new := mach_new demo_machine;
  mach_init := mach_init demo_machine;
|}.
Lemma trapping_machine_ok : machine_ok trapping_machine.
Proof.
  destruct demo_machine_ok as [A B C D E]. split; cbn [trapping_machine mach_num mach_load mach_size mach_grow memory]; try assumption.
  intros i ts1 ts2 [|v vs] r P T; [apply (A i _ _ [] r P T)|discriminate].
Qed.

(** n! by calling itself through the table; the start function stores 5! in global 0 *)
Definition fac_body : expr :=
  [I_LocalGet 0; I_I32Eqz;
   I_If [T_I32] [I_ConstI32 1%Z]
     [I_LocalGet 0; I_LocalGet 0; I_ConstI32 1%Z; I_I32Sub; I_ConstI32 2%Z; I_CallIndirect 0 0; I_I32Mul]].
(** n! by a loop; the byte at address 3 counts the rounds *)
Definition loop_body : expr :=
  [I_ConstI32 1%Z; I_LocalSet 1;
   I_Block [] [I_Loop [] [I_LocalGet 0; I_I32Eqz; I_BrIf 1;
     I_ConstI32 3%Z; I_ConstI32 3%Z; I_I32Load8U 0 0; I_ConstI32 1%Z; I_I32Add; I_I32Store8 0 0;
     I_LocalGet 0; I_LocalGet 1; I_I32Mul; I_LocalSet 1;
     I_LocalGet 0; I_ConstI32 1%Z; I_I32Sub; I_LocalSet 0; I_Br 0]];
   I_LocalGet 1].
Definition fac_module : module := {|
  m_types := [mkFuncTy [T_I32] [T_I32]; mkFuncTy [] []];
  m_funcs := [mkFunc 0 [] fac_body; mkFunc 0 [T_I32] loop_body; mkFunc 1 [] [I_ConstI32 5%Z; I_Call 0; I_GlobalSet 0]];
  m_tables := [mkTable (mkTableTy (mkLimits 4 None) FuncRef)];
  m_mems := [mkMem (mkMemTy (mkLimits 1 None))];
  m_globals := [mkGlobal (mkGlobalTy Var T_I32) [I_ConstI32 7%Z]];
  m_elem := [mkElem 0 [I_ConstI32 2%Z] [0; 2]];
  m_data := [mkData 0 [I_ConstI32 3%Z] [x64]];
  m_start := Some (mkStart 2);
  m_imports := []; m_exports := [] |}.
Definition fac_fts : list functy := [mkFuncTy [T_I32] [T_I32]; mkFuncTy [T_I32] [T_I32]; mkFuncTy [] []].
Definition fac_funcs : list (finst demo_machine) := instance_funcs fac_module fac_fts [] [].
Definition empty_store : store demo_machine := mkStore [] [] [].
Definition fac_store : store demo_machine :=
  match instantiate fac_module empty_store fac_funcs 30 with Inst_Ok st => st | _ => empty_store end.
Definition seen_store (r : inst_result demo_machine) : option (list value * list (list (option nat)) * list (list N)) :=
  match r with Inst_Ok st => Some (s_globals st, s_tables st, s_mems st) | _ => None end.
Definition seen_run (r : result demo_machine) : option (list value * list (list N)) :=
  match r with R_Normal c => Some (c_stack c, s_mems (c_store c)) | _ => None end.
Lemma fac_runs :
  accepted fac_module /\
  seen_store (instantiate fac_module empty_store fac_funcs 30) =
    Some ([mkValue T_I32 120], [[None; None; Some 0%nat; Some 2%nat]], [[0; 0; 0; 100; 0; 0; 0; 0; 0; 0; 0; 0; 0; 0; 0; 0]]) /\
  seen_run (invoke demo_machine (m_types fac_module) fac_funcs 40 1 [mkValue T_I32 6] fac_store) =
    Some ([mkValue T_I32 720], [[0; 0; 0; 106; 0; 0; 0; 0; 0; 0; 0; 0; 0; 0; 0; 0]]).
Proof.
  split; [eexists; vm_compute; reflexivity|]. split; vm_compute; reflexivity.
Qed.

(** rejected code does get stuck *)
Definition is_stuck {M} (r : result M) : bool := match r with R_Stuck => true | _ => false end.
Definition bad_call (body : expr) : bool := is_stuck (
  invoke demo_machine [] [F_Wasm (mkFuncTy [] [T_I32]) (mkFunc 0 [] body)] 5 0 [] empty_store).
Lemma bad_code_stuck :
  map bad_call [[I_I32Add]; [I_ConstI64 1%Z]; [I_ConstI32 1%Z; I_LocalSet 0]; [I_Br 3]; [I_ConstI32 1%Z; I_ConstI32 1%Z]; [I_ConstI32 0%Z; I_I32Load 2 0]; [I_Call 1]]
  = repeat true 7.
Proof. vm_compute. reflexivity. Qed.

(** ** Refutations *)
(** a global that is initialised with its own value *)
Lemma self_init_stuck : exists m, accepted m /\ (forall f, In f (m_funcs m) -> no_pseudo (fn_body f)) /\
  forall M n (imp : store M) fs fuel, imports_fit m n imp -> instantiate m imp fs fuel = Inst_Stuck.
Proof.
  exists self_init. split; [eexists; vm_compute; reflexivity|]. split; [intros f []|]. intros M n imp fs fuel [IG _ _ _]. cbn in IG.
  destruct (s_globals imp) as [|v vs] eqn:E; [|discriminate]. unfold instantiate. cbn [self_init m_globals all_some self_global glob_init].
  unfold eval_init. cbn [run_seq exec plain_type load_type store_type c_store]. rewrite E. reflexivity.
Qed.
(** the pseudo instruction [Else], which no file contains *)
Lemma stray_else_stuck : exists m f, accepted m /\ In f (m_funcs m) /\
  forall M fs st, exec M (m_types m) fs 5 [] [] (I_Block [T_I32] (fn_body f)) (mkConf [] [] st) = R_Stuck \/ mach_num M (I_ConstI32 1%Z) [] = None.
Proof.
  exists stray_else. eexists. split; [eexists; vm_compute; reflexivity|]. split; [left; reflexivity|]. intros M fs st.
  cbn [exec plain_type load_type store_type fn_body run_seq with_stack c_stack]. unfold pop. cbn [take length firstn rev map valtys_same skipn c_stack].
  destruct (mach_num M (I_ConstI32 1%Z) []) as [r|]; [left|right; reflexivity]. reflexivity.
Qed.

(** ** Files *)
Lemma file_no_pseudo bs m f : p_module bs = (Ok m, []) -> In f (m_funcs m) -> no_pseudo (fn_body f).
Proof.
  intros P I. assert (W : well_nested (fn_body f)) by (eapply parsed_module_nested; [exact P|]; unfold module_exprs; apply in_or_app; left; apply in_map; assumption).
  destruct W as (A & B & _). split; assumption.
Qed.
Theorem file_safe bs m : p_module bs = (Ok m, []) -> accepted m ->
  exists fts, func_space m fts /\ forall M imported others st, machine_ok M ->
    let fs := instance_funcs m fts imported others in
    let C := module_env m fts in
    map finst_type imported = firstn (length (imported_funcs (m_imports m))) fts ->
    Forall (host_ok C (length fs)) imported -> Forall (host_ok C (length fs)) others ->
    store_ok C (length fs) st -> safe_call (M:=M) C (m_types m) fs st.
Proof. intros P A. apply accepted_safe; [assumption|]. intros f I. eapply file_no_pseudo; eassumption. Qed.

(** an accepted file that is also officially valid *)
Theorem official_instantiates bs m : p_module bs = (Ok m, []) -> accepted m -> valid_module wasm10_validity m ->
  exists fts, func_space m fts /\ forall M imported others imp fuel, machine_ok M ->
    let fs := instance_funcs m fts imported others in
    let C := module_env m fts in
    map finst_type imported = firstn (length (imported_funcs (m_imports m))) fts ->
    Forall (host_ok C (length fs)) imported -> Forall (host_ok C (length fs)) others ->
    imports_fit (M:=M) m (length fs) imp ->
    match instantiate m imp fs fuel with
    | Inst_Ok st => store_ok C (length fs) st
    | Inst_Fail | Inst_Fuel => True
    | Inst_Stuck => False
    end.
Proof.
  intros P A V. assert (NP : forall f, In f (m_funcs m) -> no_pseudo (fn_body f)) by (intros f I; eapply file_no_pseudo; eassumption).
  apply accepted_instantiates; [assumption|assumption|]. apply (accepted_exact m A NP) in V. destruct V as (_ & R & _).
  intros g x I E. destruct (R g x I E) as (t & L & _ & T). exists t. split; assumption.
Qed.

(** ** Calls that are not safe *)
Definition one_global : store demo_machine := mkStore [mkValue T_I32 1] [] [].
Definition one_env : tenv := globals_env [mkGlobalTy Const T_I32].
Definition host (h : store demo_machine -> store demo_machine) : finst demo_machine := F_Host (mkFuncTy [] []) (fun st _ => Some (h st, [])).
Lemma unsafe_calls :
  ~ safe_call one_env [] [@F_Wasm demo_machine (mkFuncTy [] []) (mkFunc 0 [] [I_Drop])] one_global /\
  ~ safe_call one_env [] [@F_Wasm demo_machine (mkFuncTy [] []) (mkFunc 0 [] [I_ConstI32 2%Z; I_GlobalSet 0])] one_global /\
  ~ safe_call one_env [] [host (fun _ => mkStore [] [] [])] one_global /\
  ~ safe_call one_env [] [host (fun _ => mkStore [mkValue T_I64 1] [] [])] one_global /\
  safe_call one_env [] [host (fun st => st)] one_global.
Proof.
  repeat split.
  - intros H. specialize (H 5%nat 0%nat _ [] eq_refl eq_refl). vm_compute in H. exact H.
  - intros H. specialize (H 5%nat 0%nat _ [] eq_refl eq_refl). cbn in H. destruct H as (_ & _ & H).
    specialize (H 0 _ eq_refl eq_refl). vm_compute in H. discriminate.
  - intros H. specialize (H 5%nat 0%nat _ [] eq_refl eq_refl). cbn in H. destruct H as (_ & [H _ _ _] & _). discriminate.
  - intros H. specialize (H 5%nat 0%nat _ [] eq_refl eq_refl). cbn in H. destruct H as (_ & [H _ _ _] & _). discriminate.
  - intros fuel a f args N T. destruct a as [|a]; [|destruct a; discriminate]. injection N as <-. destruct args; [|discriminate].
    destruct fuel; [exact I|]. cbn. split; [reflexivity|]. split; [split; [reflexivity|reflexivity|reflexivity|constructor]|]. intros x g _ _. reflexivity.
Qed.
