(** Putting the body of a function in the place of a call of it. *)
From Verif Require Export SpecReplace SpecModule SpecExec.
Open Scope N_scope.

(** The body as code inside of another function: its variables are found [k] places further on; it is left by a branch to the
    block around it, which is [n] labels away. *)
Fixpoint moved (k n : N) (i : instr) : instr :=
  match i with
  | I_Block t b => I_Block t (map (moved k (n + 1)) b)
  | I_Loop t b => I_Loop t (map (moved k (n + 1)) b)
  | I_If t b c => I_If t (map (moved k (n + 1)) b) (map (moved k (n + 1)) c)
  | I_Return => I_Br n
  | I_LocalGet x => I_LocalGet (k + x)
  | I_LocalSet x => I_LocalSet (k + x)
  | I_LocalTee x => I_LocalTee (k + x)
  | i => i
  end.
Definition numbers (k : N) (n : nat) : list N := map (fun i => k + N.of_nat i) (seq 0 n).
Definition zero_const (t : valty) : instr :=
  match t with T_I32 => I_ConstI32 0%Z | T_I64 => I_ConstI64 0%Z | T_F32 => I_ConstF32 0 | T_F64 => I_ConstF64 0 end.
(** The arguments go into variables, the last one first; the other variables of the function begin as zero; then the body *)
Definition inlined (k : N) (t : functy) (g : func) : list instr :=
  map I_LocalSet (rev (numbers k (length (ft_params t)))) ++
  flat_map (fun xt => [zero_const (snd xt); I_LocalSet (fst xt)])
    (combine (numbers (k + N.of_nat (length (ft_params t))) (length (fn_locals g))) (fn_locals g)) ++
  [I_Block (ft_results t) (map (moved k 0) (fn_body g))].
(** [g], of type [t], is the function with this index *)
Definition own_func (m : module) (x : N) (t : functy) (g : func) : Prop :=
  exists y, N.to_nat x = (length (imported_funcs (m_imports m)) + y)%nat /\ nth_error (m_funcs m) y = Some g /\ at_index (m_types m) (fn_ty g) t.
(** A machine on which constants 0 are 0 *)
Record knows_zero (M : machine) : Prop := {
  kz_i32 : mach_num M (I_ConstI32 0%Z) [] = Some [mkValue T_I32 0]; kz_i64 : mach_num M (I_ConstI64 0%Z) [] = Some [mkValue T_I64 0];
  kz_f32 : mach_num M (I_ConstF32 0) [] = Some [mkValue T_F32 0]; kz_f64 : mach_num M (I_ConstF64 0) [] = Some [mkValue T_F64 0];
}.
