(** Property theorems C44-C45: reading a stream, one meaning per file. *)
From Coq Require Import String.
From Verif Require Import ParserModule SpecFormat SpecStream ElementSpec OnePass.
Open Scope N_scope.

(** C44 *)
Theorem C44_one_pass : (forall A (p : parser A), element A p -> one_pass p) /\ one_pass p_module.
Proof. exact all_one_pass. Qed.
Print Assumptions C44_one_pass.
Theorem C44_errors_final : forall pre r e, p_module (pre ++ r) = (Err e, r) -> r <> [] ->
  forall r' m, ~ enc_module whasm_format (pre ++ r') m.
Proof. exact dead_prefix. Qed.
Print Assumptions C44_errors_final.
(** the bad byte 0x61 inside of a section of 5 bytes, with more, other and no bytes behind it *)
Example C44_example : map (fun tl => p_module (preamble ++ [x01; x05; x01; x61] ++ tl)) [[x00; x00; x0a]; [xff]; []]
  = map (fun tl => (Err (InvalidVariantId x61 "ty::Func"), tl)) [[x00; x00; x0a]; [xff]; []].
Proof. vm_compute. reflexivity. Qed.

(** C45 *)
Theorem C45_one_reading : forall bs m, p_module bs = (Ok m, []) ->
  forall d m', d = whasm_format \/ d = wasm10_format -> enc_module d bs m' -> m' = m.
Proof. exact one_reading. Qed.
Print Assumptions C45_one_reading.
Theorem C45_code_prefix_free : forall p1 p2 r1 r2 e1 e2,
  enc_expr whasm_format p1 e1 -> enc_expr whasm_format p2 e2 -> p1 ++ r1 = p2 ++ r2 ->
  p1 = p2 /\ e1 = e2 /\ r1 = r2.
Proof. exact one_reading_expr. Qed.
Print Assumptions C45_code_prefix_free.
Example C45_example : exists m, p_module (preamble ++ [x05; x04; x01; x00; x81; x00]) = (Ok m, []) /\
  m_mems m = [mkMem (mkMemTy (mkLimits 1 None))].
Proof. eexists. split; vm_compute; reflexivity. Qed.
