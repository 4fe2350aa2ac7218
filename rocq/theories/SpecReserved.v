(** Which bytes are reserved in the places where the format has a tag. *)
From Verif Require Export SpecFormat.
Open Scope N_scope.

(** Opcodes that WebAssembly 1.0 does not assign (appendix "Index of Instructions") *)
Definition reserved_opcode (b : byte) : Prop :=
  let n := Byte.to_N b in
  0x06 <= n <= 0x0a \/ 0x12 <= n <= 0x19 \/ 0x1c <= n <= 0x1f \/ 0x25 <= n <= 0x27 \/ 0xc0 <= n.

(** Bytes in front of an instruction inside an expression: complete instructions, and the beginnings of
    blocks that are still open *)
Inductive code_prefix (fd : fdialect) : list byte -> Prop :=
| cp_instrs isb is : enc_instrs fd isb is -> code_prefix fd isb
| cp_block isb is rtb rt p : enc_instrs fd isb is -> enc_blockty rtb rt -> code_prefix fd p ->
    code_prefix fd (isb ++ x02 :: rtb ++ p)
| cp_loop isb is rtb rt p : enc_instrs fd isb is -> enc_blockty rtb rt -> code_prefix fd p ->
    code_prefix fd (isb ++ x03 :: rtb ++ p)
| cp_if isb is rtb rt p : enc_instrs fd isb is -> enc_blockty rtb rt -> code_prefix fd p ->
    code_prefix fd (isb ++ x04 :: rtb ++ p)
| cp_else isb is rtb rt b1 is1 p : enc_instrs fd isb is -> enc_blockty rtb rt -> enc_instrs fd b1 is1 ->
    code_prefix fd p -> code_prefix fd (isb ++ x04 :: rtb ++ b1 ++ x05 :: p).
