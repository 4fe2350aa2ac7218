(** Property theorem C63: errors are reported at the first offending byte. *)
From Coq Require Import String.
From Verif Require Import ParserModule SpecFormat SpecPrompt PromptProof.
Import ListNotations.
Open Scope list_scope.
Open Scope N_scope.

(** C63, for what the parser itself accepts, *)
Theorem C63_prompt : forall A (p : parser A), plain A p -> prompt (whole p) p.
Proof. exact plain_prompt. Qed.
Print Assumptions C63_prompt.
(** and for the formats of code and of what contains code. *)
Theorem C63_code :
  prompt (encodes (enc_expr whasm_format)) p_expr /\
  prompt (fun l => encodes (enc_instr whasm_format) l \/ l = [x05] \/ l = [x0b]) p_instr_top /\
  prompt (encodes (enc_func whasm_format)) p_func /\
  prompt (encodes (enc_functy whasm_format)) p_functy /\
  prompt (encodes (enc_global whasm_format)) p_global /\
  prompt (encodes (enc_elem whasm_format)) p_elem /\
  prompt (encodes (enc_data whasm_format)) p_data /\
  prompt (encodes (enc_vec whasm_format (enc_table whasm_format))) (p_vec p_table).
Proof. exact code_prompt. Qed.
Print Assumptions C63_code.
(** The other elements are reported late: a name that cannot become valid is read on until its announced
    end, and an announced size that is too small is reported as the end of the input, in its middle. *)
Theorem C63_names_late : exists bs, p_string bs = (Err UnexpectedEndOfFile, []) /\ ~ begins (whole p_string) bs.
Proof. exact names_late. Qed.
Print Assumptions C63_names_late.
Theorem C63_sizes_late : exists bs rest, p_sized p_elemty (bs ++ rest) = (Err UnexpectedEndOfFile, rest) /\ rest <> [] /\
  ~ begins (whole (p_sized p_elemty)) bs.
Proof. exact sizes_late. Qed.
Print Assumptions C63_sizes_late.

(** A block that is closed with [else] instead of [end]: the bytes in front can be completed, the [else]
    is what stops the parser, and what comes after it has not been read. *)
Example C63_else_in_block :
  p_expr ([x41; x01; x02; x40; x01] ++ x05 :: [x0b; x0b]) = (Err (UnexpectedOpcode "Else"), [x0b; x0b]) /\
  (exists a, p_expr ([x41; x01; x02; x40; x01] ++ [x0b; x0b]) = (Ok a, [])) /\
  p_expr [x41; x01; x02; x40; x01] = (Err UnexpectedEndOfFile, []).
Proof. repeat split. eexists. reflexivity. Qed.
(** The fifth byte of a 32-bit number announces more than fits. *)
Example C63_number : p_u32 ([x80; x80; x80; x80] ++ x10 :: [x0b]) = (Err OutOfRangeUnsignedInteger, [x0b]).
Proof. reflexivity. Qed.
