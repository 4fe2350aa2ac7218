(** The time that reading an accepted file takes, to the step, from what the file says. *)
From Verif Require Export SpecFormat SpecEncoder.
Open Scope N_scope.

Definition len {A} (xs : list A) : N := N.of_nat (length xs).
(** [takes A]: the bytes of a value, the value, and how many steps reading it takes besides one for each byte. *)
Definition takes (A : Type) : Type := list byte -> A -> N -> Prop.
(** no others, or a number of others that depends on the value *)
Definition takes_just {A} (E : format A) (others : A -> N) : takes A := fun bs x k => E bs x /\ k = others x.
Definition no_others {A} (x : A) : N := 0.
Section Steps.
Local Notation W := whasm_format.

(** one after the other, with a round of a loop and a push for each *)
Inductive each {A} (R : takes A) : takes (list A) :=
| T_none : each R [] [] 0
| T_next b x k bs xs k' : R b x k -> each R bs xs k' -> each R (b ++ bs) (x :: xs) (k + 2 + k').
Definition vec_takes {A} (R : takes A) : takes (list A) := fun bs xs k =>
  exists n es, bs = n ++ es /\ enc_u32 W n (len xs) /\ each R es xs k.
(** Each byte behind a size goes through two adapters more. *)
Definition sized_takes {A} (R : takes A) : takes A := fun bs x k =>
  exists n content e, bs = n ++ content /\ enc_u32 W n (len content) /\ R content x e /\ k = e + 2 * len content.
(** A name is a vector of bytes, each of which is looked at once more. *)
Definition name_others (n : name) : N := 3 * len n.
Definition functy_takes : takes functy := takes_just (enc_functy W) (fun t => 2 * (len (ft_params t) + len (ft_results t))).
Definition import_takes : takes import := takes_just (enc_import W) (fun i => name_others (im_module i) + name_others (im_name i)).
Definition export_takes : takes export := takes_just (enc_export W) (fun e => name_others (ex_name e)).
(** The rest of a custom section is counted by asking until there is no more: once too often, through two adapters. *)
Definition custom_takes : takes (name * list byte) := takes_just (enc_custom W) (fun c => name_others (fst c) + 3).

(** An instruction takes a round and a push, the end of a sequence a round, the result of a block a push. *)
Inductive instr_takes : takes instr :=
| T_block rt is rtb isb k : enc_blockty rtb rt -> code_takes isb is k -> instr_takes (x02 :: rtb ++ isb ++ [x0b]) (I_Block rt is) (len rt + k + 1)
| T_loop rt is rtb isb k : enc_blockty rtb rt -> code_takes isb is k -> instr_takes (x03 :: rtb ++ isb ++ [x0b]) (I_Loop rt is) (len rt + k + 1)
| T_if rt is rtb isb k : enc_blockty rtb rt -> code_takes isb is k -> instr_takes (x04 :: rtb ++ isb ++ [x0b]) (I_If rt is []) (len rt + k + 1)
| T_else rt is is' rtb isb isb' k k' : enc_blockty rtb rt -> code_takes isb is k -> code_takes isb' is' k' ->
    instr_takes (x04 :: rtb ++ isb ++ [x05] ++ isb' ++ [x0b]) (I_If rt is is') (len rt + (k + 1) + (k' + 1))
| T_table ls l bs : enc_instr W bs (I_BrTable ls l) -> instr_takes bs (I_BrTable ls l) (2 * len ls)
| T_other i bs : enc_instr W bs i -> (forall rt is, i <> I_Block rt is) -> (forall rt is, i <> I_Loop rt is) -> (forall rt is is', i <> I_If rt is is') ->
    (forall ls l, i <> I_BrTable ls l) -> instr_takes bs i 0
with code_takes : takes (list instr) :=
| T_nothing : code_takes [] [] 0
| T_instr i is ib isb k k' : instr_takes ib i k -> code_takes isb is k' -> code_takes (ib ++ isb) (i :: is) (k + 2 + k').
Definition expr_takes : takes expr := fun bs e k => exists isb k', bs = isb ++ [x0b] /\ code_takes isb e k' /\ k = k' + 1.

(** A round for each group of local variables *)
Definition body_takes : takes code := fun bs c k =>
  exists rb eb groups k', bs = rb ++ eb /\ enc_vec W (enc_run W) rb groups /\ fst c = expand_runs groups /\ expr_takes eb (snd c) k' /\ k = len groups + k'.
Definition global_takes : takes global := fun bs g k =>
  exists tb eb, bs = tb ++ eb /\ enc_globalty tb (glob_ty g) /\ expr_takes eb (glob_init g) k.
Definition elem_takes : takes elem := fun bs e k =>
  exists xb ob ib k', bs = xb ++ ob ++ ib /\ enc_u32 W xb (el_table e) /\ expr_takes ob (el_offset e) k' /\ enc_vec W (enc_u32 W) ib (el_init e) /\
    k = k' + 2 * len (el_init e).
Definition data_takes : takes data := fun bs d k =>
  exists xb ob ib k', bs = xb ++ ob ++ ib /\ enc_u32 W xb (da_mem d) /\ expr_takes ob (da_offset d) k' /\ enc_vec W enc_byte ib (da_init d) /\
    k = k' + 2 * len (da_init d).
(** Each function is given its type in a round. *)
Definition codes_take : takes (list code) := fun bs cs k =>
  exists k', sized_takes (vec_takes (sized_takes body_takes)) bs cs k' /\ k = k' + len cs.
Definition contents_take (bs : list byte) (s : section) : N -> Prop :=
  match s with
  | S_Custom c => sized_takes custom_takes bs c
  | S_Type v => sized_takes (vec_takes functy_takes) bs v
  | S_Import v => sized_takes (vec_takes import_takes) bs v
  | S_Function v => sized_takes (vec_takes (takes_just (enc_u32 W) no_others)) bs v
  | S_Table v => sized_takes (vec_takes (takes_just (enc_table W) no_others)) bs v
  | S_Memory v => sized_takes (vec_takes (takes_just (enc_mem W) no_others)) bs v
  | S_Global v => sized_takes (vec_takes global_takes) bs v
  | S_Export v => sized_takes (vec_takes export_takes) bs v
  | S_Start v => sized_takes (takes_just (enc_start W) no_others) bs v
  | S_Element v => sized_takes (vec_takes elem_takes) bs v
  | S_Code v => codes_take bs v
  | S_Data v => sized_takes (vec_takes data_takes) bs v
  end.
(** A section takes a round.  Behind the preamble each byte goes through an adapter that looks ahead; at the end there are a round,
    a call of that adapter, and one of the iterator. *)
Inductive sections_take : takes (list section) :=
| T_over : sections_take [] [] 3
| T_section id bs s k rest ss k' : Byte.to_N id = section_id s -> contents_take bs s k -> sections_take rest ss k' ->
    sections_take (id :: bs ++ rest) (s :: ss) (1 + len (id :: bs) + k + k').
(** All the steps of reading a file *)
Definition file_takes (bs : list byte) (secs : list section) (total : N) : Prop :=
  exists body k, bs = preamble ++ body /\ sections_take body secs k /\ total = len bs + k.
End Steps.

(** A file with [k] instructions that do nothing: every byte of them goes through everything. *)
Definition busy (k : nat) : list byte :=
  preamble ++ [x01; x04; x01; x60; x00; x00; x03; x02; x01; x00] ++ x0a :: e_sized (x01 :: e_sized (x00 :: repeat x01 k ++ [x0b])).
