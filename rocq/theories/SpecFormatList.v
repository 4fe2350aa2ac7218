(** The four places where the binary format that whasm reads is wider than the official one, one at a time (C80).
    Independent of the model of the parser. *)
From Verif Require Export SpecFormat.
Open Scope N_scope.

(** what both dialects allow *)
Definition meet (d d' : fdialect) : fdialect := {|
  fd_int_len := fun size len => fd_int_len d size len /\ fd_int_len d' size len;
  fd_reserved := fun bs => fd_reserved d bs /\ fd_reserved d' bs;
  fd_locals := fun n => fd_locals d n /\ fd_locals d' n;
  fd_missing_code := fd_missing_code d /\ fd_missing_code d' |}.

(** the format of whasm with one of the four restrictions of the official one put back: an integer of [size] bits takes
    at most [size / 7] bytes, rounded up *)
Definition short_integers : fdialect := {|
  fd_int_len := fun size len => 7 * N.of_nat len < size + 7;
  fd_reserved := fun _ => True; fd_locals := fun _ => True; fd_missing_code := True |}.
(** the reserved index of call_indirect, memory.size and memory.grow is a single zero byte *)
Definition zero_reserved : fdialect := {|
  fd_int_len := fun _ _ => True;
  fd_reserved := fun bs => bs = [x00];
  fd_locals := fun _ => True; fd_missing_code := True |}.
(** a function has fewer than 2^32 locals *)
Definition bounded_locals : fdialect := {|
  fd_int_len := fun _ _ => True; fd_reserved := fun _ => True;
  fd_locals := fun n => N.of_nat n < 2 ^ 32;
  fd_missing_code := True |}.
(** without a code section no function is declared *)
Definition present_code : fdialect := {|
  fd_int_len := fun _ _ => True; fd_reserved := fun _ => True; fd_locals := fun _ => True;
  fd_missing_code := False |}.

(** the official format with one of the four relaxed *)
Definition any_integers : fdialect := {|
  fd_int_len := fun _ _ => True; fd_reserved := fun bs => bs = [x00];
  fd_locals := fun n => N.of_nat n < 2 ^ 32; fd_missing_code := False |}.
Definition any_reserved : fdialect := {|
  fd_int_len := fun size len => N.of_nat len <= (size + 6) / 7; fd_reserved := fun _ => True;
  fd_locals := fun n => N.of_nat n < 2 ^ 32; fd_missing_code := False |}.
Definition any_locals : fdialect := {|
  fd_int_len := fun size len => N.of_nat len <= (size + 6) / 7; fd_reserved := fun bs => bs = [x00];
  fd_locals := fun _ => True; fd_missing_code := False |}.
Definition any_code : fdialect := {|
  fd_int_len := fun size len => N.of_nat len <= (size + 6) / 7; fd_reserved := fun bs => bs = [x00];
  fd_locals := fun n => N.of_nat n < 2 ^ 32; fd_missing_code := True |}.

(** as many bodies as declared functions *)
Definition all_bodies (bs : list byte) : Prop := exists body secs,
  bs = preamble ++ body /\ enc_list (enc_section whasm_format) body secs /\
  length (flat_map sec_codes secs) = length (flat_map sec_typeidxs secs).
