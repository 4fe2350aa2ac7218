(** Memory asked for by the parser. *)
From Verif Require Import ParserAlloc.
Open Scope N_scope.

(** The elements for which room is asked in advance, in all *)
Fixpoint reserved (l : list event) : N :=
  match l with
  | [] => 0
  | Reserve _ n :: l' => n + reserved l'
  | Hold _ _ :: l' | Nest _ :: l' => reserved l'
  end.

(** What one request can be, when [len] bytes have been given to the parser *)
Definition request_ok (len : N) (e : event) : Prop :=
  match e with
  | Reserve _ n => n <= 2 ^ 32 - 1
  | Hold V_Instr n => n <= len
  | Hold V_Val n => 2 * n <= (2 ^ 32 - 1) * len
  | Hold _ _ => False
  | Nest n => 2 * n <= len
  end.

(** A host: [isize::MAX], and [std::mem::size_of] of the element types.  A vector of more bytes than [h_limit]
    is never given.  A vector that grows by pushes doubles, so that [2 * n] elements can be asked for when
    there are [n], and at least 8.
    The call stack: there is always room for calls nested [h_safe] deep, and never for more than [h_levels]
    (the frames of one level differ in size, depending on the instruction). *)
Record host := mkHost { h_limit : N; h_size : vkind -> N; h_safe : N; h_levels : N }.
Definition too_big (h : host) (e : event) : Prop :=
  match e with Reserve k n | Hold k n => h_limit h < n * h_size h k | Nest n => h_levels h < n end.
Definition fits (h : host) (e : event) : Prop :=
  match e with
  | Reserve k n => n * h_size h k <= h_limit h
  | Hold k n => (2 * n + 8) * h_size h k <= h_limit h
  | Nest n => n <= h_safe h
  end.
(** Code that is not nested too deeply, as far as the parser gets *)
Definition shallow (h : host) (bs : list byte) : Prop := forall n, In (Nest n) (requests bs) -> n <= h_safe h.
(** [allows] is what [h] answers, when there is enough memory for whatever fits *)
Definition answers (h : host) (allows : event -> bool) : Prop :=
  (forall e, too_big h e -> allows e = false) /\ (forall e, fits h e -> allows e = true).

(** 32-bit and 64-bit hosts.  Every element takes up some memory; a value type is one byte
    (an enumeration of four), a reference one word, and no element takes up 1 GiB. *)
Definition host32 (h : host) : Prop := h_limit h = 2 ^ 31 - 1 /\ h_size h V_Val = 1 /\ h_size h V_Ref = 4 /\ forall k, 1 <= h_size h k.
Definition host64 (h : host) : Prop := h_limit h = 2 ^ 63 - 1 /\ h_size h V_Val = 1 /\ h_size h V_Ref = 8 /\ forall k, h_size h k <= 2 ^ 30.
