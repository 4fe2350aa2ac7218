(** Specification of integers in the WebAssembly binary format (LEB-128).
    Independent of the model of the parser. *)
From Verif Require Import Structure.
Open Scope N_scope.

(** A group sequence: every byte but the last has its top bit set. *)
Inductive leb : list byte -> Prop :=
| leb_last b : Byte.to_N b < 128 -> leb [b]
| leb_more b bs : 128 <= Byte.to_N b -> leb bs -> leb (b :: bs).

(** The payload of a byte: its low seven bits. *)
Definition payload (b : byte) : N := Byte.to_N b mod 128.

(** The unsigned value: base 128, least significant group first. *)
Fixpoint uleb_val (bs : list byte) : N :=
  match bs with
  | [] => 0
  | b :: bs' => payload b + 128 * uleb_val bs'
  end.

(** The signed value: the last group is a seven bit two's complement number. *)
Definition payload7s (b : byte) : Z :=
  if payload b <? 64 then Z.of_N (payload b) else (Z.of_N (payload b) - 128)%Z.
Fixpoint sleb_val (bs : list byte) : Z :=
  match bs with
  | [] => 0%Z
  | [b] => payload7s b
  | b :: bs' => (Z.of_N (payload b) + 128 * sleb_val bs')%Z
  end.

Definition fits_u (size v : N) : Prop := v < 2 ^ size.
Definition fits_s (size : N) (v : Z) : Prop :=
  (- 2 ^ (Z.of_N size - 1) <= v < 2 ^ (Z.of_N size - 1))%Z.

(** Encodings without length restriction (what whasm reads). *)
Definition enc_unsigned (size : N) (bs : list byte) (v : N) : Prop :=
  leb bs /\ uleb_val bs = v /\ fits_u size v.
Definition enc_signed (size : N) (bs : list byte) (v : Z) : Prop :=
  leb bs /\ sleb_val bs = v /\ fits_s size v.

(** The official grammar, WebAssembly 1.0 (5.2.2 Integers), transcribed:
    uN ::= n:byte => n            if n < 2^7 and n < 2^N
         | n:byte m:u(N-7) => 2^7 m + (n - 2^7)   if n >= 2^7 and N > 7 *)
Inductive wasm_u : N -> list byte -> N -> Prop :=
| wasm_u_last N b : Byte.to_N b < 128 -> Byte.to_N b < 2 ^ N -> wasm_u N [b] (Byte.to_N b)
| wasm_u_more N b bs m : 128 <= Byte.to_N b -> 7 < N -> wasm_u (N - 7) bs m ->
    wasm_u N (b :: bs) (128 * m + (Byte.to_N b - 128)).
(** sN ::= n:byte => n            if n < 2^6 and n < 2^(N-1)
         | n:byte => n - 2^7      if 2^6 <= n < 2^7 and n >= 2^7 - 2^(N-1)
         | n:byte m:s(N-7) => 2^7 m + (n - 2^7)   if n >= 2^7 and N > 7 *)
Inductive wasm_s : N -> list byte -> Z -> Prop :=
| wasm_s_pos N b : Byte.to_N b < 64 -> Byte.to_N b < 2 ^ (N - 1) ->
    wasm_s N [b] (Z.of_N (Byte.to_N b))
| wasm_s_neg N b : 64 <= Byte.to_N b < 128 ->
    (Z.of_N (Byte.to_N b) >= 128 - 2 ^ (Z.of_N N - 1))%Z ->
    wasm_s N [b] (Z.of_N (Byte.to_N b) - 128)
| wasm_s_more N b bs m : 128 <= Byte.to_N b -> 7 < N -> wasm_s (N - 7) bs m ->
    wasm_s N (b :: bs) (128 * m + (Z.of_N (Byte.to_N b) - 128)).
