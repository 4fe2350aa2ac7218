(** Specification of UTF-8 (Unicode standard, D92; also WebAssembly 1.0, 5.2.4): the encoding of a
    sequence of Unicode scalar values. *)
From Verif Require Import Structure.
Open Scope N_scope.

(** Unicode scalar values: code points that are not surrogates *)
Definition scalar (c : N) : Prop := c < 0xD800 \/ (0xE000 <= c /\ c < 0x110000).

(** The bytes of one code point *)
Definition utf8_bytes (c : N) : list N :=
  if c <? 0x80 then [c]
  else if c <? 0x800 then [0xC0 + c / 64; 0x80 + c mod 64]
  else if c <? 0x10000 then [0xE0 + c / 4096; 0x80 + c / 64 mod 64; 0x80 + c mod 64]
  else [0xF0 + c / 262144; 0x80 + c / 4096 mod 64; 0x80 + c / 64 mod 64; 0x80 + c mod 64].

(** A byte string that is the UTF-8 encoding of some scalar values *)
Definition utf8 (bs : list byte) : Prop :=
  exists cs, Forall scalar cs /\ map Byte.to_N bs = flat_map utf8_bytes cs.
