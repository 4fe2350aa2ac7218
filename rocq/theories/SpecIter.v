(** What an iterator yields (for the claims about parsing from arbitrary iterators). *)
From Verif Require Import Structure.

(** Calling [next] once per byte of [l] yields exactly the bytes of [l] and leaves the state [s']. *)
Fixpoint yields {S : Type} (next : S -> option byte * S) (s : S) (l : list byte) (s' : S) : Prop :=
  match l with
  | [] => s = s'
  | b :: l' => exists s1, next s = (Some b, s1) /\ yields next s1 l' s'
  end.

(** The iterator yields the bytes of [l] and then, at the next call, [None], which leaves [s']. *)
Definition yields_then_ends {S : Type} (next : S -> option byte * S) (s : S) (l : list byte) (s' : S) : Prop :=
  exists s1, yields next s l s1 /\ next s1 = (None, s').

(** The iterator never yields [None]. *)
Definition endless {S : Type} (next : S -> option byte * S) (s : S) : Prop :=
  forall l s1, yields next s l s1 -> exists b s2, next s1 = (Some b, s2).

(** The same iterator, which also counts how often it is called *)
Definition counting {S : Type} (next : S -> option byte * S) (x : S * N) : option byte * (S * N) :=
  let (v, s1) := next (fst x) in (v, (s1, snd x + 1)%N).
