(** What an iterator that may panic yields.  [None]: the call of [next] panics. *)
From Verif Require Import ParserCore.

(** Calling [next] once per byte of [l] yields exactly the bytes of [l] and leaves the state [s']. *)
Fixpoint gives {S : Type} (next : S -> option (option byte * S)) (s : S) (l : list byte) (s' : S) : Prop :=
  match l with
  | [] => s = s'
  | b :: l' => exists s1, next s = Some (Some b, s1) /\ gives next s1 l' s'
  end.
(** The iterator yields the bytes of [l] and then, at the next call, [None], which leaves [s']; *)
Definition gives_then_ends {S : Type} (next : S -> option (option byte * S)) (s : S) (l : list byte) (s' : S) : Prop :=
  exists s1, gives next s l s1 /\ next s1 = Some (None, s').
(** or it panics at the next call, when it is in the state [s']. *)
Definition gives_then_panics {S : Type} (next : S -> option (option byte * S)) (s : S) (l : list byte) (s' : S) : Prop :=
  gives next s l s' /\ next s' = None.

(** The bytes [l] settle what a parser says: it says so whatever follows, and leaves all of that. *)
Definition settles {A} (p : list byte -> outcome A * list byte) (l : list byte) (o : outcome A) : Prop :=
  forall rest, p (l ++ rest) = (o, rest).
