(** Vocabulary of the statements about path candidates. *)
From Coq Require Import List Arith.
Import ListNotations.

(** No two equal consecutive entries. *)
Definition no_immediate_repeat (c : list nat) : Prop :=
  forall l a b r, c = l ++ a :: b :: r -> a <> b.

(** A candidate over [n] objects, all accepted by [keep], of length between
    [lo] and [hi]. *)
Definition admissible (n : nat) (keep : nat -> bool) (lo hi : nat) (c : list nat) : Prop :=
  lo <= length c <= hi /\ (forall i, In i c -> i < n /\ keep i = true) /\ no_immediate_repeat c.

(** Lengths never decrease along the list. *)
Definition by_length (cs : list (list nat)) : Prop :=
  forall l a m b r, cs = l ++ a :: m ++ b :: r -> length a <= length b.

(** Lexicographic order on sequences of the same length. *)
Fixpoint lex_lt (a b : list nat) : Prop :=
  match a, b with
  | x :: a', y :: b' => x < y \/ (x = y /\ lex_lt a' b')
  | _, _ => False
  end.
