(** Vocabulary of the statements about what the solver-based paths look for. *)
From Coq Require Import Reals List.
From Verif Require Import Base GeometryM OptimizeM PathM SpecPath.
Import ListNotations.
Open Scope R_scope.

(** The point at relative position [t] between two parameter vectors. *)
Definition mix (t : R) (a b : list R) : list R :=
  map (fun xy => (1 - t) * fst xy + t * snd xy) (combine a b).

(** [f] is convex on the vectors of [n] entries. *)
Definition convex (f : list R -> R) (n : nat) : Prop :=
  forall a b t, length a = n -> length b = n -> 0 <= t <= 1 ->
  f (mix t a b) <= (1 - t) * f a + t * f b.

(** Every entry of [b] is within [r] of the one of [a]. *)
Definition close (r : R) (a b : list R) : Prop := Forall2 (fun x y => Rabs (x - y) < r) a b.

Definition global_minimum (f : list R -> R) (n : nat) (a : list R) : Prop :=
  length a = n /\ forall b, length b = n -> f a <= f b.
Definition local_minimum (f : list R -> R) (n : nat) (a : list R) : Prop :=
  length a = n /\ exists r, 0 < r /\ forall b, close r a b -> f a <= f b.

(** The solver found a local minimum of [f], a function of [n] unknowns. *)
Definition converged (P : prng) (s : solver) (key : key_t P) (f : list R -> R) (n : nat) : Prop :=
  forall theta l, minimize_many_random_uniform P f (sv_grad s f) (sv_opt s) (sv_steps s) key n (sv_many s) = Ok (theta, l) ->
  local_minimum f n theta.
