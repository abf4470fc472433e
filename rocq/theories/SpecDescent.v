(** Vocabulary of the statements about gradient descent. *)
From Coq Require Import Reals List.
From Verif Require Import Base GeometryM OptimizeM PathM SpecGeometry SpecPath SpecImage.
Import ListNotations.
Open Scope R_scope.

(** Scalar product of two parameter vectors. *)
Definition scalar (a b : list R) : R := fold_right Rplus 0 (map (fun xy => fst xy * snd xy) (combine a b)).
Definition minus (a b : list R) : list R := map (fun xy => fst xy - snd xy) (combine a b).

(** [g] is the gradient of [f] at [x]: near [x] the error of the linear approximation is
    negligible against the distance. *)
Definition is_gradient_of (f : list R -> R) (x g : list R) : Prop :=
  length g = length x /\
  forall e, 0 < e -> exists d, 0 < d /\ forall y, length y = length x ->
    sqrt (scalar (minus y x) (minus y x)) < d ->
    Rabs (f y - f x - scalar g (minus y x)) <= e * sqrt (scalar (minus y x) (minus y x)).

(** Gradient descent with a fixed learning rate ([optax.sgd(eta)]). *)
Definition sgd (eta : R) : optimizer :=
  mkoptimizer unit (fun _ => tt) (fun g st => (map (fun a => - eta * a) g, st)).

(** Any broken line from [tx] to [rx] through the lines of the walls has legs of length
    at least [d]: [tx] and [rx] are off the first and last lines, and consecutive walls
    are parallel. *)
Definition legs_at_least (d : R) (tx : vec) (ws : list wall) (rx : vec) : Prop :=
  forall pts i A B, visits tx ws rx pts -> nth_error pts i = Some A -> nth_error pts (S i) = Some B -> d <= dist A B.

(** Random starts in [0, 1], one per unknown. *)
Definition unit_draws (P : prng) : Prop :=
  forall k n, length (runiform P k n) = n /\ Forall (fun u => 0 <= u <= 1) (runiform P k n).

(** The squared distance from [z] to the farthest possible start is at most this. *)
Definition reach (z : list R) : R := fold_right Rplus 0 (map (fun t => (1 + Rabs t) * (1 + Rabs t)) z).

(** What is asked of the geometry and of the learning rate: every leg has length at least
    [d] (with a margin for the perturbation [eps]), every wall has length at most [D], and
    [4 D^2 eta <= d]. *)
Definition step_fits (d D eta eps : R) (tx : vec) (ws : list wall) (rx : vec) : Prop :=
  0 < d /\ 0 <= D /\ (forall w, In w ws -> dist (w_origin w) (w_dest w) <= D) /\
  legs_at_least (d + sqrt 2 * eps) tx ws rx /\ 0 <= eps /\ 0 < eta /\ 4 * (D * D) * eta <= d.
