(** Model of differt2d/optimize.py.

    The objective, its gradient, the optimiser and the random generator are
    parameters.  Losses are finite (a NaN loss is not modelled). *)
From Coq Require Import Reals List Bool.
From Verif Require Import Base GeometryM.
Import ListNotations.
Open Scope R_scope.

(** [optax.GradientTransformation]: [init] and [update] over a state type. *)
Record optimizer := mkoptimizer {
  opt_state : Type;
  opt_init : list R -> opt_state;
  opt_update : list R -> opt_state -> list R * opt_state }.

(** Element-wise sum of two vectors of the same length. *)
Fixpoint ladd (x y : list R) : list R :=
  match x, y with
  | a :: x', b :: y' => (a + b) :: ladd x' y'
  | _, _ => []
  end.

(** differt2d/optimize.py:87-93, the local function [f]: one scan step, giving
    the new carry and the loss at the old point.  [grad] is the gradient part of
    [jax.value_and_grad(fun)]. *)
Definition min_step (fun_ : list R -> R) (grad : list R -> list R) (o : optimizer)
    (carry : list R * opt_state o) : (list R * opt_state o) * R :=
  let '(x, st) := carry in
  let loss := fun_ x in
  let grads := grad x in
  let '(updates, st') := opt_update o grads st in
  ((ladd x updates, st'), loss).

(** [jax.lax.scan(f, init, xs=None, length=n)]. *)
Fixpoint min_scan (fun_ : list R -> R) (grad : list R -> list R) (o : optimizer)
    (n : nat) (carry : list R * opt_state o) : (list R * opt_state o) * list R :=
  match n with
  | O => (carry, [])
  | S n' =>
      let '(carry1, l) := min_step fun_ grad o carry in
      let '(carry2, ls) := min_scan fun_ grad o n' carry1 in
      (carry2, l :: ls)
  end.

(** [losses[-1]]: raises on an empty array. *)
Definition last_elem (ls : list R) : res R :=
  match rev ls with
  | [] => Err IndexError
  | l :: _ => Ok l
  end.

(** differt2d/optimize.py:46-97 [minimize]. *)
Definition minimize (fun_ : list R -> R) (grad : list R -> list R) (o : optimizer)
    (steps : nat) (x0 : list R) : res (list R * R) :=
  let st := opt_init o x0 in
  let '((x, _), losses) := min_scan fun_ grad o steps (x0, st) in
  rbind (last_elem losses) (fun l => Ok (x, l)).

(** The random generator: [jax.random.split(key, num)] and
    [jax.random.uniform(key, shape=(n,))]. *)
Record prng := mkprng {
  key_t : Type;
  rsplit : key_t -> nat -> list key_t;
  runiform : key_t -> nat -> list R }.

(** differt2d/optimize.py:102-133 [minimize_random_uniform]. *)
Definition minimize_random_uniform (P : prng) (fun_ : list R -> R)
    (grad : list R -> list R) (o : optimizer) (steps : nat) (key : key_t P) (n : nat)
    : res (list R * R) :=
  let x0 := runiform P key n in
  minimize fun_ grad o steps x0.

(** Collects results; the first exception wins. *)
Fixpoint rseq {A} (l : list (res A)) : res (list A) :=
  match l with
  | [] => Ok []
  | x :: tl => rbind x (fun a => rbind (rseq tl) (fun tl' => Ok (a :: tl')))
  end.

(** differt2d/optimize.py:138-182 [minimize_many_random_uniform]; [vmap] is the
    element-wise map over the keys. *)
Definition minimize_many_random_uniform (P : prng) (fun_ : list R -> R)
    (grad : list R -> list R) (o : optimizer) (steps : nat) (key : key_t P) (n many : nat)
    : res (list R * R) :=
  if Nat.eqb many 1 then minimize_random_uniform P fun_ grad o steps key n
  else
    let keys := rsplit P key many in
    rbind (rseq (map (fun k => minimize_random_uniform P fun_ grad o steps k n) keys))
      (fun trials =>
        rbind (argmin (map snd trials)) (fun i_min =>
          Ok (nth i_min trials ([], 0)))).
