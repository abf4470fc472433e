(** The optimiser that [minimize] uses when none is given, and the solvers with the
    special values of IEEE arithmetic.

    differt2d/optimize.py:83 [optimizer = optimizer or optax.adam(learning_rate=0.1)].
    The code of [optax] is not in /repo; its documented update rule (Kingma and Ba,
    with bias correction) is modelled here, with the defaults [b1=0.9], [b2=0.999],
    [eps=1e-8], [eps_root=0]. *)
From Coq Require Import Reals List Bool Arith.
From Verif Require Import Base GeometryM OptimizeM AdM PathM.
Import ListNotations.
Open Scope R_scope.
Local Notation length := List.length.

(** Defaults of [optax.adam], and the learning rate of differt2d/optimize.py:83. *)
Definition ADAM_B1 : R := 9 / 10.
Definition ADAM_B2 : R := 999 / 1000.
Definition ADAM_EPS : R := / 10 ^ 8.
Definition ADAM_LR : R := 1 / 10.

(** [jax.tree_map(f, g, m)] on arrays; [m] has the shape of [g] (the moments are
    created with the shape of [x0]), so [d] is never used. *)
Fixpoint tree_map2 {A B C} (f : A -> B -> C) (d : B) (g : list A) (m : list B) : list C :=
  match g with
  | [] => []
  | x :: g' => f x (hd d m) :: tree_map2 f d g' (tl m)
  end.

(** One update of [optax.scale_by_adam] followed by [scale_by_learning_rate]: the
    state is the number of updates done and the two moments. *)
Definition adam_update (lr b1 b2 eps : R) (g : list R) (st : nat * list R * list R)
    : list R * (nat * list R * list R) :=
  let '(count, mu, nu) := st in
  let mu := tree_map2 (fun g m => (1 - b1) * g + b1 * m) 0 g mu in
  let nu := tree_map2 (fun g v => (1 - b2) * (g * g) + b2 * v) 0 g nu in
  let count := S count in
  let mu_hat := map (fun m => m / (1 - b1 ^ count)) mu in
  let nu_hat := map (fun v => v / (1 - b2 ^ count)) nu in
  let u := tree_map2 (fun m v => m / (sqrt (v + 0) + eps)) 0 mu_hat nu_hat in
  (map (fun x => - lr * x) u, (count, mu, nu)).

(** [optax.adam(learning_rate=lr, b1, b2, eps)]. *)
Definition adam (lr b1 b2 eps : R) : optimizer :=
  mkoptimizer (nat * list R * list R)
    (fun x => (0%nat, map (fun _ => 0) x, map (fun _ => 0) x))
    (adam_update lr b1 b2 eps).

(** differt2d/optimize.py:83. *)
Definition default_optimizer : optimizer := adam ADAM_LR ADAM_B1 ADAM_B2 ADAM_EPS.

(** differt2d/optimize.py:51 [steps: int = 100]. *)
Definition DEFAULT_STEPS : nat := 100.

(** differt2d/optimize.py:142 [many: int = 10]. *)
Definition DEFAULT_MANY : nat := 10.

(** differt2d/geometry.py:1198-1200 and 1282-1284: what [FermatPath] and [MinPath] pass
    on without [path_cls_kwargs]: [kwargs.setdefault("many", 1)] and the defaults of
    [minimize]. *)
Definition default_solver (grad : (list R -> R) -> list R -> list R) : solver :=
  mksolver grad default_optimizer DEFAULT_STEPS 1.

(** ** The same functions on floats with infinities and NaN *)

(** The optimiser on such floats. *)
Definition xadam_update (lr b1 b2 eps : R) (g : list xreal) (st : nat * list xreal * list xreal)
    : list xreal * (nat * list xreal * list xreal) :=
  let '(count, mu, nu) := st in
  let mu := tree_map2 (fun g m => xadd (xmul (Fin (1 - b1)) g) (xmul (Fin b1) m)) (Fin 0) g mu in
  let nu := tree_map2 (fun g v => xadd (xmul (Fin (1 - b2)) (xmul g g)) (xmul (Fin b2) v)) (Fin 0) g nu in
  let count := S count in
  let mu_hat := map (fun m => xdiv m (Fin (1 - b1 ^ count))) mu in
  let nu_hat := map (fun v => xdiv v (Fin (1 - b2 ^ count))) nu in
  let u := tree_map2 (fun m v => xdiv m (xadd (xsqrt (xadd v (Fin 0))) (Fin eps))) (Fin 0) mu_hat nu_hat in
  (map (fun x => xmul (Fin (- lr)) x) u, (count, mu, nu)).

(** differt2d/optimize.py:85-97 [minimize] with the default optimiser: the scan and
    the last loss. *)
Fixpoint xmin_scan (fun_ : list xreal -> xreal) (grad : list xreal -> list xreal) (n : nat)
    (x : list xreal) (st : nat * list xreal * list xreal) : list xreal * list xreal :=
  match n with
  | O => (x, [])
  | S n' =>
      let loss := fun_ x in
      let '(updates, st') := xadam_update ADAM_LR ADAM_B1 ADAM_B2 ADAM_EPS (grad x) st in
      let '(x', losses) := xmin_scan fun_ grad n' (tree_map2 xadd (Fin 0) x updates) st' in
      (x', loss :: losses)
  end.
Definition xminimize (fun_ : list xreal -> xreal) (grad : list xreal -> list xreal) (steps : nat)
    (x0 : list xreal) : res (list xreal * xreal) :=
  let '(x, losses) := xmin_scan fun_ grad steps x0
    (0%nat, map (fun _ => Fin 0) x0, map (fun _ => Fin 0) x0) in
  match rev losses with
  | [] => Err IndexError
  | l :: _ => Ok (x, l)
  end.

(** [jnp.argmin] of a non-empty array: like NumPy, NaN counts as smaller than
    anything, and the first minimum is taken. *)
Definition xsmaller (x y : xreal) : bool :=
  match x, y with
  | NaN, NaN => false
  | NaN, _ => true
  | _, NaN => false
  | _, _ => xltb x y
  end.
Fixpoint xargmin_aux (xs : list xreal) (i best : nat) (bv : xreal) : nat :=
  match xs with
  | [] => best
  | x :: tl => if xsmaller x bv then xargmin_aux tl (S i) i x else xargmin_aux tl (S i) best bv
  end.
Definition xargmin (xs : list xreal) : res nat :=
  match xs with
  | [] => Err ValueError
  | x :: tl => Ok (xargmin_aux tl 1%nat 0%nat x)
  end.

(** differt2d/optimize.py:138-182 [minimize_many_random_uniform] with the default
    optimiser; [x0 = jax.random.uniform(key, (n,))] is finite. *)
Definition xminimize_random_uniform (P : prng) (fun_ : list xreal -> xreal)
    (grad : list xreal -> list xreal) (steps : nat) (key : key_t P) (n : nat) : res (list xreal * xreal) :=
  xminimize fun_ grad steps (map Fin (runiform P key n)).
Definition xminimize_many_random_uniform (P : prng) (fun_ : list xreal -> xreal)
    (grad : list xreal -> list xreal) (steps : nat) (key : key_t P) (n many : nat) : res (list xreal * xreal) :=
  if Nat.eqb many 1 then xminimize_random_uniform P fun_ grad steps key n
  else
    let keys := rsplit P key many in
    rbind (rseq (map (fun k => xminimize_random_uniform P fun_ grad steps k n) keys))
      (fun trials =>
        rbind (xargmin (map snd trials)) (fun i_min =>
          Ok (nth i_min trials ([], NaN)))).
