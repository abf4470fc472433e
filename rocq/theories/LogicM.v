(** Model of differt2d/logic.py.

    Truth values are scalars: the functions of logic.py are element-wise
    ([jnp.maximum], [jnp.logical_or], ...), so one element is modelled;
    [logical_all]/[logical_any] take the flattened list of their arguments
    ([axis=None] or scalars along [axis=0]). *)
From Coq Require Import Reals List Bool.
From Verif Require Import Base.
Import ListNotations.
Open Scope R_scope.

(** differt2d/logic.py:64-65 [Truthy]: a boolean or a float. *)
Inductive truthy :=
| TB (b : bool)
| TF (x : xreal).

(** Promotion of a truth value to float, as [jnp] does for bool operands. *)
Definition to_f (t : truthy) : xreal :=
  match t with
  | TB true => Fin 1
  | TB false => Fin 0
  | TF x => x
  end.

(** Conversion of a truth value to bool, as [jnp.logical_*] does. *)
Definition to_b (t : truthy) : bool :=
  match t with
  | TB b => b
  | TF x => xnonzero x
  end.

(** differt2d/logic.py:333-334 (repeated in every function):
    [if approx is None: approx = ENABLE_APPROX]. *)
Definition resolve (g : bool) (approx : option bool) : bool :=
  match approx with
  | None => g
  | Some b => b
  end.

(** differt2d/defaults.py:3 [DEFAULT_ALPHA]. *)
Definition DEFAULT_ALPHA : R := 100.

(** differt2d/logic.py:220-235 [sigmoid]: [jax.nn.sigmoid(alpha * x)]. *)
Definition sigmoid (x : xreal) (alpha : R) : xreal :=
  match xmul (Fin alpha) x with
  | Fin r => Fin (1 / (1 + exp (- r)))
  | PInf => Fin 1
  | NInf => Fin 0
  | NaN => NaN
  end.

(** [jax.nn.relu6]: [minimum(maximum(x, 0), 6)]. *)
Definition relu6 (x : xreal) : xreal := xmin (xmax x (Fin 0)) (Fin 6).

(** differt2d/logic.py:240-255 [hard_sigmoid]:
    [jax.nn.hard_sigmoid(alpha * x) = relu6(alpha * x + 3) / 6]. *)
Definition hard_sigmoid (x : xreal) (alpha : R) : xreal :=
  xmul (relu6 (xadd (xmul (Fin alpha) x) (Fin 3))) (Fin (/ 6)).

(** Keyword arguments forwarded to [activation]
    (differt2d/logic.py:260-267): slope and activation function. *)
Record akw := mkakw { ak_alpha : R; ak_function : xreal -> R -> xreal }.

(** differt2d/logic.py:262,266: defaults of [alpha] and [function]. *)
Definition default_akw : akw := mkakw DEFAULT_ALPHA hard_sigmoid.

(** differt2d/logic.py:260-312 [activation]. *)
Definition activation (x : xreal) (k : akw) : xreal :=
  ak_function k x (ak_alpha k).

(** differt2d/logic.py:317-335 [logical_or].  [jnp.maximum] of two booleans is
    a boolean, otherwise operands are promoted to float. *)
Definition logical_or (g : bool) (x y : truthy) (approx : option bool) : truthy :=
  if resolve g approx then
    match x, y with
    | TB a, TB b => TB (a || b)
    | _, _ => TF (xmax (to_f x) (to_f y))
    end
  else TB (to_b x || to_b y).

(** differt2d/logic.py:340-358 [logical_and]. *)
Definition logical_and (g : bool) (x y : truthy) (approx : option bool) : truthy :=
  if resolve g approx then
    match x, y with
    | TB a, TB b => TB (a && b)
    | _, _ => TF (xmin (to_f x) (to_f y))
    end
  else TB (to_b x && to_b y).

(** differt2d/logic.py:363-377 [logical_not]: [1.0 - x] promotes to float. *)
Definition logical_not (g : bool) (x : truthy) (approx : option bool) : truthy :=
  if resolve g approx then TF (xsub (Fin 1) (to_f x))
  else TB (negb (to_b x)).

(** differt2d/logic.py:382-404 [greater]. *)
Definition greater (g : bool) (x y : xreal) (approx : option bool) (k : akw) : truthy :=
  if resolve g approx then TF (activation (xsub x y) k) else TB (xltb y x).

(** differt2d/logic.py:409-433 [greater_equal]. *)
Definition greater_equal (g : bool) (x y : xreal) (approx : option bool) (k : akw) : truthy :=
  if resolve g approx then TF (activation (xsub x y) k) else TB (xleb y x).

(** differt2d/logic.py:438-460 [less] (arguments swapped in the subtraction). *)
Definition less (g : bool) (x y : xreal) (approx : option bool) (k : akw) : truthy :=
  if resolve g approx then TF (activation (xsub y x) k) else TB (xltb x y).

(** differt2d/logic.py:465-487 [less_equal]. *)
Definition less_equal (g : bool) (x y : xreal) (approx : option bool) (k : akw) : truthy :=
  if resolve g approx then TF (activation (xsub y x) k) else TB (xleb x y).

(** Whether [jnp.asarray(x)] of the arguments has dtype bool: all booleans. *)
Definition all_bools (xs : list truthy) : bool :=
  forallb (fun t => match t with TB _ => true | TF _ => false end) xs.

(** differt2d/logic.py:492-512 [logical_all].  [jnp.min] of an empty array
    raises [ValueError]; [jnp.all] of an empty array is [True]. *)
Definition logical_all (g : bool) (xs : list truthy) (approx : option bool) : res truthy :=
  if resolve g approx then
    match xs with
    | [] => Err ValueError
    | t :: ts =>
        if all_bools xs then Ok (TB (forallb to_b xs))
        else Ok (TF (fold_left (fun m u => xmin m (to_f u)) ts (to_f t)))
    end
  else Ok (TB (forallb to_b xs)).

(** differt2d/logic.py:517-537 [logical_any]. *)
Definition logical_any (g : bool) (xs : list truthy) (approx : option bool) : res truthy :=
  if resolve g approx then
    match xs with
    | [] => Err ValueError
    | t :: ts =>
        if all_bools xs then Ok (TB (existsb to_b xs))
        else Ok (TF (fold_left (fun m u => xmax m (to_f u)) ts (to_f t)))
    end
  else Ok (TB (existsb to_b xs)).

(** differt2d/logic.py:542-561 [is_true]; with approximation off the value is
    returned as is and the declared return type [Bool] is enforced by the type
    checker (a float raises, tests/test_logic.py:187-188). *)
Definition is_true (g : bool) (x : truthy) (tol : R) (approx : option bool) : res bool :=
  if resolve g approx then Ok (xltb (Fin (1 - tol)) (to_f x))
  else match x with
       | TB b => Ok b
       | TF _ => Err TypeCheckError
       end.

(** differt2d/logic.py:566-585 [is_false]. *)
Definition is_false (g : bool) (x : truthy) (tol : R) (approx : option bool) : res bool :=
  if resolve g approx then Ok (xltb (to_f x) (Fin tol))
  else Ok (negb (to_b x)).

(** differt2d/logic.py:544,568: default of [tol]. *)
Definition DEFAULT_TRUTH_TOL : R := 1 / 2.

(** differt2d/logic.py:590-601 [true_value]. *)
Definition true_value (g : bool) (approx : option bool) : truthy :=
  if resolve g approx then TF (Fin 1) else TB true.

(** differt2d/logic.py:606-617 [false_value]. *)
Definition false_value (g : bool) (approx : option bool) : truthy :=
  if resolve g approx then TF (Fin 0) else TB false.

(** [jnp.nan_to_num] on a truth value; booleans are returned unchanged. *)
Definition tnan_to_num (t : truthy) : truthy :=
  match t with
  | TB b => TB b
  | TF x => TF (xnan_to_num x)
  end.
