(** Base vocabulary of the model: Python exceptions as values, boolean
    comparisons on reals, and numbers with the IEEE special values.

    Simplification (whole development): finite floating-point numbers are
    modelled by exact real numbers; rounding is not modelled.  The special
    values that the code can create (infinities, NaN) are modelled. *)
From Coq Require Import Reals List Bool ZArith.
Import ListNotations.
Open Scope R_scope.

(** Exceptions raised by Python or by the libraries, as values. *)
Inductive exn :=
| ValueError | TypeError | KeyError | IndexError | AttributeError
| TypeCheckError | NotImplementedError | AssertionError.

(** Result of a call that may raise. *)
Inductive res (A : Type) :=
| Ok (a : A)
| Err (e : exn).
Arguments Ok {A} a.
Arguments Err {A} e.

Definition rbind {A B} (x : res A) (f : A -> res B) : res B :=
  match x with Ok a => f a | Err e => Err e end.

(** A Python generator that was run to its end: the items it yielded, then the
    exception it raised, if any. *)
Record gen (A : Type) := mkgen { yielded : list A; raised : option exn }.
Arguments mkgen {A} _ _.
Arguments yielded {A} _.
Arguments raised {A} _.

(** Comparisons of finite floats ([==], [<], [<=]) as booleans. *)
Definition Reqb (x y : R) : bool := if Req_EM_T x y then true else false.
Definition Rltb (x y : R) : bool := if Rlt_dec x y then true else false.
Definition Rleb (x y : R) : bool := if Rle_dec x y then true else false.

(** A floating-point number: finite, infinite or not-a-number. *)
Inductive xreal :=
| Fin (r : R)
| PInf
| NInf
| NaN.

(** IEEE negation. *)
Definition xopp (x : xreal) : xreal :=
  match x with Fin r => Fin (- r) | PInf => NInf | NInf => PInf | NaN => NaN end.

(** IEEE addition (without rounding and overflow). *)
Definition xadd (x y : xreal) : xreal :=
  match x, y with
  | NaN, _ => NaN
  | _, NaN => NaN
  | Fin a, Fin b => Fin (a + b)
  | PInf, NInf => NaN
  | NInf, PInf => NaN
  | PInf, _ => PInf
  | _, PInf => PInf
  | NInf, _ => NInf
  | _, NInf => NInf
  end.

(** [jnp.subtract]. *)
Definition xsub (x y : xreal) : xreal := xadd x (xopp y).

(** Product of an infinity (its sign given) and a finite number. *)
Definition inf_times (positive : bool) (r : R) : xreal :=
  if Reqb r 0 then NaN
  else if Rltb 0 r then (if positive then PInf else NInf)
       else (if positive then NInf else PInf).

(** IEEE multiplication ([0 * inf = NaN]). *)
Definition xmul (x y : xreal) : xreal :=
  match x, y with
  | NaN, _ => NaN
  | _, NaN => NaN
  | Fin a, Fin b => Fin (a * b)
  | PInf, Fin b => inf_times true b
  | Fin a, PInf => inf_times true a
  | NInf, Fin b => inf_times false b
  | Fin a, NInf => inf_times false a
  | PInf, PInf => PInf
  | NInf, NInf => PInf
  | PInf, NInf => NInf
  | NInf, PInf => NInf
  end.

(** IEEE division of two finite numbers. *)
Definition fdiv (a b : R) : xreal :=
  if Reqb b 0 then
    (if Reqb a 0 then NaN else if Rltb 0 a then PInf else NInf)
  else Fin (a / b).

(** [jnp.maximum]: NaN if either operand is NaN. *)
Definition xmax (x y : xreal) : xreal :=
  match x, y with
  | NaN, _ => NaN
  | _, NaN => NaN
  | PInf, _ => PInf
  | _, PInf => PInf
  | NInf, z => z
  | z, NInf => z
  | Fin a, Fin b => Fin (Rmax a b)
  end.

(** [jnp.minimum]: NaN if either operand is NaN. *)
Definition xmin (x y : xreal) : xreal :=
  match x, y with
  | NaN, _ => NaN
  | _, NaN => NaN
  | NInf, _ => NInf
  | _, NInf => NInf
  | PInf, z => z
  | z, PInf => z
  | Fin a, Fin b => Fin (Rmin a b)
  end.

(** [jnp.less] on floats: false if either operand is NaN. *)
Definition xltb (x y : xreal) : bool :=
  match x, y with
  | NaN, _ => false
  | _, NaN => false
  | Fin a, Fin b => Rltb a b
  | NInf, NInf => false
  | NInf, _ => true
  | _, NInf => false
  | PInf, _ => false
  | Fin _, PInf => true
  end.

(** [jnp.less_equal] on floats. *)
Definition xleb (x y : xreal) : bool :=
  match x, y with
  | NaN, _ => false
  | _, NaN => false
  | Fin a, Fin b => Rleb a b
  | NInf, _ => true
  | _, NInf => false
  | _, PInf => true
  | PInf, Fin _ => false
  end.

(** [x != 0], the conversion of a float to a bool ([NaN] is truthy). *)
Definition xnonzero (x : xreal) : bool :=
  match x with Fin r => negb (Reqb r 0) | _ => true end.

(** Largest finite float32, the value [jnp.nan_to_num] gives to infinities. *)
Definition float32_max : R := (2 - / 2 ^ 23) * 2 ^ 127.

(** [jnp.finfo(jnp.float32).eps]. *)
Definition float32_eps : R := / 2 ^ 23.

(** [jnp.nan_to_num] on a float. *)
Definition xnan_to_num (x : xreal) : xreal :=
  match x with
  | Fin r => Fin r
  | PInf => Fin float32_max
  | NInf => Fin (- float32_max)
  | NaN => Fin 0
  end.
