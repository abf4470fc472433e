(** Model of differt2d/logic.py on arrays: shapes, dtypes and the run-time type
    checker.  [LogicM.v] models one element; here the whole call is modelled.

    An array is a shape and a function from indices to elements; only the indices
    within the shape have a meaning. *)
From Coq Require Import Reals List Bool ZArith Arith.
From Verif Require Import Base LogicM.
Import ListNotations.
Open Scope R_scope.
Local Notation length := List.length.

Definition shape := list nat.
Definition index := list nat.

(** A [jax.Array] of dtype bool or float. *)
Inductive nd :=
| NB (s : shape) (f : index -> bool)
| NF (s : shape) (f : index -> xreal).
Definition shp (a : nd) : shape := match a with NB s _ => s | NF s _ => s end.
(** [a[i, j, ...]]. *)
Definition get (a : nd) (i : index) : truthy :=
  match a with NB _ f => TB (f i) | NF _ f => TF (f i) end.

(** What a user can pass: an array, a Python float or a Python bool
    (differt2d/logic.py:319-320: [Union[Truthy, float, bool]]). *)
Inductive pyval :=
| PArr (a : nd)
| PFloat (x : R)
| PBool (b : bool).

(** [jax.jit] (differt2d/logic.py:315 and every other decorator) turns Python
    numbers into arrays without axes before the decorated function, and the type
    checker, see them; under [jax.disable_jit] they stay Python numbers. *)
Definition enter (jit : bool) (v : pyval) : pyval :=
  match v with
  | PArr a => PArr a
  | PFloat x => if jit then PArr (NF [] (fun _ => Fin x)) else PFloat x
  | PBool b => if jit then PArr (NB [] (fun _ => b)) else PBool b
  end.

(** What [jnp] functions make of their operands. *)
Definition asarray (v : pyval) : nd :=
  match v with
  | PArr a => a
  | PFloat x => NF [] (fun _ => Fin x)
  | PBool b => NB [] (fun _ => b)
  end.

Definition shape_eqb (s t : shape) : bool := if list_eq_dec Nat.eq_dec s t then true else false.

(** jaxtyping: the first array checked against [" *batch"] gives its value, every
    later one must have exactly that shape. *)
Definition bind_shape (m : option shape) (s : shape) : res (option shape) :=
  match m with
  | None => Ok (Some s)
  | Some t => if shape_eqb s t then Ok m else Err TypeCheckError
  end.

(** differt2d/logic.py:64,319: an argument annotated [Union[Truthy, float, bool]]. *)
Definition check_truthy (m : option shape) (v : pyval) : res (option shape) :=
  match v with
  | PArr a => bind_shape m (shp a)
  | PFloat _ => Ok m
  | PBool _ => Ok m
  end.

(** differt2d/_typing.py:7: an argument annotated [ArrayLikeFloat]. *)
Definition check_float (m : option shape) (v : pyval) : res (option shape) :=
  match v with
  | PArr (NF s _) => bind_shape m s
  | PArr (NB _ _) => Err TypeCheckError
  | PFloat _ => Ok m
  | PBool _ => Err TypeCheckError
  end.

(** The declared results [Truthy], [Float[Array, " *batch"]] and
    [Bool[Array, " *batch"]]. *)
Definition ret_truthy (m : option shape) (r : nd) : res nd :=
  rbind (bind_shape m (shp r)) (fun _ => Ok r).
Definition ret_bool (m : option shape) (r : nd) : res nd :=
  match r with NB s _ => ret_truthy m r | NF _ _ => Err TypeCheckError end.
Definition ret_float (m : option shape) (r : nd) : res nd :=
  match r with NF s _ => ret_truthy m r | NB _ _ => Err TypeCheckError end.

(** Broadcasting of two operands, restricted to what passes the checks above: equal
    shapes, or one operand without axes. *)
Definition bshape (s t : shape) : shape := match s with [] => t | _ => s end.
Definition bget {A} (s : shape) (f : index -> A) (i : index) : A :=
  match s with [] => f [] | _ => f i end.
(** An element of an operand, promoted to float. *)
Definition fget (a : nd) (i : index) : xreal :=
  match a with
  | NB s f => to_f (TB (bget s f i))
  | NF s f => bget s f i
  end.
Definition tget (a : nd) (i : index) : bool :=
  match a with
  | NB s f => bget s f i
  | NF s f => xnonzero (bget s f i)
  end.

(** [jnp.maximum] and [jnp.minimum]: bool on two bools, float otherwise. *)
Definition jnp_maximum (a b : nd) : nd :=
  let s := bshape (shp a) (shp b) in
  match a, b with
  | NB _ _, NB _ _ => NB s (fun i => tget a i || tget b i)
  | _, _ => NF s (fun i => xmax (fget a i) (fget b i))
  end.
Definition jnp_minimum (a b : nd) : nd :=
  let s := bshape (shp a) (shp b) in
  match a, b with
  | NB _ _, NB _ _ => NB s (fun i => tget a i && tget b i)
  | _, _ => NF s (fun i => xmin (fget a i) (fget b i))
  end.

(** differt2d/logic.py:317-335 [logical_or]. *)
Definition a_logical_or (jit g : bool) (x y : pyval) (approx : option bool) : res nd :=
  let x := enter jit x in let y := enter jit y in
  rbind (check_truthy None x) (fun m =>
  rbind (check_truthy m y) (fun m =>
  let a := asarray x in let b := asarray y in
  ret_truthy m
    (if resolve g approx then jnp_maximum a b
     else NB (bshape (shp a) (shp b)) (fun i => tget a i || tget b i)))).

(** differt2d/logic.py:340-358 [logical_and]. *)
Definition a_logical_and (jit g : bool) (x y : pyval) (approx : option bool) : res nd :=
  let x := enter jit x in let y := enter jit y in
  rbind (check_truthy None x) (fun m =>
  rbind (check_truthy m y) (fun m =>
  let a := asarray x in let b := asarray y in
  ret_truthy m
    (if resolve g approx then jnp_minimum a b
     else NB (bshape (shp a) (shp b)) (fun i => tget a i && tget b i)))).

(** differt2d/logic.py:363-377 [logical_not]. *)
Definition a_logical_not (jit g : bool) (x : pyval) (approx : option bool) : res nd :=
  let x := enter jit x in
  rbind (check_truthy None x) (fun m =>
  let a := asarray x in
  ret_truthy m
    (if resolve g approx then NF (shp a) (fun i => xsub (Fin 1) (fget a i))
     else NB (shp a) (fun i => negb (tget a i)))).

(** differt2d/logic.py:382-487: the four comparisons share their shape; [sub] says
    in which order the operands are subtracted and [cmp] is the [jnp] comparison.
    Simplification: [alpha] is a Python float and [function] acts element-wise. *)
Definition a_compare (sub : xreal -> xreal -> xreal) (cmp : xreal -> xreal -> bool)
    (jit g : bool) (x y : pyval) (approx : option bool) (k : akw) : res nd :=
  let x := enter jit x in let y := enter jit y in
  rbind (check_float None x) (fun m =>
  rbind (check_float m y) (fun m =>
  let a := asarray x in let b := asarray y in
  let s := bshape (shp a) (shp b) in
  ret_truthy m
    (if resolve g approx then NF s (fun i => activation (sub (fget a i) (fget b i)) k)
     else NB s (fun i => cmp (fget a i) (fget b i))))).
(** differt2d/logic.py:382-404 [greater]. *)
Definition a_greater := a_compare xsub (fun u v => xltb v u).
(** differt2d/logic.py:409-433 [greater_equal]. *)
Definition a_greater_equal := a_compare xsub (fun u v => xleb v u).
(** differt2d/logic.py:438-460 [less]: arguments swapped in the subtraction. *)
Definition a_less := a_compare (fun u v => xsub v u) xltb.
(** differt2d/logic.py:465-487 [less_equal]. *)
Definition a_less_equal := a_compare (fun u v => xsub v u) xleb.

(** differt2d/logic.py:220-255 [sigmoid], [hard_sigmoid]: element-wise. *)
Definition a_unary_float (h : xreal -> xreal) (jit : bool) (x : pyval) : res nd :=
  let x := enter jit x in
  rbind (check_float None x) (fun m =>
  let a := asarray x in ret_float m (NF (shp a) (fun i => h (fget a i)))).
Definition a_sigmoid (jit : bool) (x : pyval) (alpha : R) : res nd :=
  a_unary_float (fun u => sigmoid u alpha) jit x.
Definition a_hard_sigmoid (jit : bool) (x : pyval) (alpha : R) : res nd :=
  a_unary_float (fun u => hard_sigmoid u alpha) jit x.

(** differt2d/logic.py:542-561 [is_true]. *)
Definition a_is_true (jit g : bool) (x : pyval) (tol : R) (approx : option bool) : res nd :=
  let x := enter jit x in
  rbind (check_truthy None x) (fun m =>
  let a := asarray x in
  ret_bool m
    (if resolve g approx then NB (shp a) (fun i => xltb (Fin (1 - tol)) (fget a i)) else a)).

(** differt2d/logic.py:566-585 [is_false]. *)
Definition a_is_false (jit g : bool) (x : pyval) (tol : R) (approx : option bool) : res nd :=
  let x := enter jit x in
  rbind (check_truthy None x) (fun m =>
  let a := asarray x in
  ret_bool m
    (if resolve g approx then NB (shp a) (fun i => xltb (fget a i) (Fin tol))
     else NB (shp a) (fun i => negb (tget a i)))).

(** [*x]: every positional argument is checked, in order. *)
Fixpoint check_all (m : option shape) (xs : list pyval) : res (option shape) :=
  match xs with
  | [] => Ok m
  | x :: xs => rbind (check_truthy m x) (fun m => check_all m xs)
  end.

(** differt2d/logic.py:511,536 [jnp.asarray(x)] of the tuple of arguments: they are
    stacked along a new first axis, and must have the same shape; bool if all are,
    float otherwise; [()] gives an empty float array. *)
Definition is_nb (a : nd) : bool := match a with NB _ _ => true | NF _ _ => false end.
Definition nd0 : nd := NF [] (fun _ => Fin 0).
Definition jnp_stack (l : list nd) : res nd :=
  match l with
  | [] => Ok (NF [0%nat] (fun _ => Fin 0))
  | a :: _ =>
      if forallb (fun b => shape_eqb (shp b) (shp a)) l then
        Ok (if forallb is_nb l
            then NB (length l :: shp a) (fun i => to_b (get (nth (hd 0%nat i) l nd0) (tl i)))
            else NF (length l :: shp a) (fun i => to_f (get (nth (hd 0%nat i) l nd0) (tl i))))
      else Err ValueError
  end.

(** The [axis] argument (differt2d/logic.py:494,519). *)
Inductive axis_arg :=
| AxNone
| AxInt (k : Z)
| AxTuple (ks : list Z).

(** An axis, counted from the end when negative. *)
Definition norm_axis (n : nat) (k : Z) : res nat :=
  if ((- Z.of_nat n <=? k) && (k <? Z.of_nat n))%Z
  then Ok (Z.to_nat (if (k <? 0)%Z then k + Z.of_nat n else k))
  else Err ValueError.
Fixpoint norm_axes (n : nat) (ks : list Z) : res (list nat) :=
  match ks with
  | [] => Ok []
  | k :: ks => rbind (norm_axis n k) (fun p => rbind (norm_axes n ks) (fun ps => Ok (p :: ps)))
  end.
Definition mem (p : nat) (ps : list nat) : bool := existsb (Nat.eqb p) ps.
Fixpoint has_dup (ps : list nat) : bool :=
  match ps with [] => false | p :: ps => mem p ps || has_dup ps end.
(** The axes to reduce; a repeated axis is an error. *)
Definition axes_of (n : nat) (ax : axis_arg) : res (list nat) :=
  match ax with
  | AxNone => Ok (seq 0 n)
  | AxInt k => rbind (norm_axis n k) (fun p => Ok [p])
  | AxTuple ks => rbind (norm_axes n ks) (fun ps => if has_dup ps then Err ValueError else Ok ps)
  end.

(** A shape or an index without the axes [ps] ([p] counts the axes). *)
Fixpoint without (p : nat) (ps : list nat) (l : list nat) : list nat :=
  match l with
  | [] => []
  | a :: l => if mem p ps then without (S p) ps l else a :: without (S p) ps l
  end.
(** All the indices of a shape, in row-major order. *)
Fixpoint indices (s : shape) : list index :=
  match s with
  | [] => [[]]
  | n :: s => flat_map (fun j => map (cons j) (indices s)) (seq 0 n)
  end.
(** The indices that are reduced into the element [i] of the result. *)
Definition fibre (ps : list nat) (s : shape) (i : index) : list index :=
  filter (fun j => shape_eqb (without 0 ps j) i) (indices s).

Definition xmin_list (l : list xreal) : xreal :=
  match l with [] => NaN | x :: l => fold_left xmin l x end.
Definition xmax_list (l : list xreal) : xreal :=
  match l with [] => NaN | x :: l => fold_left xmax l x end.

(** [jnp.min] and [jnp.max]: no identity, so reducing an axis of length 0 raises. *)
Definition jnp_extremum (fb : list bool -> bool) (ff : list xreal -> xreal) (ps : list nat) (a : nd) : res nd :=
  if existsb (fun p => Nat.eqb (nth p (shp a) 1%nat) 0) ps then Err ValueError
  else Ok match a with
          | NB s f => NB (without 0 ps s) (fun i => fb (map f (fibre ps s i)))
          | NF s f => NF (without 0 ps s) (fun i => ff (map f (fibre ps s i)))
          end.
(** [jnp.all] and [jnp.any]. *)
Definition jnp_quantify (fb : list bool -> bool) (ps : list nat) (a : nd) : nd :=
  NB (without 0 ps (shp a)) (fun i => fb (map (fun j => to_b (get a j)) (fibre ps (shp a) i))).

(** differt2d/logic.py:492-512 [logical_all]. *)
Definition a_logical_all (jit g : bool) (xs : list pyval) (ax : axis_arg) (approx : option bool) : res nd :=
  let xs := map (enter jit) xs in
  rbind (check_all None xs) (fun m =>
  rbind (jnp_stack (map asarray xs)) (fun arr =>
  rbind (axes_of (length (shp arr)) ax) (fun ps =>
  rbind (if resolve g approx then jnp_extremum (forallb (fun b => b)) xmin_list ps arr
         else Ok (jnp_quantify (forallb (fun b => b)) ps arr)) (fun r =>
  ret_truthy m r)))).

(** differt2d/logic.py:517-537 [logical_any]. *)
Definition a_logical_any (jit g : bool) (xs : list pyval) (ax : axis_arg) (approx : option bool) : res nd :=
  let xs := map (enter jit) xs in
  rbind (check_all None xs) (fun m =>
  rbind (jnp_stack (map asarray xs)) (fun arr =>
  rbind (axes_of (length (shp arr)) ax) (fun ps =>
  rbind (if resolve g approx then jnp_extremum (existsb (fun b => b)) xmax_list ps arr
         else Ok (jnp_quantify (existsb (fun b => b)) ps arr)) (fun r =>
  ret_truthy m r)))).
