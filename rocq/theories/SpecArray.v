(** What the properties about arrays of truth values mean. *)
From Coq Require Import Reals List Bool ZArith Arith.
From Verif Require Import Base LogicM ArrayM.
Import ListNotations.
Local Notation length := List.length.

(** A Python number, as opposed to an array. *)
Definition is_python (v : pyval) : Prop := match v with PArr _ => False | _ => True end.
Definition is_float (v : pyval) : Prop :=
  match v with PArr (NF _ _) => True | PFloat _ => True | _ => False end.
(** The shape of a value; a Python number has no axis. *)
Definition shape_of (v : pyval) : shape :=
  match v with PArr (NB s _) => s | PArr (NF s _) => s | _ => [] end.
(** Its element at an index; a Python number is the same everywhere. *)
Definition elem (v : pyval) (i : index) : truthy :=
  match v with
  | PArr (NB _ f) => TB (f i)
  | PArr (NF _ f) => TF (f i)
  | PFloat x => TF (Fin x)
  | PBool b => TB b
  end.
(** The float in a float value. *)
Definition felem (v : pyval) (i : index) : xreal :=
  match elem v i with TF x => x | TB b => if b then Fin 1 else Fin 0 end.
(** An index of a shape. *)
Definition within (i : index) (s : shape) : Prop := Forall2 (fun a n => (a < n)%nat) i s.
(** Two values that can be operands of the same call: arrays of the same shape;
    without jit, also a Python number and anything. *)
Definition compatible (jit : bool) (x y : pyval) : Prop :=
  shape_of x = shape_of y \/ (jit = false /\ (is_python x \/ is_python y)).
(** A call succeeds with an array of shape [s] whose elements are [e]. *)
Definition gives (r : res nd) (s : shape) (e : index -> truthy) : Prop :=
  exists a, r = Ok a /\ shape_of (PArr a) = s /\ forall i, within i s -> elem (PArr a) i = e i.
(** The shape of the result: that of the array, if there is one. *)
Definition joint (x y : pyval) : shape := match shape_of x with [] => shape_of y | s => s end.
(** Values put along a new first axis; if one of them is a float, all become. *)
Definition all_bool (xs : list pyval) : Prop := Forall (fun v => ~ is_float v) xs.
Definition stacked (xs : list pyval) (i : index) (t : truthy) : Prop :=
  match i with
  | [] => False
  | a :: i => exists v, nth_error xs a = Some v /\
      (all_bool xs -> t = elem v i) /\ (~ all_bool xs -> t = TF (felem v i))
  end.
(** [i] with the coordinate [j] inserted at position [p]. *)
Definition insert (p j : nat) (i : index) : index := firstn p i ++ j :: skipn p i.
