(** Vocabulary of the statements about automatic differentiation. *)
From Coq Require Import Reals List Bool ZArith Arith.
From Verif Require Import Base LogicM GeometryM PathM AdM SpecGeometry SpecPath SpecImage.
Import ListNotations.
Open Scope R_scope.

Definition is_fin (x : xreal) : Prop := exists r, x = Fin r.

(** [F], a function of [n] real variables, is finite around the point [x] and has
    there the gradient [g]: along every differentiable curve through [x], of
    velocity [v], its derivative is [g . v]. *)
Definition is_gradient (n : nat) (F : (nat -> R) -> xreal) (x g : nat -> R) : Prop :=
  forall (curve : R -> nat -> R) (v : nat -> R) (t0 : R),
  (forall i, derivable_pt_lim (fun t => curve t i) t0 (v i)) ->
  (forall i, curve t0 i = x i) ->
  exists f delta, 0 < delta /\
    (forall t, Rabs (t - t0) < delta -> F (curve t) = Fin (f t)) /\
    derivable_pt_lim f t0 (fold_right Rplus 0 (map (fun i => g i * v i) (seq 0 n))).

(** No variable occurs in [e]; only the first [n] do. *)
Fixpoint closed (e : expr) : bool :=
  match e with
  | EVar _ => false
  | ECst _ => true
  | ENeg a | ESqrt a | ESq a | ELogistic a => closed a
  | EAdd a b | ESub a b | EMul a b | EDiv a b | EMax a b | EMin a b => closed a && closed b
  | EMin3 a b c => closed a && closed b && closed c
  | EWhere _ l a b => closed l && closed a && closed b
  end.
Fixpoint vars_below (n : nat) (e : expr) : Prop :=
  match e with
  | EVar i => (i < n)%nat
  | ECst _ => True
  | ENeg a | ESqrt a | ESq a | ELogistic a => vars_below n a
  | EAdd a b | ESub a b | EMul a b | EDiv a b | EMax a b | EMin a b => vars_below n a /\ vars_below n b
  | EMin3 a b c => vars_below n a /\ vars_below n b /\ vars_below n c
  | EWhere _ l a b => vars_below n l /\ vars_below n a /\ vars_below n b
  end.

(** No primitive applied to something that varies has an infinite slope: no
    division by zero, no square root at zero - even in a branch of [where] that is
    not selected. *)
Fixpoint safe (env : nat -> R) (e : expr) : Prop :=
  closed e = true \/
  match e with
  | EVar _ | ECst _ => True
  | ENeg a => safe env a
  | EAdd a b | ESub a b | EMax a b | EMin a b => safe env a /\ safe env b
  | EMul a b => safe env a /\ safe env b /\
      (closed a = true \/ is_fin (eval env b)) /\ (closed b = true \/ is_fin (eval env a))
  | EDiv a b => safe env a /\ safe env b /\
      (exists d, eval env b = Fin d /\ d <> 0) /\ (closed b = true \/ is_fin (eval env a))
  | ESqrt a => safe env a /\ exists r, eval env a = Fin r /\ 0 < r
  | ESq a => safe env a /\ is_fin (eval env a)
  | ELogistic a => safe env a /\ eval env a <> NaN
  | EMin3 a b c => safe env a /\ safe env b /\ safe env c /\
      eval env a <> NaN /\ eval env b <> NaN /\ eval env c <> NaN
  | EWhere _ _ a b => safe env a /\ safe env b
  end.

(** [e] has no kink and no jump at [env]: operands of [max] and [min] that are
    equal have the same gradient, and the conditions of [where] are locally
    constant. *)
Definition tie (env : nat -> R) (a b : expr) : Prop :=
  eval env a = eval env b -> forall i, grad env a i = grad env b i.
Fixpoint regular (env : nat -> R) (e : expr) : Prop :=
  (closed e = true /\ is_fin (eval env e)) \/
  match e with
  | EVar _ => True
  | ECst x => is_fin x
  | ENeg a | ESq a | ELogistic a => regular env a
  | EAdd a b | ESub a b | EMul a b => regular env a /\ regular env b
  | EDiv a b => regular env a /\ regular env b /\ eval env b <> Fin 0
  | ESqrt a => regular env a /\ exists r, eval env a = Fin r /\ 0 < r
  | EMax a b | EMin a b => regular env a /\ regular env b /\ tie env a b
  | EMin3 a b c => regular env a /\ regular env b /\ regular env c /\
      tie env a b /\ tie env a c /\ tie env b c
  | EWhere c l a b =>
      (closed l = true /\ (if holds c (eval env l) then regular env a else regular env b)) \/
      (safe env l /\ regular env l /\ holds c (eval env l) = false /\ regular env b)
  end.

(** ** Positions of the image method *)
(** No wall is parallel to the segment from the image on it to the point after it
    (in particular no wall has zero length). *)
Definition unfolds (tx : vec) (ws : list wall) (pts : list vec) : Prop :=
  forall imgs i w I B, image_chain tx (map OWall ws) imgs -> nth_error ws i = Some w ->
    nth_error imgs (S i) = Some I -> nth_error pts (S (S i)) = Some B ->
    ~ parallel (w_origin w) (w_dest w) I B.
(** No step is [(-eps, -eps)], which [path_length] turns into a zero vector. *)
Definition steps_off (eps : R) (pts : list vec) : Prop :=
  consecutive (fun a b => b <> (fst a - eps, snd a - eps)) pts.
(** What the length of the path [p] on the walls [ws] needs to have a slope; what
    its validity needs on top: if there is a wall, no two consecutive points are
    equal. *)
Definition length_position (eps : R) (tx : vec) (ws : list wall) (p : path) : Prop :=
  unfolds tx ws (xys p) /\ steps_off eps (xys p).
Definition gradient_position (eps : R) (tx : vec) (ws : list wall) (p : path) : Prop :=
  length_position eps tx ws p /\ (ws <> [] -> consecutive (fun a b => a <> b) (xys p)).

(** The two coordinates of the node that moves, as variables; a position as values
    of the variables. *)
Definition evar : evec := (EVar 0, EVar 1).
Definition env_at (p : vec) (i : nat) : R := match i with O => fst p | S O => snd p | _ => 0 end.

(** ** Away from the transitions of the comparisons *)
(** The hard sigmoid of slope [alpha] is constant around the argument [x]. *)
Definition settled (alpha x : R) : Prop := alpha * x < -3 \/ 3 < alpha * x.
(** Two segments on distinct parallel lines, or whose lines meet, but not near an end of
    either, whose ends are moved outwards by [tol] times their length. *)
Definition segments_settled (alpha : R) (P1 P2 P3 P4 : vec) (tol : R) : Prop :=
  (parallel P1 P2 P3 P4 /\ P1 <> P2 /\ P3 <> P4 /\ ~ on_line P1 P2 P3) \/
  (~ parallel P1 P2 P3 P4 /\ forall s t, meet_at P1 P2 P3 P4 s t ->
     settled alpha (s + tol) /\ settled alpha (1 + tol - s) /\
     settled alpha (t + tol) /\ settled alpha (1 + tol - t)).
(** No point of the path projects near an end of its wall, no segment of the path
    passes near an end of a wall that it does not touch, the ends of the walls
    being moved outwards by [patch] times their length, and the loss is not exactly
    where its comparison with [tol] has a corner. *)
Definition path_settled (alpha tol patch : R) (objects : list object) (cand : list Z)
    (ws : list wall) (p : path) : Prop :=
  (forall j w q t, nth_error ws j = Some w -> nth_error (xys p) (S j) = Some q ->
     projects_at w q t -> settled alpha t /\ settled alpha (1 - t)) /\
  (forall i m A B o w, segment_at (xys p) i A B -> nth_error objects m = Some o ->
     wall_of o = Some w -> ~ touches cand i m ->
     segments_settled alpha (at_ (w_origin w) (w_dest w) (- patch))
       (at_ (w_origin w) (w_dest w) (1 + patch)) A B (5 / 1000)) /\
  (forall l, loss p = Fin l -> alpha * (tol - l) <> 3 /\ alpha * (tol - l) <> -3).

(** [m] points whose coordinates are variables, and their values. *)
Definition evars (m : nat) : list evec := map (fun i => (EVar (2 * i), EVar (2 * i + 1))) (seq 0 m).
Definition points_at (m : nat) (x : nat -> R) : list vec := map (fun i => (x (2 * i)%nat, x (2 * i + 1)%nat)) (seq 0 m).
(** The [j]-th of these points. *)
Definition epoint (j : nat) : evec := (EVar (2 * j), EVar (2 * j + 1)).
Definition point_of (x : nat -> R) (j : nat) : vec := (x (2 * j)%nat, x (2 * j + 1)%nat).
(** Reverse mode gives [e] the finite gradient [g] at [x], and it is the gradient
    of [F]. *)
Definition gradient_right (n : nat) (e : expr) (F : (nat -> R) -> R) (x g : nat -> R) : Prop :=
  (forall i, grad x e i = Fin (g i)) /\ is_gradient n (fun y => Fin (F y)) x g.

(** The lines of the segments meet, no comparison of the crossing test is at a
    corner of the hard sigmoid, and no two comparisons that are in their transition
    have the same value. *)
Definition deciding (alpha : R) (P1 P2 P3 P4 : vec) (tol : R) : Prop :=
  ~ parallel P1 P2 P3 P4 /\ forall s t, meet_at P1 P2 P3 P4 s t ->
  let args := [s + tol; 1 + tol - s; t + tol; 1 + tol - t] in
  Forall (fun z => alpha * z <> 3 /\ alpha * z <> -3) args /\
  ForallOrdPairs (fun z z' => settled alpha z \/ settled alpha z' \/ z <> z') args.

(** ** With [approx=False] *)
(** [b] is the exact validity of the image path on the walls [ws]. *)
Definition exact_validity (g : bool) (objects : list object) (tol patch : R) (k : akw)
    (tx rx : vec) (cand : list Z) (ws : list wall) (b : bool) : Prop :=
  exists p, ImagePath_from tx (map OWall ws) rx = Ok p /\
    is_valid g p objects cand (map OWall ws) tol patch (Some false) k = Ok (TB b).
(** The value of a call, NaN if it raises. *)
Definition value (r : res xreal) : xreal := match r with Ok z => z | Err _ => NaN end.
