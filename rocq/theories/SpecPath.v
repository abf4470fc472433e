(** Vocabulary of the statements about paths and their validity. *)
From Coq Require Import Reals List Bool ZArith.
From Verif Require Import Base LogicM GeometryM OptimizeM PathM SpecGeometry.
Import ListNotations.
Open Scope R_scope.

(** The wall of an object that has one. *)
Definition wall_of (o : object) : option wall :=
  match o with OWall w => Some w | ORIS w _ => Some w | OVertex _ => None end.

(** [A] and [B] are the [i]-th and [(i+1)]-th points. *)
Definition segment_at (pts : list vec) (i : nat) (A B : vec) : Prop :=
  nth_error pts i = Some A /\ nth_error pts (S i) = Some B.

(** Segment [i] of a path with interactions [cand] starts or ends on object [j]
    ([cand]'s [i]-th entry is the object at the end of segment [i]). *)
Definition touches (cand : list Z) (i j : nat) : Prop :=
  nth_error cand i = Some (Z.of_nat j) \/
  exists i', i = S i' /\ nth_error cand i' = Some (Z.of_nat j).

(** The segment [A B] crosses the wall, whose two ends are moved outwards by
    [patch] times its length, up to the relative tolerance [tol]. *)
Definition crosses (w : wall) (patch tol : R) (A B : vec) : Prop :=
  let P := at_ (w_origin w) (w_dest w) (- patch) in
  let Q := at_ (w_origin w) (w_dest w) (1 + patch) in
  ~ parallel P Q A B /\
  exists s t, meet_at P Q A B s t /\ - tol <= s <= 1 + tol /\ - tol <= t <= 1 + tol.

(** Some segment crosses some object that it does not touch. *)
Definition obstructed (pts : list vec) (objects : list object) (cand : list Z)
    (patch tol : R) : Prop :=
  exists i j A B o w,
    segment_at pts i A B /\ nth_error objects j = Some o /\ wall_of o = Some w /\
    ~ touches cand i j /\ crosses w patch tol A B.

(** The orthogonal projection of [q] on the line of [w] is the point of relative
    position [t]. *)
Definition projects_at (w : wall) (q : vec) (t : R) : Prop :=
  let x := at_ (w_origin w) (w_dest w) t in
  (fst q - fst x) * (fst (w_dest w) - fst (w_origin w)) +
  (snd q - snd x) * (snd (w_dest w) - snd (w_origin w)) = 0.

(** The [i]-th interaction point (the [(i+1)]-th point of the path) projects
    inside the [i]-th interacting object. *)
Definition projects_inside (pts : list vec) (interacting : list object) : Prop :=
  forall i o w q, nth_error interacting i = Some o -> wall_of o = Some w ->
  nth_error pts (S i) = Some q -> exists t, 0 <= t <= 1 /\ projects_at w q t.

(** ... and strictly inside a wall of positive length. *)
Definition projects_strictly_inside (pts : list vec) (interacting : list object) : Prop :=
  forall i o w q, nth_error interacting i = Some o -> wall_of o = Some w ->
  nth_error pts (S i) = Some q -> proper w /\ exists t, 0 < t < 1 /\ projects_at w q t.

(** The loss is a number below the tolerance. *)
Definition loss_below (l : xreal) (tol : R) : Prop :=
  match l with Fin r => r < tol | NInf => True | _ => False end.

(** The position of relative coordinate [t] on an object (a vertex has only one). *)
Definition position_on (o : object) (t : R) : vec :=
  match o with
  | OWall w => at_ (w_origin w) (w_dest w) t
  | ORIS w _ => at_ (w_origin w) (w_dest w) t
  | OVertex q => q
  end.

(** Number of walls and RIS among the first [i] objects. *)
Definition walls_before (os : list object) (i : nat) : nat :=
  length (filter (fun o => match wall_of o with Some _ => true | None => false end) (firstn i os)).
