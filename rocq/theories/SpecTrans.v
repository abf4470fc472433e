(** Vocabulary of C85: positions where the smoothed validity of a path has a slope. *)
From Coq Require Import Reals List Bool ZArith Arith.
From Verif Require Import Base LogicM GeometryM PathM AdM SpecGeometry SpecPath SpecImage SpecAd.
Import ListNotations.
Open Scope R_scope.

(** The comparisons of the validity test of a path: the position of the interaction
    point [j] with respect to the start and the end of its wall, the crossing of the leg
    [i] and the object [m] with respect to the ends of the wall and of the leg, and the
    loss. *)
Inductive side := WallStart | WallEnd | LegStart | LegEnd.
Inductive comparison := FromStart (j : nat) | FromEnd (j : nat) | Clear (i m : nat) (d : side) | Loss.

(** [z] is the margin of the comparison: positive when it speaks for the path.  The
    lines of the leg and of the wall meet at relative positions [s] on the wall and [t]
    on the leg (there is no comparison when they are parallel). *)
Definition margin (tol patch : R) (objects : list object) (cand : list Z) (ws : list wall) (p : path)
    (c : comparison) (z : R) : Prop :=
  match c with
  | FromStart j => exists w q, nth_error ws j = Some w /\ nth_error (xys p) (S j) = Some q /\ projects_at w q z
  | FromEnd j => exists w q, nth_error ws j = Some w /\ nth_error (xys p) (S j) = Some q /\ projects_at w q (1 - z)
  | Clear i m d => exists A B o w s t,
      segment_at (xys p) i A B /\ nth_error objects m = Some o /\ wall_of o = Some w /\ ~ touches cand i m /\
      let P := at_ (w_origin w) (w_dest w) (- patch) in
      let Q := at_ (w_origin w) (w_dest w) (1 + patch) in
      ~ parallel P Q A B /\ meet_at P Q A B s t /\
      z = match d with
          | WallStart => - (s + 5 / 1000)
          | WallEnd => s - (1 + 5 / 1000)
          | LegStart => - (t + 5 / 1000)
          | LegEnd => t - (1 + 5 / 1000)
          end
  | Loss => exists l, loss p = Fin l /\ z = tol - l
  end.

(** The activation of slope [alpha] is constant around [z]; it has a corner at [z]. *)
Definition constant_at (a : act) (alpha z : R) : Prop := match a with Hard => settled alpha z | Sigm => False end.
Definition corner_at (a : act) (alpha z : R) : Prop :=
  match a with Hard => alpha * z = 3 \/ alpha * z = - 3 | Sigm => False end.

(** No margin is at a corner, no two different comparisons where the activation varies
    have the same margin, and a leg parallel to a wall that it does not touch is not on
    its line, neither has zero length, and the activation is the hard sigmoid. *)
Definition path_decided (a : act) (alpha tol patch : R) (objects : list object) (cand : list Z)
    (ws : list wall) (p : path) : Prop :=
  (forall c z, margin tol patch objects cand ws p c z -> ~ corner_at a alpha z) /\
  (forall c c' z, margin tol patch objects cand ws p c z -> margin tol patch objects cand ws p c' z ->
     constant_at a alpha z \/ c = c') /\
  (forall i m A B o w, segment_at (xys p) i A B -> nth_error objects m = Some o -> wall_of o = Some w -> ~ touches cand i m ->
     let P := at_ (w_origin w) (w_dest w) (- patch) in
     let Q := at_ (w_origin w) (w_dest w) (1 + patch) in
     parallel P Q A B -> a = Hard /\ P <> Q /\ A <> B /\ ~ on_line P Q A).
