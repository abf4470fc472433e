(** Vocabulary of the statements about single precision for coordinates that are not on
    a grid: which configurations leave enough room for the rounding errors. *)
From Coq Require Import Reals List Bool ZArith.
From Flocq Require Import Core.Core.
From Verif Require Import Base FloatM SpecFloat32 SpecGrid SpecImage32.
Import ListNotations.
Open Scope R_scope.

(** A float object and what it stands for. *)
Definition object_stands_for (o : fobject) (s : shape2) : Prop :=
  match o, s with
  | FWall w, Segment a b => stands_for (fw_origin w) a /\ stands_for (fw_dest w) b
  | FRIS w _, Segment a b => stands_for (fw_origin w) a /\ stands_for (fw_dest w) b
  | FVertex p, Dot q => stands_for p q
  | _, _ => False
  end.

(** Two points whose coordinates differ by at most [L]. *)
Definition close_by (L : R) (p q : R * R) : Prop := Rabs (fst p - fst q) <= L /\ Rabs (snd p - snd q) <= L.
(** A size for which nothing overflows, and products do not underflow. *)
Definition ordinary (L : R) : Prop := bpow radix2 (-50) <= L <= bpow radix2 50.

(** The determinant of the vectors [a b] and [c d]: the area they span. *)
Definition det (a b c d : R * R) : R :=
  (fst b - fst a) * (snd d - snd c) - (snd b - snd a) * (fst d - fst c).

(** The segments [a b] and [p q] have a size [L] (they and the distance between them), and
    they span at least the fraction [s] of [L^2]: they are not nearly parallel. *)
Definition transverse (s L : R) (a b p q : R * R) : Prop := s * (L * L) <= Rabs (det a b p q).
(** Or they are both along the same axis. *)
Definition same_axis (a b p q : R * R) : Prop :=
  snd a = snd b /\ snd p = snd q \/ fst a = fst b /\ fst p = fst q.
(** Or one of them is well off the line of the other: the intersection of the two lines,
    if any, is beyond 3 times the length of the segment. *)
Definition far_off (L : R) (a b p q : R * R) : Prop :=
  3 * Rabs (det a b p q) + bpow radix2 (-18) * (L * L) <= Rabs (det p a p q) \/
  3 * Rabs (det a b p q) + bpow radix2 (-18) * (L * L) <= Rabs (det a p a b).
Definition clear_cut (s : R) (a b p q : R * R) : Prop :=
  exists L, ordinary L /\ close_by L a b /\ close_by L p q /\ close_by L a p /\
    (transverse s L a b p q \/ same_axis a b p q \/ far_off L a b p q).

(** The segment [a b] is not short compared with the distance to [q]. *)
Definition sizeable (s : R) (a b q : R * R) : Prop :=
  exists L, ordinary L /\ close_by L a b /\ close_by L q a /\
    s * (L * L) <= (fst b - fst a) * (fst b - fst a) + (snd b - snd a) * (snd b - snd a).
(** [q] projects onto the segment [a b] with the fraction [m] of it to spare on both sides
    (beyond its ends if [m] is negative). *)
Definition projects_with_margin (m : R) (q a b : R * R) : Prop :=
  let len2 := (fst b - fst a) * (fst b - fst a) + (snd b - snd a) * (snd b - snd a) in
  m * len2 <= (fst q - fst a) * (fst b - fst a) + (snd q - snd a) * (snd b - snd a) <= (1 - m) * len2.
Definition points_face_with_margin (m : R) (pts : list (R * R)) (interacting : list shape2) : Prop :=
  forall i a b q, nth_error interacting i = Some (Segment a b) -> nth_error pts (S i) = Some q -> projects_with_margin m q a b.

(** Every leg is clear cut with every segment that it neither leaves nor reaches, and the
    segments the path interacts with are sizeable. *)
Definition well_conditioned (s : R) (pts : list (R * R)) (objects : list shape2) (cand : list Z) (interacting : list shape2) : Prop :=
  (forall i j a b p q, nth_error objects j = Some (Segment a b) -> nth_error pts i = Some p -> nth_error pts (S i) = Some q ->
     ~ touches cand i j -> clear_cut s a b p q) /\
  (forall i a b q, nth_error interacting i = Some (Segment a b) -> nth_error pts (S i) = Some q -> sizeable s a b q).

(** ** One reflection on a wall *)
(** How far [p] is from the line through [a] orthogonal to the unit vector [n]. *)
Definition height (a n p : R * R) : R := (fst p - fst a) * fst n + (snd p - snd a) * snd n.
Definition within (L : R) (p : R * R) : Prop := Rabs (fst p) <= L /\ Rabs (snd p) <= L.
(** Two nodes on the same side of the wall [a b], everything within a square of size [L],
    the wall at least [tau L] long and the nodes at least [tau L] away from its line. *)
Definition one_reflection (tau L : R) (a b tx rx : R * R) : Prop :=
  ordinary L /\ ordinary (2 * L) /\ within L a /\ within L tx /\ within L rx /\ close_by L a b /\ close_by L tx a /\ close_by L rx a /\
  (tau * L) * (tau * L) <= (fst b - fst a) * (fst b - fst a) + (snd b - snd a) * (snd b - snd a) /\
  exists n, fst n * fst n + snd n * snd n = 1 /\ fst n * (fst b - fst a) + snd n * (snd b - snd a) = 0 /\
    tau * L <= height a n tx /\ tau * L <= height a n rx.
(** [i] is the mirror image of [p] in the line [a b]. *)
Definition mirror_image (a b p i : R * R) : Prop :=
  det a b a ((fst p + fst i) / 2, (snd p + snd i) / 2) = 0 /\
  (fst p - fst i) * (fst b - fst a) + (snd p - snd i) * (snd b - snd a) = 0.
(** [q] is the point of the line [a b] where the path from [tx] to [rx] is reflected. *)
Definition reflection_point (a b tx rx q : R * R) : Prop :=
  det a b a q = 0 /\ exists i s, mirror_image a b tx i /\ q = between i rx s.
(** Computed coordinates within [e] of those of a point. *)
Definition computed_near (e : R) (p : fvec) (q : R * R) : Prop :=
  exists x y, stands_for p (x, y) /\ Rabs (x - fst q) <= e /\ Rabs (y - snd q) <= e.

(** ** The images in several walls, one after the other *)
Inductive mirror_chain : R * R -> list ((R * R) * (R * R)) -> list (R * R) -> Prop :=
| mirror_nil p : mirror_chain p [] []
| mirror_cons p a b i walls is : mirror_image a b p i -> mirror_chain i walls is -> mirror_chain p ((a, b) :: walls) (i :: is).
(** Walls within a square of size [L], each at least [L / 12] long. *)
Definition walls_within (L : R) (walls : list ((R * R) * (R * R))) : Prop :=
  (forall a b, In (a, b) walls -> within L a /\ close_by L a b /\
     (L / 12) * (L / 12) <= (fst b - fst a) * (fst b - fst a) + (snd b - snd a) * (snd b - snd a)) /\
  (forall a b c d, In (a, b) walls -> In (c, d) walls -> close_by L a c).
Definition wall_stands_for (w : fwall) (ab : (R * R) * (R * R)) : Prop :=
  stands_for (fw_origin w) (fst ab) /\ stands_for (fw_dest w) (snd ab).

(** ** A whole scene, in exact geometry *)
(** Everything within a size [L] of the point [o]. *)
Definition scene_within (L : R) (o : R * R) (shapes : list shape2) : Prop :=
  forall a b, In (Segment a b) shapes -> close_by L a b /\ close_by L a o.
(** As [far_off], with a margin of [L^2 / 128]. *)
Definition well_off (L : R) (a b p q : R * R) : Prop :=
  3 * Rabs (det a b p q) + bpow radix2 (-7) * (L * L) <= Rabs (det p a p q) \/
  3 * Rabs (det a b p q) + bpow radix2 (-7) * (L * L) <= Rabs (det a p a b).
(** Every leg spans at least the fraction [s] of [L^2] with each segment that it neither
    leaves nor reaches, or one of the two is well off the other. *)
Definition legs_clear (s L : R) (pts : list (R * R)) (objects : list shape2) (cand : list Z) : Prop :=
  forall i j a b p q, nth_error objects j = Some (Segment a b) -> nth_error pts i = Some p -> nth_error pts (S i) = Some q ->
    ~ touches cand i j -> transverse s L a b p q \/ well_off L a b p q.
