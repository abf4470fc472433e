(** Vocabulary of the statement about the power received in a whole scene, in single
    precision. *)
From Coq Require Import Reals List Bool ZArith.
From Verif Require Import Base SpecGeometry SpecFloat32 SpecGrid SpecImage32 SpecAnywhere SpecAccuracy.
Import ListNotations.
Open Scope R_scope.

(** The walls of a scene, as segments. *)
Definition segments (walls : list ((R * R) * (R * R))) : list shape2 := map (fun '(a, b) => Segment a b) walls.

(** The path [pts], that interacts with [faces], is clearly valid ([v = true]): its points
    are on their walls with the margin [m] and nothing obstructs it even with the tolerance
    [t + M]; or clearly not ([v = false]): a point is off its wall by more than [m] or it is
    obstructed with the tolerance [t - M]. *)
Definition settled (t m M : R) (pts : list (R * R)) (shapes : list shape2) (cand : list Z) (faces : list shape2) (v : bool) : Prop :=
  if v
  then points_face_with_margin m pts faces /\ ~ obstructed (- (t + M)) (1 + t + M) pts shapes cand
  else ~ points_face_with_margin (- m) pts faces \/ obstructed (- t + M) (1 + t - M) pts shapes cand.

(** Two nodes on opposite sides of the wall [a b], everything within a square of size [L]:
    the wall is at least [L / 12] long, the nodes at least [L / 12] away from its line, and
    these two distances differ by at least [L / 6]. *)
Definition opposite_sides (L : R) (a b tx rx : R * R) : Prop :=
  ordinary L /\ ordinary (256 * L) /\ within L a /\ within L tx /\ within L rx /\ close_by L a b /\ close_by L tx a /\ close_by L rx a /\
  (L / 12) * (L / 12) <= (fst b - fst a) * (fst b - fst a) + (snd b - snd a) * (snd b - snd a) /\
  exists n, fst n * fst n + snd n * snd n = 1 /\ fst n * (fst b - fst a) + snd n * (snd b - snd a) = 0 /\
    L / 12 <= height a n tx /\ height a n rx <= - (L / 12) /\ L / 6 <= Rabs (height a n tx + height a n rx).

(** The direct path and the reflections on each wall, at the points [qs]. *)
Definition scene_paths (p r : R * R) (qs : list (R * R)) : list (list (R * R)) := [p; r] :: map (fun q => [p; q; r]) qs.

(** The power that a pair receives over the paths that are valid, in exact arithmetic. *)
Definition scene_power (c h : R) (paths : list (list (R * R))) (valid : list bool) : R :=
  sum_of (map (fun '(pts, v) => if v : bool then exact_power c h (length pts - 2) (polyline pts) else 0) (combine paths valid)).
