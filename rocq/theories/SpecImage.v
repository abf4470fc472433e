(** Vocabulary of the statements about the image method. *)
From Coq Require Import Reals List Bool ZArith.
From Verif Require Import Base LogicM GeometryM PathM SpecGeometry SpecPath.
Import ListNotations.
Open Scope R_scope.

(** [b] is the mirror image of [a] on the line of the wall: the wall's line
    passes through their midpoint and is orthogonal to the segment joining them.  On a
    zero-length wall, which has no line, the mirror image is the point itself. *)
Definition mirrored (w : wall) (a b : vec) : Prop :=
  (proper w /\
   on_line (w_origin w) (w_dest w) ((fst a + fst b) / 2, (snd a + snd b) / 2) /\
   (fst a - fst b) * (fst (w_dest w) - fst (w_origin w)) +
   (snd a - snd b) * (snd (w_dest w) - snd (w_origin w)) = 0) \/
  (~ proper w /\ b = a).

(** [imgs] are the successive images of [tx]: [tx] itself, then its image on the
    first object, then the image of that image on the second object, ... *)
Definition image_chain (tx : vec) (os : list object) (imgs : list vec) : Prop :=
  length imgs = S (length os) /\ nth_error imgs 0 = Some tx /\
  forall i o w a b, nth_error os i = Some o -> wall_of o = Some w ->
    nth_error imgs i = Some a -> nth_error imgs (S i) = Some b -> mirrored w a b.

(** Which side of the line of the wall a point is on (0 on the line). *)
Definition side_of (w : wall) (q : vec) : R :=
  (fst (w_dest w) - fst (w_origin w)) * (snd q - snd (w_origin w)) -
  (snd (w_dest w) - snd (w_origin w)) * (fst q - fst (w_origin w)).
Definition same_side (w : wall) (a b : vec) : Prop := 0 < side_of w a * side_of w b.
Definition opposite_sides (w : wall) (a b : vec) : Prop := side_of w a * side_of w b < 0.

(** The interaction with the [i]-th wall is a true reflection: the points before
    and after it are strictly on the same side of the wall. *)
Definition true_reflection (pts : list vec) (i : nat) (w : wall) : Prop :=
  exists A B, nth_error pts i = Some A /\ nth_error pts (S (S i)) = Some B /\ same_side w A B.
Definition crossing (pts : list vec) (i : nat) (w : wall) : Prop :=
  exists A B, nth_error pts i = Some A /\ nth_error pts (S (S i)) = Some B /\ opposite_sides w A B.

(** General position: no wall is parallel to the segment from its image to the
    next point (in particular no wall has zero length), and consecutive points differ. *)
Definition general_position (tx : vec) (ws : list wall) (pts : list vec) : Prop :=
  (forall imgs i w I B, image_chain tx (map OWall ws) imgs -> nth_error ws i = Some w ->
     nth_error imgs (S i) = Some I -> nth_error pts (S (S i)) = Some B ->
     ~ parallel (w_origin w) (w_dest w) I B) /\
  consecutive (fun p q => p <> q) pts.

(** A polyline from [tx] to [rx] that meets the lines of the walls in order. *)
Definition visits (tx : vec) (ws : list wall) (rx : vec) (pts : list vec) : Prop :=
  exists qs, pts = tx :: qs ++ [rx] /\
    Forall2 (fun w q => on_line (w_origin w) (w_dest w) q) ws qs.
