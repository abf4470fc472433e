(** Vocabulary of the statements about geometry.py: elementary plane geometry. *)
From Coq Require Import Reals List Bool.
From Verif Require Import Base LogicM GeometryM.
Import ListNotations.
Open Scope R_scope.

(** The point [A + t (B - A)]. *)
Definition at_ (A B : vec) (t : R) : vec :=
  (fst A + t * (fst B - fst A), snd A + t * (snd B - snd A)).

(** [X] is on the closed segment [A B]; on the line through [A] and [B]. *)
Definition on_segment (A B X : vec) : Prop := exists t, 0 <= t <= 1 /\ X = at_ A B t.
Definition on_line (A B X : vec) : Prop := exists t, X = at_ A B t.

(** The segments [P1 P2] and [P3 P4] have parallel directions (this includes
    segments of zero length). *)
Definition parallel (P1 P2 P3 P4 : vec) : Prop :=
  (fst P2 - fst P1) * (snd P4 - snd P3) = (snd P2 - snd P1) * (fst P4 - fst P3).

(** The lines meet at relative position [a] on the first and [b] on the second. *)
Definition meet_at (P1 P2 P3 P4 : vec) (a b : R) : Prop := at_ P1 P2 a = at_ P3 P4 b.

(** Euclidean distance. *)
Definition dist (p q : vec) : R := sqrt ((fst p - fst q) ^ 2 + (snd p - snd q) ^ 2).

(** A wall of positive length. *)
Definition proper (w : wall) : Prop := w_origin w <> w_dest w.

(** The wall with its endpoints exchanged. *)
Definition flip (w : wall) : wall := mkwall (w_dest w) (w_origin w).

(** [u] is the direction of [v]: the unit vector along [v], or zero if [v] is. *)
Definition is_direction (v u : vec) : Prop :=
  (v = (0, 0) /\ u = (0, 0)) \/
  (fst u ^ 2 + snd u ^ 2 = 1 /\ exists l, 0 < l /\ v = (l * fst u, l * snd u)).

(** [r] is the mirror image of the direction [i] on the wall: same component
    along the wall, opposite component across it. *)
Definition specular (w : wall) (i r : vec) : Prop :=
  let tx := fst (w_dest w) - fst (w_origin w) in
  let ty := snd (w_dest w) - snd (w_origin w) in
  fst r * tx + snd r * ty = fst i * tx + snd i * ty /\
  tx * snd r - ty * fst r = - (tx * snd i - ty * fst i).

(** Length of a polyline. *)
Fixpoint polyline (pts : list vec) : R :=
  match pts with
  | p :: ((q :: _) as tl) => dist p q + polyline tl
  | _ => 0
  end.

(** Every pair of consecutive points satisfies [Q]. *)
Definition consecutive (Q : vec -> vec -> Prop) (pts : list vec) : Prop :=
  forall l p q r, pts = l ++ p :: q :: r -> Q p q.

(** Rotation of a point around a centre. *)
Definition rotated (angle : R) (c q : vec) : vec :=
  (fst c + (cos angle * (fst q - fst c) - sin angle * (snd q - snd c)),
   snd c + (sin angle * (fst q - fst c) + cos angle * (snd q - snd c))).

(** [q] is in the box. *)
Definition in_box (b : bbox) (q : vec) : Prop :=
  fst (fst b) <= fst q <= fst (snd b) /\ snd (fst b) <= snd q <= snd (snd b).

(** The box is the smallest one containing the points: it contains them all and
    each side touches one. *)
Definition tight_box (b : bbox) (pts : list vec) : Prop :=
  (forall q, In q pts -> in_box b q) /\
  (exists q, In q pts /\ fst q = fst (fst b)) /\
  (exists q, In q pts /\ snd q = snd (fst b)) /\
  (exists q, In q pts /\ fst q = fst (snd b)) /\
  (exists q, In q pts /\ snd q = snd (snd b)).

(** The points that define an object. *)
Definition defining_points (o : object) : list vec :=
  match o with
  | OWall w => [w_origin w; w_dest w]
  | ORIS w _ => [w_origin w; w_dest w]
  | OVertex q => [q]
  end.

(** The position lies on the object itself. *)
Definition on_object (o : object) (q : vec) : Prop :=
  match o with
  | OWall w => on_segment (w_origin w) (w_dest w) q
  | ORIS w _ => on_segment (w_origin w) (w_dest w) q
  | OVertex v => q = v
  end.
