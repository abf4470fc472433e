(** What the exact validity test has to decide, for scenes drawn on a grid: vocabulary of
    the statements about single precision (independent of the float model). *)
From Coq Require Import Reals List Bool ZArith.
From Flocq Require Import Core.Core.
From Verif Require Import Base LogicM FloatM SpecFloat32.
Import ListNotations.
Open Scope R_scope.

(** An object of the plane: a wall (or a RIS) is a segment, a vertex is a point. *)
Inductive shape2 := Segment (a b : R * R) | Dot (q : R * R).
(** A float object whose coordinates are on the grid of step [2^e]. *)
Definition object_on_grid (e : Z) (o : fobject) (s : shape2) : Prop :=
  match o, s with
  | FWall w, Segment a b => on_grid e (fw_origin w) a /\ on_grid e (fw_dest w) b
  | FRIS w _, Segment a b => on_grid e (fw_origin w) a /\ on_grid e (fw_dest w) b
  | FVertex p, Dot q => on_grid e p q
  | _, _ => False
  end.

(** [q] projects orthogonally onto the segment [a b] (onto its line, between its ends). *)
Definition projects_onto (q a b : R * R) : Prop :=
  0 <= (fst q - fst a) * (fst b - fst a) + (snd q - snd a) * (snd b - snd a)
    <= (fst b - fst a) * (fst b - fst a) + (snd b - snd a) * (snd b - snd a).
(** The [i]-th intermediate point projects onto the [i]-th object it interacts with. *)
Definition points_face_their_objects (pts : list (R * R)) (interacting : list shape2) : Prop :=
  forall i a b q, nth_error interacting i = Some (Segment a b) -> nth_error pts (S i) = Some q -> projects_onto q a b.

(** Leg [i] of the path leaves, or reaches, object [j] of the scene. *)
Definition touches (cand : list Z) (i j : nat) : Prop :=
  nth_error cand i = Some (Z.of_nat j) \/
  exists i', i = S i' /\ nth_error cand i' = Some (Z.of_nat j).
(** Some leg crosses a segment that it neither leaves nor reaches, with both
    parameters in [[lo, hi]]; parallel segments do not count. *)
Definition obstructed (lo hi : R) (pts : list (R * R)) (objects : list shape2) (cand : list Z) : Prop :=
  exists i j a b p q, nth_error objects j = Some (Segment a b) /\
    nth_error pts i = Some p /\ nth_error pts (S i) = Some q /\ ~ touches cand i j /\
    ~ parallel a b p q /\ crosses lo hi a b p q.

(** A number of magnitude at most [2^n], a point and an object with such coordinates. *)
Definition up_to (n : Z) (x : f32) : Prop := exists r, fval x = Fin r /\ Rabs r <= bpow radix2 n.
Definition point_up_to (n : Z) (v : fvec) : Prop := up_to n (fst v) /\ up_to n (snd v).
Definition object_up_to (n : Z) (o : fobject) : Prop :=
  match o with
  | FWall w | FRIS w _ => point_up_to n (fw_origin w) /\ point_up_to n (fw_dest w)
  | FVertex q => point_up_to n q
  end.
