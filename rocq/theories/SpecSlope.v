(** Vocabulary of C98: by how much a path meets its requirements. *)
From Coq Require Import Reals List Bool ZArith.
From Verif Require Import Base LogicM GeometryM OptimizeM PathM SpecGeometry SpecPath.
Import ListNotations.
Open Scope R_scope.

(** The loss is below the tolerance by at least [m]. *)
Definition loss_below_by (m : R) (l : xreal) (tol : R) : Prop :=
  match l with Fin r => r + m <= tol | NInf => True | _ => False end.

(** Every interaction point projects on its wall at a relative position that is at
    least [m] away from both ends (a wall reduced to a point has no inside). *)
Definition inside_by (m : R) (pts : list vec) (interacting : list object) : Prop :=
  forall i o w q, nth_error interacting i = Some o -> wall_of o = Some w ->
  nth_error pts (S i) = Some q ->
  (0 < m -> proper w) /\ exists t, m <= t <= 1 - m /\ projects_at w q t.

(** The segment [A B] misses the wall (whose ends are moved outwards by [patch] times
    its length and whose window has the built-in tolerance 0.005) by at least [m]: it
    is parallel to it, or the lines meet at relative positions one of which is at
    least [m] outside of the window. *)
Definition misses_by (m : R) (w : wall) (patch : R) (A B : vec) : Prop :=
  let P := at_ (w_origin w) (w_dest w) (- patch) in
  let Q := at_ (w_origin w) (w_dest w) (1 + patch) in
  parallel P Q A B \/
  forall s t, meet_at P Q A B s t ->
    s + (5 / 1000 + m) <= 0 \/ 1 + 5 / 1000 + m <= s \/
    t + (5 / 1000 + m) <= 0 \/ 1 + 5 / 1000 + m <= t.

(** The path meets each of its three requirements by at least [m] ([m] may be
    negative: then each may be violated by up to [- m]). *)
Definition satisfied_by (m : R) (p : path) (objects : list object) (cand : list Z)
    (interacting : list object) (tol patch : R) : Prop :=
  loss_below_by m (loss p) tol /\ inside_by m (xys p) interacting /\
  forall i j A B o w, segment_at (xys p) i A B -> nth_error objects j = Some o -> wall_of o = Some w ->
    ~ touches cand i j -> misses_by m w patch A B.

(** Settled: meets all its requirements by at least [m], or misses one of them by
    more than [m]. *)
Definition settled_by (m : R) (p : path) (objects : list object) (cand : list Z)
    (interacting : list object) (tol patch : R) : Prop :=
  satisfied_by m p objects cand interacting tol patch \/
  ~ satisfied_by (- m) p objects cand interacting tol patch.
