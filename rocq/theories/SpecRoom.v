(** Vocabulary of the statements about closed rooms. *)
From Coq Require Import Reals List Bool ZArith String.
From Verif Require Import Base LogicM GeometryM OptimizeM PathM SceneM SpecGeometry SpecPath SpecImage SpecOrder.
Import ListNotations.
Open Scope R_scope.

(** The points on the left of (or on the line of) each of the walls. *)
Definition inside (room : list wall) (q : vec) : Prop := forall w, In w room -> 0 <= side_of w q.

(** The walls enclose a convex room, with the interior on the left of each wall: a
    point of the room that is on the line of a wall is on the wall itself, so there
    is no gap in the border. *)
Definition encloses (room : list wall) : Prop :=
  forall w q, In w room -> inside room q -> side_of w q = 0 -> on_segment (w_origin w) (w_dest w) q.

(** Every wall of the room is an object, drawn in any direction. *)
Definition walls_present (room : list wall) (objects : list object) : Prop :=
  forall w, In w room -> In (OWall w) objects \/ In (OWall (drawn_backwards w)) objects.

(** The walls that enclose an axis-parallel rectangle. *)
Definition rectangle (x0 y0 x1 y1 : R) : list wall :=
  [mkwall (x0, y0) (x1, y0); mkwall (x1, y0) (x1, y1); mkwall (x1, y1) (x0, y1); mkwall (x0, y1) (x0, y0)].

(** One of the two points is in the room, and the other is not. *)
Definition separated (room : list wall) (a b : vec) : Prop :=
  (inside room a /\ ~ inside room b) \/ (~ inside room a /\ inside room b).

(** Paths reflected on the walls of a scene, with exact validity (a tolerance of at
    most 1 on the loss, and obstacles that are not shortened). *)
Definition exact_reflections (g : bool) (s : scene) (va : validargs) : Prop :=
  (forall o, In o (objects s) -> exists w, o = OWall w) /\
  resolve g (va_approx va) = false /\ va_tol va <= 1 /\ 0 <= va_patch va.
