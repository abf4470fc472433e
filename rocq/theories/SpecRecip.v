(** Vocabulary of the statements about exchanging transmitters and receivers. *)
From Coq Require Import Reals List Bool ZArith String.
From Verif Require Import Base LogicM GeometryM OptimizeM PathM SceneM.
Import ListNotations.
Open Scope R_scope.

(** The same scene, where each transmitter receives and each receiver transmits. *)
Definition exchanged (s : scene) : scene := mkscene (receivers s) (transmitters s) (objects s).

(** The same path travelled backwards. *)
Definition backwards (p : path) : path := mkpath (rev (xys p)) (loss p).

(** [f'] gives to a path travelled backwards the value that [f] gives to the path. *)
Definition mirror_functions (f f' : pathfun) : Prop :=
  forall tx rx p os, f' rx tx (backwards p) (rev os) = f tx rx p os.
(** The values of [f] are numbers (neither infinite nor NaN). *)
Definition always_finite (f : pathfun) : Prop := forall tx rx p os, exists x, f tx rx p os = Fin x.

(** The validity test gives nothing to a path of loss 1 or more: exact tests with a
    tolerance of at most 1, or the hard sigmoid, steep enough. *)
Definition rejects_loss_one (g : bool) (va : validargs) : Prop :=
  if resolve g (va_approx va) then
    ak_function (va_kw va) = hard_sigmoid /\ 0 < ak_alpha (va_kw va) /\ 3 <= ak_alpha (va_kw va) * (1 - va_tol va)
  else va_tol va <= 1.

(** The settings for which paths can be travelled backwards: the base class, on any
    objects, and the image method on walls. *)
Definition reversible (g : bool) (s : scene) (cls : path_cls) (va : validargs) : Prop :=
  match cls with
  | ClsPath => True
  | ClsImage => (forall o, In o (objects s) -> exists w, o = OWall w) /\ rejects_loss_one g va
  | _ => False
  end.

(** A result of accumulating, or a valid path, seen from the other end. *)
Definition other_end_value (x : string * string * xreal) : string * string * xreal :=
  let '(tx, rx, v) := x in (rx, tx, v).
Definition other_end_path (x : string * string * path * list Z) : string * string * path * list Z :=
  let '(tx, rx, p, c) := x in (rx, tx, backwards p, rev c).
