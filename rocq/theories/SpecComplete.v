(** Vocabulary of the characterisation of the valid paths of the image method. *)
From Coq Require Import Reals List Bool ZArith.
From Verif Require Import Base LogicM GeometryM PathM SpecGeometry SpecPath SpecImage.
Import ListNotations.
Open Scope R_scope.

(** A path reflected by the walls [ws], as in a physics textbook: it goes from [tx] to
    [rx] with one point per wall; that point is on the wall (not at one of its two ends
    unless [ends] is true), the points before and after are on the same side of the
    wall, off its line, and the law of reflection holds. *)
Definition specular_path (ends : bool) (tx : vec) (ws : list wall) (rx : vec) (pts : list vec) : Prop :=
  length pts = (length ws + 2)%nat /\
  nth_error pts 0 = Some tx /\ nth_error pts (length ws + 1) = Some rx /\
  forall i w A Q B, nth_error ws i = Some w ->
    nth_error pts i = Some A -> nth_error pts (i + 1) = Some Q -> nth_error pts (i + 2) = Some B ->
    on_segment (w_origin w) (w_dest w) Q /\
    (ends = false -> Q <> w_origin w /\ Q <> w_dest w) /\
    same_side w A B /\
    forall u v, is_direction (vsub Q A) u -> is_direction (vsub B Q) v -> specular w u v.

(** The objects that [filter_objects] accepts ([None] accepts all of them). *)
Definition accepts (filter : option (object -> bool)) (o : object) : Prop :=
  match filter with Some keep => keep o = true | None => True end.
