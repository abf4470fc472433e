(** Vocabulary of the statements about how a scene is written down: the order of
    its objects and the direction in which each wall is drawn. *)
From Coq Require Import Reals List Bool ZArith String Permutation.
From Verif Require Import Base LogicM GeometryM OptimizeM PathM SceneM SpecRun.
Import ListNotations.

(** The same segment, drawn from its other end. *)
Definition drawn_backwards (w : wall) : wall := mkwall (w_dest w) (w_origin w).
(** The same object, up to the direction in which a wall is drawn. *)
Definition redrawn (o o' : object) : Prop :=
  o' = o \/ exists w, o = OWall w /\ o' = OWall (drawn_backwards w).
(** The same objects, listed in any order, walls drawn in any direction. *)
Definition same_scenery (os os' : list object) : Prop :=
  exists mid, Permutation os mid /\ Forall2 redrawn mid os'.
(** Functions that do not look at the direction of the walls. *)
Definition ignores_direction (f : pathfun) : Prop :=
  forall tx rx p os os', Forall2 redrawn os os' -> f tx rx p os' = f tx rx p os.
Definition filter_ignores_direction (ca : candargs) : Prop :=
  match ca_filter ca with
  | None => True
  | Some keep => forall o o', redrawn o o' -> keep o' = keep o
  end.

(** The path classes that use no random numbers. *)
Definition no_solver (cls : path_cls) : Prop := match cls with ClsPath => True | ClsImage => True | _ => False end.
(** What an item says, with the objects themselves instead of their indices. *)
Definition shown (s : scene) (it : pathitem) : string * string * truthy * path * list object :=
  (it_tx it, it_rx it, it_valid it, it_path it, objects_at s (map Z.to_nat (it_cand it))).
