(** Property C92: results do not depend on how a scene is written down. *)
From Coq Require Import Reals List Bool ZArith String Lia Lra Permutation.
From Verif Require Import Base BaseP LogicM GeometryM VecP OptimizeM PathM CandidatesM SceneM SpecScene SpecRun SpecOrder
  SceneP SceneRunP OrderP TurnP RunExP OrderExP.
Import ListNotations.
Local Notation length := List.length.
Open Scope R_scope.

(** Listing the objects in another order enumerates the same paths, on the same
    objects and with the same validity, possibly in another order. *)
Theorem C92_listing_order_same_paths :
  forall P g s os' cls ca va t r, good_split P ->
  represents (transmitters s) t -> represents (receivers s) r -> never_fails cls (@None (key_t P)) s ->
  Permutation (objects s) os' ->
  let s' := with_objects s os' in
  Permutation (map (shown s') (yielded (all_paths P g s' cls ca va None)))
    (map (shown s) (yielded (all_paths P g s cls ca va None))) /\
  raised (all_paths P g s' cls ca va None) = None.
Proof.
  intros P g s os' cls ca va t r G T R N Pm. split.
  - apply paths_perm with (t := t) (r := r); auto.
  - apply (C51_total_lemma P g (with_objects s os') cls va ca None t r); auto. apply (never_perm P cls None s); auto.
Qed.
Print Assumptions C92_listing_order_same_paths.

(** Drawing walls from their other end changes neither the paths (exceptions
    included), nor their order, nor their validity. *)
Theorem C92_wall_direction_same_paths :
  forall P g s os' cls ca va key, no_solver cls -> Forall2 redrawn (objects s) os' -> filter_ignores_direction ca ->
  all_paths P g (with_objects s os') cls ca va key = all_paths P g s cls ca va key.
Proof. intros P g s os' cls ca va key NS H K. apply all_rds; auto. Qed.
Print Assumptions C92_wall_direction_same_paths.

(** Accumulated values: any order of the objects and any direction of the walls. *)
Theorem C92_same_scenery_same_values :
  forall P g s os' cls ca va f t r, good_split P ->
  represents (transmitters s) t -> represents (receivers s) r -> never_fails cls (@None (key_t P)) s ->
  same_scenery (objects s) os' -> ignores_direction f -> filter_ignores_direction ca ->
  accumulate_over_paths P g (with_objects s os') cls ca va None f = accumulate_over_paths P g s cls ca va None f /\
  accumulate_over_paths_reduced P g (with_objects s os') cls ca va None f = accumulate_over_paths_reduced P g s cls ca va None f.
Proof. exact same_values. Qed.
Print Assumptions C92_same_scenery_same_values.

(** And coverage maps. *)
Theorem C92_same_scenery_same_maps :
  forall P g s os' cls ca va f gradop X Y, good_split P ->
  never_fails cls (@None (key_t P)) s -> same_scenery (objects s) os' -> ignores_direction f -> filter_ignores_direction ca ->
  same_shape X Y ->
  (forall t, represents (transmitters s) t ->
   accumulate_on_receivers_grid P g (with_objects s os') cls ca va None f gradop MVal X Y =
   accumulate_on_receivers_grid P g s cls ca va None f gradop MVal X Y) /\
  (forall r, represents (receivers s) r ->
   accumulate_on_transmitters_grid P g (with_objects s os') cls ca va None f gradop MVal X Y =
   accumulate_on_transmitters_grid P g s cls ca va None f gradop MVal X Y).
Proof. exact same_maps. Qed.
Print Assumptions C92_same_scenery_same_maps.

(** The direction of a RIS does matter: its angle is measured from its normal. *)
Theorem C92_ris_direction_matters :
  exists w phi a b c, obj_evaluate (ORIS w phi) a b c = 0 /\ obj_evaluate (ORIS (drawn_backwards w) phi) a b c = 4.
Proof. exact ris_direction. Qed.
Print Assumptions C92_ris_direction_matters.

(** Three walls listed in another order, one of them drawn backwards; the scene has
    one path per candidate, and at least one of them is valid. *)
Example C92_nonvacuous :
  same_scenery (objects order_scene) order_objects /\ objects order_scene <> order_objects /\
  never_fails ClsImage (@None (key_t ex_prng)) order_scene /\ good_split ex_prng /\
  represents (transmitters order_scene) [("a"%string, (0, 0))] /\ represents (receivers order_scene) [("b"%string, (2, 0))] /\
  ignores_direction (fun _ _ p _ => Fin (Path_length 0 p)) /\ filter_ignores_direction (mkcandargs 0 1 None None) /\
  length (yielded (all_paths ex_prng false order_scene ClsImage (mkcandargs 0 1 None None) ex_va None)) = 4%nat.
Proof. exact order_ok. Qed.
