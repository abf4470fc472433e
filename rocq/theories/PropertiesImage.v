(** Properties C31-C35, C63, C64: the image method. *)
From Coq Require Import Reals List Bool ZArith Arith Lia Lra.
From Verif Require Import Base LogicM GeometryM OptimizeM PathM SpecLogic SpecGeometry SpecPath SpecImage
  WallP PathP PathSmoothP PathShapeP ImageP ImageExP.
Import ListNotations.
Open Scope R_scope.
Local Notation length := List.length.

(** C31: each non-degenerate step puts the point on the wall's line and on the line
    from the image to the next point (walls and RIS alike). *)
Theorem C31_image_points_on_walls_and_image_lines :
  forall tx os rx p imgs i o w I Q B,
  ImagePath_from tx os rx = Ok p -> image_chain tx os imgs ->
  nth_error os i = Some o -> wall_of o = Some w -> nth_error imgs (S i) = Some I ->
  nth_error (xys p) (S i) = Some Q -> nth_error (xys p) (S (S i)) = Some B ->
  ~ parallel (w_origin w) (w_dest w) I B ->
  on_line (w_origin w) (w_dest w) Q /\ on_line I B Q.
Proof. intros. eapply C31_lemma; eauto. Qed.
Print Assumptions C31_image_points_on_walls_and_image_lines.

(** Two walls in general position; both points are true reflections. *)
Example C31_C32_C33_C34_nonvacuous :
  exists p, ImagePath_from (1, 1) (map OWall [mkwall (0, 0) (2, 0); mkwall (3, 0) (3, 4)]) (2, 3) = Ok p /\
  xys p = [(1, 1); (7 / 4, 0); (3, 5 / 3); (2, 3)] /\
  general_position (1, 1) [mkwall (0, 0) (2, 0); mkwall (3, 0) (3, 4)] (xys p) /\
  (forall i w, nth_error [mkwall (0, 0) (2, 0); mkwall (3, 0) (3, 4)] i = Some w -> true_reflection (xys p) i w).
Proof. exact two_walls_example. Qed.

(** C32 *)
Theorem C32_loss_is_four_times_the_number_of_crossed_walls :
  forall tx ws rx p,
  ImagePath_from tx (map OWall ws) rx = Ok p -> general_position tx ws (xys p) ->
  exists flags : list bool, length flags = length ws /\
    (forall i w, nth_error ws i = Some w ->
       nth_error flags i = Some true /\ crossing (xys p) i w \/
       nth_error flags i = Some false /\ true_reflection (xys p) i w) /\
    loss p = Fin (4 * INR (count_occ Bool.bool_dec flags true)).
Proof. exact C32_lemma. Qed.
Print Assumptions C32_loss_is_four_times_the_number_of_crossed_walls.

Theorem C32_loss_test_is_true_reflection_test :
  forall tx ws rx p tol,
  ImagePath_from tx (map OWall ws) rx = Ok p -> general_position tx ws (xys p) -> 0 < tol <= 4 ->
  (loss_below (loss p) tol <-> forall i w, nth_error ws i = Some w -> true_reflection (xys p) i w).
Proof. exact C32_test. Qed.
Print Assumptions C32_loss_test_is_true_reflection_test.

(** A path that crosses its wall, in general position. *)
Example C32_nonvacuous_crossing :
  exists p, ImagePath_from (0, 1) (map OWall [mkwall (0, 0) (2, 0)]) (2, - 3) = Ok p /\
  xys p = [(0, 1); (- 1, 0); (2, - 3)] /\
  general_position (0, 1) [mkwall (0, 0) (2, 0)] (xys p) /\
  crossing (xys p) 0 (mkwall (0, 0) (2, 0)).
Proof. exact crossing_example. Qed.

(** C33 *)
Theorem C33_true_reflections_give_the_shortest_path :
  forall tx ws rx p imgs I,
  ImagePath_from tx (map OWall ws) rx = Ok p -> general_position tx ws (xys p) ->
  (forall i w, nth_error ws i = Some w -> true_reflection (xys p) i w) ->
  image_chain tx (map OWall ws) imgs -> nth_error imgs (length ws) = Some I ->
  polyline (xys p) = dist I rx /\ visits tx ws rx (xys p) /\
  forall pts, visits tx ws rx pts -> polyline (xys p) <= polyline pts.
Proof. exact C33_lemma. Qed.
Print Assumptions C33_true_reflections_give_the_shortest_path.

(** C34: the image method is reciprocal as soon as it is in general position both
    ways, or one way with true reflections only. *)
Theorem C34_image_path_reciprocity :
  forall tx ws rx p p',
  ImagePath_from tx (map OWall ws) rx = Ok p -> general_position tx ws (xys p) ->
  ImagePath_from rx (map OWall (rev ws)) tx = Ok p' ->
  (general_position rx (rev ws) (xys p') \/
   forall i w, nth_error ws i = Some w -> true_reflection (xys p) i w) ->
  xys p' = rev (xys p) /\ loss p' = loss p.
Proof. exact C34_lemma. Qed.
Print Assumptions C34_image_path_reciprocity.

(** The verdicts do not depend on the direction of travel, for any path, in any mode. *)
Theorem C34_validity_reciprocity :
  forall g p objects cand interacting tol patch approx k,
  length (xys p) = (length cand + 2)%nat -> length interacting = length cand ->
  let p' := mkpath (rev (xys p)) (loss p) in
  on_objects g p' (rev interacting) approx k = on_objects g p interacting approx k /\
  intersects_with_objects g p' objects (rev cand) patch approx k =
    intersects_with_objects g p objects cand patch approx k /\
  is_valid g p' objects (rev cand) (rev interacting) tol patch approx k =
    is_valid g p objects cand interacting tol patch approx k.
Proof.
  intros g p objects cand interacting tol patch approx k L L'. cbn zeta. split; [apply C34_on; lia|].
  split; [apply C34_inter; auto|apply C34_valid; auto].
Qed.
Print Assumptions C34_validity_reciprocity.

(** C35 *)
Theorem C35_degenerate_step_repeats_the_next_point :
  forall tx os rx p imgs i o w I B,
  ImagePath_from tx os rx = Ok p -> image_chain tx os imgs ->
  nth_error os i = Some o -> wall_of o = Some w -> nth_error imgs (S i) = Some I ->
  nth_error (xys p) (S (S i)) = Some B -> parallel (w_origin w) (w_dest w) I B ->
  nth_error (xys p) (S i) = Some B.
Proof.
  intros tx os rx p imgs i o w I B HP HC Ho Hw HI HB HPar.
  destruct (nth_error (xys p) (S i)) as [Q|] eqn:HQ.
  - f_equal. eapply C31_lemma; eauto.
  - apply nth_error_None in HQ. exfalso.
    assert (S (S i) < length (xys p))%nat by (apply nth_error_Some; congruence). lia.
Qed.
Print Assumptions C35_degenerate_step_repeats_the_next_point.

Theorem C35_degenerate_step_costs_one_or_collapses :
  forall tx ws rx p imgs i w I B,
  ImagePath_from tx (map OWall ws) rx = Ok p -> image_chain tx (map OWall ws) imgs ->
  nth_error ws i = Some w -> nth_error imgs (S i) = Some I -> nth_error (xys p) (S (S i)) = Some B ->
  parallel (w_origin w) (w_dest w) I B ->
  nth_error (xys p) (S i) = Some B /\
  ((exists l, loss p = Fin l /\ 1 <= l) \/ (Forall (eq tx) (xys p) /\ loss p = Fin 0)).
Proof. exact C35_lemma. Qed.
Print Assumptions C35_degenerate_step_costs_one_or_collapses.

Theorem C35_degenerate_paths_are_rejected :
  forall tx ws rx p imgs i w I B,
  ImagePath_from tx (map OWall ws) rx = Ok p -> image_chain tx (map OWall ws) imgs ->
  nth_error ws i = Some w -> nth_error imgs (S i) = Some I -> nth_error (xys p) (S (S i)) = Some B ->
  parallel (w_origin w) (w_dest w) I B -> tx <> rx ->
  forall g objects cand interacting tol patch k, tol <= 1 ->
  is_valid g p objects cand interacting tol patch (Some false) k <> Ok (TB true).
Proof. exact C35_invalid. Qed.
Print Assumptions C35_degenerate_paths_are_rejected.

Theorem C35_collapse_has_no_loss :
  forall w q, ~ proper w ->
  exists p, ImagePath_from q (map OWall [w]) q = Ok p /\ xys p = [q; q; q] /\ loss p = Fin 0.
Proof. exact collapse_example. Qed.
Print Assumptions C35_collapse_has_no_loss.

Example C35_nonvacuous :
  exists p, ImagePath_from (0, 1) (map OWall [mkwall (0, 0) (2, 0)]) (5, - 1) = Ok p /\
  xys p = [(0, 1); (5, - 1); (5, - 1)] /\ loss p = Fin 1 /\
  parallel (0, 0) (2, 0) (0, - 1) (5, - 1).
Proof. exact degenerate_example. Qed.

(** C63: what an exactly valid image path is. *)
Theorem C63_valid_image_paths_are_physical :
  forall g tx ws rx p objects cand tol patch k,
  ImagePath_from tx (map OWall ws) rx = Ok p -> general_position tx ws (xys p) ->
  length cand = length ws -> 0 < tol <= 4 ->
  is_valid g p objects cand (map OWall ws) tol patch (Some false) k = Ok (TB true) ->
  (forall i w A Q B, nth_error ws i = Some w -> nth_error (xys p) i = Some A ->
     nth_error (xys p) (S i) = Some Q -> nth_error (xys p) (S (S i)) = Some B ->
     on_segment (w_origin w) (w_dest w) Q /\ same_side w A B /\
     forall u v, is_direction (vsub Q A) u -> is_direction (vsub B Q) v -> specular w u v) /\
  ~ obstructed (xys p) objects cand patch (5 / 1000) /\
  forall pts, visits tx ws rx pts -> polyline (xys p) <= polyline pts.
Proof. exact C63_lemma. Qed.
Print Assumptions C63_valid_image_paths_are_physical.

(** C64: the image method finds every specular polyline. *)
Theorem C64_every_specular_polyline_is_the_image_path :
  forall tx ws rx p pts,
  ImagePath_from tx (map OWall ws) rx = Ok p -> visits tx ws rx pts ->
  (forall i w A Q B, nth_error ws i = Some w -> nth_error pts i = Some A ->
     nth_error pts (S i) = Some Q -> nth_error pts (S (S i)) = Some B ->
     side_of w A <> 0 /\ Q <> B /\
     forall u v, is_direction (vsub Q A) u -> is_direction (vsub B Q) v -> specular w u v) ->
  xys p = pts /\ loss p = Fin 0.
Proof. exact C64_lemma. Qed.
Print Assumptions C64_every_specular_polyline_is_the_image_path.

(** The two-wall path is valid with the default settings, and is specular. *)
Example C63_nonvacuous : forall g k,
  let ws := [mkwall (0, 0) (2, 0); mkwall (3, 0) (3, 4)] in
  exists p, ImagePath_from (1, 1) (map OWall ws) (2, 3) = Ok p /\ general_position (1, 1) ws (xys p) /\
  is_valid g p (map OWall ws) [0%Z; 1%Z] (map OWall ws) DEFAULT_TOL DEFAULT_PATCH (Some false) k = Ok (TB true).
Proof. exact two_walls_valid. Qed.
Example C64_nonvacuous :
  let ws := [mkwall (0, 0) (2, 0); mkwall (3, 0) (3, 4)] in
  let pts := [(1, 1); (7 / 4, 0); (3, 5 / 3); (2, 3)] in
  visits (1, 1) ws (2, 3) pts /\
  (forall i w A Q B, nth_error ws i = Some w -> nth_error pts i = Some A ->
     nth_error pts (S i) = Some Q -> nth_error pts (S (S i)) = Some B ->
     side_of w A <> 0 /\ Q <> B /\
     forall u v, is_direction (vsub Q A) u -> is_direction (vsub B Q) v -> specular w u v).
Proof. exact two_walls_specular. Qed.
