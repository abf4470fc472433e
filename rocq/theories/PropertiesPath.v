(** Properties C24 (paths), C27 (paths), C29, C30, C36-C44: paths and their
    validity, solvers. *)
From Coq Require Import Reals List Bool ZArith Arith Lia Lra.
From Verif Require Import Base LogicM GeometryM OptimizeM PathM SpecLogic SpecGeometry SpecPath SpecOptimize
  SegP VecP WallP ShapeP OptimizeP PathP PathSmoothP PathShapeP.
Import ListNotations.
Open Scope R_scope.
Local Notation length := List.length.

(** C24: inserting a vertex anywhere in the scene (the candidate being
    re-indexed) changes neither intersections nor validity, in any mode. *)
Theorem C24_vertices_do_not_affect_validity :
  forall g p objects cand interacting tol patch approx k v j,
  (length (xys p) <= length cand + 2)%nat -> (j <= length objects)%nat ->
  let objects' := firstn j objects ++ OVertex v :: skipn j objects in
  let cand' := map (fun z => if (Z.of_nat j <=? z)%Z then (z + 1)%Z else z) cand in
  is_valid g p objects' cand' interacting tol patch approx k =
  is_valid g p objects cand interacting tol patch approx k /\
  intersects_with_objects g p objects' cand' patch approx k =
  intersects_with_objects g p objects cand patch approx k.
Proof. exact C24_insert_vertex. Qed.
Print Assumptions C24_vertices_do_not_affect_validity.

(** C27 *)
Theorem C27_path_box_tight :
  forall p b, path_bbox p = Ok b -> tight_box b (xys p).
Proof. exact C27_path. Qed.
Print Assumptions C27_path_box_tight.
Example C27_path_nonvacuous : exists b, path_bbox (mkpath [(0,0); (1,2)] (Fin 0)) = Ok b.
Proof. eexists. reflexivity. Qed.

(** C29 *)
Theorem C29_endpoints_and_length :
  forall P cls key tx objects rx p, from_tx_objects_rx P cls key tx objects rx = Ok p ->
  (exists mid, xys p = tx :: mid ++ [rx] /\ length mid = length objects) /\
  (objects = [] -> p = mkpath [tx; rx] (Fin 0)).
Proof. exact C29_lemma. Qed.
Print Assumptions C29_endpoints_and_length.

(** The constructors do return a path: [Path] always, [ImagePath] on walls, the
    solver-based ones with at least one step and one trial. *)
Theorem C29_constructors_succeed :
  (forall P key tx objects rx, exists p, from_tx_objects_rx P ClsPath key tx objects rx = Ok p) /\
  (forall P key tx ws rx, exists p, from_tx_objects_rx P ClsImage key tx (map OWall ws) rx = Ok p) /\
  (forall P cls key tx objects rx s, (exists eps, cls = ClsFermat eps s) \/ cls = ClsMin s ->
     (1 <= sv_steps s)%nat -> (1 <= sv_many s)%nat -> length (rsplit P key (sv_many s)) = sv_many s ->
     exists p, from_tx_objects_rx P cls (Some key) tx objects rx = Ok p).
Proof.
  exact (conj (fun P key tx os rx => ex_intro _ (Path_from tx os rx) eq_refl)
        (conj (fun P key tx ws rx => image_ok_walls tx ws rx) solver_ok)).
Qed.
Print Assumptions C29_constructors_succeed.

(** The base class goes through the middle of each object, with loss 0. *)
Theorem C29_path_visits_the_middle_of_each_object :
  forall P key tx objects rx p, from_tx_objects_rx P ClsPath key tx objects rx = Ok p ->
  xys p = tx :: map (fun o => position_on o (1 / 2)) objects ++ [rx] /\ loss p = Fin 0.
Proof. exact C29_middle. Qed.
Print Assumptions C29_path_visits_the_middle_of_each_object.

(** ... and what [ImagePath] does with other objects. *)
Theorem C29_image_path_errors :
  (forall tx v vs rx, ImagePath_from tx (map OVertex (v :: vs)) rx = Err AttributeError) /\
  (forall tx objects rx, (exists o o', In o objects /\ In o' objects /\ kind_of o <> kind_of o') ->
     ImagePath_from tx objects rx = Err ValueError).
Proof. exact (conj image_vertex_fails image_mixed_fails). Qed.
Print Assumptions C29_image_path_errors.

(** C30 *)
Theorem C30_points_on_objects_in_order :
  forall objects params tx rx i o,
  length params = walls_before objects (length objects) -> nth_error objects i = Some o ->
  nth_error (parametric_to_cartesian objects params (length objects) tx rx) (S i) =
  Some (position_on o (nth (walls_before objects i) params 0)).
Proof. exact C30_lemma. Qed.
Print Assumptions C30_points_on_objects_in_order.

Theorem C30_each_parameter_used_once :
  forall objects j, (j < walls_before objects (length objects))%nat ->
  exists! i, exists o w, nth_error objects i = Some o /\ wall_of o = Some w /\ walls_before objects i = j.
Proof. exact C30_once. Qed.
Print Assumptions C30_each_parameter_used_once.

Theorem C30_solver_paths_on_objects :
  forall P cls key tx objects rx s p, (exists eps, cls = ClsFermat eps s) \/ cls = ClsMin s ->
  ((forall g st, length (fst (opt_update (sv_opt s) g st)) = length g) /\
   (forall f x, length (sv_grad s f x) = length x)) ->
  (forall k n, length (runiform P k n) = n) -> objects <> [] ->
  from_tx_objects_rx P cls (Some key) tx objects rx = Ok p ->
  exists theta, length theta = walls_before objects (length objects) /\
  forall i o, nth_error objects i = Some o ->
    nth_error (xys p) (S i) = Some (position_on o (nth (walls_before objects i) theta 0)).
Proof. exact C30_solver. Qed.
Print Assumptions C30_solver_paths_on_objects.

Definition example_prng : prng := mkprng nat (fun k n => repeat k n) (fun _ n => repeat (1 / 2) n).
Definition example_solver : solver :=
  mksolver (fun _ x => map (fun _ => 1) x) gd 2 3.
Example C30_nonvacuous :
  ((forall g st, length (fst (opt_update (sv_opt example_solver) g st)) = length g) /\
   (forall f x, length (sv_grad example_solver f x) = length x)) /\
  (forall k n, length (runiform example_prng k n) = n) /\
  exists p, from_tx_objects_rx example_prng (ClsMin example_solver) (Some 7%nat) (0,0)
    [OWall (mkwall (0,1) (1,1)); OVertex (3,3); ORIS (mkwall (0,0) (0,5)) 1] (1,1) = Ok p.
Proof.
  split; [split|split].
  - intros; cbn; apply map_length.
  - intros; cbn; apply map_length.
  - intros; apply repeat_length.
  - apply (solver_ok example_prng (ClsMin example_solver) 7%nat (0,0) _ (1,1) example_solver); auto; cbn; lia.
Qed.

(** C36 *)
Theorem C36_on_objects_is_projection_test :
  forall g p interacting k, (length interacting < length (xys p))%nat ->
  exists b, on_objects g p interacting (Some false) k = TB b /\
  (b = true <-> projects_inside (xys p) interacting).
Proof. exact C36_lemma. Qed.
Print Assumptions C36_on_objects_is_projection_test.

Theorem C36_does_not_imply_on_the_wall :
  let w := mkwall (0, 0) (1, 0) in
  let q := (1 / 2, 7) in
  (forall g k, on_objects g (mkpath [(0, 1); q; (1, 1)] (Fin 0)) [OWall w] (Some false) k = TB true) /\
  ~ on_line (w_origin w) (w_dest w) q.
Proof. exact C36_counterexample. Qed.
Print Assumptions C36_does_not_imply_on_the_wall.

(** C37 *)
Theorem C37_intersects_iff_obstructed :
  forall g p objects cand patch k, (length (xys p) <= length cand + 2)%nat ->
  exists b, intersects_with_objects g p objects cand patch (Some false) k = Ok (TB b) /\
  (b = true <-> obstructed (xys p) objects cand patch (5 / 1000)).
Proof. exact C37_lemma. Qed.
Print Assumptions C37_intersects_iff_obstructed.

Theorem C37_short_candidate_fails :
  forall g p objects cand patch approx k,
  (length cand + 2 < length (xys p))%nat -> objects <> [] ->
  intersects_with_objects g p objects cand patch approx k = Err IndexError.
Proof. exact inter_too_long. Qed.
Print Assumptions C37_short_candidate_fails.

(** C38 *)
Theorem C38_exact_validity :
  forall g p objects cand interacting tol patch k,
  (length (xys p) <= length cand + 2)%nat -> (length interacting < length (xys p))%nat ->
  exists b, is_valid g p objects cand interacting tol patch (Some false) k = Ok (TB b) /\
  (b = true <-> loss_below (loss p) tol /\ projects_inside (xys p) interacting /\
                ~ obstructed (xys p) objects cand patch (5 / 1000)).
Proof. exact C38_lemma. Qed.
Print Assumptions C38_exact_validity.

(** With the default arguments: a loss below one hundredth, and the objects as they are
    drawn, not extended. *)
Theorem C38_default_arguments :
  forall g p objects cand interacting k,
  (length (xys p) <= length cand + 2)%nat -> (length interacting < length (xys p))%nat ->
  exists b, is_valid g p objects cand interacting DEFAULT_TOL DEFAULT_PATCH (Some false) k = Ok (TB b) /\
  (b = true <-> loss_below (loss p) (1 / 100) /\ projects_inside (xys p) interacting /\
                ~ obstructed (xys p) objects cand 0 (5 / 1000)).
Proof. exact (fun g p os cand inter => C38_lemma g p os cand inter (1 / 100) 0). Qed.
Print Assumptions C38_default_arguments.

(** Both outcomes occur: a reflection on the first of two walls, then the same
    path with the second wall moved onto the way. *)
Example C38_nonvacuous :
  let p := mkpath [(0, 1); (1, 0); (2, 1)] (Fin 0) in
  let w := OWall (mkwall (0, 0) (2, 0)) in
  (forall g k, is_valid g p [w; OWall (mkwall (5, 0) (5, 2))] [0%Z] [w] DEFAULT_TOL 0 (Some false) k = Ok (TB true)) /\
  (forall g k, is_valid g p [w; OWall (mkwall (3 / 2, 0) (3 / 2, 2))] [0%Z] [w] DEFAULT_TOL 0 (Some false) k = Ok (TB false)).
Proof. exact valid_examples. Qed.

(** C39 *)
Theorem C39_smoothed_validity_in_unit_interval :
  forall g p objects cand interacting tol patch k t, shipped k ->
  is_valid g p objects cand interacting tol patch (Some true) k = Ok t ->
  exists r, t = TF (Fin r) /\ 0 <= r <= 1.
Proof. exact C39_lemma. Qed.
Print Assumptions C39_smoothed_validity_in_unit_interval.

Theorem C39_is_valid_never_fails :
  forall g p objects cand interacting tol patch approx k,
  (length (xys p) <= length cand + 2)%nat \/ objects = [] ->
  exists t, is_valid g p objects cand interacting tol patch approx k = Ok t.
Proof. exact valid_total. Qed.
Print Assumptions C39_is_valid_never_fails.

(** C40 *)
Theorem C40_smoothed_validity_characterised :
  forall g k, shipped k -> 0 < ak_alpha k ->
  forall p objects cand interacting tol patch,
  (length (xys p) <= length cand + 2)%nat -> (length interacting < length (xys p))%nat ->
  exists t b, is_valid g p objects cand interacting tol patch (Some true) k = Ok t /\
  is_true g t DEFAULT_TRUTH_TOL (Some true) = Ok b /\
  (b = true <-> loss_below (loss p) tol /\ projects_strictly_inside (xys p) interacting /\
                ~ obstructed (xys p) objects cand patch (5 / 1000)).
Proof. exact C40_lemma. Qed.
Print Assumptions C40_smoothed_validity_characterised.

Theorem C40_smoothed_implies_exact_and_conversely_off_wall_ends :
  forall g k, shipped k -> 0 < ak_alpha k ->
  forall p objects cand interacting tol patch t,
  (length (xys p) <= length cand + 2)%nat -> (length interacting < length (xys p))%nat ->
  is_valid g p objects cand interacting tol patch (Some true) k = Ok t ->
  (is_true g t DEFAULT_TRUTH_TOL (Some true) = Ok true ->
   is_valid g p objects cand interacting tol patch (Some false) k = Ok (TB true)) /\
  (is_valid g p objects cand interacting tol patch (Some false) k = Ok (TB true) ->
   (forall i o w q, nth_error interacting i = Some o -> wall_of o = Some w ->
      nth_error (xys p) (S i) = Some q -> proper w /\ ~ projects_at w q 0 /\ ~ projects_at w q 1) ->
   is_true g t DEFAULT_TRUTH_TOL (Some true) = Ok true).
Proof. exact C40_both. Qed.
Print Assumptions C40_smoothed_implies_exact_and_conversely_off_wall_ends.

(** C41 *)
Theorem C41_exact_validity_antitone :
  forall g p objects extra cand interacting tol tol' patch patch' k,
  (length (xys p) <= length cand + 2)%nat -> (length interacting < length (xys p))%nat ->
  0 <= patch <= patch' -> tol' <= tol ->
  is_valid g p (objects ++ extra) cand interacting tol' patch' (Some false) k = Ok (TB true) ->
  is_valid g p objects cand interacting tol patch (Some false) k = Ok (TB true).
Proof. exact C41_exact. Qed.
Print Assumptions C41_exact_validity_antitone.

Theorem C41_smoothed_score_antitone :
  forall g p objects extra cand interacting tol patch k,
  shipped k -> (length (xys p) <= length cand + 2)%nat ->
  exists a b, is_valid g p (objects ++ extra) cand interacting tol patch (Some true) k = Ok (TF (Fin a)) /\
    is_valid g p objects cand interacting tol patch (Some true) k = Ok (TF (Fin b)) /\ a <= b.
Proof. exact C41_smooth. Qed.
Print Assumptions C41_smoothed_score_antitone.

(** C42 *)
Theorem C42_wall_behind_receiver_blocks :
  let w := mkwall (1001 / 1000, -1) (1001 / 1000, 1) in
  let tx := (0, 0) in let rx := (1, 0) in
  (forall X, ~ (on_segment tx rx X /\ on_segment (w_origin w) (w_dest w) X)) /\
  forall g k, is_valid g (mkpath [tx; rx] (Fin 0)) [OWall w] [] [] DEFAULT_TOL DEFAULT_PATCH (Some false) k
              = Ok (TB false).
Proof. exact C42_behind. Qed.
Print Assumptions C42_wall_behind_receiver_blocks.

Theorem C42_only_within_half_percent :
  forall g tx rx objects k,
  is_valid g (mkpath [tx; rx] (Fin 0)) objects [] [] DEFAULT_TOL DEFAULT_PATCH (Some false) k = Ok (TB false) ->
  exists o w s t, In o objects /\ wall_of o = Some w /\ ~ parallel (w_origin w) (w_dest w) tx rx /\
    meet_at (w_origin w) (w_dest w) tx rx s t /\
    - (5 / 1000) <= s <= 1 + 5 / 1000 /\ - (5 / 1000) <= t <= 1 + 5 / 1000.
Proof. exact C42_only_if. Qed.
Print Assumptions C42_only_within_half_percent.

(** C43 *)
Theorem C43_minimize_returns_last_iterate_and_previous_loss :
  forall f grad o steps x0, (1 <= steps)%nat ->
  (exists x st, x 0%nat = x0 /\ trajectory grad o x st steps) /\
  (forall x st, x 0%nat = x0 -> trajectory grad o x st steps ->
     minimize f grad o steps x0 = Ok (x steps, f (x (steps - 1)%nat))).
Proof. exact C43_lemma. Qed.
Print Assumptions C43_minimize_returns_last_iterate_and_previous_loss.

Theorem C43_zero_steps_fails :
  forall f grad o x0, minimize f grad o 0 x0 = Err IndexError.
Proof. exact minimize_zero. Qed.
Print Assumptions C43_zero_steps_fails.

(** The documented "corresponding loss" is refuted by one step of gradient
    descent (learning rate 1/4) on the square function from 1. *)
Theorem C43_reported_loss_is_not_at_the_returned_point :
  let square x := nth 0 x 0 * nth 0 x 0 in
  let dsquare x := [2 * nth 0 x 0] in
  let descent := mkoptimizer unit (fun _ => tt) (fun g st => (map (fun a => - (1 / 4) * a) g, st)) in
  exists x l, minimize square dsquare descent 1 [1] = Ok (x, l) /\ l <> square x.
Proof. exact C43_stale. Qed.
Print Assumptions C43_reported_loss_is_not_at_the_returned_point.

(** C44 *)
Theorem C44_best_trial :
  forall P f grad o steps key n many,
  (2 <= many)%nat -> length (rsplit P key many) = many -> (1 <= steps)%nat ->
  exists trials i,
    length trials = many /\ (i < many)%nat /\
    (forall j dk d, (j < many)%nat ->
       minimize_random_uniform P f grad o steps (nth j (rsplit P key many) dk) n = Ok (nth j trials d)) /\
    (forall d, minimize_many_random_uniform P f grad o steps key n many = Ok (nth i trials d)) /\
    (forall j d, (j < many)%nat -> snd (nth i trials d) <= snd (nth j trials d)) /\
    (forall j d, (j < i)%nat -> snd (nth i trials d) < snd (nth j trials d)).
Proof. exact C44_lemma. Qed.
Print Assumptions C44_best_trial.

Theorem C44_single_trial_uses_the_key_itself :
  forall P f grad o steps key n,
  minimize_many_random_uniform P f grad o steps key n 1 = minimize f grad o steps (runiform P key n).
Proof. exact C44_single. Qed.
Print Assumptions C44_single_trial_uses_the_key_itself.

Example C44_nonvacuous : length (rsplit example_prng 7%nat 5) = 5%nat.
Proof. reflexivity. Qed.
