(** Final statements about segments, walls, RIS, vertices, boxes and grids
    (C12-C28). *)
From Coq Require Import Reals List Bool Lra ZArith Lia.
From Verif Require Import Base BaseP LogicM SpecLogic GeometryM SpecGeometry.
From Verif Require Import SegP VecP WallP ShapeP.
Import ListNotations.
Open Scope R_scope.

(** C12 *)
Theorem C12_exact_crossing_condition :
  forall g P1 P2 P3 P4 tol k,
  exists b, segments_intersect g P1 P2 P3 P4 tol (Some false) k = TB b /\
  (b = true <-> ~ parallel P1 P2 P3 P4 /\
     exists s t, meet_at P1 P2 P3 P4 s t /\ - tol <= s <= 1 + tol /\ - tol <= t <= 1 + tol).
Proof. exact C12_lemma. Qed.
Print Assumptions C12_exact_crossing_condition.

Theorem C12_zero_tolerance_is_common_point :
  forall g P1 P2 P3 P4 k, ~ parallel P1 P2 P3 P4 ->
  (segments_intersect g P1 P2 P3 P4 0 (Some false) k = TB true <->
   exists X, on_segment P1 P2 X /\ on_segment P3 P4 X).
Proof. exact C12_zero_lemma. Qed.
Print Assumptions C12_zero_tolerance_is_common_point.

Example C12_nonvacuous :
  ~ parallel (0,0) (1,1) (1,0) (0,1) /\ meet_at (0,0) (1,1) (1,0) (0,1) (1/2) (1/2).
Proof. unfold parallel, meet_at, at_. cbn. split; [lra|f_equal; lra]. Qed.

(** C13 *)
Theorem C13_parallel_never_intersect :
  forall g P1 P2 P3 P4 tol k, parallel P1 P2 P3 P4 ->
  segments_intersect g P1 P2 P3 P4 tol (Some false) k = TB false /\
  (shipped k -> ak_alpha k <> 0 ->
   segments_intersect g P1 P2 P3 P4 tol (Some true) k = TF (Fin 0)).
Proof. exact C13_lemma. Qed.
Print Assumptions C13_parallel_never_intersect.

Theorem C13_zero_length_is_parallel :
  forall P P3 P4, parallel P P P3 P4 /\ parallel P3 P4 P P.
Proof. exact zero_length_parallel. Qed.
Print Assumptions C13_zero_length_is_parallel.

(** With the slope 0 the smoothed answer is NaN for parallel segments: the
    hypothesis on the slope cannot be dropped. *)
Theorem C13_zero_slope_gives_nan :
  forall g P1 P2 P3 P4 tol k, parallel P1 P2 P3 P4 -> shipped k -> ak_alpha k = 0 ->
  segments_intersect g P1 P2 P3 P4 tol (Some true) k = TF NaN.
Proof. exact C13_zero_slope_lemma. Qed.
Print Assumptions C13_zero_slope_gives_nan.

Theorem C13_no_nan_escapes :
  forall g P1 P2 P3 P4 tol k, shipped k -> ak_alpha k <> 0 ->
  exists r, segments_intersect g P1 P2 P3 P4 tol (Some true) k = TF (Fin r) /\ 0 <= r <= 1.
Proof. exact seg_in01. Qed.
Print Assumptions C13_no_nan_escapes.

Example C13_nonvacuous :
  parallel (0,0) (2,2) (1,1) (3,3) /\ shipped default_akw /\ ak_alpha default_akw <> 0.
Proof. unfold parallel, shipped, default_akw, DEFAULT_ALPHA. cbn. split; [lra|]. split; [auto|lra]. Qed.

(** C14 *)
Theorem C14_symmetry :
  forall g P1 P2 P3 P4 tol a k,
  segments_intersect g P2 P1 P3 P4 tol a k = segments_intersect g P1 P2 P3 P4 tol a k /\
  segments_intersect g P1 P2 P4 P3 tol a k = segments_intersect g P1 P2 P3 P4 tol a k /\
  segments_intersect g P3 P4 P1 P2 tol a k = segments_intersect g P1 P2 P3 P4 tol a k.
Proof.
  exact (fun g P1 P2 P3 P4 tol a k =>
    conj (seg_swap_first g P1 P2 P3 P4 tol a k)
      (conj (seg_swap_second g P1 P2 P3 P4 tol a k) (seg_exchange g P1 P2 P3 P4 tol a k))).
Qed.
Print Assumptions C14_symmetry.

(** C15 *)
Theorem C15_threshold_agrees_off_boundary :
  forall g P1 P2 P3 P4 tol k, shipped k -> 0 < ak_alpha k ->
  let smooth := segments_intersect g P1 P2 P3 P4 tol (Some true) k in
  let exact := segments_intersect g P1 P2 P3 P4 tol (Some false) k in
  (is_true g smooth DEFAULT_TRUTH_TOL (Some true) = Ok true -> exact = TB true) /\
  (exact = TB false -> is_false g smooth DEFAULT_TRUTH_TOL (Some true) = Ok true) /\
  (exact = TB true ->
   (forall s t, meet_at P1 P2 P3 P4 s t ->
      s <> - tol /\ s <> 1 + tol /\ t <> - tol /\ t <> 1 + tol) ->
   is_true g smooth DEFAULT_TRUTH_TOL (Some true) = Ok true).
Proof. exact C15_lemma. Qed.
Print Assumptions C15_threshold_agrees_off_boundary.

Example C15_nonvacuous :
  segments_intersect false (0,0) (1,1) (1,0) (0,1) 0 (Some false) default_akw = TB true /\
  (forall s t, meet_at (0,0) (1,1) (1,0) (0,1) s t ->
     s <> - 0 /\ s <> 1 + 0 /\ t <> - 0 /\ t <> 1 + 0).
Proof.
  split.
  - apply C12_zero_lemma; [unfold parallel; cbn; lra|]. exists (1/2, 1/2).
    split; exists (1/2); (split; [lra|]); unfold at_; cbn; f_equal; lra.
  - intros s t M. unfold meet_at, at_ in M. cbn in M. inversion M. lra.
Qed.

(** C16 *)
Theorem C16_length_error_bound :
  forall eps pts, 0 <= eps ->
  Rabs (path_length eps pts - polyline pts) <= INR (length pts - 1) * (sqrt 2 * eps).
Proof. exact path_length_error. Qed.
Print Assumptions C16_length_error_bound.

Theorem C16_length_nonnegative_and_translation_invariant :
  forall eps pts, 0 <= path_length eps pts /\
  forall v, path_length eps (map (vadd v) pts) = path_length eps pts.
Proof.
  exact (fun eps pts => conj (path_length_nonneg eps pts) (fun v => path_length_translate eps v pts)).
Qed.
Print Assumptions C16_length_nonnegative_and_translation_invariant.

Theorem C16_length_at_least_distance :
  forall eps p l q, 0 <= eps ->
  dist p q - INR (length (p :: l ++ [q]) - 1) * (sqrt 2 * eps) <= path_length eps (p :: l ++ [q]).
Proof. exact path_length_ends. Qed.
Print Assumptions C16_length_at_least_distance.

Theorem C16_zero_length :
  forall eps pts, path_length eps pts = 0 <->
  consecutive (fun p q => fst q - fst p = - eps /\ snd q - snd p = - eps) pts.
Proof. exact path_length_zero. Qed.
Print Assumptions C16_zero_length.

Example C16_nonvacuous : 0 <= float32_eps /\ polyline [(0,0); (3,4); (3,5)] = 6.
Proof.
  split; [unfold float32_eps; pose proof (pow_lt 2 23 ltac:(lra)) as P; apply Rinv_0_lt_compat in P; lra|].
  cbn. unfold dist. cbn.
  replace ((0 - 3) * ((0 - 3) * 1) + (0 - 4) * ((0 - 4) * 1)) with (5 * 5) by lra.
  replace ((3 - 3) * ((3 - 3) * 1) + (4 - 5) * ((4 - 5) * 1)) with (1 * 1) by lra.
  rewrite !sqrt_square by lra. lra.
Qed.

(** C17 *)
Theorem C17_normalize :
  forall v,
  (v <> (0, 0) -> let '(u, l) := normalize v in
     dist u (0, 0) = 1 /\ 0 < l /\ l = dist v (0, 0) /\ vscale l u = v) /\
  (v = (0, 0) -> normalize v = ((0, 0), 1)).
Proof. exact C17_lemma. Qed.
Print Assumptions C17_normalize.

(** C18 *)
Theorem C18_closest_point_is_first_nearest :
  forall pts target, pts <> [] ->
  exists i d, closest_point pts target = Ok (i, d) /\ (i < length pts)%nat /\
    d = dist (nth i pts (0, 0)) target /\
    (forall j, (j < length pts)%nat -> d <= dist (nth j pts (0, 0)) target) /\
    (forall j, (j < i)%nat -> d < dist (nth j pts (0, 0)) target).
Proof. exact closest_point_spec. Qed.
Print Assumptions C18_closest_point_is_first_nearest.

Theorem C18_closest_point_of_nothing_fails :
  forall target, closest_point [] target = Err ValueError.
Proof. exact closest_point_empty. Qed.
Print Assumptions C18_closest_point_of_nothing_fails.

(** C19 *)
Theorem C19_image_is_mirror :
  forall w, proper w ->
  (forall p, image_of w (image_of w p) = p) /\
  (forall p q, dist (image_of w p) (image_of w q) = dist p q) /\
  (forall p, image_of w p = p <-> on_line (w_origin w) (w_dest w) p) /\
  (forall p, image_of (flip w) p = image_of w p) /\
  (forall p, on_line (w_origin w) (w_dest w)
     ((fst p + fst (image_of w p)) / 2, (snd p + snd (image_of w p)) / 2) /\
   (fst p - fst (image_of w p)) * (fst (w_dest w) - fst (w_origin w)) +
   (snd p - snd (image_of w p)) * (snd (w_dest w) - snd (w_origin w)) = 0) /\
  fst (normal w) ^ 2 + snd (normal w) ^ 2 = 1 /\
  fst (normal w) * (fst (w_dest w) - fst (w_origin w)) +
  snd (normal w) * (snd (w_dest w) - snd (w_origin w)) = 0.
Proof. exact C19_lemma. Qed.
Print Assumptions C19_image_is_mirror.

Theorem C19_zero_length_wall :
  forall w p, ~ proper w -> image_of w p = p /\ normal w = (0, 0).
Proof. exact (fun w p H => conj (image_improper w p H) (normal_improper w H)). Qed.
Print Assumptions C19_zero_length_wall.

Example C19_nonvacuous : proper (mkwall (0,0) (1,2)) /\ ~ proper (mkwall (1,2) (1,2)).
Proof. unfold proper. cbn. split; [intro H; inversion H; lra|auto]. Qed.

(** C20 *)
Theorem C20_coordinates_inverse_and_projection :
  forall w, proper w ->
  (forall t, wall_c2p w (wall_p2c w t) = t) /\
  (forall p, let q := wall_p2c w (wall_c2p w p) in
     on_line (w_origin w) (w_dest w) q /\
     (forall q', on_line (w_origin w) (w_dest w) q' -> q' <> q -> dist p q < dist p q') /\
     (q = p <-> on_line (w_origin w) (w_dest w) p)).
Proof. exact C20_lemma. Qed.
Print Assumptions C20_coordinates_inverse_and_projection.

Theorem C20_endpoints :
  forall w, wall_p2c w 0 = w_origin w /\ wall_p2c w 1 = w_dest w.
Proof. exact p2c_ends. Qed.
Print Assumptions C20_endpoints.

Theorem C20_zero_length_wall_parameter :
  forall w p, ~ proper w -> wall_c2p w p = 0.
Proof. exact c2p_improper. Qed.
Print Assumptions C20_zero_length_wall_parameter.

(** C21 *)
Theorem C21_contains_exact :
  forall g s k, exists b, wall_contains g s (Some false) k = TB b /\ (b = true <-> 0 <= s <= 1).
Proof. exact contains_exact. Qed.
Print Assumptions C21_contains_exact.

Theorem C21_samples_are_on_the_object :
  forall g o draw k,
  length (draw (parameters_count o)) = parameters_count o ->
  Forall (fun x => 0 <= x < 1) (draw (parameters_count o)) ->
  on_object o (sample o draw) /\
  obj_contains g o (obj_c2p o (sample o draw)) (Some false) k = TB true.
Proof. exact C21_sample. Qed.
Print Assumptions C21_samples_are_on_the_object.

Example C21_nonvacuous :
  let draw := fun n => repeat (1/3) n in
  forall o, length (draw (parameters_count o)) = parameters_count o /\
  Forall (fun x => 0 <= x < 1) (draw (parameters_count o)).
Proof. intros draw o. destruct o; cbn; repeat constructor; lra. Qed.

(** C22 *)
Theorem C22_score_range :
  forall w a b c, 0 <= wall_evaluate w a b c <= 4.
Proof. exact evaluate_range. Qed.
Print Assumptions C22_score_range.

Theorem C22_score_zero_iff_specular :
  forall w a b c i r, proper w ->
  is_direction (vsub b a) i -> is_direction (vsub c b) r ->
  (wall_evaluate w a b c = 0 <-> specular w i r).
Proof. exact evaluate_zero. Qed.
Print Assumptions C22_score_zero_iff_specular.

Theorem C22_score_four_iff_opposite :
  forall w a b c i r, proper w ->
  is_direction (vsub b a) i -> is_direction (vsub c b) r ->
  (wall_evaluate w a b c = 4 <-> (a <> b /\ b <> c /\ specular w i (vopp r))).
Proof. exact evaluate_four. Qed.
Print Assumptions C22_score_four_iff_opposite.

Theorem C22_score_invariant_by_reversal :
  forall w a b c, wall_evaluate w c b a = wall_evaluate w a b c /\
                  wall_evaluate (flip w) a b c = wall_evaluate w a b c.
Proof. exact (fun w a b c => conj (evaluate_reverse w a b c) (evaluate_flip w a b c)). Qed.
Print Assumptions C22_score_invariant_by_reversal.

Example C22_nonvacuous :
  let w := mkwall (0,0) (4,0) in
  proper w /\ is_direction (vsub (1,0) (0,1)) (1 / sqrt 2, - (1 / sqrt 2)) /\
  is_direction (vsub (2,1) (1,0)) (1 / sqrt 2, 1 / sqrt 2) /\
  specular w (1 / sqrt 2, - (1 / sqrt 2)) (1 / sqrt 2, 1 / sqrt 2).
Proof.
  assert (S : 0 < sqrt 2) by (apply sqrt_lt_R0; lra).
  assert (Q : sqrt 2 * sqrt 2 = 2) by (apply sqrt_sqrt; lra).
  assert (U : 1 / sqrt 2 * (1 / sqrt 2) = 1 / 2)
    by (replace (1 / sqrt 2 * (1 / sqrt 2)) with (1 / (sqrt 2 * sqrt 2)) by (field; lra); rewrite Q; lra).
  assert (V : sqrt 2 * (1 / sqrt 2) = 1) by (field; lra).
  cbn zeta. split; [unfold proper; cbn; intro H; inversion H; lra|].
  split; [|split].
  - right. cbn [fst snd]. split; [set (u := 1 / sqrt 2) in *; nra|]. exists (sqrt 2). split; auto.
    unfold vsub. cbn. f_equal; set (u := 1 / sqrt 2) in *; nra.
  - right. cbn [fst snd]. split; [set (u := 1 / sqrt 2) in *; nra|]. exists (sqrt 2). split; auto.
    unfold vsub. cbn. f_equal; set (u := 1 / sqrt 2) in *; nra.
  - unfold specular. cbn. set (u := 1 / sqrt 2). split; ring.
Qed.

(** C23: [th] is the angle from the reversed outgoing direction to the normal. *)
Theorem C23_ris_score_formula :
  forall w phi a b c th, proper w -> b <> c ->
  let r := fst (normalize (vsub c b)) in
  sin th = cross (vopp r) (normal w) -> cos th = dot (vopp r) (normal w) ->
  ris_evaluate w phi a b c = 2 - 2 * cos (th - phi).
Proof. exact ris_formula. Qed.
Print Assumptions C23_ris_score_formula.

Theorem C23_ris_angle_exists :
  forall w b c, proper w -> b <> c ->
  let r := fst (normalize (vsub c b)) in
  exists th, sin th = cross (vopp r) (normal w) /\ cos th = dot (vopp r) (normal w).
Proof. exact ris_angle_exists. Qed.
Print Assumptions C23_ris_angle_exists.

Theorem C23_ris_zero_iff_angle :
  forall w phi a b c th, proper w -> b <> c ->
  let r := fst (normalize (vsub c b)) in
  sin th = cross (vopp r) (normal w) -> cos th = dot (vopp r) (normal w) ->
  (ris_evaluate w phi a b c = 0 <-> exists n : Z, th = phi + 2 * IZR n * PI).
Proof. exact ris_zero. Qed.
Print Assumptions C23_ris_zero_iff_angle.

Theorem C23_ris_range_periodic_and_ignores_incidence :
  forall w phi a a' b c,
  (proper w -> b <> c -> 0 <= ris_evaluate w phi a b c <= 4) /\
  ris_evaluate w (phi + 2 * PI) a b c = ris_evaluate w phi a b c /\
  ris_evaluate w phi a b c = ris_evaluate w phi a' b c.
Proof.
  exact (fun w phi a a' b c => conj (ris_range w phi a b c)
    (conj (ris_periodic w phi a b c) (ris_ignores w phi a a' b c))).
Qed.
Print Assumptions C23_ris_range_periodic_and_ignores_incidence.

(** C24 *)
Theorem C24_vertices_never_obstruct_and_accept :
  forall g v r0 r1 patch a k ps p x y,
  obj_intersects g (OVertex v) r0 r1 patch a k = false_value g a /\
  obj_contains g (OVertex v) ps a k = true_value g a /\
  obj_evaluate (OVertex v) p x y = 0 /\
  obj_p2c (OVertex v) ps = v /\ obj_c2p (OVertex v) p = [].
Proof. exact vertex_facts. Qed.
Print Assumptions C24_vertices_never_obstruct_and_accept.

(** C25 *)
Theorem C25_what_rotate_computes :
  forall w th c, rotate w th (Some c) =
  mkwall (vadd c (vsub (vscale (cos th) (vsub (w_origin w) c)) (vscale (sin th) (vsub (w_dest w) c))))
         (vadd c (vadd (vscale (sin th) (vsub (w_origin w) c)) (vscale (cos th) (vsub (w_dest w) c)))).
Proof. exact rotate_formula. Qed.
Print Assumptions C25_what_rotate_computes.

Theorem C25_rotate_correct_iff :
  forall w th c,
  rotate w th (Some c) = mkwall (rotated th c (w_origin w)) (rotated th c (w_dest w)) <->
  (sin th = 0 \/ (fst (w_dest w) - fst c = snd (w_origin w) - snd c /\
                  snd (w_dest w) - snd c = - (fst (w_origin w) - fst c))).
Proof. exact rotate_correct_iff. Qed.
Print Assumptions C25_rotate_correct_iff.

(** A quarter turn of the ray from (1,0) to (2,0) around the origin changes its
    length and does not give the rotated endpoints. *)
Theorem C25_rotate_refuted :
  let w := mkwall (1, 0) (2, 0) in
  let w' := rotate w (PI / 2) None in
  dist (w_origin w) (w_dest w) <> dist (w_origin w') (w_dest w') /\
  w' <> mkwall (rotated (PI / 2) (0, 0) (w_origin w)) (rotated (PI / 2) (0, 0) (w_dest w)).
Proof. exact rotate_refuted. Qed.
Print Assumptions C25_rotate_refuted.

(** C26 *)
Theorem C26_unstack_stack :
  forall os s, stack_leaves os = Ok s -> unstack_leaves s = map Some os.
Proof. exact unstack_stack. Qed.
Print Assumptions C26_unstack_stack.

Theorem C26_stack_accepts_exactly_one_class :
  forall os, (exists s, stack_leaves os = Ok s) <->
  os <> [] /\ forall o o', In o os -> In o' os -> kind_of o = kind_of o'.
Proof. exact stack_ok_iff. Qed.
Print Assumptions C26_stack_accepts_exactly_one_class.

Theorem C26_mixed_classes_rejected :
  forall os, (exists o o', In o os /\ In o' os /\ kind_of o <> kind_of o') ->
  stack_leaves os = Err ValueError.
Proof. exact stack_err. Qed.
Print Assumptions C26_mixed_classes_rejected.

(** C27 *)
Theorem C27_point_and_object_boxes_tight :
  (forall q, tight_box (point_bbox q) [q]) /\
  (forall o, tight_box (obj_bbox o) (defining_points o)) /\
  (forall p ps, tight_box (bbox_of_points p ps) (p :: ps)).
Proof. exact (conj point_tight (conj obj_tight bbox_tight)). Qed.
Print Assumptions C27_point_and_object_boxes_tight.

(** C28 *)
Theorem C28_locations_inside_box :
  forall b pts l, tight_box b pts -> in_box b (get_location b l).
Proof. exact (fun b pts l H => location_in_box b l (tight_wf b pts H)). Qed.
Print Assumptions C28_locations_inside_box.

Theorem C28_compass :
  forall x0 y0 x1 y1,
  let b := ((x0, y0), (x1, y1)) in
  get_location b SW = (x0, y0) /\ get_location b NE = (x1, y1) /\
  get_location b NW = (x0, y1) /\ get_location b SE = (x1, y0) /\
  get_location b N = ((x0 + x1) / 2, y1) /\ get_location b S_ = ((x0 + x1) / 2, y0) /\
  get_location b E = (x1, (y0 + y1) / 2) /\ get_location b W = (x0, (y0 + y1) / 2) /\
  get_location b C_ = ((x0 + x1) / 2, (y0 + y1) / 2) /\ center b = get_location b C_.
Proof. exact compass. Qed.
Print Assumptions C28_compass.

Theorem C28_grid :
  forall b pts m n X Y, tight_box b pts -> grid b m (Some n) = (X, Y) ->
  (length X = n /\ length Y = n /\ (forall r, In r X -> length r = m) /\ (forall r, In r Y -> length r = m)) /\
  (forall i j, (i < n)%nat -> (j < m)%nat ->
     in_box b (nth j (nth i X []) 0, nth j (nth i Y []) 0) /\
     nth j (nth i X []) 0 = nth j (nth 0 X []) 0 /\
     nth j (nth i Y []) 0 = nth 0 (nth i Y []) 0 /\
     ((2 <= m)%nat -> nth j (nth i X []) 0 =
        fst (fst b) + INR j * ((fst (snd b) - fst (fst b)) / INR (m - 1))) /\
     ((2 <= n)%nat -> nth j (nth i Y []) 0 =
        snd (fst b) + INR i * ((snd (snd b) - snd (fst b)) / INR (n - 1)))) /\
  ((2 <= m)%nat -> (2 <= n)%nat ->
     (nth 0 (nth 0 X []) 0, nth 0 (nth 0 Y []) 0) = fst b /\
     (nth (m - 1) (nth (n - 1) X []) 0, nth (m - 1) (nth (n - 1) Y []) 0) = snd b /\
     (nth 0 (nth (n - 1) X []) 0, nth 0 (nth (n - 1) Y []) 0) = (fst (fst b), snd (snd b)) /\
     (nth (m - 1) (nth 0 X []) 0, nth (m - 1) (nth 0 Y []) 0) = (fst (snd b), snd (fst b))).
Proof. exact grid_lemma. Qed.
Print Assumptions C28_grid.

Theorem C28_square_grid_by_default :
  forall b m, grid b m None = grid b m (Some m).
Proof. exact grid_default. Qed.
Print Assumptions C28_square_grid_by_default.

Theorem C28_default_grid :
  forall b, let '(X, Y) := grid b DEFAULT_GRID None in
  length X = 50%nat /\ length Y = 50%nat /\ Forall (fun r => length r = 50%nat) X /\ Forall (fun r => length r = 50%nat) Y.
Proof.
  intro b. unfold grid, meshgrid. set (x := linspace (fst (fst b)) (fst (snd b)) DEFAULT_GRID). set (y := linspace (snd (fst b)) (snd (snd b)) DEFAULT_GRID).
  assert (Lx : length x = 50%nat) by apply (linspace_length _ _ DEFAULT_GRID). assert (Ly : length y = 50%nat) by apply (linspace_length _ _ DEFAULT_GRID).
  clearbody x y. split; [rewrite map_length; exact Ly|]. split; [rewrite map_length; exact Ly|].
  split; apply Forall_forall; intros r I; apply in_map_iff in I; destruct I as (z & <- & _); [exact Lx|rewrite map_length; exact Lx].
Qed.
Print Assumptions C28_default_grid.
Example C28_nonvacuous : tight_box ((0,0),(2,3)) [(0,3); (2,0)].
Proof.
  unfold tight_box, in_box. cbn. split.
  - intros q [<-|[<-|[]]]; cbn; lra.
  - split; [exists (0,3)|split; [exists (2,0)|split; [exists (2,0)|exists (0,3)]]]; cbn; auto.
Qed.
