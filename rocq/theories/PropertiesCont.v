(** Properties C65-C69: continuity of the smoothed computations. *)
From Coq Require Import Reals List Bool ZArith String Lra Lia.
From Verif Require Import Base BaseP LogicM SpecLogic LogicP GeometryM SpecGeometry SegP OptimizeM PathM SpecPath SpecImage
  CandidatesM SceneM SpecScene SpecRun SpecPower UtilsM RunExP SpecCont ContP ContPathP ContImageP ContSceneP ContExP.
Import ListNotations.
Local Notation length := List.length.
Open Scope R_scope.

(** C65: a smoothed comparison changes at most by |alpha|/4 (|alpha|/6 for the hard
    sigmoid) times the change of its operands. *)
Theorem C65_comparisons_are_lipschitz :
  forall c g k x y x' y', shipped k -> exists v v',
  run_cmp c g (Fin x) (Fin y) (Some true) k = fl v /\ run_cmp c g (Fin x') (Fin y') (Some true) k = fl v' /\
  Rabs (v - v') <= Rabs (ak_alpha k) / 4 * (Rabs (x - x') + Rabs (y - y')) /\
  (ak_function k = hard_sigmoid -> Rabs (v - v') <= Rabs (ak_alpha k) / 6 * (Rabs (x - x') + Rabs (y - y'))).
Proof. exact C65_cmp. Qed.
Print Assumptions C65_comparisons_are_lipschitz.

(** C65: the connectives never amplify a change. *)
Theorem C65_connectives_do_not_amplify :
  forall g a b a' b' d, Rabs (a - a') <= d -> Rabs (b - b') <= d ->
  within d (logical_and g (fl a) (fl b) (Some true)) (logical_and g (fl a') (fl b') (Some true)) /\
  within d (logical_or g (fl a) (fl b) (Some true)) (logical_or g (fl a') (fl b') (Some true)) /\
  within d (logical_not g (fl a) (Some true)) (logical_not g (fl a') (Some true)).
Proof. exact C65_connectives. Qed.
Print Assumptions C65_connectives_do_not_amplify.
Theorem C65_all_and_any_do_not_amplify :
  forall g xs ys d, xs <> [] -> Forall2 (fun a b => Rabs (a - b) <= d) xs ys ->
  (exists t u, logical_all g (map fl xs) (Some true) = Ok t /\ logical_all g (map fl ys) (Some true) = Ok u /\ within d t u) /\
  (exists t u, logical_any g (map fl xs) (Some true) = Ok t /\ logical_any g (map fl ys) (Some true) = Ok u /\ within d t u).
Proof. exact C65_all_any. Qed.
Print Assumptions C65_all_and_any_do_not_amplify.
(** The constant of the hard sigmoid is the best one. *)
Theorem C65_constant_is_attained :
  forall g alpha, 0 < alpha -> exists x x' v v', x <> x' /\
  greater g (Fin x) (Fin 0) (Some true) (mkakw alpha hard_sigmoid) = fl v /\
  greater g (Fin x') (Fin 0) (Some true) (mkakw alpha hard_sigmoid) = fl v' /\ Rabs (v - v') = alpha / 6 * Rabs (x - x').
Proof.
  intros g alpha A. set (k := mkakw alpha hard_sigmoid). assert (H : shipped k) by (right; reflexivity).
  exists (3 / alpha), (- (3 / alpha)), 1, 0. assert (0 < 3 / alpha) by (apply Rdiv_lt_0_compat; lra).
  split; [lra|]. split; [|split].
  - rewrite (cmp_value Gt g (3 / alpha) 0 k H : greater _ _ _ _ _ = _). f_equal. rewrite act_hard by reflexivity. apply hs_sat_hi. cbn.
    replace (alpha * (3 / alpha - 0)) with 3 by (field; lra). lra.
  - rewrite (cmp_value Gt g (- (3 / alpha)) 0 k H : greater _ _ _ _ _ = _). f_equal. rewrite act_hard by reflexivity. apply hs_sat_lo. cbn.
    replace (alpha * (- (3 / alpha) - 0)) with (-3) by (field; lra). lra.
  - rewrite !Rabs_pos_eq by lra. field. lra.
Qed.
Print Assumptions C65_constant_is_attained.
Example C65_hypotheses_met : shipped default_akw /\ Forall2 (fun a b => Rabs (a - b) <= 1 / 2) [0; 1] [1 / 2; 1].
Proof. split; [right; reflexivity|]. repeat constructor; unfold Rabs; destruct (Rcase_abs _); lra. Qed.

(** C66: the smoothed crossing test of two segments is continuous in the four points,
    except where all four are on one line; there it does jump. *)
Theorem C66_segments_intersect_is_continuous :
  forall g P1s P2s P3s P4s P1 P2 P3 P4 tol k, shipped k -> 0 < ak_alpha k ->
  pconv P1s P1 -> pconv P2s P2 -> pconv P3s P3 -> pconv P4s P4 -> ~ on_one_line P1 P2 P3 P4 ->
  tconv (fun n => segments_intersect g (P1s n) (P2s n) (P3s n) (P4s n) tol (Some true) k)
    (segments_intersect g P1 P2 P3 P4 tol (Some true) k).
Proof. exact C66_lemma. Qed.
Print Assumptions C66_segments_intersect_is_continuous.
Theorem C66_overlapping_segments_jump :
  forall g tol, 0 <= tol ->
  let P3 n := (1 / 4, - / (INR n + 1)) in let P4 n := (3 / 4, / (INR n + 1)) in
  pconv P3 (1 / 4, 0) /\ pconv P4 (3 / 4, 0) /\
  (forall n, segments_intersect g (0, 0) (1, 0) (P3 n) (P4 n) tol (Some true) default_akw = fl 1) /\
  segments_intersect g (0, 0) (1, 0) (1 / 4, 0) (3 / 4, 0) tol (Some true) default_akw = fl 0.
Proof. exact C66_jump. Qed.
Print Assumptions C66_overlapping_segments_jump.
(** The hypothesis is met by parallel segments that are not on one line. *)
Example C66_hypotheses_met : ~ on_one_line (0, 0) (1, 0) (0, 1) (1, 1) /\ parallel (0, 0) (1, 0) (0, 1) (1, 1) /\
  pconv (fun n => (0, / (INR n + 1))) (0, 0).
Proof.
  split; [|split].
  - rewrite one_line_iff. unfold seg_a, vsub. cbn. lra.
  - unfold parallel. cbn. lra.
  - apply pconv_pair; [apply cv_const|apply cv_inv_n].
Qed.

(** C67: the smoothed validity of a path is continuous in the path, the objects of the
    scene and the interacting objects, as long as no segment of the path is on the
    line of a wall that it does not touch. *)
Theorem C67_validity_is_continuous :
  forall g ps p us os is inter cand tol patch k, shipped k -> 0 < ak_alpha k ->
  path_conv ps p -> lconv oconv us os -> lconv oconv is inter -> (length (xys p) <= length cand + 2)%nat ->
  (forall o w, In o inter -> wall_of o = Some w -> proper w) -> ~ grazes (xys p) os cand patch ->
  rconv tconv (fun n => is_valid g (ps n) (us n) cand (is n) tol patch (Some true) k)
    (is_valid g p os cand inter tol patch (Some true) k).
Proof. exact C67_lemma. Qed.
Print Assumptions C67_validity_is_continuous.

(** C68: the image path (points and loss) is continuous in the transmitter, the
    receiver and the walls, at every configuration in general position... *)
Theorem C68_image_path_is_continuous :
  forall txs tx us os rxs rx p ws, pconv txs tx -> lconv oconv us os -> pconv rxs rx ->
  ImagePath_from tx os rx = Ok p -> map wall_of os = map Some ws -> (os <> [] -> general_position tx ws (xys p)) ->
  rconv path_conv (fun n => ImagePath_from (txs n) (us n) (rxs n)) (ImagePath_from tx os rx).
Proof. exact C68_lemma. Qed.
Print Assumptions C68_image_path_is_continuous.
(** ... and not elsewhere: when the segment from the image becomes parallel to the
    wall, the point runs away to infinity, and comes back in the limit. *)
Theorem C68_parallel_configurations_run_away :
  let floor := OWall (mkwall (0, 0) (1, 0)) in let rx n := (1, -1 + / (INR n + 1)) in
  pconv rx (1, -1) /\
  (forall n, exists p, ImagePath_from (0, 1) [floor] (rx n) = Ok p /\ nth_error (xys p) 1 = Some (INR n + 1, 0)) /\
  (exists p, ImagePath_from (0, 1) [floor] (1, -1) = Ok p /\ nth_error (xys p) 1 = Some (1, -1)).
Proof. exact C68_run_away. Qed.
Print Assumptions C68_parallel_configurations_run_away.

(** C69: hence the accumulated values, pair by pair and reduced, are continuous
    functions of all the coordinates of the scene ... *)
Theorem C69_accumulated_values_are_continuous :
  forall P g us s ca tol patch k key f, good_split P -> shipped k -> 0 < ak_alpha k -> scene_conv us s ->
  (forall n, scene_candidates (us n) ca = scene_candidates s ca) -> no_singular_path s ca patch -> continuous_fun f ->
  let va := mkvalidargs tol patch (Some true) k in
  let acc s := accumulate_over_paths P g s ClsImage ca va key f in
  (forall n, raised (acc (us n)) = None) /\ raised (acc s) = None /\
  lconv vconv (fun n => yielded (acc (us n))) (yielded (acc s)).
Proof. exact C69_lemma. Qed.
Print Assumptions C69_accumulated_values_are_continuous.
Theorem C69_reduced_value_is_continuous :
  forall P g us s ca tol patch k key f, good_split P -> shipped k -> 0 < ak_alpha k -> scene_conv us s ->
  (forall n, scene_candidates (us n) ca = scene_candidates s ca) -> no_singular_path s ca patch -> continuous_fun f ->
  let va := mkvalidargs tol patch (Some true) k in
  rconv xconv (fun n => accumulate_over_paths_reduced P g (us n) ClsImage ca va key f)
    (accumulate_over_paths_reduced P g s ClsImage ca va key f).
Proof. exact C69_reduced_lemma. Qed.
Print Assumptions C69_reduced_value_is_continuous.
(** ... the received power being one of the continuous path functions when the
    height is not zero. *)
Theorem C69_received_power_is_continuous : forall eps r_coef height, height <> 0 -> continuous_fun (power eps r_coef height).
Proof. exact power_cont. Qed.
Print Assumptions C69_received_power_is_continuous.
(** The candidates are the same all along when no filter is used. *)
Theorem C69_candidates_without_filter :
  forall us s ca, lconv oconv (fun n => objects (us n)) (objects s) -> ca_filter ca = None ->
  forall n, scene_candidates (us n) ca = scene_candidates s ca.
Proof.
  intros us s ca H F n. unfold scene_candidates. rewrite F. pose proof (lconv_length _ _ _ H n) as L. cbv beta in L. rewrite L. reflexivity.
Qed.
Print Assumptions C69_candidates_without_filter.
(** With the exact test the accumulated value jumps at a configuration that meets
    all these hypotheses. *)
Theorem C69_exact_values_jump :
  forall P g, let y n := 1 / 201 + / (4 * (INR n + 1)) in
  let scene_at y := Scene_make [("tx"%string, (1 / 2, 1))] [("rx"%string, (1 / 2, y))] [OWall (mkwall (0, 0) (1, 0))] in
  let acc y := accumulate_over_paths P g (scene_at y) ClsImage (mkcandargs 0 0 None None)
    (mkvalidargs DEFAULT_TOL DEFAULT_PATCH (Some false) default_akw) None (fun _ _ _ _ => Fin 1) in
  scene_conv (fun n => scene_at (y n)) (scene_at (1 / 201)) /\
  no_singular_path (scene_at (1 / 201)) (mkcandargs 0 0 None None) DEFAULT_PATCH /\
  continuous_fun (fun _ _ _ _ => Fin 1) /\
  (forall n, acc (y n) = mkgen [("tx"%string, "rx"%string, Fin 1)] None) /\
  acc (1 / 201) = mkgen [("tx"%string, "rx"%string, Fin 0)] None.
Proof. exact C69_exact_jump. Qed.
Print Assumptions C69_exact_values_jump.

(** The hypotheses of C67-C69 are met: a receiver moving above a wall, with the direct
    path and the reflected one. *)
Example C69_hypotheses_met :
  scene_conv (fun n => ex_moving (2 + / (INR n + 1))) (ex_moving 2) /\
  (forall n, scene_candidates (ex_moving (2 + / (INR n + 1))) ex_ca = scene_candidates (ex_moving 2) ex_ca) /\
  scene_candidates (ex_moving 2) ex_ca = [[]; [0%nat]] /\
  no_singular_path (ex_moving 2) ex_ca DEFAULT_PATCH.
Proof. exact ex_moving_ok. Qed.
