(** Properties C78-C79: what the solver-based paths look for, and how it relates to
    the image path. *)
From Coq Require Import Reals List Bool ZArith Arith Lia Lra.
From Verif Require Import Base LogicM GeometryM OptimizeM PathM SpecLogic SpecGeometry SpecPath SpecOptimize SpecImage SpecSolver
  ImageExP SolverP.
Import ListNotations.
Open Scope R_scope.
Local Notation length := List.length.

(** C33, continued: no other polyline through the same wall lines is as short. *)
Theorem C33_shortest_path_is_unique :
  forall tx ws rx p pts,
  ImagePath_from tx (map OWall ws) rx = Ok p -> general_position tx ws (xys p) ->
  (forall i w, nth_error ws i = Some w -> true_reflection (xys p) i w) ->
  visits tx ws rx pts -> polyline pts <= polyline (xys p) -> pts = xys p.
Proof. exact C33_only. Qed.
Print Assumptions C33_shortest_path_is_unique.

(** C78: what [FermatPath] minimises is a convex function of the unknowns, on
    any objects, so that it has no local minimum that is not global. *)
Theorem C78_fermat_objective_is_convex :
  forall eps objects tx rx,
  convex (fermat_objective eps objects tx rx) (walls_before objects (length objects)).
Proof. exact C78_convex_lemma. Qed.
Print Assumptions C78_fermat_objective_is_convex.

Theorem C78_local_minima_are_global :
  forall eps objects tx rx theta,
  let f := fermat_objective eps objects tx rx in
  let n := walls_before objects (length objects) in
  local_minimum f n theta -> global_minimum f n theta.
Proof. intros eps objects tx rx theta f n. apply local_global. apply C78_convex_lemma. Qed.
Print Assumptions C78_local_minima_are_global.

(** The image path is one of the candidates, and the best one up to the
    perturbation [eps] that the code adds to every step. *)
Theorem C78_image_path_minimises_fermat_objective :
  forall tx ws rx p eps,
  ImagePath_from tx (map OWall ws) rx = Ok p -> general_position tx ws (xys p) ->
  (forall i w, nth_error ws i = Some w -> true_reflection (xys p) i w) -> 0 <= eps ->
  exists theta, length theta = length ws /\
    parametric_to_cartesian (map OWall ws) theta (length ws) tx rx = xys p /\
    forall other, length other = length ws ->
    fermat_objective eps (map OWall ws) tx rx theta <=
    fermat_objective eps (map OWall ws) tx rx other + 2 * INR (length ws + 1) * (sqrt 2 * eps).
Proof. exact C78_image. Qed.
Print Assumptions C78_image_path_minimises_fermat_objective.

(** Whatever the optimiser, once it has converged, [FermatPath] is as long as the
    [ImagePath] up to the perturbation ... *)
Theorem C78_converged_fermat_path_is_shortest :
  forall tx ws rx p q eps s P key, ws <> [] ->
  ImagePath_from tx (map OWall ws) rx = Ok p -> general_position tx ws (xys p) ->
  (forall i w, nth_error ws i = Some w -> true_reflection (xys p) i w) -> 0 <= eps ->
  FermatPath_from eps s P key tx (map OWall ws) rx = Ok q ->
  converged P s key (fermat_objective eps (map OWall ws) tx rx) (length ws) ->
  visits tx ws rx (xys q) /\
  polyline (xys p) <= polyline (xys q) <= polyline (xys p) + 2 * INR (length ws + 1) * (sqrt 2 * eps).
Proof. exact C78_converged. Qed.
Print Assumptions C78_converged_fermat_path_is_shortest.

(** ... and, without the perturbation, the same path with the same loss. *)
Theorem C78_converged_fermat_path_is_the_image_path :
  forall tx ws rx p q s P key, ws <> [] ->
  ImagePath_from tx (map OWall ws) rx = Ok p -> general_position tx ws (xys p) ->
  (forall i w, nth_error ws i = Some w -> true_reflection (xys p) i w) ->
  FermatPath_from 0 s P key tx (map OWall ws) rx = Ok q ->
  converged P s key (fermat_objective 0 (map OWall ws) tx rx) (length ws) ->
  q = p.
Proof. exact C78_converged_exact. Qed.
Print Assumptions C78_converged_fermat_path_is_the_image_path.

(** Two walls, and a solver that has converged. *)
Example C78_nonvacuous :
  let ws := [mkwall (0, 0) (2, 0); mkwall (3, 0) (3, 4)] in
  (exists p, ImagePath_from (1, 1) (map OWall ws) (2, 3) = Ok p /\
     general_position (1, 1) ws (xys p) /\
     (forall i w, nth_error ws i = Some w -> true_reflection (xys p) i w)) /\
  exists P s key q, FermatPath_from 0 s P key (1, 1) (map OWall ws) (2, 3) = Ok q /\
     converged P s key (fermat_objective 0 (map OWall ws) (1, 1) (2, 3)) (length ws).
Proof.
  intro ws. split.
  - destruct two_walls_example as (p & A & _ & B & C). exists p. auto.
  - destruct converged_example as [[q Q] C]. exists ex_prng, ex_solver, tt, q. auto.
Qed.

(** C79: what [MinPath] minimises is never negative on walls; it vanishes at the
    image path, and nowhere else but at degenerate paths. *)
Theorem C79_min_objective_is_nonnegative :
  forall ws tx rx theta, 0 <= min_objective (map OWall ws) tx rx theta.
Proof. exact min_nonneg. Qed.
Print Assumptions C79_min_objective_is_nonnegative.

Theorem C79_image_path_minimises_min_objective :
  forall tx ws rx p,
  ImagePath_from tx (map OWall ws) rx = Ok p -> general_position tx ws (xys p) ->
  (forall i w, nth_error ws i = Some w -> true_reflection (xys p) i w) ->
  exists theta, length theta = length ws /\
    parametric_to_cartesian (map OWall ws) theta (length ws) tx rx = xys p /\
    min_objective (map OWall ws) tx rx theta = 0.
Proof. exact C79_image. Qed.
Print Assumptions C79_image_path_minimises_min_objective.

Theorem C79_zero_objective_is_the_image_path :
  forall tx ws rx p theta,
  ImagePath_from tx (map OWall ws) rx = Ok p -> length theta = length ws ->
  min_objective (map OWall ws) tx rx theta = 0 ->
  let pts := parametric_to_cartesian (map OWall ws) theta (length ws) tx rx in
  (forall i w A Q B, nth_error ws i = Some w -> nth_error pts i = Some A -> nth_error pts (S i) = Some Q ->
     nth_error pts (S (S i)) = Some B -> side_of w A <> 0 /\ Q <> B) ->
  pts = xys p /\ loss p = Fin 0.
Proof. exact C79_zero. Qed.
Print Assumptions C79_zero_objective_is_the_image_path.

(** The hypotheses are met by the image path of two walls. *)
Example C79_nonvacuous :
  let ws := [mkwall (0, 0) (2, 0); mkwall (3, 0) (3, 4)] in
  exists p theta, ImagePath_from (1, 1) (map OWall ws) (2, 3) = Ok p /\ length theta = length ws /\
  min_objective (map OWall ws) (1, 1) (2, 3) theta = 0 /\
  let pts := parametric_to_cartesian (map OWall ws) theta (length ws) (1, 1) (2, 3) in
  (forall i w A Q B, nth_error ws i = Some w -> nth_error pts i = Some A -> nth_error pts (S i) = Some Q ->
     nth_error pts (S (S i)) = Some B -> side_of w A <> 0 /\ Q <> B).
Proof.
  intro ws. destruct two_walls_example as (p & HP & X & G & T). fold ws in HP, G, T.
  destruct (C79_image (1, 1) ws (2, 3) p HP G T) as (theta & L & XT & Z). exists p, theta. split; auto. split; auto. split; auto.
  intros pts i w A Q B Hw HA HQ HB. unfold pts in HA, HQ, HB. rewrite XT, X in HA, HQ, HB.
  destruct (proj2 two_walls_specular i w A Q B Hw HA HQ HB) as (S1 & S2 & _). auto.
Qed.

(** The loss a solver-based path reports: that of its own points for
    [FermatPath]; that of the points one step before for [MinPath]. *)
Theorem C79_fermat_path_reports_its_own_loss :
  forall eps s P key tx objects rx q,
  FermatPath_from eps s P key tx objects rx = Ok q -> loss q = Fin (path_loss objects (xys q)).
Proof. exact fermat_loss. Qed.
Print Assumptions C79_fermat_path_reports_its_own_loss.

Theorem C79_min_path_reports_the_previous_loss :
  forall s P key tx objects rx q, objects <> [] -> MinPath_from s P key tx objects rx = Ok q ->
  let f := min_objective objects tx rx in
  exists k x st, x 0%nat = runiform P k (walls_before objects (length objects)) /\
    trajectory (sv_grad s f) (sv_opt s) x st (sv_steps s) /\
    xys q = parametric_to_cartesian objects (x (sv_steps s)) (length objects) tx rx /\
    loss q = Fin (path_loss objects
                    (parametric_to_cartesian objects (x (sv_steps s - 1)%nat) (length objects) tx rx)).
Proof. exact min_traj_lemma. Qed.
Print Assumptions C79_min_path_reports_the_previous_loss.

(** So a [MinPath] may be declared valid although its points are far from
    obeying the reflection law. *)
Theorem C79_valid_min_path_may_break_the_reflection_law :
  forall g k,
  let w := mkwall (0, 0) (2, 0) in
  exists P s key q, MinPath_from s P key (0, 1) [OWall w] (2, 1) = Ok q /\
  xys q = [(0, 1); (2, 0); (2, 1)] /\
  is_valid g q [OWall w] [0%Z] [OWall w] DEFAULT_TOL DEFAULT_PATCH (Some false) k = Ok (TB true) /\
  4 / 5 <= path_loss [OWall w] (xys q).
Proof.
  intros g k w. destruct (stale_example g k) as (q & l & A & B & C & D & E). fold w in A, B, C, D.
  exists jump_prng, jump_solver, tt, q. rewrite <- D in E. auto.
Qed.
Print Assumptions C79_valid_min_path_may_break_the_reflection_law.
