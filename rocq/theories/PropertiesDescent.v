(** C78, continued: plain gradient descent ([optax.sgd]) makes [FermatPath] converge to the
    image path. *)
From Coq Require Import Reals List Bool ZArith Arith Lia Lra.
From Verif Require Import Base LogicM GeometryM OptimizeM PathM SpecLogic SpecGeometry SpecPath SpecOptimize SpecImage SpecSolver SpecRun SpecCont
  ContPathP DescentP SpecDescent DescentConvP.
Import ListNotations.
Open Scope R_scope.
Local Notation length := List.length.

(** After any number of steps, from any start in the unit box, whatever the key and the number
    of trials, the path is at most [reach theta / (2 eta steps)] longer than the one with the
    unknowns [theta], provided [grad] computes the gradient of what is minimised. *)
Theorem C78_gradient_descent_rate :
  forall d D eta eps grad steps many P key tx ws rx q theta, ws <> [] -> step_fits d D eta eps tx ws rx ->
  (1 <= steps)%nat -> unit_draws P ->
  let f := fermat_objective eps (map OWall ws) tx rx in
  (forall x, length x = length ws -> is_gradient_of f x (grad f x)) ->
  FermatPath_from eps (mksolver grad (sgd eta) steps many) P key tx (map OWall ws) rx = Ok q ->
  length theta = length ws ->
  path_length eps (xys q) <= f theta + reach theta / (2 * eta * INR steps).
Proof. exact rate_lemma. Qed.
Print Assumptions C78_gradient_descent_rate.

(** There is such a gradient. *)
Theorem C78_the_gradient_exists :
  forall d D eta eps tx ws rx, step_fits d D eta eps tx ws rx ->
  exists grad : list R -> list R, forall x, length x = length ws ->
    is_gradient_of (fermat_objective eps (map OWall ws) tx rx) x (grad x).
Proof. exact fits_gradient. Qed.
Print Assumptions C78_the_gradient_exists.

(** Hence enough steps bring every point of the path within [e] of the image path, the same
    number for all keys, generators and starts, and for all small enough perturbations ... *)
Theorem C78_gradient_descent_converges :
  forall d D eta grad many tx ws rx p, ws <> [] -> step_fits d D eta 0 tx ws rx ->
  ImagePath_from tx (map OWall ws) rx = Ok p -> general_position tx ws (xys p) ->
  (forall i w, nth_error ws i = Some w -> true_reflection (xys p) i w) ->
  forall e, 0 < e -> exists eps0 N, 0 < eps0 /\
  forall eps steps P key q, 0 <= eps <= eps0 -> step_fits d D eta eps tx ws rx ->
  let f := fermat_objective eps (map OWall ws) tx rx in
  (forall x, length x = length ws -> is_gradient_of f x (grad f x)) -> (N <= steps)%nat -> unit_draws P ->
  FermatPath_from eps (mksolver grad (sgd eta) steps many) P key tx (map OWall ws) rx = Ok q ->
  Forall2 (fun a b => dist a b < e) (xys q) (xys p).
Proof. exact conv_eps_lemma. Qed.
Print Assumptions C78_gradient_descent_converges.

(** ... without the perturbation, the path and its loss tend to the image path and its loss ... *)
Theorem C78_descent_path_tends_to_image_path :
  forall d D eta grad many P keys tx ws rx p, ws <> [] -> step_fits d D eta 0 tx ws rx ->
  let f := fermat_objective 0 (map OWall ws) tx rx in
  (forall x, length x = length ws -> is_gradient_of f x (grad f x)) ->
  ImagePath_from tx (map OWall ws) rx = Ok p -> general_position tx ws (xys p) ->
  (forall i w, nth_error ws i = Some w -> true_reflection (xys p) i w) ->
  unit_draws P -> good_split P -> (1 <= many)%nat ->
  rconv path_conv (fun n => FermatPath_from 0 (mksolver grad (sgd eta) (S n) many) P (keys n) tx (map OWall ws) rx) (Ok p).
Proof. exact path_conv_lemma. Qed.
Print Assumptions C78_descent_path_tends_to_image_path.

(** ... and so does its smoothed validity. *)
Theorem C78_descent_validity_tends_to_image_validity :
  forall d D eta grad many P keys tx ws rx p g cand os tol patch k, ws <> [] -> step_fits d D eta 0 tx ws rx ->
  let f := fermat_objective 0 (map OWall ws) tx rx in
  (forall x, length x = length ws -> is_gradient_of f x (grad f x)) ->
  ImagePath_from tx (map OWall ws) rx = Ok p -> general_position tx ws (xys p) ->
  (forall i w, nth_error ws i = Some w -> true_reflection (xys p) i w) ->
  unit_draws P -> good_split P -> (1 <= many)%nat ->
  shipped k -> 0 < ak_alpha k -> (length (xys p) <= length cand + 2)%nat -> ~ grazes (xys p) os cand patch ->
  exists qs, (forall n, FermatPath_from 0 (mksolver grad (sgd eta) (S n) many) P (keys n) tx (map OWall ws) rx = Ok (qs n)) /\
    rconv tconv (fun n => is_valid g (qs n) os cand (map OWall ws) tol patch (Some true) k)
      (is_valid g p os cand (map OWall ws) tol patch (Some true) k).
Proof. exact valid_conv_lemma. Qed.
Print Assumptions C78_descent_validity_tends_to_image_validity.

(** With one wall, and the transmitter and the receiver on the same side, some learning rates
    are small enough, and all the smaller ones. *)
Theorem C78_one_reflection_is_found :
  forall tx w rx p, proper w -> same_side w tx rx -> ImagePath_from tx [OWall w] rx = Ok p ->
  exists eta0, 0 < eta0 /\ forall eta grad many, 0 < eta <= eta0 ->
  let f := fermat_objective 0 [OWall w] tx rx in
  (forall x, length x = 1%nat -> is_gradient_of f x (grad f x)) ->
  forall e, 0 < e -> exists N, forall steps P key q, (N <= steps)%nat -> unit_draws P ->
  FermatPath_from 0 (mksolver grad (sgd eta) steps many) P key tx [OWall w] rx = Ok q ->
  Forall2 (fun a b => dist a b < e) (xys q) (xys p).
Proof. exact one_lemma. Qed.
Print Assumptions C78_one_reflection_is_found.

(** A corridor: the floor, then the ceiling; a gradient; a generator. *)
Example C78_descent_nonvacuous :
  let ws := [mkwall (0, 0) (2, 0); mkwall (0, 3) (2, 3)] in let tx := (0, 1) in let rx := (6, 1) in
  let f := fermat_objective 0 (map OWall ws) tx rx in
  step_fits 1 2 (1 / 16) 0 tx ws rx /\ step_fits (1 / 2) 2 (1 / 32) (1 / 4) tx ws rx /\
  (exists p, ImagePath_from tx (map OWall ws) rx = Ok p /\ xys p = [(0, 1); (1, 0); (4, 3); (6, 1)] /\
     general_position tx ws (xys p) /\ forall i w, nth_error ws i = Some w -> true_reflection (xys p) i w) /\
  (exists grad, forall x, length x = length ws -> is_gradient_of f x (grad f x)) /\
  exists P, unit_draws P /\ good_split P.
Proof.
  split; [exact cor_fits|]. split; [exact cor_fits_eps|]. split; [exact cor_example|]. split; [exists cor_grad; exact cor_gradient|]. exists cor_prng. exact cor_draws.
Qed.
