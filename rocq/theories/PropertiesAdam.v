(** Property C97: the default optimiser, and NaN in the solvers. *)
From Coq Require Import Reals List Bool Arith Lia Lra.
From Verif Require Import Base GeometryM SpecGeometry OptimizeM AdM PathM SpecPath PathShapeP AdamM SpecAdam SpecOptimize AdamP AdamRunP AdamNanP.
Import ListNotations.
Open Scope R_scope.
Local Notation length := List.length.

(** With no optimiser given, each step moves each coordinate by 0.1 times the
    recent average of its gradient (weights 0.9^age) divided by the root of the
    recent average of its square (weights 0.999^age), plus 1e-8. *)
Theorem C97_steps_of_the_default_optimizer :
  forall f grad steps x0, (1 <= steps)%nat -> (forall y, length (grad y) = length y) ->
  exists x, x 0%nat = x0 /\ (forall j, (j <= steps)%nat -> length (x j) = length x0) /\
    minimize f grad default_optimizer steps x0 = Ok (x steps, f (x (steps - 1)%nat)) /\
    forall j i, (j < steps)%nat -> (i < length x0)%nat ->
      let g k := nth i (grad (x k)) 0 in
      nth i (x (S j)) 0 = nth i (x j) 0 - 1 / 10 *
        (recent_average (9 / 10) g j / (sqrt (recent_average (999 / 1000) (fun k => g k * g k) j) + / 10 ^ 8)).
Proof. exact C97_run. Qed.
Print Assumptions C97_steps_of_the_default_optimizer.

(** Whatever the objective, a coordinate travels at most 0.728 per step. *)
Theorem C97_bounded_travel :
  forall f grad steps x0 x l, (forall y, length (grad y) = length y) ->
  minimize f grad default_optimizer steps x0 = Ok (x, l) ->
  length x = length x0 /\ forall i, (i < length x0)%nat -> Rabs (nth i x 0 - nth i x0 0) <= 728 / 1000 * INR steps.
Proof. exact C97_travel. Qed.
Print Assumptions C97_bounded_travel.

(** So [FermatPath] and [MinPath] with the default optimiser only consider points
    at that distance of the walls (in wall lengths), whatever the scene. *)
Theorem C97_reach_of_the_solver_paths :
  forall P c key tx objects rx grad steps many p,
  (exists eps, c = ClsFermat eps (mksolver grad default_optimizer steps many)) \/ c = ClsMin (mksolver grad default_optimizer steps many) ->
  (forall f x, length (grad f x) = length x) ->
  (forall k n, length (runiform P k n) = n /\ Forall (fun u => 0 <= u < 1) (runiform P k n)) -> objects <> [] ->
  from_tx_objects_rx P c (Some key) tx objects rx = Ok p ->
  exists theta, length theta = walls_before objects (length objects) /\
    Forall (fun t => - (728 / 1000 * INR steps) <= t <= 1 + 728 / 1000 * INR steps) theta /\
    forall i o, nth_error objects i = Some o -> nth_error (xys p) (S i) = Some (position_on o (nth (walls_before objects i) theta 0)).
Proof. exact C97_solvers. Qed.
Print Assumptions C97_reach_of_the_solver_paths.

(** The first step: less than 0.1, against the gradient, whatever its size. *)
Theorem C97_first_step :
  forall f grad x0, (forall y, length (grad y) = length y) ->
  exists x, minimize f grad default_optimizer 1 x0 = Ok (x, f x0) /\ length x = length x0 /\
    forall i, (i < length x0)%nat ->
      let g := nth i (grad x0) 0 in
      nth i x 0 = nth i x0 0 - 1 / 10 * (g / (Rabs g + / 10 ^ 8)) /\ Rabs (nth i x 0 - nth i x0 0) < 1 / 10.
Proof. exact C97_first. Qed.
Print Assumptions C97_first_step.

(** A stationary point is never left, and a constant gradient gives equal steps. *)
Theorem C97_stationary_points_are_kept :
  forall f grad steps x0, (1 <= steps)%nat -> (forall y, length (grad y) = length y) ->
  (forall i, nth i (grad x0) 0 = 0) -> minimize f grad default_optimizer steps x0 = Ok (x0, f x0).
Proof. exact C97_stationary. Qed.
Print Assumptions C97_stationary_points_are_kept.
Theorem C97_constant_gradient :
  forall f grad steps x0 x l, (forall y, length (grad y) = length y) ->
  minimize f grad default_optimizer steps x0 = Ok (x, l) ->
  forall i c, (i < length x0)%nat -> (forall y, length y = length x0 -> nth i (grad y) 0 = c) ->
  nth i x 0 = nth i x0 0 - INR steps * (1 / 10 * (c / (Rabs c + / 10 ^ 8))).
Proof. exact C97_constant. Qed.
Print Assumptions C97_constant_gradient.
Theorem C97_moves_against_the_gradient :
  forall f grad steps x0 x l, (forall y, length (grad y) = length y) ->
  minimize f grad default_optimizer steps x0 = Ok (x, l) ->
  forall i, (i < length x0)%nat ->
  ((forall y, length y = length x0 -> 0 <= nth i (grad y) 0) -> nth i x 0 <= nth i x0 0) /\
  ((forall y, length y = length x0 -> nth i (grad y) 0 <= 0) -> nth i x0 0 <= nth i x 0).
Proof. exact C97_sign. Qed.
Print Assumptions C97_moves_against_the_gradient.

(** Without any keyword argument: 100 steps (so that a constant gradient [c] moves the
    coordinate by [10 c / (|c| + 1e-8)]), from ten starts, drawn with the ten keys split off
    the given one; from a single start, drawn with the given key, for the paths. *)
Theorem C97_default_arguments :
  (forall f grad x0 x l, (forall y, length (grad y) = length y) ->
     minimize f grad default_optimizer DEFAULT_STEPS x0 = Ok (x, l) ->
     forall i c, (i < length x0)%nat -> (forall y, length y = length x0 -> nth i (grad y) 0 = c) ->
     nth i x 0 = nth i x0 0 - 10 * (c / (Rabs c + / 10 ^ 8))) /\
  (forall P f grad key n, length (rsplit P key 10) = 10%nat ->
     exists trials i, length trials = 10%nat /\ (i < 10)%nat /\
       (forall j dk d, (j < 10)%nat -> minimize f grad default_optimizer 100 (runiform P (nth j (rsplit P key 10) dk) n) = Ok (nth j trials d)) /\
       (forall d, minimize_many_random_uniform P f grad default_optimizer DEFAULT_STEPS key n DEFAULT_MANY = Ok (nth i trials d)) /\
       forall j d, (j < 10)%nat -> snd (nth i trials d) <= snd (nth j trials d)) /\
  (forall P cls key tx objects rx grad p f,
     (exists eps, cls = ClsFermat eps (default_solver grad) /\ f = fermat_objective eps objects tx rx) \/
       cls = ClsMin (default_solver grad) /\ f = min_objective objects tx rx ->
     (forall f x, length (grad f x) = length x) ->
     (forall k n, length (runiform P k n) = n /\ Forall (fun u => 0 <= u < 1) (runiform P k n)) -> objects <> [] ->
     from_tx_objects_rx P cls (Some key) tx objects rx = Ok p ->
     exists theta l, minimize f (grad f) default_optimizer 100 (runiform P key (walls_before objects (length objects))) = Ok (theta, l) /\
       length theta = walls_before objects (length objects) /\ Forall (fun t => - (728 / 10) <= t <= 738 / 10) theta /\
       forall i o, nth_error objects i = Some o -> nth_error (xys p) (S i) = Some (position_on o (nth (walls_before objects i) theta 0))).
Proof. exact C97_defaults. Qed.
Print Assumptions C97_default_arguments.

(** But the loss may go up: two steps on the square from 1/100 report a loss more
    than 64 times the initial one. *)
Theorem C97_descent_refuted :
  let square x := nth 0 x 0 * nth 0 x 0 in
  exists x l, minimize square (map (fun a => 2 * a)) default_optimizer 2 [1 / 100] = Ok (x, l) /\ 64 * square [1 / 100] < l.
Proof. exact C97_up. Qed.
Print Assumptions C97_descent_refuted.

(** With floats: as long as everything is finite the floats are the reals above ... *)
Theorem C97_finite_runs :
  forall f fx grad gradx steps x0,
  (forall r, fx (map Fin r) = Fin (f r)) -> (forall r, gradx (map Fin r) = map Fin (grad r)) -> (forall y, length (grad y) = length y) ->
  xminimize fx gradx steps (map Fin x0) =
  match minimize f grad default_optimizer steps x0 with Ok (x, l) => Ok (map Fin x, Fin l) | Err e => Err e end.
Proof. exact C97_finite. Qed.
Print Assumptions C97_finite_runs.

(** ... and one NaN in the gradient is never forgotten. *)
Theorem C97_nan_gradient_is_final :
  forall f grad steps x0, (1 <= steps)%nat -> (forall y, length (grad y) = length y) ->
  exists x, x 0%nat = x0 /\ (forall j, length (x j) = length x0) /\ xminimize f grad steps x0 = Ok (x steps, f (x (steps - 1)%nat)) /\
  forall i j k, (i < length x0)%nat -> (j < k)%nat ->
    nth i (grad (x j)) (Fin 0) = NaN -> nth i (x k) (Fin 0) = NaN.
Proof. exact C97_sticky. Qed.
Print Assumptions C97_nan_gradient_is_final.

(** [minimize_many_random_uniform] prefers a NaN loss to any other, so the best
    trial is returned exactly when no trial ends with a NaN loss. *)
Theorem C97_a_nan_trial_wins :
  forall P f grad steps key n many,
  (2 <= many)%nat -> length (rsplit P key many) = many -> (1 <= steps)%nat ->
  exists trials i,
    length trials = many /\ (i < many)%nat /\
    (forall j dk d, (j < many)%nat ->
       xminimize f grad steps (map Fin (runiform P (nth j (rsplit P key many) dk) n)) = Ok (nth j trials d)) /\
    (forall d, xminimize_many_random_uniform P f grad steps key n many = Ok (nth i trials d)) /\
    forall d, let loss j := snd (nth j trials d) in
    ((exists j, (j < many)%nat /\ loss j = NaN) -> loss i = NaN /\ forall j, (j < i)%nat -> loss j <> NaN) /\
    ((forall j, (j < many)%nat -> loss j <> NaN) ->
       (forall j, (j < many)%nat -> xleb (loss i) (loss j) = true) /\ (forall j, (j < i)%nat -> xltb (loss i) (loss j) = true)).
Proof. exact C97_trials. Qed.
Print Assumptions C97_a_nan_trial_wins.

(** It happens: the distance to the origin (whose gradient at the origin is NaN)
    from 1/2 and from 0; the first trial is fine, the result is NaN. *)
Theorem C97_best_trial_refuted_with_nan :
  (exists x l, xminimize dist0 dist0_grad 2 [Fin (1 / 2)] = Ok ([Fin x], Fin l)) /\
  xminimize_many_random_uniform two_starts dist0 dist0_grad 2 true 1 2 = Ok ([NaN], NaN).
Proof. exact C97_bad. Qed.
Print Assumptions C97_best_trial_refuted_with_nan.

(** The hypotheses on gradients and draws are met. *)
Example C97_nonvacuous :
  (forall y : list R, length (map (fun a => 2 * a) y) = length y) /\
  (exists x l, minimize (fun x => nth 0 x 0) (map (fun _ => 1)) default_optimizer DEFAULT_STEPS [0] = Ok (x, l) /\
     nth 0 x 0 = - (INR 100 * (1 / 10 * (1 / (1 + / 10 ^ 8))))) /\
  (forall (k : unit) n, length (repeat (1 / 2) n) = n /\ Forall (fun u => 0 <= u < 1) (repeat (1 / 2) n)).
Proof.
  split; [intro; apply map_length|]. split.
  - destruct (C97_run (fun x => nth 0 x 0) (map (fun _ => 1)) DEFAULT_STEPS [0] ltac:(unfold DEFAULT_STEPS; lia) ltac:(intro; apply map_length)) as (y & _ & _ & M & _).
    eexists _, _. split; [exact M|]. rewrite (C97_constant _ _ _ _ _ _ ltac:(intro; apply map_length) M 0%nat 1); [|cbn; lia|].
    + cbn [nth]. rewrite Rabs_R1. unfold DEFAULT_STEPS. ring.
    + intros z Hz. clear M. destruct z; cbn in *; [lia|reflexivity].
  - intros _ n. split; [apply repeat_length|]. apply Forall_forall. intros u Hu. apply repeat_spec in Hu. subst. lra.
Qed.
