(** C87: gradients of an accumulation with [approx=False]. *)
From Coq Require Import Reals List Bool ZArith Arith Lia Lra.
From Verif Require Import Base BaseP LogicM GeometryM OptimizeM PathM UtilsM SceneM AdM SpecGeometry SpecPath SpecImage SpecAd.
From Verif Require Import AdPos AdPosP AdP AdGeomP AdGradP AdNanP AdExP AdExactP AdExactExP.
Import ListNotations.
Open Scope R_scope.
Local Notation length := List.length.

(** The traced program is the accumulation of the received power over the
    candidates [work]; [bw] gives the exact validity and the walls of each. *)
Theorem C87_trace_is_the_code :
  forall (P : prng) x g s k eps rc h tol patch (work : list (list Z * option (key_t P))) bw tx rx t r,
  eval x (fst tx) = Fin (fst t) -> eval x (snd tx) = Fin (snd t) ->
  eval x (fst rx) = Fin (fst r) -> eval x (snd rx) = Fin (snd r) ->
  Forall2 (fun c b => get_interacting_objects s (fst c) = Ok (map OWall (snd b)) /\
     exact_validity g (objects s) tol patch k t r (fst c) (snd b) (fst b)) work bw ->
  facc P g s ClsImage (mkvalidargs tol patch (Some false) k)
    (fun t r p inter => received_power eps t r p inter rc h) work t r =
  Ok (eval x (e_exact_facc eps rc h bw tx rx)).
Proof. intros. apply (exact_traced P x g s k eps rc h tol patch work bw tx rx t r); try split; auto. Qed.
Print Assumptions C87_trace_is_the_code.

(** The gradient is finite exactly when the length of every candidate, valid or
    not, has a slope; otherwise it is NaN. *)
Theorem C87_receiver_gradient_is_finite_iff : forall eps rc h bw tx rx i, h <> 0 -> (i < 2)%nat ->
  let d := grad (env_at rx) (e_exact_facc eps rc h bw (cvec tx) evar) i in
  (is_fin d <->
   forall b ws p, In (b, ws) bw -> ImagePath_from tx (map OWall ws) rx = Ok p -> length_position eps tx ws p) /\
  (is_fin d \/ d = NaN).
Proof. intros eps rc h bw tx rx i Hh Hi d. split; [rewrite all_len_pos; apply exact_receiver_finite; auto|apply exact_receiver_fin_or_nan; auto]. Qed.
Print Assumptions C87_receiver_gradient_is_finite_iff.
Theorem C87_transmitter_gradient_is_finite_iff : forall eps rc h bw tx rx i, h <> 0 -> (i < 2)%nat ->
  let d := grad (env_at tx) (e_exact_facc eps rc h bw evar (cvec rx)) i in
  (is_fin d <->
   forall b ws p, In (b, ws) bw -> ImagePath_from tx (map OWall ws) rx = Ok p -> length_position eps tx ws p) /\
  (is_fin d \/ d = NaN).
Proof. intros eps rc h bw tx rx i Hh Hi d. split; [rewrite all_len_pos; apply exact_transmitter_finite; auto|apply exact_transmitter_fin_or_nan; auto]. Qed.
Print Assumptions C87_transmitter_gradient_is_finite_iff.

(** Then it is the sum of the gradients of the power of the valid candidates. *)
Theorem C87_gradient_sums_over_the_valid_candidates : forall eps rc h bw tx rx i, h <> 0 ->
  (forall b ws p, In (b, ws) bw -> ImagePath_from tx (map OWall ws) rx = Ok p -> length_position eps tx ws p) ->
  exists gs,
    Forall2 (fun '(b, ws) v => if b : bool
      then grad (env_at rx) (e_received_power eps (e_image_points (cvec tx) ws evar) rc h) i = Fin v
      else v = 0) bw gs /\
    grad (env_at rx) (e_exact_facc eps rc h bw (cvec tx) evar) i = Fin (fold_right Rplus 0 gs).
Proof. intros eps rc h bw tx rx i Hh G. rewrite all_len_pos in G. apply (exact_gradient_sum (env_at rx) i eps rc h (cvec tx) evar tx rx bw); auto using gvv_cvec, gvv_at. Qed.
Print Assumptions C87_gradient_sums_over_the_valid_candidates.

(** Where no validity changes around the position, it is the gradient of the
    accumulation: a change of validity is not seen. *)
Theorem C87_receiver_gradient_is_right :
  forall (P : prng) g s k eps rc h tol patch (work : list (list Z * option (key_t P))) bw tx rx d,
  h <> 0 -> 0 < d ->
  (forall y, Rabs (fst y - fst rx) < d -> Rabs (snd y - snd rx) < d ->
     Forall2 (fun c x => get_interacting_objects s (fst c) = Ok (map OWall (snd x)) /\
       exact_validity g (objects s) tol patch k tx y (fst c) (snd x) (fst x)) work bw) ->
  (forall b ws p, In (b, ws) bw -> ImagePath_from tx (map OWall ws) rx = Ok p -> length_position eps tx ws p) ->
  exists gr, (forall i, grad (env_at rx) (e_exact_facc eps rc h bw (cvec tx) evar) i = Fin (gr i)) /\
    is_gradient 2 (fun x => value (facc P g s ClsImage (mkvalidargs tol patch (Some false) k)
       (fun t r p inter => received_power eps t r p inter rc h) work tx (x 0%nat, x 1%nat))) (env_at rx) gr.
Proof. intros P g s k eps rc h tol patch work bw tx rx d Hh Hd V G. rewrite all_len_pos in G. eapply exact_receiver_right; eauto. Qed.
Print Assumptions C87_receiver_gradient_is_right.
Theorem C87_transmitter_gradient_is_right :
  forall (P : prng) g s k eps rc h tol patch (work : list (list Z * option (key_t P))) bw tx rx d,
  h <> 0 -> 0 < d ->
  (forall y, Rabs (fst y - fst tx) < d -> Rabs (snd y - snd tx) < d ->
     Forall2 (fun c x => get_interacting_objects s (fst c) = Ok (map OWall (snd x)) /\
       exact_validity g (objects s) tol patch k y rx (fst c) (snd x) (fst x)) work bw) ->
  (forall b ws p, In (b, ws) bw -> ImagePath_from tx (map OWall ws) rx = Ok p -> length_position eps tx ws p) ->
  exists gr, (forall i, grad (env_at tx) (e_exact_facc eps rc h bw evar (cvec rx)) i = Fin (gr i)) /\
    is_gradient 2 (fun x => value (facc P g s ClsImage (mkvalidargs tol patch (Some false) k)
       (fun t r p inter => received_power eps t r p inter rc h) work (x 0%nat, x 1%nat) rx)) (env_at tx) gr.
Proof. intros P g s k eps rc h tol patch work bw tx rx d Hh Hd V G. rewrite all_len_pos in G. eapply exact_transmitter_right; eauto. Qed.
Print Assumptions C87_transmitter_gradient_is_right.

(** One invalid candidate whose line to the image is parallel to its wall is enough
    to make the gradient not a number, although the accumulation is the power of the
    direct path, and has a gradient: a wall far away, on the other side of which
    the receiver is, as deep as the transmitter is high. *)
Theorem C87_an_invalid_candidate_can_make_the_gradient_nan :
  forall (P : prng) g k (key1 key2 : option (key_t P)),
  let w := mkwall (10, 0) (11, 0) in
  let s := Scene_make [] [] [OWall w] in
  let work := [([], key1); ([0%Z], key2)] in
  let rx := (1 / 2, -1) in
  (forall y, Rabs (fst y - fst rx) < 1 / 4 -> Rabs (snd y - snd rx) < 1 / 4 ->
     Forall2 (fun c x => get_interacting_objects s (fst c) = Ok (map OWall (snd x)) /\
       exact_validity g (objects s) DEFAULT_TOL DEFAULT_PATCH k (0, 1) y (fst c) (snd x) (fst x)) work [(true, []); (false, [w])]) /\
  (exists gr, is_gradient 2 (fun x => value (facc P g s ClsImage (mkvalidargs DEFAULT_TOL DEFAULT_PATCH (Some false) k)
       (fun t r p inter => received_power float32_eps t r p inter (5 / 10) (1 / 10)) work (0, 1) (x 0%nat, x 1%nat))) (env_at rx) gr) /\
  (forall i, (i < 2)%nat ->
     grad (env_at rx) (e_exact_facc float32_eps (5 / 10) (1 / 10) [(true, []); (false, [w])] (cvec (0, 1)) evar) i = NaN).
Proof. exact exact_nan_example. Qed.
Print Assumptions C87_an_invalid_candidate_can_make_the_gradient_nan.

(** Next to that position every hypothesis above is met. *)
Example C87_nonvacuous : forall (P : prng) g k (key1 key2 : option (key_t P)),
  let w := mkwall (10, 0) (11, 0) in
  let s := Scene_make [] [] [OWall w] in
  let rx := (1 / 2, -1 / 2) in
  (forall y, Rabs (fst y - fst rx) < 1 / 4 -> Rabs (snd y - snd rx) < 1 / 4 ->
     Forall2 (fun c x => get_interacting_objects s (fst c) = Ok (map OWall (snd x)) /\
       exact_validity g (objects s) DEFAULT_TOL DEFAULT_PATCH k (0, 1) y (fst c) (snd x) (fst x))
     [([], key1); ([0%Z], key2)] [(true, []); (false, [w])]) /\
  (forall b ws p, In (b, ws) [(true, []); (false, [w])] -> ImagePath_from (0, 1) (map OWall ws) rx = Ok p ->
     length_position float32_eps (0, 1) ws p).
Proof. intros P g k key1 key2 w s rx. rewrite all_len_pos. exact (exact_ex P g k key1 key2). Qed.
