(** C80-C85: automatic differentiation. *)
From Coq Require Import Reals List Bool ZArith Arith Lia Lra Psatz.
From Verif Require Import Base BaseP LogicM GeometryM OptimizeM PathM UtilsM SceneM AdM SpecGeometry SpecPath SpecImage SpecAd.
From Verif Require Import AdPos AdPosP AdP AdSoundP AdGeomP AdGradP AdNanP AdRightP AdExP.
Import ListNotations.
Open Scope R_scope.
Local Notation length := List.length.


(** ** C80: reverse mode *)
Theorem C80_reverse_mode_computes_the_derivative : forall n x e,
  vars_below n e -> safe x e -> regular x e ->
  exists g, (forall i, grad x e i = Fin (g i)) /\ is_gradient n (fun y => eval y e) x g.
Proof. intros n x e V S Rg. exists (D x e). apply ad_sound; auto. Qed.
Print Assumptions C80_reverse_mode_computes_the_derivative.
Theorem C80_gradients_are_finite_without_infinite_slopes : forall x e i, safe x e -> is_fin (grad x e i).
Proof. intros x e i S. rewrite grad_safe by auto. eexists; reflexivity. Qed.
Print Assumptions C80_gradients_are_finite_without_infinite_slopes.
(** A gradient is unique: what is reported is the gradient, not one of many. *)
Theorem C80_gradients_are_unique : forall n F x g h, is_gradient n F x g -> is_gradient n F x h ->
  forall i, (i < n)%nat -> g i = h i.
Proof. exact gradient_unique. Qed.
Print Assumptions C80_gradients_are_unique.
(** Nothing is masked: if any operation has an infinite slope in a branch of
    [where] that is not selected, the gradient is NaN. *)
Theorem C80_unselected_branches_count : forall x i num l a,
  eval x l = Fin 0 -> reaches x i num = true ->
  grad x (EWhere IsZero l a (EDiv num l)) i = NaN.
Proof.
  intros x i num l a E H. exact (poison_div x i num l a E H (Fin 1)).
Qed.
Print Assumptions C80_unselected_branches_count.
Example C80_nonvacuous :
  let e := EMul (EMax (EVar 0) (C 1)) (EDiv (EVar 1) (ESqrt (EVar 0))) in
  let x := fun i => match i with O => 4 | _ => 3 end in
  vars_below 2 e /\ safe x e /\ regular x e /\ eval x e = Fin 6.
Proof. exact ex_c80. Qed.

(** ** C81: path_length *)
Theorem C81_length_gradient_is_right : forall eps m x,
  steps_off eps (points_at m x) ->
  exists g, gradient_right (2 * m) (e_path_length eps (evars m)) (fun y => path_length eps (points_at m y)) x g.
Proof. intros eps m x H. apply length_gradient, steps_off_iff, H. Qed.
Print Assumptions C81_length_gradient_is_right.
(** With [eps <> 0], repeated points are not a problem. *)
Theorem C81_repeated_points_are_fine : forall eps m x, eps <> 0 ->
  consecutive (fun a b => b = a) (points_at m x) ->
  exists g, gradient_right (2 * m) (e_path_length eps (evars m)) (fun y => path_length eps (points_at m y)) x g.
Proof.
  intros eps m x He H. apply length_gradient, steps_off_iff. intros l p q r E Q. rewrite (H l p q r E) in Q.
  destruct p as [p1 p2]. cbn in Q. inversion Q. lra.
Qed.
Print Assumptions C81_repeated_points_are_fine.
(** The one step that is: its gradient is not a number. *)
Theorem C81_length_gradient_fails_only_there : forall eps m x l p r,
  points_at m x = l ++ p :: (fst p - eps, snd p - eps) :: r ->
  exists i, (i < 2 * m)%nat /\ grad x (e_path_length eps (evars m)) i = NaN.
Proof. intros eps m x l p r E. eapply length_gradient_fails, not_steps_off, E. Qed.
Print Assumptions C81_length_gradient_fails_only_there.
Example C81_nonvacuous : exists g,
  gradient_right 4 (e_path_length 0 (evars 2)) (fun y => path_length 0 (points_at 2 y))
    (fun i => match i with 2%nat => 3 | 3%nat => 4 | _ => 0 end) g.
Proof.
  apply (length_gradient 0 2). cbn. intros v [<-|[]]. unfold vsub. cbn. intros Q. inversion Q. lra.
Qed.

(** ** C82: normalize and evaluate_cartesian *)
Theorem C82_normalize_gradient_is_right : forall x, (x 0%nat, x 1%nat) <> (0, 0) ->
  (exists g, gradient_right 2 (fst (e_normalize evar)) (fun y => fst (fst (normalize (y 0%nat, y 1%nat)))) x g) /\
  (exists g, gradient_right 2 (snd (e_normalize evar)) (fun y => snd (fst (normalize (y 0%nat, y 1%nat)))) x g).
Proof. exact normalize_gradient. Qed.
Print Assumptions C82_normalize_gradient_is_right.
Theorem C82_normalize_gradient_fails_at_zero : forall x i, (x 0%nat, x 1%nat) = (0, 0) -> (i < 2)%nat ->
  grad x (fst (e_normalize evar)) i = NaN /\ grad x (snd (e_normalize evar)) i = NaN.
Proof. exact normalize_gradient_fails. Qed.
Print Assumptions C82_normalize_gradient_fails_at_zero.
Theorem C82_evaluate_gradient_is_right : forall w x,
  point_of x 1 <> point_of x 0 -> point_of x 2 <> point_of x 1 ->
  exists g, gradient_right 6 (e_evaluate (cwall w) (epoint 0) (epoint 1) (epoint 2))
    (fun y => wall_evaluate w (point_of y 0) (point_of y 1) (point_of y 2)) x g.
Proof. exact evaluate_gradient. Qed.
Print Assumptions C82_evaluate_gradient_is_right.
Theorem C82_evaluate_gradient_fails_on_repeated_points : forall w x,
  point_of x 1 = point_of x 0 \/ point_of x 2 = point_of x 1 ->
  grad x (e_evaluate (cwall w) (epoint 0) (epoint 1) (epoint 2)) 2 = NaN.
Proof. exact evaluate_gradient_fails. Qed.
Print Assumptions C82_evaluate_gradient_fails_on_repeated_points.
Theorem C82_ris_evaluate_gradient_is_right : forall w phi x,
  point_of x 2 <> point_of x 1 ->
  exists g, gradient_right 6 (e_ris_evaluate (cwall w) phi (epoint 1) (epoint 2))
    (fun y => ris_evaluate w phi (point_of y 0) (point_of y 1) (point_of y 2)) x g.
Proof. exact ris_evaluate_gradient. Qed.
Print Assumptions C82_ris_evaluate_gradient_is_right.
Theorem C82_ris_evaluate_gradient_fails_on_repeated_points : forall w phi x,
  point_of x 2 = point_of x 1 ->
  grad x (e_ris_evaluate (cwall w) phi (epoint 1) (epoint 2)) 2 = NaN.
Proof. exact ris_evaluate_gradient_fails. Qed.
Print Assumptions C82_ris_evaluate_gradient_fails_on_repeated_points.
Example C82_nonvacuous :
  let x := fun i => match i with 2%nat | 4%nat | 5%nat => 1 | _ => 0 end in
  point_of x 1 <> point_of x 0 /\ point_of x 2 <> point_of x 1 /\
  wall_evaluate (mkwall (0, 0) (1, 1)) (point_of x 0) (point_of x 1) (point_of x 2) = 0.
Proof. exact ex_c82. Qed.

(** ** C83: segments_intersect *)
Theorem C83_crossing_gradient_is_always_finite : forall k tol x i, ek_alpha k <> 0 ->
  is_fin (grad x (e_segments_intersect k (epoint 0) (epoint 1) (epoint 2) (epoint 3) tol) i).
Proof. exact crossing_finite. Qed.
Print Assumptions C83_crossing_gradient_is_always_finite.
Theorem C83_crossing_gradient_is_zero_away_from_the_ends : forall alpha tol x, 0 < alpha ->
  segments_settled alpha (point_of x 0) (point_of x 1) (point_of x 2) (point_of x 3) tol ->
  let e := e_segments_intersect (mkeakw alpha Hard) (epoint 0) (epoint 1) (epoint 2) (epoint 3) tol in
  (forall i, grad x e i = Fin 0) /\
  is_gradient 8 (fun y => to_f (segments_intersect false (point_of y 0) (point_of y 1) (point_of y 2) (point_of y 3)
    tol (Some true) (mkakw alpha hard_sigmoid))) x (fun _ => 0).
Proof. intros alpha tol x Ha H. apply crossing_settled, seg_set_iff; auto. Qed.
Print Assumptions C83_crossing_gradient_is_zero_away_from_the_ends.
(** In a transition as well, when a single comparison decides. *)
Theorem C83_crossing_gradient_in_a_transition : forall alpha tol x, 0 < alpha ->
  deciding alpha (point_of x 0) (point_of x 1) (point_of x 2) (point_of x 3) tol ->
  exists g, 
  let e := e_segments_intersect (mkeakw alpha Hard) (epoint 0) (epoint 1) (epoint 2) (epoint 3) tol in
  (forall i, grad x e i = Fin (g i)) /\
  is_gradient 8 (fun y => to_f (segments_intersect false (point_of y 0) (point_of y 1) (point_of y 2) (point_of y 3)
    tol (Some true) (mkakw alpha hard_sigmoid))) x g.
Proof. intros alpha tol x Ha H. apply crossing_transition, decid_iff; auto. Qed.
Print Assumptions C83_crossing_gradient_in_a_transition.
Example C83_nonvacuous_parallel : segments_settled 100 (-2, 0) (2, 0) (0, 1) (1 / 2, 1) (5 / 1000).
Proof. apply seg_set_iff, ex_parallel. Qed.
Example C83_nonvacuous_crossing : segments_settled 100 (-1, 0) (1, 0) (0, -1) (0, 1) (5 / 1000).
Proof. apply seg_set_iff, ex_crossing. Qed.
Example C83_nonvacuous_transition : deciding 100 (0, 0) (1, 0) (0, -1) (0, 1) (5 / 1000).
Proof. apply decid_iff, ex_transition. Qed.

(** ** C84: the steps of the image method *)
Theorem C84_parameter_gradient_is_right : forall w x,
  exists g, gradient_right 2 (e_c2p (cwall w) evar) (fun y => wall_c2p w (y 0%nat, y 1%nat)) x g.
Proof. exact c2p_gradient. Qed.
Print Assumptions C84_parameter_gradient_is_right.
Theorem C84_image_gradient_is_right : forall w x,
  (exists g, gradient_right 2 (fst (e_image_of (cwall w) evar)) (fun y => fst (image_of w (y 0%nat, y 1%nat))) x g) /\
  (exists g, gradient_right 2 (snd (e_image_of (cwall w) evar)) (fun y => snd (image_of w (y 0%nat, y 1%nat))) x g).
Proof. exact image_gradient. Qed.
Print Assumptions C84_image_gradient_is_right.
Theorem C84_backward_gradient_is_right : forall w x,
  ~ parallel (w_origin w) (w_dest w) (point_of x 1) (point_of x 0) ->
  (exists g, gradient_right 4 (fst (e_backward (epoint 0) (w, epoint 1)))
     (fun y => fst (backward (point_of y 0) (w, point_of y 1))) x g) /\
  (exists g, gradient_right 4 (snd (e_backward (epoint 0) (w, epoint 1)))
     (fun y => snd (backward (point_of y 0) (w, point_of y 1))) x g).
Proof. intros w x H. apply backward_gradient. rewrite dot_parallel. exact H. Qed.
Print Assumptions C84_backward_gradient_is_right.
Theorem C84_backward_gradient_fails_when_parallel : forall w x i,
  parallel (w_origin w) (w_dest w) (point_of x 1) (point_of x 0) -> (i < 2)%nat ->
  backward (point_of x 0) (w, point_of x 1) = point_of x 0 /\
  grad x (fst (e_backward (epoint 0) (w, epoint 1))) i = NaN.
Proof. intros w x i H. apply backward_gradient_fails. rewrite dot_parallel. exact H. Qed.
Print Assumptions C84_backward_gradient_fails_when_parallel.
Example C84_nonvacuous :
  let w := mkwall (0, 0) (1, 0) in
  let x := fun i => match i with 1%nat => 1 | 3%nat => -1 | _ => 0 end in
  let y := fun i => match i with 0%nat => 1 | _ => 0 end in
  ~ parallel (w_origin w) (w_dest w) (point_of x 1) (point_of x 0) /\
  parallel (w_origin w) (w_dest w) (point_of y 1) (point_of y 0).
Proof. cbn zeta. rewrite <- !dot_parallel. exact ex_c84. Qed.

(** ** C85: gradients of an accumulation on a grid *)
(** The traced program is the accumulation of the received power over the
    candidates [work], whose walls are [wss]. *)
Theorem C85_trace_is_the_code : forall (P : prng) x g s k eps rc h tol patch (work : list (list Z * option (key_t P))) wss tx rx t r,
  eval x (fst tx) = Fin (fst t) -> eval x (snd tx) = Fin (snd t) ->
  eval x (fst rx) = Fin (fst r) -> eval x (snd rx) = Fin (snd r) ->
  Forall2 (fun c ws => get_interacting_objects s (fst c) = Ok (map OWall ws)) work wss ->
  facc P g s ClsImage
    (mkvalidargs tol patch (Some true)
       (mkakw (ek_alpha k) (match ek_act k with Hard => hard_sigmoid | Sigm => sigmoid end)))
    (fun t r p inter => received_power eps t r p inter rc h) work t r =
  Ok (eval x (e_facc k eps rc h tol patch (objects s) (combine (map fst work) wss) tx rx)).
Proof. intros. apply facc_traced; try split; auto. Qed.
Print Assumptions C85_trace_is_the_code.

(** With a receiver that moves: the two components of the gradient are finite
    exactly when every candidate is in general position, and NaN otherwise. *)
Theorem C85_receiver_gradient_is_finite_iff : forall k eps rc h tol patch objs work tx rx i,
  ek_alpha k <> 0 -> h <> 0 -> (i < 2)%nat ->
  let d := grad (env_at rx) (e_facc k eps rc h tol patch objs work (cvec tx) evar) i in
  (is_fin d <->
   forall cand ws p, In (cand, ws) work -> ImagePath_from tx (map OWall ws) rx = Ok p -> gradient_position eps tx ws p) /\
  (is_fin d \/ d = NaN).
Proof. intros k eps rc h tol patch objs work tx rx i Ha Hh Hi d. split; [rewrite all_gen_pos; apply receiver_finite; auto|apply receiver_fin_or_nan; auto]. Qed.
Print Assumptions C85_receiver_gradient_is_finite_iff.
(** With a transmitter that moves. *)
Theorem C85_transmitter_gradient_is_finite_iff : forall k eps rc h tol patch objs work tx rx i,
  ek_alpha k <> 0 -> h <> 0 -> (i < 2)%nat ->
  let d := grad (env_at tx) (e_facc k eps rc h tol patch objs work evar (cvec rx)) i in
  (is_fin d <->
   forall cand ws p, In (cand, ws) work -> ImagePath_from tx (map OWall ws) rx = Ok p -> gradient_position eps tx ws p) /\
  (is_fin d \/ d = NaN).
Proof. intros k eps rc h tol patch objs work tx rx i Ha Hh Hi d. split; [rewrite all_gen_pos; apply transmitter_finite; auto|apply transmitter_fin_or_nan; auto]. Qed.
Print Assumptions C85_transmitter_gradient_is_finite_iff.

(** Away from the transitions, they are the derivatives of the accumulation. *)
Theorem C85_receiver_gradient_is_right : forall (P : prng) g s alpha eps rc h tol patch (work : list (list Z * option (key_t P))) wss tx rx,
  0 < alpha -> h <> 0 ->
  Forall2 (fun c ws => get_interacting_objects s (fst c) = Ok (map OWall ws)) work wss ->
  (forall cand ws p, In (cand, ws) (combine (map fst work) wss) -> ImagePath_from tx (map OWall ws) rx = Ok p ->
     gradient_position eps tx ws p /\ path_settled alpha tol patch (objects s) cand ws p) ->
  exists F gr,
    (forall y, facc P g s ClsImage (mkvalidargs tol patch (Some true) (mkakw alpha hard_sigmoid))
       (fun t r p inter => received_power eps t r p inter rc h) work tx (y 0%nat, y 1%nat) = Ok (F y)) /\
    (forall i, grad (env_at rx) (e_facc (mkeakw alpha Hard) eps rc h tol patch (objects s) (combine (map fst work) wss) (cvec tx) evar) i = Fin (gr i)) /\
    is_gradient 2 F (env_at rx) gr.
Proof. intros. apply receiver_right; auto. apply all_settled; auto. Qed.
Print Assumptions C85_receiver_gradient_is_right.
Theorem C85_transmitter_gradient_is_right : forall (P : prng) g s alpha eps rc h tol patch (work : list (list Z * option (key_t P))) wss tx rx,
  0 < alpha -> h <> 0 ->
  Forall2 (fun c ws => get_interacting_objects s (fst c) = Ok (map OWall ws)) work wss ->
  (forall cand ws p, In (cand, ws) (combine (map fst work) wss) -> ImagePath_from tx (map OWall ws) rx = Ok p ->
     gradient_position eps tx ws p /\ path_settled alpha tol patch (objects s) cand ws p) ->
  exists F gr,
    (forall y, facc P g s ClsImage (mkvalidargs tol patch (Some true) (mkakw alpha hard_sigmoid))
       (fun t r p inter => received_power eps t r p inter rc h) work (y 0%nat, y 1%nat) rx = Ok (F y)) /\
    (forall i, grad (env_at tx) (e_facc (mkeakw alpha Hard) eps rc h tol patch (objects s) (combine (map fst work) wss) evar (cvec rx)) i = Fin (gr i)) /\
    is_gradient 2 F (env_at tx) gr.
Proof. intros. apply transmitter_right; auto. apply all_settled; auto. Qed.
Print Assumptions C85_transmitter_gradient_is_right.
Example C85_nonvacuous :
  let w := mkwall (-2, 0) (2, 0) in
  forall cand ws p, In (cand, ws) [([], []); ([0%Z], [w])] ->
    ImagePath_from (0, 1) (map OWall ws) (1 / 2, 1) = Ok p ->
    gradient_position float32_eps (0, 1) ws p /\
    path_settled 100 (1 / 100) 0 [OWall w] cand ws p.
Proof.
  intros w cand ws p I E. destruct (ex_settled cand ws I) as [G S].
  rewrite <- (gradient_position_iff _ _ _ _ _ E) in G. split; auto.
  eapply path_set_settled; eauto; [|apply G]. destruct I as [I|[I|[]]]; inversion I; reflexivity.
Qed.

(** Where a candidate is not in general position the reported gradient is not a
    number although the accumulation has a gradient there: a receiver behind a
    wall, as far from it as the transmitter. *)
Theorem C85_nan_gradient_of_a_smooth_accumulation :
  let w := mkwall (0, 0) (1, 0) in
  let F := fun y => eval y (e_facc (mkeakw 100 Hard) float32_eps (5 / 10) (1 / 10) (1 / 100) 0 [OWall w] [([0%Z], [w])] (cvec (0, 1)) evar) in
  let x := env_at (1 / 2, -1) in
  is_gradient 2 F x (fun _ => 0) /\
  forall i, (i < 2)%nat ->
    grad x (e_facc (mkeakw 100 Hard) float32_eps (5 / 10) (1 / 10) (1 / 100) 0 [OWall w] [([0%Z], [w])] (cvec (0, 1)) evar) i = NaN.
Proof. exact nan_example. Qed.
Print Assumptions C85_nan_gradient_of_a_smooth_accumulation.
(** A wall of zero length in a candidate makes the gradient not a number at every
    position. *)
Theorem C85_zero_length_walls_break_gradients : forall k eps rc h tol patch objs work tx rx cand ws w i,
  In (cand, ws) work -> In w ws -> w_origin w = w_dest w -> (i < 2)%nat ->
  grad (env_at rx) (e_facc k eps rc h tol patch objs work (cvec tx) evar) i = NaN.
Proof. exact zero_wall. Qed.
Print Assumptions C85_zero_length_walls_break_gradients.
