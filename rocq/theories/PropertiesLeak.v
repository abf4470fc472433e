(** Property C94, smoothed validity: how much gets through the walls of a closed room. *)
From Coq Require Import Reals List Bool ZArith String Lia Lra Psatz.
From Verif Require Import Base BaseP LogicM SpecLogic GeometryM SpecGeometry VecP WallP OptimizeM PathM SpecPath SpecImage ImageP CandidatesM SceneM SpecScene SpecRun
  SpecOrder SpecRecip SpecRoom SceneP SceneOpsP RunExP BuildM UtilsM SpecSlope SlopeP SegP RoomP RoomSceneP RoomSmoothP.
Import ListNotations.
Local Notation length := List.length.
Open Scope R_scope.

(** [leak k l]: [l] is the value of the activation function at -0.005, minus the
    tolerance of the intersection test. *)
Definition leak (k : akw) (l : R) : Prop := activation (Fin (- 5 / 1000)) k = Fin l.
Lemma leak_eq k l : shipped k -> leak k l -> l = leaks k.
Proof. intros Sh H. unfold leak in H. rewrite act_eq in H by auto. injection H as <-. reflexivity. Qed.

(** It decreases with [alpha]: it is nothing for the hard sigmoid and [alpha] at least
    600, and exponentially small for the sigmoid. *)
Theorem C94_size_of_the_leak :
  forall alpha, 0 < alpha ->
  leak (mkakw alpha hard_sigmoid) (Rmax 0 (1 / 2 - alpha / 1200)) /\ leak (mkakw alpha sigmoid) (1 / (1 + exp (alpha / 200))).
Proof.
  intros alpha A. unfold leak. rewrite !act_eq by (unfold shipped; auto). fold (leaks (mkakw alpha hard_sigmoid)) (leaks (mkakw alpha sigmoid)).
  rewrite leaks_hard, leaks_sig. split; auto. f_equal. rewrite Rmin_right by lra. reflexivity.
Qed.
Print Assumptions C94_size_of_the_leak.

(** The smoothed validity of a path between the inside and the outside of a room is at
    most the leak. *)
Theorem C94_smoothed_validity_through_walls :
  forall g tx ws rx objects cand room tol patch k p v l, encloses room -> walls_present room objects -> 0 <= patch -> tol <= 995 / 1000 ->
  shipped k -> 0 < ak_alpha k -> leak k l ->
  Forall2 (fun c w => exists i, c = Z.of_nat i /\ nth_error objects i = Some (OWall w)) cand ws ->
  ImagePath_from tx (map OWall ws) rx = Ok p ->
  is_valid g p objects cand (map OWall ws) tol patch (Some true) k = Ok (TF (Fin v)) ->
  separated room tx rx -> 0 <= v <= l.
Proof.
  intros g tx ws rx objects cand room tol patch k p v l En Pr HP HT Sh A L HC HI V Sp. rewrite (leak_eq k l) by auto.
  rewrite image_from_ok in HI. injection HI as <-. split; [eapply score_range; eauto|eapply leak_both; eauto].
Qed.
Print Assumptions C94_smoothed_validity_through_walls.

(** The accumulated value is at most the number of candidates times the largest value
    of the function times the leak ... *)
Theorem C94_smoothed_total_through_walls :
  forall P g s ca va room f M l t r n m v tx rx, (forall o, In o (objects s) -> exists w, o = OWall w) ->
  resolve g (va_approx va) = true -> shipped (va_kw va) -> 0 < ak_alpha (va_kw va) -> va_tol va <= 995 / 1000 -> 0 <= va_patch va ->
  encloses room -> walls_present room (objects s) -> leak (va_kw va) l ->
  good_split P -> represents (transmitters s) t -> represents (receivers s) r ->
  (forall p os, exists y, f tx rx p os = Fin y /\ Rabs y <= M) ->
  In (n, m, v) (yielded (accumulate_over_paths P g s ClsImage ca va None f)) -> In (n, tx) t -> In (m, rx) r -> separated room tx rx ->
  exists x, v = Fin x /\ Rabs x <= INR (length (scene_candidates s ca)) * (M * l).
Proof. intros. rewrite (leak_eq (va_kw va) l) by auto. eapply acc_leak; eauto. Qed.
Print Assumptions C94_smoothed_total_through_walls.

(** ... and so is every entry of a coverage map on the other side of the walls. *)
Theorem C94_smoothed_maps_through_walls :
  forall P g s ca va room f M l gradop X Y t, (forall o, In o (objects s) -> exists w, o = OWall w) ->
  resolve g (va_approx va) = true -> shipped (va_kw va) -> 0 < ak_alpha (va_kw va) -> va_tol va <= 995 / 1000 -> 0 <= va_patch va ->
  encloses room -> walls_present room (objects s) -> leak (va_kw va) l ->
  good_split P -> represents (transmitters s) t -> same_shape X Y ->
  (forall tx rx p os, exists y, f tx rx p os = Fin y /\ Rabs y <= M) ->
  exists result, accumulate_on_receivers_grid P g s ClsImage ca va None f gradop MVal X Y = Ok (mkgen result None) /\
    map fst result = map fst t /\
    forall k name pos Z i j x y, nth_error t k = Some (name, pos) -> nth_error result k = Some (name, Z) ->
      entry X i j = Some x -> entry Y i j = Some y -> separated room pos (x, y) ->
      exists z, entry Z i j = Some (CVal (Fin z)) /\ Rabs z <= INR (length (scene_candidates s ca)) * (M * l).
Proof. intros. rewrite (leak_eq (va_kw va) l) by auto. eapply rx_map_leak; eauto. Qed.
Print Assumptions C94_smoothed_maps_through_walls.

(** With the hard sigmoid and [alpha] at least 600 nothing gets through, as with exact
    validity. *)
Theorem C94_steep_smoothing_seals_the_room :
  forall P g s ca va room f M t r n m v tx rx, (forall o, In o (objects s) -> exists w, o = OWall w) ->
  resolve g (va_approx va) = true -> ak_function (va_kw va) = hard_sigmoid -> 600 <= ak_alpha (va_kw va) ->
  va_tol va <= 995 / 1000 -> 0 <= va_patch va ->
  encloses room -> walls_present room (objects s) ->
  good_split P -> represents (transmitters s) t -> represents (receivers s) r ->
  (forall p os, exists y, f tx rx p os = Fin y /\ Rabs y <= M) ->
  In (n, m, v) (yielded (accumulate_over_paths P g s ClsImage ca va None f)) -> In (n, tx) t -> In (m, rx) r -> separated room tx rx ->
  v = Fin 0.
Proof.
  intros P g s ca va room f M t r n m v tx rx W Re Hf A HT HP En Pr G T R F I It Ir Sp.
  destruct (va_kw va) as [alpha fn] eqn:Ek. cbn [ak_function ak_alpha] in *. subst fn.
  destruct (C94_smoothed_total_through_walls P g s ca va room f M 0 t r n m v tx rx) as (x & -> & Hx); auto.
  - rewrite Ek. right. reflexivity.
  - rewrite Ek. cbn. lra.
  - rewrite Ek. replace 0 with (Rmax 0 (1 / 2 - alpha / 1200)) by (apply Rmax_left; lra). apply C94_size_of_the_leak. lra.
  - f_equal. pose proof (Rabs_pos x). destruct (Req_dec x 0) as [|N]; auto. apply Rabs_pos_lt in N. lra.
Qed.
Print Assumptions C94_steep_smoothing_seals_the_room.

(** The leak is real: with the default settings, a receiver one millimetre above the
    ceiling of a room of one metre gets the line of sight with a validity of more than
    0.38 (the bound is 0.417). *)
Theorem C94_default_smoothing_leaks :
  forall g, let a := (1 / 2, 1 / 2) in let b := (1 / 2, 1001 / 1000) in
  separated (rectangle 0 0 1 1) a b /\
  exists v, is_valid g (mkpath [a; b] (Fin 0)) (objects (square_scene a b)) [] [] DEFAULT_TOL DEFAULT_PATCH (Some true) default_akw = Ok (TF (Fin v)) /\
    38 / 100 < v <= 417 / 1000.
Proof.
  intros g a b. assert (Sp : separated (rectangle 0 0 1 1) a b).
  { left. rewrite !inside_rectangle by lra. unfold a, b. cbn. lra. }
  split; auto.
  destruct (hard_score g (mkpath [a; b] (Fin 0)) (objects (square_scene a b)) [] [] DEFAULT_TOL DEFAULT_PATCH 100 (-7 / 1000)) as (v & E & H);
    try lra; cbn; auto.
  exists v. split; [exact E|]. split.
  - apply Rlt_le_trans with (1 / 2 + 100 * (-7 / 1000) / 6); [lra|]. apply H. split; [|split].
    + cbn. unfold DEFAULT_TOL. lra.
    + intros [|i] o w q O; discriminate.
    + intros i j A B o w [HA HB] O Wo _. destruct i as [|[|i]]; cbn in HA, HB; try discriminate. injection HA as <-. injection HB as <-.
      cbn in O. unfold DEFAULT_PATCH, misses_by, parallel, meet_at, at_.
      destruct j as [|[|[|[|j]]]]; [| | | |destruct j; discriminate]; injection O as <-; injection Wo as <-; cbn [w_origin w_dest fst snd a b];
        try (left; lra); right; intros s t Me; injection Me as M1 M2; unfold a, b in *; cbn [fst snd] in *; lra.
  - pose proof (C94_size_of_the_leak 100 ltac:(lra)) as [L _].
    destruct (builtin_walls (square_scene a b) 0 a b) as [_ Pr]; auto.
    destruct (C94_smoothed_validity_through_walls g a [] b (objects (square_scene a b)) [] (rectangle 0 0 1 1) DEFAULT_TOL DEFAULT_PATCH default_akw
      (mkpath [a; b] (Fin 0)) v (Rmax 0 (1 / 2 - 100 / 1200)) (rectangle_encloses 0 0 1 1 ltac:(lra) ltac:(lra)) Pr) as [_ X]; eauto.
    + unfold DEFAULT_PATCH. lra.
    + unfold DEFAULT_TOL. lra.
    + right. reflexivity.
    + cbn. unfold DEFAULT_ALPHA. lra.
    + rewrite Rmax_right in X by lra. lra.
Qed.
Print Assumptions C94_default_smoothing_leaks.
