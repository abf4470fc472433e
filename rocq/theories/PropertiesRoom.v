(** Property C94: nothing gets through the walls of a closed room. *)
From Coq Require Import Reals List Bool ZArith String Lia Lra.
From Verif Require Import Base BaseP LogicM SpecLogic GeometryM SpecGeometry VecP WallP OptimizeM PathM SpecPath SpecImage CandidatesM SceneM SpecScene SpecRun
  SpecOrder SpecRecip SpecRoom SceneP SceneOpsP RunExP BuildM RoomP RoomSceneP.
Import ListNotations.
Local Notation length := List.length.
Open Scope R_scope.

(** Every point of a valid path that starts or ends in a convex room is in the room.
    The scene may have any other objects, inside or outside the room. *)
Theorem C94_valid_path_stays :
  forall g tx ws rx objects cand room tol patch k p, encloses room -> walls_present room objects -> 0 <= patch -> tol <= 1 ->
  Forall2 (fun c w => exists i, c = Z.of_nat i /\ nth_error objects i = Some (OWall w)) cand ws ->
  ImagePath_from tx (map OWall ws) rx = Ok p ->
  is_valid g p objects cand (map OWall ws) tol patch (Some false) k = Ok (TB true) ->
  inside room tx \/ inside room rx -> forall q, In q (xys p) -> inside room q.
Proof. exact valid_stays_both. Qed.
Print Assumptions C94_valid_path_stays.

(** The same for the valid paths of a scene, any number of interactions. *)
Theorem C94_valid_paths_of_a_scene_stay :
  forall P g s ca va room t r n m p c tx rx, exact_reflections g s va -> encloses room -> walls_present room (objects s) ->
  good_split P -> represents (transmitters s) t -> represents (receivers s) r ->
  In (n, m, p, c) (yielded (all_valid_paths P g s ClsImage ca va None)) -> In (n, tx) t -> In (m, rx) r ->
  inside room tx \/ inside room rx -> forall q, In q (xys p) -> inside room q.
Proof. intros P g s ca va room t r n m p c tx rx (W & E & T & H). intros. eapply valid_room; eauto. Qed.
Print Assumptions C94_valid_paths_of_a_scene_stay.

(** Smoothed validity: the paths that count as valid stay in the room too. *)
Theorem C94_smoothed_valid_paths_stay :
  forall P g s ca va room t r n m p c tx rx, (forall o, In o (objects s) -> exists w, o = OWall w) ->
  resolve g (va_approx va) = true -> shipped (va_kw va) -> 0 < ak_alpha (va_kw va) -> va_tol va <= 1 -> 0 <= va_patch va ->
  encloses room -> walls_present room (objects s) ->
  good_split P -> represents (transmitters s) t -> represents (receivers s) r ->
  In (n, m, p, c) (yielded (all_valid_paths P g s ClsImage ca va None)) -> In (n, tx) t -> In (m, rx) r ->
  inside room tx \/ inside room rx -> forall q, In q (xys p) -> inside room q.
Proof. exact valid_room_smooth. Qed.
Print Assumptions C94_smoothed_valid_paths_stay.

(** A transmitter inside and a receiver outside, or the other way around: the
    accumulated value is zero. *)
Theorem C94_nothing_gets_through :
  forall P g s ca va room f t r n m v tx rx, exact_reflections g s va -> encloses room -> walls_present room (objects s) ->
  good_split P -> represents (transmitters s) t -> represents (receivers s) r -> always_finite f ->
  In (n, m, v) (yielded (accumulate_over_paths P g s ClsImage ca va None f)) -> In (n, tx) t -> In (m, rx) r ->
  separated room tx rx -> v = Fin 0.
Proof. intros P g s ca va room f t r n m v tx rx (W & E & T & H) En Pr. intros. eapply acc_sealed; eauto. Qed.
Print Assumptions C94_nothing_gets_through.

(** A map is zero on the other side of the walls. *)
Theorem C94_maps_stop_at_the_walls :
  forall P g s ca va room f gradop X Y t, exact_reflections g s va -> encloses room -> walls_present room (objects s) ->
  good_split P -> represents (transmitters s) t -> same_shape X Y -> always_finite f ->
  exists result, accumulate_on_receivers_grid P g s ClsImage ca va None f gradop MVal X Y = Ok (mkgen result None) /\
    map fst result = map fst t /\
    forall k name pos Z i j x y, nth_error t k = Some (name, pos) -> nth_error result k = Some (name, Z) ->
      entry X i j = Some x -> entry Y i j = Some y -> separated room pos (x, y) -> entry Z i j = Some (CVal (Fin 0)).
Proof. intros P g s ca va room f gradop X Y t (W & E & T & H) En Pr. intros. eapply rx_map_sealed; eauto. Qed.
Print Assumptions C94_maps_stop_at_the_walls.

(** The walls of a rectangle enclose its points; every built-in scene has the walls of
    the unit square, and [square_scene_with_obstacle] those of the obstacle. *)
Theorem C94_rectangles :
  forall x0 y0 x1 y1, x0 < x1 -> y0 < y1 -> encloses (rectangle x0 y0 x1 y1) /\
  forall q, inside (rectangle x0 y0 x1 y1) q <-> x0 <= fst q <= x1 /\ y0 <= snd q <= y1.
Proof. intros. split; [apply rectangle_encloses; auto|intro; apply inside_rectangle; auto]. Qed.
Print Assumptions C94_rectangles.
Theorem C94_built_in_rooms :
  forall s ratio tx rx,
  s = basic_scene tx rx \/ s = square_scene tx rx \/ s = square_scene_with_wall ratio tx rx \/ s = square_scene_with_obstacle ratio tx rx ->
  (forall o, In o (objects s) -> exists w, o = OWall w) /\ walls_present (rectangle 0 0 1 1) (objects s).
Proof. exact builtin_walls. Qed.
Print Assumptions C94_built_in_rooms.

(** With the default nodes and a ratio between 0.2 and 0.6, the receiver of
    [square_scene_with_obstacle] is inside the obstacle and receives nothing. *)
Theorem C94_default_receiver_in_the_obstacle :
  forall P g ratio ca va f n m v, 2/10 < ratio < 6/10 ->
  resolve g (va_approx va) = false -> va_tol va <= 1 -> 0 <= va_patch va -> good_split P -> always_finite f ->
  In (n, m, v) (yielded (accumulate_over_paths P g (square_scene_with_obstacle ratio SQUARE_TX SQUARE_RX) ClsImage ca va None f)) -> v = Fin 0.
Proof.
  intros P g ratio ca va f n m v Hr Ex T Pt G F I. set (s := square_scene_with_obstacle ratio SQUARE_TX SQUARE_RX) in *.
  assert (Tx : represents (transmitters s) [("tx"%string, SQUARE_TX)]) by (apply C48_lemma; repeat constructor; cbn; intuition discriminate).
  assert (Rx : represents (receivers s) [("rx"%string, SQUARE_RX)]) by (apply C48_lemma; repeat constructor; cbn; intuition discriminate).
  assert (W : exact_reflections g s va).
  { split; [|auto]. apply (builtin_walls s ratio SQUARE_TX SQUARE_RX). auto. }
  assert (Nm : n = "tx"%string /\ m = "rx"%string).
  { destruct (acc_names P g s ca va f _ _ G Tx Rx (proj1 W) n m v I) as [A B]. cbn in A, B. intuition congruence. }
  destruct Nm as [-> ->].
  apply (C94_nothing_gets_through P g s ca va _ f _ _ _ _ v SQUARE_TX SQUARE_RX W
    (rectangle_encloses (5/10 - 5/10 * ratio) (5/10 - 5/10 * ratio) (5/10 + 5/10 * ratio) (5/10 + 5/10 * ratio) ltac:(lra) ltac:(lra))
    (obstacle_present ratio _ _) G Tx Rx F I); [left; auto|left; auto|]. right.
  rewrite !inside_rectangle by lra. unfold SQUARE_TX, SQUARE_RX. cbn [fst snd]. split; lra.
Qed.
Print Assumptions C94_default_receiver_in_the_obstacle.

(** Inside the room, paths exist; and an entrance is enough to let paths through: the
    inner room of [basic_scene] is not enclosed. *)
Theorem C94_paths_exist_inside :
  forall g k, is_valid g (mkpath [SQUARE_TX; SQUARE_RX] (Fin 0)) (objects (square_scene SQUARE_TX SQUARE_RX)) [] []
    DEFAULT_TOL DEFAULT_PATCH (Some false) k = Ok (TB true).
Proof. exact los_square. Qed.
Print Assumptions C94_paths_exist_inside.
Theorem C94_entrance_lets_paths_through :
  forall g k, is_valid g (mkpath [(2/10, 2/10); (2/10, 6/10)] (Fin 0)) (objects (basic_scene (2/10, 2/10) (2/10, 6/10))) [] []
    DEFAULT_TOL DEFAULT_PATCH (Some false) k = Ok (TB true).
Proof. exact los_entrance. Qed.
Print Assumptions C94_entrance_lets_paths_through.

(** A room with five walls, two of them drawn clockwise in the scene, and a wall in
    the middle of the room. *)
Definition ex_room : list wall :=
  [mkwall (0, 0) (4, 0); mkwall (4, 0) (4, 2); mkwall (4, 2) (2, 4); mkwall (2, 4) (0, 4); mkwall (0, 4) (0, 0)].
Definition ex_room_objects : list object :=
  [OWall (mkwall (0, 0) (4, 0)); OWall (mkwall (1, 1) (1, 2)); OWall (mkwall (4, 2) (4, 0)); OWall (mkwall (4, 2) (2, 4));
   OWall (mkwall (0, 4) (2, 4)); OWall (mkwall (0, 4) (0, 0))].
Example C94_nonvacuous :
  encloses ex_room /\ walls_present ex_room ex_room_objects /\ separated ex_room (1, 1) (5, 1) /\
  exact_reflections false (Scene_make [("a"%string, (1, 1))] [("b"%string, (5, 1))] ex_room_objects) ex_va.
Proof.
  assert (In_ : forall q, inside ex_room q <-> 0 <= snd q /\ fst q <= 4 /\ fst q + snd q <= 6 /\ snd q <= 4 /\ 0 <= fst q).
  { intros [a b]. unfold inside, ex_room, side_of. cbn [fst snd]. split.
    - intro H.
      pose proof (H _ (or_introl eq_refl)) as H1. pose proof (H _ (or_intror (or_introl eq_refl))) as H2.
      pose proof (H _ (or_intror (or_intror (or_introl eq_refl)))) as H3. pose proof (H _ (or_intror (or_intror (or_intror (or_introl eq_refl))))) as H4.
      pose proof (H _ (or_intror (or_intror (or_intror (or_intror (or_introl eq_refl)))))) as H5.
      cbn [w_origin w_dest fst snd] in *. lra.
    - intros H w I. cbn [In] in I. destruct I as [<-|[<-|[<-|[<-|[<-|[]]]]]]; cbn [w_origin w_dest fst snd]; lra. }
  split; [|split; [|split]].
  - intros w [a b] I Iq S. apply In_ in Iq. cbn [fst snd] in Iq. cbn [ex_room In] in I.
    destruct I as [<-|[<-|[<-|[<-|[<-|[]]]]]]; unfold side_of in S; cbn [w_origin w_dest fst snd] in *.
    + exists (a / 4). split; [lra|]. unfold at_. cbn. f_equal; lra.
    + exists (b / 2). split; [lra|]. unfold at_. cbn. f_equal; lra.
    + exists ((b - 2) / 2). split; [lra|]. unfold at_. cbn. f_equal; lra.
    + exists (1 - a / 2). split; [lra|]. unfold at_. cbn. f_equal; lra.
    + exists (1 - b / 4). split; [lra|]. unfold at_. cbn. f_equal; lra.
  - intros w I. cbn [ex_room In] in I. destruct I as [<-|[<-|[<-|[<-|[<-|[]]]]]]; cbn; auto 10.
  - left. rewrite !In_. cbn. lra.
  - split; [|split; [reflexivity|unfold ex_va, DEFAULT_TOL, DEFAULT_PATCH; cbn; unfold DEFAULT_TOL, DEFAULT_PATCH; lra]].
    intros o I. cbn in I. decompose [or] I; subst; try contradiction; eexists; reflexivity.
Qed.
