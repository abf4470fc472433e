(** Property C61: moving the whole scene. *)
From Coq Require Import Reals List Bool ZArith String Lia Lra.
From Verif Require Import Base BaseP LogicM GeometryM SpecGeometry OptimizeM PathM CandidatesM SceneM SpecScene SpecRun
  UtilsM SpecPower SpecMotion RunExP MotionP MotionSceneP.
Import ListNotations.
Open Scope R_scope.
Local Notation length := List.length.

(** The motions considered: all rotations followed by a translation are direct;
    mirrorings are isometries. *)
Definition rigid (angle : R) (v : vec) (q : vec) : vec :=
  (cos angle * fst q - sin angle * snd q + fst v, sin angle * fst q + cos angle * snd q + snd v).
Lemma rigid_form angle v : rigid angle v = form (cos angle) (sin angle) 1 (fst v) (snd v).
Proof. apply FunctionalExtensionality.functional_extensionality. intro q. unfold rigid, form. f_equal; ring. Qed.
Lemma cs1 angle : cos angle * cos angle + sin angle * sin angle = 1.
Proof. pose proof (sin2_cos2 angle) as H. unfold Rsqr in H. lra. Qed.
Theorem C61_rotations_and_translations_are_direct :
  (forall angle v, direct (rigid angle v)) /\ (forall v, direct (vadd v)) /\
  isometry (fun q => (- fst q, snd q)) /\ ~ direct (fun q => (- fst q, snd q)).
Proof.
  split; [|split; [|split]].
  - intros. rewrite rigid_form. apply form_direct, cs1.
  - intro v. split.
    + intros p q. unfold dist, vadd. cbn [fst snd]. f_equal. ring.
    + intros a b c. unfold orientation, vadd. cbn [fst snd]. ring.
  - intros p q. unfold dist. cbn [fst snd]. f_equal. ring.
  - intros [_ O]. specialize (O (0, 0) (1, 0) (0, 1)). unfold orientation in O. cbn [fst snd] in O. lra.
Qed.
Print Assumptions C61_rotations_and_translations_are_direct.

(** C61 *)
Theorem C61_image_path_moves_with_the_scene :
  forall f tx os rx, suits f os ->
  same_result (move_path f) (ImagePath_from tx os rx) (ImagePath_from (f tx) (map (move_object f) os) (f rx)).
Proof. intros f tx os rx H. exact (image_path_move f (iso_geo f (proj1 H)) tx os rx (suits_suitable f os H)). Qed.
Print Assumptions C61_image_path_moves_with_the_scene.
Theorem C61_all_classes_move_with_the_scene :
  forall f P cls key tx os rx, suits f os -> steady cls f ->
  same_result (move_path f) (from_tx_objects_rx P cls key tx os rx)
    (from_tx_objects_rx P cls key (f tx) (map (move_object f) os) (f rx)).
Proof. intros f P cls key tx os rx H K. exact (from_move f (iso_geo f (proj1 H)) P cls key tx os rx (suits_suitable f os H) (steady_firm cls f (proj1 H) K)). Qed.
Print Assumptions C61_all_classes_move_with_the_scene.
Theorem C61_tests_are_invariant :
  forall f g p os cand inter tol patch approx k, isometry f -> xys p <> [] ->
  on_objects g (move_path f p) (map (move_object f) inter) approx k = on_objects g p inter approx k /\
  intersects_with_objects g (move_path f p) (map (move_object f) os) cand patch approx k =
    intersects_with_objects g p os cand patch approx k /\
  is_valid g (move_path f p) (map (move_object f) os) cand (map (move_object f) inter) tol patch approx k =
    is_valid g p os cand inter tol patch approx k.
Proof.
  intros. assert (G := iso_geo f H). split; [apply on_move; auto|]. split; [apply inter_move; auto|apply valid_move; auto].
Qed.
Print Assumptions C61_tests_are_invariant.
Theorem C61_single_segments :
  forall f g P1 P2 P3 P4 tol approx k, isometry f ->
  segments_intersect g (f P1) (f P2) (f P3) (f P4) tol approx k = segments_intersect g P1 P2 P3 P4 tol approx k.
Proof. intros f g P1 P2 P3 P4 tol approx k I. iso I. apply segments_move; auto. Qed.
Print Assumptions C61_single_segments.
Theorem C61_enumeration_moves_with_the_scene :
  forall f P g s cls ca ca' va key, suits f (objects s) -> steady cls f -> same_selection f s ca ca' ->
  yielded (all_paths P g (move_scene f s) cls ca' va key) = map (move_item f) (yielded (all_paths P g s cls ca va key)) /\
  raised (all_paths P g (move_scene f s) cls ca' va key) = raised (all_paths P g s cls ca va key).
Proof. intros f P g s cls ca ca' va key H K C. rewrite (all_move f P g s cls va (suits_suitable _ _ H) (steady_firm cls f (proj1 H) K) ca ca' C key). auto. Qed.
Print Assumptions C61_enumeration_moves_with_the_scene.
Theorem C61_valid_paths_move_with_the_scene :
  forall f P g s cls ca ca' va key, suits f (objects s) -> steady cls f -> same_selection f s ca ca' ->
  yielded (all_valid_paths P g (move_scene f s) cls ca' va key) =
    map (fun '(tx, rx, p, c) => (tx, rx, move_path f p, c)) (yielded (all_valid_paths P g s cls ca va key)) /\
  raised (all_valid_paths P g (move_scene f s) cls ca' va key) = raised (all_valid_paths P g s cls ca va key).
Proof. intros f P g s cls ca ca' va key H K C. rewrite (all_valid_move f P g s cls va (suits_suitable _ _ H) (steady_firm cls f (proj1 H) K) ca ca' C key). auto. Qed.
Print Assumptions C61_valid_paths_move_with_the_scene.
Theorem C61_accumulation_is_invariant :
  forall f P g s cls ca ca' va key h h', suits f (objects s) -> steady cls f -> same_selection f s ca ca' ->
  (forall tx rx p os, h' (f tx) (f rx) (move_path f p) (map (move_object f) os) = h tx rx p os) ->
  accumulate_over_paths P g (move_scene f s) cls ca' va key h' = accumulate_over_paths P g s cls ca va key h.
Proof. intros f P g s cls ca ca' va key h h' H K C HH. apply (accumulate_move f P g s cls va (suits_suitable _ _ H) (steady_firm cls f (proj1 H) K) ca ca' C h h' HH). Qed.
Print Assumptions C61_accumulation_is_invariant.
Theorem C61_received_power_is_invariant :
  forall f P g s cls ca va key eps r_coef height, suits f (objects s) -> steady cls f -> keeps_length eps f ->
  ca_filter ca = None ->
  accumulate_over_paths P g (move_scene f s) cls ca va key (power eps r_coef height) =
  accumulate_over_paths P g s cls ca va key (power eps r_coef height).
Proof.
  intros f P g s cls ca va key eps r_coef height H K L F. apply C61_accumulation_is_invariant; auto.
  - unfold same_selection. rewrite F. auto.
  - intros. unfold power. apply power_move, length_keeps; [apply H|auto].
Qed.
Print Assumptions C61_received_power_is_invariant.

(** The two restrictions are needed: a mirrored RIS behaves differently, and the
    machine epsilon added to the coordinates makes lengths depend on the direction. *)
Theorem C61_a_mirrored_RIS_is_another_surface :
  exists f o a b c, isometry f /\ obj_evaluate o a b c = 0 /\ obj_evaluate (move_object f o) (f a) (f b) (f c) = 4.
Proof.
  assert (S1 : sqrt 1 = 1) by apply sqrt_1.
  assert (NN : forall x y, x * x + y * y = 1 -> fst (normalize (x, y)) = (x, y)).
  { intros x y E. unfold normalize, norm, dot. cbn [fst snd]. rewrite E, S1. rewrite (proj2 (Reqb_false 1 0)) by lra.
    cbn zeta. cbn [fst]. f_equal; field. }
  exists (fun q => (- fst q, snd q)), (ORIS (mkwall (0, 0) (1, 0)) 0), (0, 0), (0, 0), (0, 1).
  split; [apply C61_rotations_and_translations_are_direct|]. cbn [obj_evaluate move_object move_wall w_origin w_dest fst snd].
  unfold ris_evaluate. cbn zeta. unfold normal, wall_t, origin, dest, vsub, move_wall. cbn [w_origin w_dest fst snd].
  replace (1 - 0) with 1 by ring. replace (0 - 0) with 0 by ring. replace (- 0 - - 0) with 0 by ring. replace (- (1) - - 0) with (-1) by ring.
  rewrite (NN 0 (-(1))) by ring. rewrite (NN 0 1) by ring. rewrite (NN 0 (- -1)) by ring.
  rewrite sin_0, cos_0. unfold vopp, cross, dot. cbn [fst snd]. split; ring.
Qed.
Print Assumptions C61_a_mirrored_RIS_is_another_surface.
Theorem C61_epsilon_breaks_rotations :
  forall eps, 0 < eps -> exists f pts, direct f /\ path_length eps (map f pts) < path_length eps pts.
Proof.
  intros eps E. exists (fun q => (- fst q, - snd q)), [(0, 0); (1, 0)]. split.
  - split.
    + intros p q. unfold dist. cbn [fst snd]. f_equal. ring.
    + intros a b c. unfold orientation. cbn [fst snd]. ring.
  - unfold path_length, norm, dot. cbn [map diffs fold_right fst snd vsub]. rewrite !Rplus_0_r. apply sqrt_lt_1.
    + apply Rplus_le_le_0_compat; apply Rle_0_sqr.
    + apply Rplus_le_le_0_compat; apply Rle_0_sqr.
    + nra.
Qed.
Print Assumptions C61_epsilon_breaks_rotations.

(** The hypotheses are met: the example scene turned by any angle around any point. *)
Example C61_hypotheses_met : forall angle v,
  suits (rigid angle v) (objects ex_scene) /\ steady ClsImage (rigid angle v) /\
  same_selection (rigid angle v) ex_scene (mkcandargs 0 1 None None) (mkcandargs 0 1 None None) /\
  keeps_length 0 (rigid angle v) /\
  length (yielded (all_paths ex_prng false (move_scene (rigid angle v) ex_scene) ClsImage (mkcandargs 0 1 None None) ex_va None)) = 4%nat.
Proof.
  intros angle v. pose proof (proj1 C61_rotations_and_translations_are_direct angle v) as D.
  assert (S' : suits (rigid angle v) (objects ex_scene)) by (split; [apply D|left; auto]).
  assert (Q : same_selection (rigid angle v) ex_scene (mkcandargs 0 1 None None) (mkcandargs 0 1 None None))
    by (unfold same_selection; cbn; auto).
  split; auto. split; [cbn; auto|]. split; auto. split; [left; auto|].
  destruct (C61_enumeration_moves_with_the_scene (rigid angle v) ex_prng false ex_scene ClsImage _ _ ex_va None S' I Q) as [-> _].
  rewrite map_length. apply ex_scene_ok.
Qed.
