(** Property C91: changing the unit of length. *)
From Coq Require Import Reals List Bool ZArith String Lia Lra Psatz.
From Verif Require Import Base BaseP LogicM GeometryM SpecGeometry VecP OptimizeM PathM CandidatesM SceneM SpecScene SpecRun
  UtilsM SpecPower SpecMotion RunExP MotionP MotionSceneP ScaleP.
Import ListNotations.
Open Scope R_scope.
Local Notation length := List.length.

(** Scalings around any point are direct similarities; so are rotations and
    translations followed by a scaling. *)
Theorem C91_scalings_are_similarities : forall k c,
  0 < k -> direct_similarity k (fun q => (fst c + k * (fst q - fst c), snd c + k * (snd q - snd c))).
Proof.
  intros k c K. split; [split; [auto|]|].
  - intros p q. rewrite <- dist_scale by lra. unfold dist, vscale. cbn [fst snd]. f_equal. ring.
  - intros p q r. unfold orientation. cbn [fst snd]. ring.
Qed.
Print Assumptions C91_scalings_are_similarities.
Theorem C91_motions_are_similarities : forall f, isometry f -> similarity 1 f.
Proof. intros f I. split; [lra|]. intros p q. rewrite I. ring. Qed.
Print Assumptions C91_motions_are_similarities.

(** Paths scale with the scene, and keep their loss, except those of the class that
    minimises a length by steps of a given size. *)
Theorem C91_paths_scale_with_the_scene :
  forall k f P cls key tx os rx, suits_scaled k f os -> unitless cls ->
  same_result (move_path f) (from_tx_objects_rx P cls key tx os rx)
    (from_tx_objects_rx P cls key (f tx) (map (move_object f) os) (f rx)).
Proof.
  intros k f P cls key tx os rx H K. pose proof (scaled_suitable k f os H) as G.
  exact (from_move f (proj1 G) P cls key tx os rx G (unitless_firm cls f K)).
Qed.
Print Assumptions C91_paths_scale_with_the_scene.
(** The tests have no unit: all tolerances, and the patch, are relative. *)
Theorem C91_tests_have_no_unit :
  forall k f g p os cand inter tol patch approx kw, similarity k f -> xys p <> [] ->
  on_objects g (move_path f p) (map (move_object f) inter) approx kw = on_objects g p inter approx kw /\
  intersects_with_objects g (move_path f p) (map (move_object f) os) cand patch approx kw =
    intersects_with_objects g p os cand patch approx kw /\
  is_valid g (move_path f p) (map (move_object f) os) cand (map (move_object f) inter) tol patch approx kw =
    is_valid g p os cand inter tol patch approx kw.
Proof.
  intros k f g p os cand inter tol patch approx kw S N. pose proof (similarity_geo k f S) as G.
  split; [apply on_move; auto|]. split; [apply inter_move; auto|apply valid_move; auto].
Qed.
Print Assumptions C91_tests_have_no_unit.
Theorem C91_enumeration_scales_with_the_scene :
  forall k f P g s cls ca ca' va key, suits_scaled k f (objects s) -> unitless cls -> same_selection f s ca ca' ->
  yielded (all_paths P g (move_scene f s) cls ca' va key) = map (move_item f) (yielded (all_paths P g s cls ca va key)) /\
  raised (all_paths P g (move_scene f s) cls ca' va key) = raised (all_paths P g s cls ca va key).
Proof.
  intros k f P g s cls ca ca' va key H K C.
  rewrite (all_move f P g s cls va (scaled_suitable k f _ H) (unitless_firm cls f K) ca ca' C key). auto.
Qed.
Print Assumptions C91_enumeration_scales_with_the_scene.
Theorem C91_valid_paths_scale_with_the_scene :
  forall k f P g s cls ca ca' va key, suits_scaled k f (objects s) -> unitless cls -> same_selection f s ca ca' ->
  yielded (all_valid_paths P g (move_scene f s) cls ca' va key) =
    map (fun '(tx, rx, p, c) => (tx, rx, move_path f p, c)) (yielded (all_valid_paths P g s cls ca va key)) /\
  raised (all_valid_paths P g (move_scene f s) cls ca' va key) = raised (all_valid_paths P g s cls ca va key).
Proof.
  intros k f P g s cls ca ca' va key H K C.
  rewrite (all_valid_move f P g s cls va (scaled_suitable k f _ H) (unitless_firm cls f K) ca ca' C key). auto.
Qed.
Print Assumptions C91_valid_paths_scale_with_the_scene.

(** Lengths are multiplied by [k], and the received power, with the height expressed
    in the same unit, by [1 / k^2] - if it were not for the epsilon added to each
    coordinate. *)
Theorem C91_lengths_scale : forall k f pts, similarity k f -> path_length 0 (map f pts) = k * path_length 0 pts.
Proof. exact similarity_length. Qed.
Print Assumptions C91_lengths_scale.
Theorem C91_received_power_scales :
  forall k f P g s cls ca va key r_coef height, suits_scaled k f (objects s) -> unitless cls -> ca_filter ca = None ->
  let before := accumulate_over_paths P g s cls ca va key (power 0 r_coef height) in
  let after := accumulate_over_paths P g (move_scene f s) cls ca va key (power 0 r_coef (k * height)) in
  yielded after = map (fun '(tx, rx, v) => (tx, rx, xmul (Fin (/ (k * k))) v)) (yielded before) /\ raised after = raised before.
Proof.
  intros k f P g s cls ca va key r_coef height H K C. cbn zeta.
  assert (SS : same_selection f s ca ca) by (unfold same_selection; rewrite C; auto).
  pose proof (fun HH => accumulate_move f P g s cls va (scaled_suitable k f _ H) (unitless_firm cls f K) ca ca SS
    (fun tx rx p os => xmul (Fin (/ (k * k))) (power 0 r_coef height tx rx p os)) (power 0 r_coef (k * height)) HH key) as E.
  rewrite E by (intros; apply power_scale, H).
  rewrite accumulate_times by (apply Rinv_0_lt_compat; destruct H as [[? _] _]; nra).
  split; [|reflexivity]. cbn [yielded]. apply map_ext. intros [[tx rx] v]. reflexivity.
Qed.
Print Assumptions C91_received_power_scales.
(** The epsilon has a unit: the length computed in another unit is another length. *)
Theorem C91_epsilon_has_a_unit : forall eps, 0 < eps -> exists pts, forall k, 0 < k -> k <> 1 ->
  path_length eps (map (vscale k) pts) <> k * path_length eps pts.
Proof.
  intros eps E. exists [(0, 0); (0, 0)]. intros k K N.
  unfold path_length, norm, dot. cbn [map diffs fold_right fst snd vsub vscale].
  replace (k * 0) with 0 by ring. rewrite !Rplus_0_r. replace (0 - 0 + eps) with eps by ring.
  assert (0 < sqrt (eps * eps + eps * eps)) by (apply sqrt_lt_R0; nra). intro X. apply N.
  apply Rmult_eq_reg_r with (sqrt (eps * eps + eps * eps)); lra.
Qed.
Print Assumptions C91_epsilon_has_a_unit.

(** The hypotheses are met: the example scene in any other unit of length. *)
Example C91_hypotheses_met : forall k, 0 < k ->
  suits_scaled k (vscale k) (objects ex_scene) /\ unitless ClsImage /\
  same_selection (vscale k) ex_scene (mkcandargs 0 1 None None) (mkcandargs 0 1 None None) /\
  length (yielded (all_paths ex_prng false (move_scene (vscale k) ex_scene) ClsImage (mkcandargs 0 1 None None) ex_va None)) = 4%nat.
Proof.
  intros k K.
  assert (D : direct_similarity k (vscale k)).
  { split; [split; [auto|intros; apply dist_scale; lra]|]. intros a b c. unfold orientation, vscale. cbn [fst snd]. ring. }
  assert (S' : suits_scaled k (vscale k) (objects ex_scene)) by (split; [apply D|left; auto]).
  assert (Q : same_selection (vscale k) ex_scene (mkcandargs 0 1 None None) (mkcandargs 0 1 None None))
    by (unfold same_selection; cbn; auto).
  split; auto. split; [cbn; auto|]. split; auto.
Qed.
