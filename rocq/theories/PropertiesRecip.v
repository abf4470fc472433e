(** Property C93: exchanging transmitters and receivers. *)
From Coq Require Import Reals List Bool ZArith String Lia Lra Permutation.
From Verif Require Import Base BaseP LogicM SpecLogic GeometryM VecP OptimizeM PathM SpecPath CandidatesM SceneM UtilsM SpecScene SpecRun SpecRecip
  SceneP SceneRunP ShapeP RunExP OrderExP RecipP RecipExP.
Import ListNotations.
Local Notation length := List.length.
Open Scope R_scope.

(** Whenever the image method succeeds (loss below one), the path from the receiver
    to the transmitter, on the walls in reverse order, is the same path backwards,
    with the same loss; and it succeeds in one direction iff it does in the other. *)
Theorem C93_image_path_backwards :
  forall tx ws rx p p', ImagePath_from tx (map OWall ws) rx = Ok p -> ImagePath_from rx (map OWall (rev ws)) tx = Ok p' ->
  (loss_below (loss p) 1 <-> loss_below (loss p') 1) /\ (loss_below (loss p) 1 -> p' = backwards p).
Proof. intros tx ws rx p p' H H'. split; [eapply below_one_iff; eauto|eapply below_one; eauto]. Qed.
Print Assumptions C93_image_path_backwards.

(** The valid paths of the exchanged scene are the valid paths, travelled backwards. *)
Theorem C93_valid_paths :
  forall P g s cls ca va t r, good_split P -> represents (transmitters s) t -> represents (receivers s) r ->
  reversible g s cls va ->
  let v := all_valid_paths P g s cls ca va None in
  let v' := all_valid_paths P g (exchanged s) cls ca va None in
  raised v = None /\ raised v' = None /\ Permutation (map other_end_path (yielded v)) (yielded v').
Proof. exact valid_rev. Qed.
Print Assumptions C93_valid_paths.

(** Accumulated values: the same for each pair. *)
Theorem C93_accumulated_values :
  forall P g s cls ca va f f' t r, good_split P -> represents (transmitters s) t -> represents (receivers s) r ->
  reversible g s cls va -> mirror_functions f f' -> always_finite f ->
  let acc := accumulate_over_paths P g s cls ca va None f in
  let acc' := accumulate_over_paths P g (exchanged s) cls ca va None f' in
  raised acc = None /\ raised acc' = None /\ Permutation (map other_end_value (yielded acc)) (yielded acc').
Proof. exact acc_rev. Qed.
Print Assumptions C93_accumulated_values.

(** A map of transmitter positions for the exchanged scene is the map of receiver
    positions. *)
Theorem C93_transmitter_map_is_receiver_map :
  forall P g s cls ca va f f' gradop X Y t, good_split P -> represents (transmitters s) t ->
  reversible g s cls va -> mirror_functions f f' -> always_finite f -> same_shape X Y ->
  accumulate_on_transmitters_grid P g (exchanged s) cls ca va None f' gradop MVal X Y =
  accumulate_on_receivers_grid P g s cls ca va None f gradop MVal X Y.
Proof. exact map_grid_rev. Qed.
Print Assumptions C93_transmitter_map_is_receiver_map.

(** The received power qualifies if the length of a path has no step added, at any
    non-zero height; with a positive step it does not, even in free space. *)
Theorem C93_received_power :
  forall rc h, h <> 0 ->
  mirror_functions (fun tx rx p os => received_power 0 tx rx p os rc h) (fun tx rx p os => received_power 0 tx rx p os rc h) /\
  always_finite (fun tx rx p os => received_power 0 tx rx p os rc h).
Proof. exact power_mirror. Qed.
Print Assumptions C93_received_power.
Theorem C93_step_breaks_received_power :
  forall P g eps, 0 < eps -> exists a b,
  accumulate_over_paths P g (bare (0, 0) (1, 0)) ClsImage los_ca exact_va None (fun tx rx p os => received_power eps tx rx p os DEFAULT_R_COEF DEFAULT_HEIGHT) =
    mkgen [("tx"%string, "rx"%string, Fin a)] None /\
  accumulate_over_paths P g (bare (1, 0) (0, 0)) ClsImage los_ca exact_va None (fun tx rx p os => received_power eps tx rx p os DEFAULT_R_COEF DEFAULT_HEIGHT) =
    mkgen [("tx"%string, "rx"%string, Fin b)] None /\ a < b.
Proof. exact power_step_matters. Qed.
Print Assumptions C93_step_breaks_received_power.

(** A RIS works one way only: a valid path whose reverse has loss 2 and is invalid. *)
Theorem C93_ris_works_one_way :
  forall g k, exists p p', ImagePath_from (0, 1) [ORIS tile (PI / 4)] (2, 1) = Ok p /\ ImagePath_from (2, 1) [ORIS tile (PI / 4)] (0, 1) = Ok p' /\
  xys p' = rev (xys p) /\ loss p = Fin 0 /\ loss p' = Fin 2 /\
  is_valid g p [ORIS tile (PI / 4)] [0%Z] [ORIS tile (PI / 4)] DEFAULT_TOL DEFAULT_PATCH (Some false) k = Ok (TB true) /\
  is_valid g p' [ORIS tile (PI / 4)] [0%Z] [ORIS tile (PI / 4)] DEFAULT_TOL DEFAULT_PATCH (Some false) k = Ok (TB false).
Proof. exact ris_one_way. Qed.
Print Assumptions C93_ris_works_one_way.

(** The default arguments, exact or smoothed by the hard sigmoid, on the scene of C92. *)
Example C93_nonvacuous :
  (forall b, reversible false order_scene ClsImage (mkvalidargs DEFAULT_TOL DEFAULT_PATCH (Some b) (mkakw 100 hard_sigmoid))) /\
  good_split ex_prng /\
  represents (transmitters order_scene) [("a"%string, (0, 0))] /\ represents (receivers order_scene) [("b"%string, (2, 0))] /\
  exchanged order_scene <> order_scene.
Proof.
  split; [|split; [|split; [|split]]]; try apply order_ok.
  - intro b. split.
    + intros o H. cbn in H. decompose [or] H; subst; try (eexists; reflexivity); tauto.
    + unfold rejects_loss_one. cbn. destruct b; [split; [reflexivity|]|]; unfold DEFAULT_TOL; lra.
  - intro E. apply (f_equal (fun s => transmitters s)) in E. unfold exchanged in E. cbn [transmitters order_scene Scene_make] in E.
    assert (X := f_equal (fun d => pd_keys d) E). vm_compute in X. discriminate.
Qed.
