(** Short forms and examples for PropertiesOrder. *)
From Coq Require Import Reals List Bool ZArith String Lia Lra Permutation.
From Verif Require Import Base BaseP LogicM GeometryM VecP OptimizeM PathM CandidatesM SceneM SpecScene SpecRun SpecOrder
  SceneP SceneOpsP SceneRunP SceneAccP SceneGridP OrderP TurnP RunExP.
Import ListNotations.
Local Notation length := List.length.
Open Scope R_scope.

Lemma never_no_solver P cls s : never_fails cls (@None (key_t P)) s -> no_solver cls.
Proof. destruct cls; cbn; tauto. Qed.
Lemma same_values P g s os' cls ca va f t r : good_split P ->
  represents (transmitters s) t -> represents (receivers s) r -> never_fails cls (@None (key_t P)) s ->
  same_scenery (objects s) os' -> ignores_direction f -> filter_ignores_direction ca ->
  accumulate_over_paths P g (with_objects s os') cls ca va None f = accumulate_over_paths P g s cls ca va None f /\
  accumulate_over_paths_reduced P g (with_objects s os') cls ca va None f = accumulate_over_paths_reduced P g s cls ca va None f.
Proof.
  intros G T R N (mid & Pm & F) FI K.
  assert (E : accumulate_over_paths P g (with_objects s os') cls ca va None f = accumulate_over_paths P g s cls ca va None f).
  { rewrite <- (acc_perm P g s mid cls ca va f t r) by auto. apply acc_rds; auto. eapply never_no_solver; eauto. }
  split; [exact E|]. unfold accumulate_over_paths_reduced. rewrite E. reflexivity.
Qed.
Lemma same_maps P g s os' cls ca va f gradop X Y : good_split P ->
  never_fails cls (@None (key_t P)) s -> same_scenery (objects s) os' -> ignores_direction f -> filter_ignores_direction ca ->
  same_shape X Y ->
  (forall t, represents (transmitters s) t ->
   accumulate_on_receivers_grid P g (with_objects s os') cls ca va None f gradop MVal X Y =
   accumulate_on_receivers_grid P g s cls ca va None f gradop MVal X Y) /\
  (forall r, represents (receivers s) r ->
   accumulate_on_transmitters_grid P g (with_objects s os') cls ca va None f gradop MVal X Y =
   accumulate_on_transmitters_grid P g s cls ca va None f gradop MVal X Y).
Proof.
  intros G N (mid & Pm & F) FI K Sh. pose proof (never_no_solver _ _ _ N) as NS. split; intros t T.
  - rewrite <- (rx_perm P g s mid cls ca va f gradop X Y t) by auto. exact (rx_rds P g (with_objects s mid) os' cls ca va None f gradop X Y F NS FI K).
  - rewrite <- (tx_perm P g s mid cls ca va f gradop X Y t) by auto. exact (tx_rds P g (with_objects s mid) os' cls ca va None f gradop X Y F NS FI K).
Qed.
Lemma ris_direction : exists w phi a b c, obj_evaluate (ORIS w phi) a b c = 0 /\ obj_evaluate (ORIS (drawn_backwards w) phi) a b c = 4.
Proof.
  exists (mkwall (0, 0) (1, 0)), 0, (0, 1), (0, 0), (0, 1). cbn [obj_evaluate]. unfold ris_evaluate. rewrite back_normal.
  assert (Nm : normal (mkwall (0, 0) (1, 0)) = (0, -1)).
  { unfold normal, normalize, wall_t, vsub, norm, dot, origin, dest. cbn.
    replace ((0 - 0) * (0 - 0) + - (1 - 0) * - (1 - 0)) with 1 by ring. rewrite sqrt_1. destruct (Reqb_spec 1 0); [lra|]. f_equal; field. }
  assert (E : fst (normalize (vsub (0, 1) (0, 0))) = (0, 1)).
  { unfold normalize, vsub, norm, dot. cbn. replace ((0 - 0) * (0 - 0) + (1 - 0) * (1 - 0)) with 1 by ring. rewrite sqrt_1.
    destruct (Reqb_spec 1 0); [lra|]. f_equal; field. }
  cbn zeta. rewrite E, Nm, sin_0, cos_0. unfold cross, dot, vopp. cbn [fst snd]. split; ring.
Qed.
Definition order_scene : scene :=
  Scene_make [("a"%string, (0, 0))] [("b"%string, (2, 0))]
    [OWall (mkwall (0, 3) (4, 3)); OWall (mkwall (0, -2) (4, -2)); OWall (mkwall (7, 0) (7, 1))].
Definition order_objects : list object :=
  [OWall (mkwall (7, 0) (7, 1)); OWall (mkwall (4, 3) (0, 3)); OWall (mkwall (0, -2) (4, -2))].
Lemma order_ok :
  same_scenery (objects order_scene) order_objects /\ objects order_scene <> order_objects /\
  never_fails ClsImage (@None (key_t ex_prng)) order_scene /\ good_split ex_prng /\
  represents (transmitters order_scene) [("a"%string, (0, 0))] /\ represents (receivers order_scene) [("b"%string, (2, 0))] /\
  ignores_direction (fun _ _ p _ => Fin (Path_length 0 p)) /\ filter_ignores_direction (mkcandargs 0 1 None None) /\
  length (yielded (all_paths ex_prng false order_scene ClsImage (mkcandargs 0 1 None None) ex_va None)) = 4%nat.
Proof.
  assert (T : represents (transmitters order_scene) [("a"%string, (0, 0))]) by (apply C48_lemma; repeat constructor; cbn; intuition discriminate).
  assert (R : represents (receivers order_scene) [("b"%string, (2, 0))]) by (apply C48_lemma; repeat constructor; cbn; intuition discriminate).
  assert (N : never_fails ClsImage (@None (key_t ex_prng)) order_scene).
  { left. cbn. intros o [<-|[<-|[<-|[]]]]; eauto. }
  split; [|split; [|split; [exact N|split; [apply ex_split|split; [exact T|split; [exact R|split; [|split]]]]]]].
  - exists [OWall (mkwall (7, 0) (7, 1)); OWall (mkwall (0, 3) (4, 3)); OWall (mkwall (0, -2) (4, -2))]. split.
    + cbn. apply Permutation_sym. apply perm_trans with [OWall (mkwall (0, 3) (4, 3)); OWall (mkwall (7, 0) (7, 1)); OWall (mkwall (0, -2) (4, -2))]; [constructor|].
      apply perm_skip. constructor.
    + constructor; [left; reflexivity|]. constructor; [right; exists (mkwall (0, 3) (4, 3)); split; reflexivity|]. constructor; [left; reflexivity|constructor].
  - cbn. unfold order_objects. intro E. assert (X : 3 = 0) by congruence. lra.
  - intros tx rx p os os' _. reflexivity.
  - exact I.
  - destruct (C51_lemma ex_prng false order_scene ClsImage ex_va (mkcandargs 0 1 None None) None _ _ ex_split T R) as (_ & H & _).
    rewrite H; [reflexivity|]. eapply C51_total_lemma; eauto using ex_split.
Qed.
