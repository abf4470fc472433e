(** Property C85 in the transitions of the smoothed comparisons. *)
From Coq Require Import Reals List Bool ZArith Arith Lia Lra Psatz.
From Verif Require Import Base BaseP LogicM GeometryM OptimizeM PathM UtilsM SceneM AdM SpecGeometry SpecPath SpecImage SpecAd SpecTrans.
From Verif Require Import AdPos AdPosP AdP AdSoundP AdGeomP AdGradP AdNanP AdRightP AdExP AdTransP ImageP.
Import ListNotations.
Open Scope R_scope.
Local Notation length := List.length.

(** The activation function of the code that an [act] stands for. *)
Definition function_of (a : act) : xreal -> R -> xreal := match a with Hard => hard_sigmoid | Sigm => sigmoid end.

(** The gradient with respect to the receiver is the gradient of the accumulated value
    wherever no comparison of a candidate is at a corner of the activation and no two
    comparisons of the same candidate that vary have the same margin. *)
Theorem C85_receiver_gradient_in_transitions :
  forall (P : prng) g s a alpha eps rc h tol patch (work : list (list Z * option (key_t P))) wss tx rx,
  0 < alpha -> h <> 0 ->
  Forall2 (fun c ws => get_interacting_objects s (fst c) = Ok (map OWall ws)) work wss ->
  (forall cand ws p, In (cand, ws) (combine (map fst work) wss) -> ImagePath_from tx (map OWall ws) rx = Ok p ->
     gradient_position eps tx ws p /\ path_decided a alpha tol patch (objects s) cand ws p) ->
  exists F gr,
    (forall y, facc P g s ClsImage (mkvalidargs tol patch (Some true) (mkakw alpha (function_of a)))
       (fun t r p inter => received_power eps t r p inter rc h) work tx (y 0%nat, y 1%nat) = Ok (F y)) /\
    (forall i, grad (env_at rx) (e_facc (mkeakw alpha a) eps rc h tol patch (objects s) (combine (map fst work) wss) (cvec tx) evar) i = Fin (gr i)) /\
    is_gradient 2 F (env_at rx) gr.
Proof.
  intros P g s a alpha eps rc h tol patch work wss tx rx Ha Hh Fw G.
  destruct (gv_facc_t 2 (env_at rx) a alpha eps rc h tol patch (objects s) _ (cvec tx) evar tx rx Ha (gvv_cvec _ _ _) (gvv_at _) Hh G) as (y & [Gd _]).
  destruct (good_gradient _ _ _ Gd) as [A B].
  exists (fun y => eval y (e_facc (mkeakw alpha a) eps rc h tol patch (objects s) (combine (map fst work) wss) (cvec tx) evar)).
  eexists. split; [|split; [exact A|exact B]].
  intros z. exact (facc_traced P z g s (mkeakw alpha a) eps rc h tol patch work wss (cvec tx) evar tx (z 0%nat, z 1%nat) (ev_cvec _ _) (evv_evar z) Fw).
Qed.
Print Assumptions C85_receiver_gradient_in_transitions.
Theorem C85_transmitter_gradient_in_transitions :
  forall (P : prng) g s a alpha eps rc h tol patch (work : list (list Z * option (key_t P))) wss tx rx,
  0 < alpha -> h <> 0 ->
  Forall2 (fun c ws => get_interacting_objects s (fst c) = Ok (map OWall ws)) work wss ->
  (forall cand ws p, In (cand, ws) (combine (map fst work) wss) -> ImagePath_from tx (map OWall ws) rx = Ok p ->
     gradient_position eps tx ws p /\ path_decided a alpha tol patch (objects s) cand ws p) ->
  exists F gr,
    (forall y, facc P g s ClsImage (mkvalidargs tol patch (Some true) (mkakw alpha (function_of a)))
       (fun t r p inter => received_power eps t r p inter rc h) work (y 0%nat, y 1%nat) rx = Ok (F y)) /\
    (forall i, grad (env_at tx) (e_facc (mkeakw alpha a) eps rc h tol patch (objects s) (combine (map fst work) wss) evar (cvec rx)) i = Fin (gr i)) /\
    is_gradient 2 F (env_at tx) gr.
Proof.
  intros P g s a alpha eps rc h tol patch work wss tx rx Ha Hh Fw G.
  destruct (gv_facc_t 2 (env_at tx) a alpha eps rc h tol patch (objects s) _ evar (cvec rx) tx rx Ha (gvv_at _) (gvv_cvec _ _ _) Hh G) as (y & [Gd _]).
  destruct (good_gradient _ _ _ Gd) as [A B].
  exists (fun y => eval y (e_facc (mkeakw alpha a) eps rc h tol patch (objects s) (combine (map fst work) wss) evar (cvec rx))).
  eexists. split; [|split; [exact A|exact B]].
  intros z. exact (facc_traced P z g s (mkeakw alpha a) eps rc h tol patch work wss evar (cvec rx) (z 0%nat, z 1%nat) rx (evv_evar z) (ev_cvec _ _) Fw).
Qed.
Print Assumptions C85_transmitter_gradient_in_transitions.

(** This covers the positions away from the transitions. *)
Theorem C85_settled_paths_are_decided :
  forall alpha tol patch objects cand ws p,
  path_settled alpha tol patch objects cand ws p -> path_decided Hard alpha tol patch objects cand ws p.
Proof. exact settled_decided. Qed.
Print Assumptions C85_settled_paths_are_decided.

(** A direct path over the end of a wall, with the default settings: the comparison with
    the end of the wall varies, and so does the comparison of the loss. *)
Example C85_transition_exists :
  let w := mkwall (0, 0) (1, 0) in
  forall cand ws p, In (cand, ws) [([], [])] -> ImagePath_from (0, -1) (map OWall ws) (0, 1) = Ok p ->
    gradient_position float32_eps (0, -1) ws p /\ path_decided Hard 100 DEFAULT_TOL DEFAULT_PATCH [OWall w] cand ws p /\
    margin DEFAULT_TOL DEFAULT_PATCH [OWall w] cand ws p (Clear 0 0 WallStart) (-5 / 1000) /\ ~ settled 100 (-5 / 1000).
Proof.
  intros w cand ws p [E|[]] HI. injection E as <- <-.
  assert (Ep : p = mkpath [(0, -1); (0, 1)] (Fin 0)).
  { rewrite image_from_ok in HI. injection HI as <-. unfold image_points. cbn. reflexivity. }
  subst p. clear HI.
  assert (K : forall c z, margin DEFAULT_TOL DEFAULT_PATCH [OWall w] [] [] (mkpath [(0, -1); (0, 1)] (Fin 0)) c z ->
    (c = Clear 0 0 WallStart /\ z = -5 / 1000) \/ (c = Loss /\ z = 1 / 100) \/ z < -1 / 10).
  { intros c z H. destruct c as [j|j|i m d|]; cbn [margin] in H.
    - destruct H as (w' & q & Hw & _). destruct j; discriminate.
    - destruct H as (w' & q & Hw & _). destruct j; discriminate.
    - destruct H as (A & B & o & w' & u & v & [HA HB] & Ho & Hw & _ & _ & Me & ->).
      destruct i as [|[|i]]; cbn in HA, HB; try discriminate; try (destruct i; discriminate). injection HA as <-. injection HB as <-.
      destruct m as [|[|m]]; cbn in Ho; try discriminate. injection Ho as <-. injection Hw as <-.
      unfold meet_at, at_, DEFAULT_PATCH in Me. cbn [w w_origin w_dest fst snd] in Me. injection Me as M1 M2.
      assert (u = 0) by lra. assert (v = 1 / 2) by lra. subst u v. destruct d; [left; split; auto; lra|right; right; lra|right; right; lra|right; right; lra].
    - destruct H as (l & El & ->). injection El as <-. right. left. split; auto. unfold DEFAULT_TOL. lra. }
  split; [|split; [|split]].
  - split; [split|].
    + intros imgs i w' I B _ Hw. destruct i; discriminate.
    + intros l p q r E Q. destruct l as [|x [|y l]]; [|discriminate|destruct l; discriminate]. injection E as <- <- _. injection Q as Q1 Q2. lra.
    + intro N. contradiction.
  - split; [|split].
    + intros c z H. apply K in H. unfold corner_at. lra.
    + intros c c' z H H'. apply K in H. apply K in H'. unfold constant_at, settled.
      destruct H as [[-> H]|[[-> H]|H]], H' as [[-> H']|[[-> H']|H']]; auto; lra.
    + intros i m A B o w' [HA HB] Ho Hw _ P Q Pa. exfalso.
      destruct i as [|[|i]]; cbn in HA, HB; try discriminate; try (destruct i; discriminate). injection HA as <-. injection HB as <-.
      destruct m as [|[|m]]; cbn in Ho; try discriminate. injection Ho as <-. injection Hw as <-.
      unfold P, Q, parallel, at_, DEFAULT_PATCH in Pa. cbn [w w_origin w_dest fst snd] in Pa. lra.
  - cbn [margin]. exists (0, -1), (0, 1), (OWall w), w, 0, (1 / 2). split; [split; reflexivity|]. split; [reflexivity|]. split; [reflexivity|].
    split; [intros [T|(i & T & _)]; discriminate|]. cbv zeta. unfold parallel, meet_at, at_, DEFAULT_PATCH. cbn [w w_origin w_dest fst snd].
    split; [lra|]. split; [f_equal; lra|lra].
  - unfold settled. lra.
Qed.
