(** Gradients with [approx=False]: on the model of the code. *)
From Coq Require Import Reals List Bool ZArith Arith Lia Lra Psatz.
From Verif Require Import Base BaseP LogicM GeometryM OptimizeM PathM UtilsM SceneM SpecGeometry SpecPath SpecImage WallP PathP PathShapeP ImageP ImageExP.
From Verif Require Import AdM SpecAd AdPos AdP AdSoundP AdGeomP AdGradP AdNanP AdRightP AdExP AdExactP.
Import ListNotations.
Open Scope R_scope.
Local Notation length := List.length.

Lemma exact_receiver_finite eps rc h bw tx rx i : h <> 0 -> (i < 2)%nat ->
  (is_fin (grad (env_at rx) (e_exact_facc eps rc h bw (cvec tx) evar) i) <->
   forall b ws, In (b, ws) bw -> len_pos eps tx ws rx).
Proof. intros Hh Hi. apply exact_finite_iff; auto using gvv_cvec, gvv_at, rch_evar. Qed.
Lemma exact_transmitter_finite eps rc h bw tx rx i : h <> 0 -> (i < 2)%nat ->
  (is_fin (grad (env_at tx) (e_exact_facc eps rc h bw evar (cvec rx)) i) <->
   forall b ws, In (b, ws) bw -> len_pos eps tx ws rx).
Proof. intros Hh Hi. apply exact_finite_iff; auto using gvv_cvec, gvv_at, rch_evar. Qed.

Lemma exact_receiver_fin_or_nan eps rc h bw tx rx i : h <> 0 -> (i < 2)%nat ->
  let d := grad (env_at rx) (e_exact_facc eps rc h bw (cvec tx) evar) i in is_fin d \/ d = NaN.
Proof. intros Hh Hi. apply (exact_fin_or_nan _ i eps rc h _ _ tx rx); auto using gvv_cvec, gvv_at, rch_evar. Qed.
Lemma exact_transmitter_fin_or_nan eps rc h bw tx rx i : h <> 0 -> (i < 2)%nat ->
  let d := grad (env_at tx) (e_exact_facc eps rc h bw evar (cvec rx)) i in is_fin d \/ d = NaN.
Proof. intros Hh Hi. apply (exact_fin_or_nan _ i eps rc h _ _ tx rx); auto using gvv_cvec, gvv_at, rch_evar. Qed.
Lemma near_box (curve : R -> nat -> R) v t0 (q : vec) d : 0 < d ->
  (forall i, derivable_pt_lim (fun t => curve t i) t0 (v i)) -> (forall i, curve t0 i = env_at q i) ->
  near t0 (fun t => Rabs (curve t 0%nat - fst q) < d /\ Rabs (curve t 1%nat - snd q) < d).
Proof.
  intros Hd Hv H0. assert (A0 : curve t0 0%nat = fst q) by (rewrite H0; reflexivity). assert (A1 : curve t0 1%nat = snd q) by (rewrite H0; reflexivity).
  apply near_and.
  - eapply near_mono; [|apply near_and; [apply (deriv_gt _ _ _ (fst q - d) (Hv 0%nat)); cbv beta; lra|apply (deriv_lt _ _ _ (fst q + d) (Hv 0%nat)); cbv beta; lra]].
    cbv beta. intros t [A B]. apply Rabs_def1; lra.
  - eapply near_mono; [|apply near_and; [apply (deriv_gt _ _ _ (snd q - d) (Hv 1%nat)); cbv beta; lra|apply (deriv_lt _ _ _ (snd q + d) (Hv 1%nat)); cbv beta; lra]].
    cbv beta. intros t [A B]. apply Rabs_def1; lra.
Qed.
(* a function equal to a traced one around a point has its gradient *)
Lemma gradient_local (F : vec -> xreal) e q d : 0 < d -> good 2 (env_at q) e ->
  (forall y, Rabs (fst y - fst q) < d -> Rabs (snd y - snd q) < d ->
     forall env, env 0%nat = fst y -> env 1%nat = snd y -> F y = eval env e) ->
  is_gradient 2 (fun x => F (x 0%nat, x 1%nat)) (env_at q) (D (env_at q) e).
Proof.
  intros Hd Gd HF curve v t0 Hv H0. destruct (good_gradient _ _ _ Gd) as [_ B].
  destruct (B curve v t0 Hv H0) as (f & d1 & Hd1 & N & Df).
  destruct (near_and _ _ _ (near_box curve v t0 q d Hd Hv H0) (ex_intro _ d1 (conj Hd1 N))) as (d2 & Hd2 & N2).
  exists f, d2. split; auto. split; auto. intros t Ht. destruct (N2 t Ht) as [[A1 A2] E].
  rewrite (HF (curve t 0%nat, curve t 1%nat) A1 A2 (curve t) eq_refl eq_refl). exact E.
Qed.

Lemma exact_receiver_right (P : prng) g s k eps rc h tol patch (work : list (list Z * option (key_t P))) bw tx rx d :
  h <> 0 -> 0 < d ->
  (forall y, Rabs (fst y - fst rx) < d -> Rabs (snd y - snd rx) < d ->
     Forall2 (fun c x => get_interacting_objects s (fst c) = Ok (map OWall (snd x)) /\
       exact_validity g (objects s) tol patch k tx y (fst c) (snd x) (fst x)) work bw) ->
  (forall b ws, In (b, ws) bw -> len_pos eps tx ws rx) ->
  exists gr, (forall i, grad (env_at rx) (e_exact_facc eps rc h bw (cvec tx) evar) i = Fin (gr i)) /\
    is_gradient 2 (fun x => value (facc P g s ClsImage (mkvalidargs tol patch (Some false) k)
       (fun t r p inter => received_power eps t r p inter rc h) work tx (x 0%nat, x 1%nat))) (env_at rx) gr.
Proof.
  intros Hh Hd HF G.
  destruct (exact_facc_good (env_at rx) eps rc h (cvec tx) evar tx rx bw (gvv_cvec _ _ _) (gvv_at _) Hh G) as (y & Gd & _).
  exists (D (env_at rx) (e_exact_facc eps rc h bw (cvec tx) evar)). split; [apply (good_gradient _ _ _ Gd)|].
  apply (gradient_local (fun q => value (facc P g s ClsImage (mkvalidargs tol patch (Some false) k)
       (fun t r p inter => received_power eps t r p inter rc h) work tx q)) _ rx d Hd Gd).
  intros z A B env E0 E1. change (fun t r p inter => received_power eps t r p inter rc h) with (rp_fun eps rc h).
  rewrite (exact_traced P env g s k eps rc h tol patch work bw (cvec tx) evar tx z); auto.
  - apply ev_cvec.
  - split; cbn; congruence.
Qed.
Lemma exact_transmitter_right (P : prng) g s k eps rc h tol patch (work : list (list Z * option (key_t P))) bw tx rx d :
  h <> 0 -> 0 < d ->
  (forall y, Rabs (fst y - fst tx) < d -> Rabs (snd y - snd tx) < d ->
     Forall2 (fun c x => get_interacting_objects s (fst c) = Ok (map OWall (snd x)) /\
       exact_validity g (objects s) tol patch k y rx (fst c) (snd x) (fst x)) work bw) ->
  (forall b ws, In (b, ws) bw -> len_pos eps tx ws rx) ->
  exists gr, (forall i, grad (env_at tx) (e_exact_facc eps rc h bw evar (cvec rx)) i = Fin (gr i)) /\
    is_gradient 2 (fun x => value (facc P g s ClsImage (mkvalidargs tol patch (Some false) k)
       (fun t r p inter => received_power eps t r p inter rc h) work (x 0%nat, x 1%nat) rx)) (env_at tx) gr.
Proof.
  intros Hh Hd HF G.
  destruct (exact_facc_good (env_at tx) eps rc h evar (cvec rx) tx rx bw (gvv_at _) (gvv_cvec _ _ _) Hh G) as (y & Gd & _).
  exists (D (env_at tx) (e_exact_facc eps rc h bw evar (cvec rx))). split; [apply (good_gradient _ _ _ Gd)|].
  apply (gradient_local (fun q => value (facc P g s ClsImage (mkvalidargs tol patch (Some false) k)
       (fun t r p inter => received_power eps t r p inter rc h) work q rx)) _ tx d Hd Gd).
  intros z A B env E0 E1. change (fun t r p inter => received_power eps t r p inter rc h) with (rp_fun eps rc h).
  rewrite (exact_traced P env g s k eps rc h tol patch work bw evar (cvec rx) z rx); auto.
  - split; cbn; congruence.
  - apply ev_cvec.
Qed.

(** ** A wall far away, and the receiver behind it *)
Definition far : wall := mkwall (10, 0) (11, 0).
Lemma far_line y : -2 < snd y < 0 -> Rabs (fst y) < 1 -> forall g k,
  exact_validity g [OWall far] DEFAULT_TOL DEFAULT_PATCH k (0, 1) y [] [] true.
Proof.
  intros H1 H2 g k. exists (mkpath [(0, 1); y] (Fin 0)). split; [reflexivity|]. cbn [map].
  destruct (C38_lemma g (mkpath [(0, 1); y] (Fin 0)) [OWall far] [] [] DEFAULT_TOL DEFAULT_PATCH k) as (b & E & _); cbn [xys length]; try lia.
  destruct b; auto. exfalso. destruct (C42_only_if _ _ _ _ _ E) as (o & w & s & t & [<-|[]] & W & _ & M & Hs & Ht).
  cbn in W. inversion W; subst w. unfold meet_at, SpecGeometry.at_, far in M. cbn in M.
  assert (M1 := f_equal fst M). cbn in M1. apply Rabs_def2 in H2. nra.
Qed.
Lemma far_chain : image_chain (0, 1) (map OWall [far]) [(0, 1); (0, -1)].
Proof.
  split; [reflexivity|]. split; [reflexivity|]. intros [|i] o w a b Ho Hw Ha Hb; [|destruct i; discriminate].
  cbn in *. inversion Ho; subst o. cbn in Hw. inversion Hw; subst w. inversion Ha; inversion Hb; subst.
  left. split; [unfold proper, far; cbn; intros Q; inversion Q; lra|]. cbn. split; [|ring].
  exists (-10). unfold SpecGeometry.at_. cbn. f_equal; lra.
Qed.

Lemma chain_far imgs : image_chain (0, 1) (map OWall [far]) imgs -> imgs = [(0, 1); (0, -1)].
Proof.
  intro H. apply (chain_eq _ _ [far]) in H; [|reflexivity]. subst. unfold imgs_of. cbn [images].
  unfold far. rewrite image_flat by lra. repeat f_equal; lra.
Qed.
Lemma far_bounce y : snd y < 0 -> forall g k,
  exact_validity g [OWall far] DEFAULT_TOL DEFAULT_PATCH k (0, 1) y [0%Z] [far] false.
Proof.
  intros Hy g k. pose proof (image_from_ok (0, 1) [far] y) as HP. eexists. split; [exact HP|].
  set (p := mkpath _ _) in *.
  assert (X : xys p = [(0, 1); backward y (far, (0, -1)); y]).
  { unfold p. cbn [xys]. rewrite points_one. unfold far. rewrite image_flat by lra. repeat f_equal; lra. }
  destruct (C38_lemma g p [OWall far] [0%Z] (map OWall [far]) DEFAULT_TOL DEFAULT_PATCH k) as (b & E & _);
    rewrite ?X; cbn [length map]; try lia.
  destruct b; auto. exfalso.
  assert (Sd : side far (0, -1) = -1) by (rewrite <- side_of_side; unfold side_of, far; cbn; ring).
  assert (Sy : side far y = snd y) by (rewrite <- side_of_side; unfold side_of, far; cbn; ring).
  destruct (Req_dec (snd y) (-1)) as [Q|Q].
  - refine (C35_invalid (0, 1) [far] y p [(0, 1); (0, -1)] 0 far (0, -1) y HP far_chain eq_refl eq_refl _ _ _ g _ _ _ DEFAULT_TOL DEFAULT_PATCH k _ E).
    + rewrite X. reflexivity.
    + unfold parallel, far. cbn. lra.
    + intros Z. rewrite <- Z in Hy. cbn in Hy. lra.
    + unfold DEFAULT_TOL. lra.
  - assert (Sb : side far (backward y (far, (0, -1))) = 0) by (apply backward_side; lra).
    remember (backward y (far, (0, -1))) as B0 eqn:EB0. clear EB0.
    assert (G : SpecImage.general_position (0, 1) [far] (xys p)).
    { split.
      - intros imgs i w I B HC Hw HI HB. apply chain_far in HC. subst imgs. rewrite X in HB.
        destruct i as [|i]; [|destruct i; discriminate]. cbn in Hw, HI, HB. inversion Hw; inversion HI; inversion HB; subst.
        unfold parallel, far. cbn. lra.
      - rewrite X. apply consecutive_nth. intros [|[|[|i]]] a b Ha Hb; cbn in Ha, Hb; try (destruct i; discriminate); try discriminate;
          inversion Ha; inversion Hb; subst; intros Z.
        + rewrite <- Z in Sb. rewrite <- side_of_side in Sb. unfold side_of, far in Sb. cbn in Sb. lra.
        + rewrite Z in Sb. lra. }
    destruct (C63_lemma g (0, 1) [far] y p [OWall far] [0%Z] DEFAULT_TOL DEFAULT_PATCH k HP G eq_refl ltac:(unfold DEFAULT_TOL; lra) E) as [H _].
    rewrite X in H. destruct (H O far (0, 1) B0 y eq_refl eq_refl eq_refl eq_refl) as (_ & SS & _).
    unfold same_side, side_of, far in SS. cbn in SS. lra.
Qed.

Lemma exact_nan_example (P : prng) g k (key1 key2 : option (key_t P)) :
  let s := Scene_make [] [] [OWall far] in
  let work := [([], key1); ([0%Z], key2)] in
  let rx := (1 / 2, -1) in
  (forall y, Rabs (fst y - fst rx) < 1 / 4 -> Rabs (snd y - snd rx) < 1 / 4 ->
     Forall2 (fun c x => get_interacting_objects s (fst c) = Ok (map OWall (snd x)) /\
       exact_validity g (objects s) DEFAULT_TOL DEFAULT_PATCH k (0, 1) y (fst c) (snd x) (fst x)) work [(true, []); (false, [far])]) /\
  (exists gr, is_gradient 2 (fun x => value (facc P g s ClsImage (mkvalidargs DEFAULT_TOL DEFAULT_PATCH (Some false) k)
       (fun t r p inter => received_power float32_eps t r p inter (5 / 10) (1 / 10)) work (0, 1) (x 0%nat, x 1%nat))) (env_at rx) gr) /\
  (forall i, (i < 2)%nat ->
     grad (env_at rx) (e_exact_facc float32_eps (5 / 10) (1 / 10) [(true, []); (false, [far])] (cvec (0, 1)) evar) i = NaN).
Proof.
  intros s work rx.
  assert (A : forall y, Rabs (fst y - fst rx) < 1 / 4 -> Rabs (snd y - snd rx) < 1 / 4 ->
     Forall2 (fun c x => get_interacting_objects s (fst c) = Ok (map OWall (snd x)) /\
       exact_validity g (objects s) DEFAULT_TOL DEFAULT_PATCH k (0, 1) y (fst c) (snd x) (fst x)) work [(true, []); (false, [far])]).
  { intros y H1 H2. unfold rx in *. cbn [fst snd] in *. apply Rabs_def2 in H1, H2.
    constructor; [|constructor; [|constructor]]; cbn [fst snd]; (split; [reflexivity|]).
    - apply far_line; [lra|]. apply Rabs_def1; lra.
    - apply far_bounce. lra. }
  split; [exact A|]. split.
  - assert (G : forall b ws, In (b, ws) [(true, [])] -> len_pos float32_eps (0, 1) ws rx).
    { intros b ws [Q|[]]. inversion Q; subst. split; [intros j w Hj; destruct j; discriminate|].
      cbn. intros v [<-|[]] Z. unfold vsub in Z. cbn in Z. inversion Z. pose proof eps_pos. lra. }
    destruct (exact_facc_good (env_at rx) float32_eps (5 / 10) (1 / 10) (cvec (0, 1)) evar (0, 1) rx [(true, [])]
      (gvv_cvec _ _ _) (gvv_at _) ltac:(lra) G) as (y & Gd & _).
    eexists. eapply (gradient_local (fun q => value (facc P g s ClsImage (mkvalidargs DEFAULT_TOL DEFAULT_PATCH (Some false) k)
       (fun t r p inter => received_power float32_eps t r p inter (5 / 10) (1 / 10)) work (0, 1) q)) _ rx (1 / 4)); [lra|exact Gd|].
    intros z H1 H2 env E0 E1. change (fun t r p inter => received_power float32_eps t r p inter (5 / 10) (1 / 10)) with (rp_fun float32_eps (5 / 10) (1 / 10)).
    assert (Ez : evv env evar z) by (split; cbn; congruence).
    rewrite (exact_traced P env g s k float32_eps (5 / 10) (1 / 10) DEFAULT_TOL DEFAULT_PATCH work [(true, []); (false, [far])] (cvec (0, 1)) evar (0, 1) z); auto using ev_cvec.
    cbn [value]. unfold e_exact_facc. cbn [fold_left]. set (e1 := EAdd (C 0) (e_exact_term float32_eps (5 / 10) (1 / 10) (cvec (0, 1)) evar (true, []))). cbn [eval e_exact_term].
    pose proof (ev_image_points env (cvec (0, 1)) (0, 1) [far] evar z (ev_cvec env (0, 1)) Ez) as L.
    rewrite (ev_received_power env float32_eps (0, 1) z _ _ (Fin 0) [] (5 / 10) (1 / 10) L).
    assert (Fp : is_fin (received_power float32_eps (0, 1) z (mkpath (image_points (0, 1) [far] z) (Fin 0)) [] (5 / 10) (1 / 10))).
    { unfold received_power. cbv zeta. unfold fdiv, Reqb. destruct (Req_EM_T _ 0) as [Z|_]; [|eexists; reflexivity].
      exfalso. nra. }
    destruct Fp as [r ->]. destruct (exact_facc_good env float32_eps (5 / 10) (1 / 10) (cvec (0, 1)) evar (0, 1) z [(true, [])]
      (gvv_cvec _ _ _)) as (v & _ & Ev).
    { split; cbn; [replace (fst z) with (env 0%nat)|replace (snd z) with (env 1%nat)]; apply gv_var; lia. }
    { lra. }
    { intros b ws [Q|[]]. inversion Q; subst. split; [intros j w Hj; destruct j; discriminate|].
      unfold rx in *. cbn [fst snd] in *. apply Rabs_def2 in H1, H2.
      cbn. intros v [<-|[]] Z. unfold vsub in Z. cbn in Z. inversion Z. pose proof eps_pos. lra. }
    unfold e_exact_facc in Ev. cbn [fold_left] in Ev. fold e1 in Ev. rewrite Ev. cbn [xadd xmul]. f_equal. ring.
  - intros i Hi. destruct (exact_receiver_fin_or_nan float32_eps (5 / 10) (1 / 10) [(true, []); (false, [far])] (0, 1) rx i ltac:(lra) Hi) as [F|F]; [exfalso|exact F].
    pose proof (proj1 (exact_receiver_finite float32_eps (5 / 10) (1 / 10) [(true, []); (false, [far])] (0, 1) rx i ltac:(lra) Hi) F) as K.
    destruct (K false [far] (or_intror (or_introl eq_refl))) as [G1 _]. apply (G1 O far eq_refl). unfold approach.
    rewrite points_one. cbn [Nat.add nth images]. unfold far. rewrite image_flat, normal_flat by lra. unfold rx, vsub, dot. cbn. ring.
Qed.
Lemma exact_ex (P : prng) g k (key1 key2 : option (key_t P)) :
  let s := Scene_make [] [] [OWall far] in
  let rx := (1 / 2, -1 / 2) in
  (forall y, Rabs (fst y - fst rx) < 1 / 4 -> Rabs (snd y - snd rx) < 1 / 4 ->
     Forall2 (fun c x => get_interacting_objects s (fst c) = Ok (map OWall (snd x)) /\
       exact_validity g (objects s) DEFAULT_TOL DEFAULT_PATCH k (0, 1) y (fst c) (snd x) (fst x))
     [([], key1); ([0%Z], key2)] [(true, []); (false, [far])]) /\
  (forall b ws, In (b, ws) [(true, []); (false, [far])] -> len_pos float32_eps (0, 1) ws rx).
Proof.
  intros s rx. split.
  - intros y H1 H2. unfold rx in *. cbn [fst snd] in *. apply Rabs_def2 in H1, H2.
    constructor; [|constructor; [|constructor]]; cbn [fst snd]; (split; [reflexivity|]).
    + apply far_line; [lra|]. apply Rabs_def1; lra.
    + apply far_bounce. lra.
  - pose proof eps_pos. assert (LT : float32_eps < 1 / 2) by (unfold float32_eps; lra).
    assert (X : image_points (0, 1) [far] rx = [(0, 1); (1, 0); rx]).
    { rewrite points_one. unfold far. rewrite image_flat by lra. unfold backward. cbv zeta. rewrite normal_flat by lra.
      unfold rx, vsub, vadd, dot, vscale, origin. cbn [fst snd w_origin]. unfold Reqb. destruct (Req_EM_T _ 0); [lra|].
      cbn [fst snd]. repeat f_equal; field. }
    intros b ws [Q|[Q|[]]]; inversion Q; subst; split.
    + intros j w Hj; destruct j; discriminate.
    + cbn. intros v [<-|[]] Z. apply (f_equal fst) in Z. unfold rx, vsub in Z. cbn [fst snd] in Z. lra.
    + intros [|j] w Hj; [|destruct j; discriminate]. cbn in Hj. inversion Hj; subst w. unfold approach. rewrite X.
      unfold far. cbn [Nat.add nth images]. rewrite image_flat, normal_flat by lra. unfold rx, vsub, dot. cbn. lra.
    + rewrite X. cbn. intros v [<-|[<-|[]]] Z; apply (f_equal fst) in Z; unfold rx, vsub in Z; cbn [fst snd] in Z; lra.
Qed.
