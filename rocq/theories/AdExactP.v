(** Gradients with [approx=False]. *)
From Coq Require Import Reals List Bool ZArith Arith Lia Lra Psatz.
From Verif Require Import Base BaseP LogicM GeometryM OptimizeM PathM PathP UtilsM SceneM AdM SpecAd AdPos.
From Verif Require Import AdP AdSoundP AdGeomP AdGradP AdNanP AdRightP AdExP.
Import ListNotations.
Open Scope R_scope.
Local Notation length := List.length.

Lemma image_path_walls tx ws rx : exists l,
  ImagePath_from tx (map OWall ws) rx = Ok (mkpath (image_points tx ws rx) l).
Proof.
  destruct ws as [|w ws]; cbn [map]; [exists (Fin 0); reflexivity|].
  unfold ImagePath_from. destruct (stack_walls w ws) as [st Es]. cbn [map] in Es. rewrite Es. cbn [rbind].
  pose proof (as_walls_map (w :: ws)) as Aw. cbn [map] in Aw. rewrite Aw. cbn [rbind]. eexists. reflexivity.
Qed.

Lemma exact_traced (P : prng) env g s k eps rc h tol patch (work : list (list Z * option (key_t P))) bw tx rx t r :
  evv env tx t -> evv env rx r ->
  Forall2 (fun c x => get_interacting_objects s (fst c) = Ok (map OWall (snd x)) /\
     exact_validity g (objects s) tol patch k t r (fst c) (snd x) (fst x)) work bw ->
  facc P g s ClsImage (mkvalidargs tol patch (Some false) k) (rp_fun eps rc h) work t r =
  Ok (eval env (e_exact_facc eps rc h bw tx rx)).
Proof.
  intros T Rr F. unfold facc, e_exact_facc. change (Ok (Fin 0)) with (Ok (eval env (C 0))). generalize (C 0) as acc.
  induction F as [|[cand key] [b ws] work bw [E (p & Ep & Ev)] F IH]; intros acc; cbn [fold_left]; auto.
  rewrite <- IH. f_equal. cbn [fst snd] in E, Ep, Ev. rewrite E. cbn [rbind].
  cbn [from_tx_objects_rx va_tol va_patch va_approx va_kw]. rewrite Ep. cbn [rbind]. rewrite Ev. cbn [rbind to_f].
  pose proof (ev_image_points env tx t ws rx r T Rr) as L.
  destruct (image_path_walls t ws r) as [l El]. assert (Q : p = mkpath (image_points t ws r) l) by congruence. subst p.
  unfold e_exact_term. cbn [eval].
  unfold rp_fun. rewrite (ev_received_power env eps t r _ _ l (map OWall ws) rc h L). destruct b; reflexivity.
Qed.

Section Env.
Variable env : nat -> R.
Lemma exact_term_good eps rc h tx rx t r b ws : gvv 2 env tx t -> gvv 2 env rx r -> h <> 0 ->
  len_pos eps t ws r -> exists y, gval 2 env (e_exact_term eps rc h tx rx (b, ws)) y.
Proof.
  intros T Rr Hh [G1 G2]. pose proof (gvl_image_points 2 env tx t ws rx r T Rr G1) as L.
  destruct (gv_received_power 2 env eps _ _ rc h L G2 Hh) as [z Z].
  eexists. unfold e_exact_term. apply gv_mul; [apply gv_c|exact Z].
Qed.
Lemma exact_facc_good eps rc h tx rx t r bw : gvv 2 env tx t -> gvv 2 env rx r -> h <> 0 ->
  (forall b ws, In (b, ws) bw -> len_pos eps t ws r) ->
  exists y, gval 2 env (e_exact_facc eps rc h bw tx rx) y.
Proof.
  intros T Rr Hh. unfold e_exact_facc. pose proof (gv_c 2 env 0) as E. revert E. generalize 0 at 2. generalize (C 0).
  induction bw as [|[b ws] bw IH]; intros e x E G; cbn [fold_left]; [eauto|].
  destruct (exact_term_good eps rc h tx rx t r b ws T Rr Hh (G b ws (or_introl eq_refl))) as [y Y].
  eapply (IH _ (x + y)); [apply gv_add; auto|intros; apply (G b0); right; auto].
Qed.
Lemma length_poison i eps tx rx t r ws : (i < 2)%nat -> evv env tx t -> evv env rx r -> rch env tx \/ rch env rx ->
  ~ len_pos eps t ws r -> poison env i (e_path_length eps (e_image_points tx ws rx)).
Proof.
  intros Hi T Rr Rc NG. pose proof (ev_image_points env tx t ws rx r T Rr) as L.
  assert (Len : length (e_image_points tx ws rx) = (length ws + 2)%nat) by (rewrite (F2_length _ _ L); apply image_points_length).
  assert (Im : Forall2 (evv env) (e_images tx ws) (images t ws)) by (apply ev_images; auto).
  assert (Ln : length (images t ws) = length ws) by apply images_length.
  assert (Rc' : rch env rx \/ Forall (rch2 env) (e_images tx ws)) by (destruct Rc; auto using rch_images).
  destruct (Exists_dec (fun '(j, w) => approach t ws r j w = 0) (combine (seq 0 (length ws)) ws)) as [Ex|Nx].
  { intros [j w]. apply Req_EM_T. }
  - apply Exists_exists in Ex. destruct Ex as ([j w] & Ij & Z).
    change (combine (seq 0 (length ws)) ws) with (enumerate ws) in Ij. apply in_enumerate in Ij. destruct Ij as [Hj Ej].
    destruct (scan_poison env i rx r ws (e_images tx ws) (images t ws) Hi Rr Im Ln Rc') as (q & Iq & Pq).
    { exists j, w. split; auto. unfold approach, image_points in Z. replace (j + 2)%nat with (S (j + 1)) in Z by lia. exact Z. }
    destruct (point_in_diffs (e_image_points tx ws rx) q) as (d & Id & Sd); [lia|right; apply in_or_app; auto|].
    eapply poison_sub; [|exact Pq]. eapply sub_path_length; [exact Id|]. eapply sub_trans; [exact Sd|].
    unfold e_norm. apply sub_sqrt. unfold e_dot. cbn [fst]. apply sub_add1, sub_mul1, sub_add1, sub_refl.
  - assert (G1 : forall j w, nth_error ws j = Some w -> approach t ws r j w <> 0).
    { intros j w Ej Z. apply Nx. apply Exists_exists. exists (j, w). split; auto.
      assert (Q : forall l s, nth_error l j = Some w -> In ((s + j)%nat, w) (combine (seq s (length l)) l)).
      { clear. intros l. revert j. induction l as [|x l IH]; intros [|j] s E; cbn in *; try discriminate.
        - inversion E; subst. left. f_equal. lia.
        - right. replace (s + S j)%nat with (S s + j)%nat by lia. apply IH; auto. }
      apply (Q ws O Ej). }
    assert (FD : Forall (rch env) (e_diffs (e_image_points tx ws rx))).
    { assert (FS : Forall (rch env) (snd (e_backward_scan rx (combine ws (e_images tx ws))))).
      { apply (scan_rch env rx r ws (e_images tx ws) (images t ws)); auto.
        intros j w Ej. specialize (G1 j w Ej). unfold approach, image_points in G1. replace (j + 2)%nat with (S (j + 1)) in G1 by lia. exact G1. }
      unfold e_image_points. destruct Rc as [Rc|Rc].
      - change (tx :: ?a ++ [rx]) with ((tx :: a) ++ [rx]). apply diffs_rch_init. constructor; auto.
      - apply diffs_rch_tail. apply Forall_app. split; auto. }
    destruct (Exists_dec (fun v => v = (- eps, - eps)) (diffs (image_points t ws r))) as [Ex|Nx2].
    { intros [a b]. destruct (Req_EM_T a (- eps)); [|right; congruence]. destruct (Req_EM_T b (- eps)); [left; congruence|right; congruence]. }
    + apply Exists_exists in Ex. destruct Ex as (v & Iv & ->). eapply eps_poison; eauto.
    + exfalso. apply NG. split; auto. intros v Hv E. apply Nx2. apply Exists_exists. eauto.
Qed.
Lemma exact_finite_iff i eps rc h tx rx t r bw : (i < 2)%nat -> gvv 2 env tx t -> gvv 2 env rx r ->
  rch env tx \/ rch env rx -> h <> 0 ->
  (is_fin (grad env (e_exact_facc eps rc h bw tx rx) i) <-> forall b ws, In (b, ws) bw -> len_pos eps t ws r).
Proof.
  intros Hi T Rr Rc Hh. split.
  - intros [x F] b ws I. destruct (Classical_Prop.classic (len_pos eps t ws r)) as [G|NG]; auto. exfalso.
    pose proof (length_poison i eps tx rx t r ws Hi (gvv_evv _ _ _ _ T) (gvv_evv _ _ _ _ Rr) Rc NG) as P.
    assert (Q : poison env i (e_exact_facc eps rc h bw tx rx)).
    { unfold e_exact_facc. eapply poison_sub; [apply sub_fold_add; right; exists (b, ws); split; [exact I|apply sub_refl]|].
      unfold e_exact_term. eapply poison_sub; [apply sub_mul2, sub_power, sub_refl|]. exact P. }
    specialize (Q (Fin 1)). unfold grad in F. congruence.
  - intros G. destruct (exact_facc_good eps rc h tx rx t r bw T Rr Hh G) as (y & [S _] & _).
    rewrite grad_safe by auto. eexists; reflexivity.
Qed.
Lemma exact_fin_or_nan i eps rc h tx rx t r bw : (i < 2)%nat -> gvv 2 env tx t -> gvv 2 env rx r ->
  rch env tx \/ rch env rx -> h <> 0 ->
  let d := grad env (e_exact_facc eps rc h bw tx rx) i in is_fin d \/ d = NaN.
Proof.
  intros Hi T Rr Rc Hh d.
  destruct (Classical_Prop.classic (forall b ws, In (b, ws) bw -> len_pos eps t ws r)) as [G|NG].
  - left. apply (exact_finite_iff i eps rc h tx rx t r bw); auto.
  - right. apply Classical_Pred_Type.not_all_ex_not in NG. destruct NG as [b NG].
    apply Classical_Pred_Type.not_all_ex_not in NG. destruct NG as [ws NG].
    apply Classical_Prop.imply_to_and in NG. destruct NG as [I NG].
    pose proof (length_poison i eps tx rx t r ws Hi (gvv_evv _ _ _ _ T) (gvv_evv _ _ _ _ Rr) Rc NG) as P.
    assert (Q : poison env i (e_exact_facc eps rc h bw tx rx)).
    { unfold e_exact_facc. eapply poison_sub; [apply sub_fold_add; right; exists (b, ws); split; [exact I|apply sub_refl]|].
      unfold e_exact_term. eapply poison_sub; [apply sub_mul2, sub_power, sub_refl|]. exact P. }
    exact (Q (Fin 1)).
Qed.
(* invalid candidates contribute zero *)
Lemma exact_D eps rc h tx rx bw i : forall e, D env (fold_left (fun acc x => EAdd acc (e_exact_term eps rc h tx rx x)) bw e) i =
  D env e i + fold_right Rplus 0 (map (fun '(b, ws) =>
     if b : bool then D env (e_received_power eps (e_image_points tx ws rx) rc h) i else 0) bw).
Proof.
  induction bw as [|[b ws] bw IH]; intros e; cbn [fold_left map fold_right]; [ring|].
  rewrite IH. cbn [D e_exact_term]. cbn [rv eval]. destruct b; ring.
Qed.
Lemma exact_gradient_sum i eps rc h tx rx t r bw : gvv 2 env tx t -> gvv 2 env rx r -> h <> 0 ->
  (forall b ws, In (b, ws) bw -> len_pos eps t ws r) ->
  exists gs, Forall2 (fun '(b, ws) v => if b : bool then grad env (e_received_power eps (e_image_points tx ws rx) rc h) i = Fin v else v = 0) bw gs /\
    grad env (e_exact_facc eps rc h bw tx rx) i = Fin (fold_right Rplus 0 gs).
Proof.
  intros T Rr Hh G. destruct (exact_facc_good eps rc h tx rx t r bw T Rr Hh G) as (y & [S _] & _).
  exists (map (fun '(b, ws) => if b : bool then D env (e_received_power eps (e_image_points tx ws rx) rc h) i else 0) bw). split.
  - clear y S. induction bw as [|[b ws] bw IH]; cbn [map]; constructor; [|apply IH; intros; apply (G b0); right; auto].
    destruct b; auto. destruct (G true ws (or_introl eq_refl)) as [G1 G2].
    pose proof (gvl_image_points 2 env tx t ws rx r T Rr G1) as L.
    destruct (gv_received_power 2 env eps _ _ rc h L G2 Hh) as [z [[S _] _]]. apply grad_safe; auto.
  - rewrite grad_safe by auto. f_equal. unfold e_exact_facc. rewrite exact_D. cbn [D]. ring.
Qed.
End Env.
