(** Gradients of the traced code: where they are finite and right. *)
From Coq Require Import Reals List Bool ZArith Arith Lia Lra Psatz FunctionalExtensionality.
From Verif Require Import Base BaseP LogicM GeometryM OptimizeM PathM UtilsM SceneM AdM SpecAd AdPos AdP AdSoundP AdGeomP.
Import ListNotations.
Open Scope R_scope.
Local Notation length := List.length.

Section Good.
Variable n : nat.
Variable env : nat -> R.

Definition good (e : expr) : Prop := safe env e /\
  forall t0 curve v, (forall i, derivable_pt_lim (fun t => curve t i) t0 (v i)) -> (forall i, curve t0 i = env i) ->
  follows t0 n curve v e (D env e).

Lemma good_gradient e : good e -> (forall i, grad env e i = Fin (D env e i)) /\ is_gradient n (fun x => eval x e) env (D env e).
Proof.
  intros [S F]. split; [apply grad_safe; auto|]. intros curve v t0 Hv H0.
  destruct (F t0 curve v Hv H0) as (f & (d & Hd & N) & Df). exists f, d. auto.
Qed.

(** [gval e r]: good, of value [r]. *)
Definition gval (e : expr) (r : R) : Prop := good e /\ eval env e = Fin r.
Lemma gv_closed e r : closed e = true -> eval env e = Fin r -> gval e r.
Proof.
  intros C E. split; auto. split; [apply closed_safe; auto|]. intros. apply fol_closed; auto. exists r; auto.
Qed.
Lemma gv_c r : gval (C r) r.
Proof. apply gv_closed; reflexivity. Qed.
Lemma gv_var i : (i < n)%nat -> gval (EVar i) (env i).
Proof. intros H. split; [|reflexivity]. split; [cbn; auto|]. intros. apply fol_var; auto. Qed.
Lemma gv_neg a x : gval a x -> gval (ENeg a) (- x).
Proof.
  intros [[S F] E]. split; [|cbn; rewrite E; reflexivity]. split; [cbn; auto|]. intros. apply fol_neg; auto.
Qed.
Lemma gv_add a b x y : gval a x -> gval b y -> gval (EAdd a b) (x + y).
Proof.
  intros [[S F] E] [[S' F'] E']. split; [|cbn; rewrite E, E'; reflexivity]. split; [cbn; auto|]. intros. apply fol_add; auto.
Qed.
Lemma gv_sub a b x y : gval a x -> gval b y -> gval (ESub a b) (x - y).
Proof.
  intros [[S F] E] [[S' F'] E']. split; [|cbn; rewrite E, E'; reflexivity]. split; [cbn; auto|]. intros. apply fol_sub; auto.
Qed.
Lemma safe_mul a b : safe env a -> safe env b -> is_fin (eval env a) -> is_fin (eval env b) -> safe env (EMul a b).
Proof. cbn. auto 10. Qed.
Lemma gv_mul a b x y : gval a x -> gval b y -> gval (EMul a b) (x * y).
Proof.
  intros [[S F] E] [[S' F'] E']. split; [|cbn; rewrite E, E'; reflexivity].
  split; [apply safe_mul; auto; eexists; eauto|]. intros. apply fol_mul; auto.
Qed.
Lemma safe_div a b y : safe env a -> safe env b -> is_fin (eval env a) -> eval env b = Fin y -> y <> 0 -> safe env (EDiv a b).
Proof. cbn. eauto 10. Qed.
Lemma gv_div a b x y : gval a x -> gval b y -> y <> 0 -> gval (EDiv a b) (x / y).
Proof.
  intros [[S F] E] [[S' F'] E'] N. split; [|apply ev_div; auto].
  split; [eapply safe_div; eauto; eexists; eauto|]. intros. apply fol_div; auto. rewrite E'. intros Q; inversion Q; auto.
Qed.
Lemma gv_sqrt a x : gval a x -> 0 < x -> gval (ESqrt a) (sqrt x).
Proof.
  intros [[S F] E] P. split.
  - split; [cbn; eauto|]. intros. apply (fol_sqrt _ _ _ _ _ H0 a x); auto.
  - cbn. rewrite E. cbn. unfold Rltb. destruct (Rlt_dec x 0); [lra|reflexivity].
Qed.
Lemma gv_sq a x : gval a x -> gval (ESq a) (x * x).
Proof.
  intros [[S F] E]. split; [|cbn; rewrite E; reflexivity].
  split; [cbn; right; split; auto; eexists; eauto|]. intros. apply fol_sq; auto.
Qed.
Lemma gv_logistic a x : gval a x -> gval (ELogistic a) (1 / (1 + exp (- x))).
Proof.
  intros [[S F] E]. split; [|cbn; rewrite E; reflexivity].
  split; [cbn; right; split; auto; rewrite E; discriminate|]. intros. apply fol_logistic; auto.
Qed.
Lemma gv_where0 l a b x y : gval l x -> x <> 0 -> gval b y -> safe env a -> gval (EWhere IsZero l a b) y.
Proof.
  intros [[S F] E] N [[S' F'] E'] Sa.
  assert (Hh : holds IsZero (eval env l) = false) by (rewrite E; cbn; unfold Reqb; destruct (Req_EM_T x 0); [contradiction|auto]).
  split; [|cbn [eval]; rewrite Hh; auto].
  split; [cbn; auto|]. intros. apply fol_where; [eapply near_holds; eauto|]. rewrite Hh. auto.
Qed.

Definition gvv (u : evec) (p : vec) : Prop := gval (fst u) (fst p) /\ gval (snd u) (snd p).
Lemma gvv_evv u p : gvv u p -> evv env u p.
Proof. intros [[_ A] [_ B]]. split; auto. Qed.
Lemma gvv_cvec p : gvv (cvec p) p.
Proof. split; apply gv_c. Qed.
Lemma gvv_vadd u v p q : gvv u p -> gvv v q -> gvv (e_vadd u v) (vadd p q).
Proof. intros [A B] [C D]. split; apply gv_add; auto. Qed.
Lemma gvv_vsub u v p q : gvv u p -> gvv v q -> gvv (e_vsub u v) (vsub p q).
Proof. intros [A B] [C D]. split; apply gv_sub; auto. Qed.
Lemma gvv_vscale e k u p : gval e k -> gvv u p -> gvv (e_vscale e u) (vscale k p).
Proof. intros E [A B]. split; apply gv_mul; auto. Qed.
Lemma gv_dot u v p q : gvv u p -> gvv v q -> gval (e_dot u v) (dot p q).
Proof. intros [A B] [C D]. apply gv_add; apply gv_mul; auto. Qed.
Lemma gv_cross u v p q : gvv u p -> gvv v q -> gval (e_cross u v) (cross p q).
Proof. intros [A B] [C D]. apply gv_sub; apply gv_mul; auto. Qed.
Lemma dot_pos p : p <> (0, 0) -> 0 < dot p p.
Proof.
  intros H. destruct p as [x y]. unfold dot. cbn. destruct (Req_dec x 0) as [->|Nx]; [|nra].
  destruct (Req_dec y 0) as [->|Ny]; [congruence|nra].
Qed.
Lemma norm_pos p : p <> (0, 0) -> 0 < norm p.
Proof. intros H. apply sqrt_lt_R0. apply dot_pos; auto. Qed.
Lemma gv_norm u p : gvv u p -> p <> (0, 0) -> gval (e_norm u) (norm p).
Proof. intros H N. apply gv_sqrt; [apply gv_dot; auto|apply dot_pos; auto]. Qed.
Lemma gvv_normalize u p : gvv u p -> p <> (0, 0) -> gvv (e_normalize u) (fst (normalize p)).
Proof.
  intros H N. pose proof (norm_pos _ N) as P. pose proof (gv_norm _ _ H N) as G. destruct H as [A B].
  unfold e_normalize, normalize. cbv zeta. replace (Reqb (norm p) 0) with false by (unfold Reqb; destruct (Req_EM_T (norm p) 0); [lra|auto]).
  assert (W : gval (EWhere IsZero (e_norm u) (C 1) (e_norm u)) (norm p)).
  { apply (gv_where0 _ _ _ (norm p)); auto; [lra|cbn; auto]. }
  split; cbn [fst snd]; apply gv_div; auto; lra.
Qed.
Lemma gvv_closed u p : closed (fst u) = true -> closed (snd u) = true -> evv env u p -> gvv u p.
Proof. intros A B [E F]. split; apply gv_closed; auto. Qed.
Lemma gvv_normal w : gvv (e_normal (cwall w)) (normal w).
Proof. apply gvv_closed; try reflexivity. apply ev_normal, ev_cwall. Qed.
Lemma gvv_t w : gvv (e_t (cwall w)) (wall_t w).
Proof. apply gvv_closed; try reflexivity. apply ev_t, ev_cwall. Qed.
Lemma gv_c2p w u p : gvv u p -> gval (e_c2p (cwall w) u) (wall_c2p w p).
Proof.
  intros H. unfold e_c2p, wall_c2p. cbv zeta. apply gv_div; auto using reqb_guard.
  - apply gv_dot; [apply gvv_t|]. apply gvv_vsub; auto. apply gvv_cvec.
  - apply gv_closed; [reflexivity|]. apply ev_where0; auto; apply ev_dot; apply ev_t, ev_cwall.
Qed.
Lemma gv_evaluate w u v x p q r : gvv u p -> gvv v q -> gvv x r -> vsub q p <> (0, 0) -> vsub r q <> (0, 0) ->
  gval (e_evaluate (cwall w) u v x) (wall_evaluate w p q r).
Proof.
  intros U V X N1 N2. unfold e_evaluate, wall_evaluate. cbv zeta. pose proof (gvv_normal w) as Nn.
  pose proof (gvv_normalize _ _ (gvv_vsub _ _ _ _ V U) N1) as I. pose proof (gvv_normalize _ _ (gvv_vsub _ _ _ _ X V) N2) as Rr.
  match goal with |- gval (e_dot ?a ?a) (dot ?b ?b) => assert (Z : gvv a b) end.
  { apply gvv_vsub; auto. apply gvv_vsub; auto. apply gvv_vscale; auto. apply gv_mul; [apply gv_c|]. apply gv_dot; auto. }
  apply gv_dot; auto.
Qed.
Lemma gv_ris_evaluate w phi a v x q r : gvv v q -> gvv x r -> vsub r q <> (0, 0) ->
  gval (e_ris_evaluate (cwall w) phi v x) (ris_evaluate w phi a q r).
Proof.
  intros V X N2. unfold e_ris_evaluate, ris_evaluate. cbv zeta. pose proof (gvv_normal w) as Nn.
  pose proof (gvv_normalize _ _ (gvv_vsub _ _ _ _ X V) N2) as Rr.
  assert (O : gvv (ENeg (fst (e_normalize (e_vsub x v))), ENeg (snd (e_normalize (e_vsub x v)))) (vopp (fst (normalize (vsub r q))))).
  { destruct Rr as [A B]. split; cbn [fst snd]; apply gv_neg; auto. }
  cbn [Nat.pow pow]. rewrite !Rmult_1_r. apply gv_add; apply gv_sq; apply gv_sub; try apply gv_c; [apply gv_cross|apply gv_dot]; auto.
Qed.
Lemma gvv_image_of w u p : gvv u p -> gvv (e_image_of (cwall w) u) (image_of w p).
Proof.
  intros U. unfold e_image_of, image_of. cbv zeta. pose proof (gvv_normal w) as Nn.
  apply gvv_vsub; auto. apply gvv_vscale; auto. apply gv_mul; [apply gv_c|]. apply gv_dot; auto. apply gvv_vsub; auto. apply gvv_cvec.
Qed.
Notation gvl := (Forall2 gvv).
Lemma gvl_evl es ps : gvl es ps -> Forall2 (evv env) es ps.
Proof. induction 1; constructor; auto using gvv_evv. Qed.
Lemma gvl_images u p ws : gvv u p -> gvl (e_images u ws) (images p ws).
Proof. revert u p. induction ws as [|w ws IH]; intros u p H; cbn; constructor; auto using gvv_image_of. Qed.
Lemma gvv_backward u p w im q : gvv u p -> gvv im q -> dot (vsub p q) (normal w) <> 0 ->
  gvv (e_backward u (w, im)) (backward p (w, q)).
Proof.
  intros U I Nz. pose proof (gvv_normal w) as Nn. unfold e_backward, backward. cbv zeta.
  pose proof (gvv_vsub _ _ _ _ U I) as UI. pose proof (gv_dot _ _ _ _ UI Nn) as UN.
  pose proof (gv_dot _ _ _ _ (gvv_vsub _ _ _ _ (gvv_cvec (w_origin w)) U) Nn) as VN. destruct UI as [U1 U2].
  change (fst (cwall w)) with (cvec (w_origin w)). change (origin w) with (w_origin w).
  set (un := e_dot (e_vsub u im) (e_normal (cwall w))) in *. set (vn := e_dot (e_vsub (cvec (w_origin w)) u) (e_normal (cwall w))) in *.
  replace (Reqb (dot (vsub p q) (normal w)) 0) with false
    by (unfold Reqb; destruct (Req_EM_T (dot (vsub p q) (normal w)) 0); [contradiction|auto]).
  apply gvv_vadd; auto. split; cbn [fst snd];
    (eapply gv_where0; [exact UN|exact Nz| |cbn; auto]; apply gv_div; auto; apply gv_mul; auto).
Qed.
Lemma scan_head r ws qs : fst (backward_scan r (combine ws qs)) = nth 0 (snd (backward_scan r (combine ws qs)) ++ [r]) (0, 0).
Proof. destruct (combine ws qs) as [|x tl]; cbn; auto. destruct (backward_scan r tl). reflexivity. Qed.
Lemma gvl_scan rx r ws es qs : gvv rx r -> gvl es qs -> length qs = length ws ->
  (forall j w, nth_error ws j = Some w ->
     dot (vsub (nth (j + 1) (snd (backward_scan r (combine ws qs)) ++ [r]) (0, 0)) (nth j qs (0, 0))) (normal w) <> 0) ->
  gvv (fst (e_backward_scan rx (combine ws es))) (fst (backward_scan r (combine ws qs))) /\
  gvl (snd (e_backward_scan rx (combine ws es))) (snd (backward_scan r (combine ws qs))).
Proof.
  intros H. revert es qs. induction ws as [|w ws IH]; intros es qs L Len Nz; cbn; [auto|].
  destruct L as [|e q es qs E L]; [discriminate|]. cbn in Len. cbn [combine e_backward_scan backward_scan].
  assert (Nz' : forall j w', nth_error ws j = Some w' ->
     dot (vsub (nth (j + 1) (snd (backward_scan r (combine ws qs)) ++ [r]) (0, 0)) (nth j qs (0, 0))) (normal w') <> 0).
  { intros j w' Ej. specialize (Nz (S j) w' Ej). cbn [combine backward_scan] in Nz.
    destruct (backward_scan r (combine ws qs)). cbn [snd app Nat.add nth] in *. exact Nz. }
  destruct (IH es qs L ltac:(lia) Nz') as [A B]. specialize (Nz O w eq_refl). cbn [combine backward_scan Nat.add] in Nz.
  pose proof (scan_head r ws qs) as Sh.
  destruct (e_backward_scan rx (combine ws es)) as [c ys], (backward_scan r (combine ws qs)) as [c' ys']. cbn [fst snd app nth] in *.
  rewrite <- Sh in Nz. assert (gvv (e_backward c (w, e)) (backward c' (w, q))) by (apply gvv_backward; auto).
  split; auto.
Qed.
Lemma images_length p ws : length (images p ws) = length ws.
Proof. revert p. induction ws; intros; cbn; auto. Qed.
Lemma gvl_image_points tx t ws rx r : gvv tx t -> gvv rx r ->
  (forall j w, nth_error ws j = Some w -> approach t ws r j w <> 0) ->
  gvl (e_image_points tx ws rx) (image_points t ws r).
Proof.
  intros T H A. constructor; auto. apply Forall2_app; [|constructor; auto].
  apply (gvl_scan rx r ws (e_images tx ws) (images t ws)); auto using gvl_images, images_length.
  intros j w E. specialize (A j w E). unfold approach, image_points in A. replace (j + 2)%nat with (S (j + 1)) in A by lia. exact A.
Qed.
Lemma gvv_row es ps i : gvl es ps -> gvv (e_row es i) (row ps i).
Proof.
  intros L. unfold e_row, row. rewrite (F2_length _ _ L). generalize (Nat.min i (length ps - 1)). clear i.
  induction L; intros i; destruct i; cbn; auto; apply gvv_cvec.
Qed.
Lemma gv_path_length eps es ps : gvl es ps -> (forall v, In v (diffs ps) -> v <> (- eps, - eps)) ->
  gval (e_path_length eps es) (path_length eps ps).
Proof.
  intros L Nv. unfold e_path_length, path_length. cbv zeta.
  assert (Df : gvl (e_diffs es) (diffs ps)).
  { clear Nv. induction L as [|e p es ps E L IH]; cbn; [constructor|]. destruct L as [|e' p' es ps E' L]; [constructor|].
    constructor; auto. apply gvv_vsub; auto. }
  induction Df as [|e p es' ps' E Df IH]; [apply gv_c|].
  cbn [map fold_right]. apply gv_add; [|apply IH; intros; apply Nv; right; auto].
  apply gv_norm.
  - destruct E as [A B]. split; apply gv_add; auto; apply gv_c.
  - intros Q. inversion Q. apply (Nv p); [left; auto|]. destruct p as [a b]. cbn in *. f_equal; lra.
Qed.
Lemma gv_received_power eps es ps rc h : gvl es ps -> (forall v, In v (diffs ps) -> v <> (- eps, - eps)) -> h <> 0 ->
  exists y, gval (e_received_power eps es rc h) y.
Proof.
  intros L Nv Hh. eexists. unfold e_received_power. cbv zeta. pose proof (gv_path_length eps _ _ L Nv) as P.
  apply gv_div; [apply gv_c|apply gv_add; [apply gv_c|apply gv_mul; apply P]|]. nra.
Qed.
Lemma diffs_nth ps i : (i + 1 < length ps)%nat -> In (vsub (row ps (i + 1)) (row ps i)) (diffs ps).
Proof.
  intros H. unfold row. rewrite !Nat.min_l by lia. revert i H. induction ps as [|p ps IH]; cbn; intros i H; [lia|].
  destruct ps as [|q ps]; cbn in H; [lia|]. destruct i as [|i]; [left; reflexivity|].
  right. apply (IH i). cbn. lia.
Qed.
Lemma in_enumerate {A} (l : list A) i x : In (i, x) (enumerate l) -> (i < length l)%nat /\ nth_error l i = Some x.
Proof.
  unfold enumerate.
  assert (G : forall l s, In (i, x) (combine (seq s (length l)) l) -> (s <= i < s + length l)%nat /\ nth_error l (i - s) = Some x).
  { clear l. induction l as [|y l IH]; intros s H; [destruct H|]. cbn in H. destruct H as [H|H].
    - inversion H; subst. rewrite Nat.sub_diag. cbn. split; auto. lia.
    - apply IH in H. destruct H as [H E]. cbn. split; [lia|]. replace (i - s)%nat with (S (i - S s)) by lia. exact E. }
  intros H. apply G in H. rewrite Nat.sub_0_r in H. destruct H. split; auto. lia.
Qed.
Lemma gv_path_loss ws es ps : gvl es ps -> length ps = (length ws + 2)%nat ->
  (forall v, In v (diffs ps) -> v <> (0, 0)) -> gval (e_path_loss (map OWall ws) es) (path_loss (map OWall ws) ps).
Proof.
  intros L Len Nv. unfold e_path_loss, path_loss.
  assert (G : forall m e a, (forall i o, In (i, o) m -> (i < length ws)%nat /\ exists w, o = OWall w) -> gval e a ->
    gval (fold_left (fun l '(i, obj) => EAdd l (e_obj_evaluate obj (e_row es i) (e_row es (i + 1)) (e_row es (i + 2)))) m e)
    (fold_left (fun l '(i, obj) => l + obj_evaluate obj (row ps i) (row ps (i + 1)) (row ps (i + 2))) m a)).
  { induction m as [|[i o] m IH]; intros e a Hm E; cbn; auto. destruct (Hm i o (or_introl eq_refl)) as [Hi [w ->]].
    apply IH; [intros; apply Hm; right; auto|]. apply gv_add; auto. cbn [e_obj_evaluate obj_evaluate].
    apply gv_evaluate; auto using gvv_row.
    - apply Nv. apply diffs_nth. lia.
    - replace (i + 2)%nat with (i + 1 + 1)%nat by lia. apply Nv. apply diffs_nth. lia. }
  apply G; [|apply gv_c]. intros i o H. apply in_enumerate in H. rewrite map_length in H. destruct H as [H E]. split; auto.
  rewrite nth_error_map in E. destruct (nth_error ws i) as [w|]; [|discriminate]. cbn in E. inversion E. eauto.
Qed.

(** ** Finite gradients of the validity test *)
Section Valid.
Variable k : eakw.
Hypothesis Ha : ek_alpha k <> 0.
Lemma act_fin x : x <> NaN -> is_fin (activation x (akw_of k)).
Proof.
  intros Nx. unfold activation, akw_of. cbn [ak_function ak_alpha].
  assert (E : xmul (Fin (ek_alpha k)) x <> NaN).
  { destruct x; cbn; try congruence; unfold inf_times, Reqb; destruct (Req_EM_T (ek_alpha k) 0); try contradiction;
      destruct (Rltb 0 (ek_alpha k)); discriminate. }
  destruct (ek_act k).
  - unfold hard_sigmoid, relu6. destruct (xmul (Fin (ek_alpha k)) x); cbn; try congruence; eexists; reflexivity.
  - unfold sigmoid. destruct (xmul (Fin (ek_alpha k)) x); try congruence; eexists; reflexivity.
Qed.
Lemma xsub_nn x r : x <> NaN -> xsub x (Fin r) <> NaN /\ xsub (Fin r) x <> NaN.
Proof. destruct x; cbn; intros; split; congruence. Qed.
Lemma safe_activation e : safe env e -> eval env e <> NaN -> safe env (e_activation k e).
Proof.
  intros S N. unfold e_activation. destruct (ek_act k) eqn:Ka.
  - eapply safe_div; [| | |reflexivity|lra].
    + cbn. right. split; [|auto]. right. split; [|auto]. right. split; [|auto]. right. repeat split; auto. right. eexists; reflexivity.
    + cbn; auto.
    + cbn [eval]. unfold relu6. destruct (xadd (xmul (Fin (ek_alpha k)) (eval env e)) (Fin 3)) eqn:E; cbn; try (eexists; reflexivity).
      exfalso. pose proof (act_fin _ N) as [r Q]. unfold activation, akw_of in Q. rewrite Ka in Q. cbn [ak_function ak_alpha] in Q.
      unfold hard_sigmoid in Q. rewrite E in Q. discriminate.
  - cbn [safe eval]. right. split.
    + right. repeat split; auto. right. eexists; reflexivity.
    + intros E. pose proof (act_fin _ N) as [r Q]. unfold activation, akw_of in Q. rewrite Ka in Q. cbn [ak_function ak_alpha] in Q.
      unfold sigmoid in Q. rewrite E in Q. discriminate.
Qed.
Definition sfin (e : expr) : Prop := safe env e /\ is_fin (eval env e).
Lemma sf_of_gval e r : gval e r -> sfin e.
Proof. intros [[S _] E]. split; auto. exists r; auto. Qed.
Lemma sf_activation e : safe env e -> eval env e <> NaN -> sfin (e_activation k e).
Proof. intros S N. split; [apply safe_activation; auto|]. rewrite (ev_activation env k e _ eq_refl). apply act_fin; auto. Qed.
Lemma sf_min a b : sfin a -> sfin b -> sfin (EMin a b).
Proof. intros [S [x E]] [S' [y E']]. split; [cbn; auto|]. cbn. rewrite E, E'. eexists; reflexivity. Qed.
Lemma sf_max a b : sfin a -> sfin b -> sfin (EMax a b).
Proof. intros [S [x E]] [S' [y E']]. split; [cbn; auto|]. cbn. rewrite E, E'. eexists; reflexivity. Qed.
Lemma sf_sub a b : sfin a -> sfin b -> sfin (ESub a b).
Proof. intros [S [x E]] [S' [y E']]. split; [cbn; auto|]. cbn. rewrite E, E'. eexists; reflexivity. Qed.
Lemma sf_mul a b : sfin a -> sfin b -> sfin (EMul a b).
Proof. intros [S [x E]] [S' [y E']]. split; [apply safe_mul; auto; eexists; eauto|]. cbn. rewrite E, E'. eexists; reflexivity. Qed.
Lemma sf_add a b : sfin a -> sfin b -> sfin (EAdd a b).
Proof. intros [S [x E]] [S' [y E']]. split; [cbn; auto|]. cbn. rewrite E, E'. eexists; reflexivity. Qed.
Lemma sf_c r : sfin (C r).
Proof. split; [cbn; auto|]. eexists; reflexivity. Qed.
Lemma sf_seg_test a d tol : sfin a -> sfin d -> sfin (e_seg_test k a d tol).
Proof.
  intros [Sa [x Ea]] [Sd [y Ed]]. unfold e_seg_test. cbv zeta.
  set (d' := EWhere IsZero d (C 1) d). set (t := EWhere IsZero d (ECst PInf) (EDiv a d')).
  assert (Ed' : eval env d' = Fin (if Reqb y 0 then 1 else y)) by (apply ev_where0; auto).
  assert (Sd' : safe env d') by (cbn; auto).
  assert (St : safe env t).
  { cbn [t safe]. right. split; [cbn; auto|]. eapply safe_div; eauto; [eexists; eauto|apply reqb_guard]. }
  assert (Nt : eval env t <> NaN).
  { unfold t. cbn [eval]. destruct (holds IsZero (eval env d)); [discriminate|]. fold d'. rewrite Ea, Ed'. cbn.
    unfold fdiv. pose proof (reqb_guard y). unfold Reqb at 1. destruct (Req_EM_T (if Reqb y 0 then 1 else y) 0); [contradiction|discriminate]. }
  apply sf_min; unfold e_greater_equal, e_less_equal; apply sf_activation; cbn [eval]; try apply xsub_nn; auto; cbn; auto.
Qed.
Definition sfv (u : evec) : Prop := sfin (fst u) /\ sfin (snd u).
Lemma sfv_of_gvv u p : gvv u p -> sfv u.
Proof. intros [A B]. split; eapply sf_of_gval; eauto. Qed.
Lemma sfv_vsub u v : sfv u -> sfv v -> sfv (e_vsub u v).
Proof. intros [A B] [C D]. split; apply sf_sub; auto. Qed.
Lemma sf_segments_intersect P1 P2 P3 P4 tol : sfv P1 -> sfv P2 -> sfv P3 -> sfv P4 -> sfin (e_segments_intersect k P1 P2 P3 P4 tol).
Proof.
  intros H1 H2 H3 H4. pose proof (sfv_vsub _ _ H2 H1) as [A1 A2]. pose proof (sfv_vsub _ _ H3 H4) as [B1 B2].
  pose proof (sfv_vsub _ _ H1 H3) as [C1 C2].
  unfold e_segments_intersect. cbv zeta. apply sf_min; apply sf_seg_test; apply sf_sub; apply sf_mul; auto.
Qed.
Lemma sf_intersects w r0 r1 p q patch : gvv r0 p -> gvv r1 q -> sfin (e_intersects k (cwall w) r0 r1 patch).
Proof.
  intros A B. unfold e_intersects. apply sf_segments_intersect; try (eapply sfv_of_gvv; eauto; fail).
  - eapply sfv_of_gvv. apply gvv_vsub; [apply gvv_cvec|]. apply gvv_vscale; [apply gv_c|apply gvv_t].
  - eapply sfv_of_gvv. apply gvv_vadd; [apply gvv_cvec|]. apply gvv_vscale; [apply gv_c|apply gvv_t].
Qed.
Lemma fin_nn x : is_fin x -> x <> NaN.
Proof. intros [r ->]. discriminate. Qed.
Lemma sf_contains e s : gval e s -> sfin (e_contains k e).
Proof.
  intros H. pose proof (sf_of_gval _ _ H) as S. unfold e_contains, e_greater_equal, e_less_equal.
  apply sf_min; apply sf_activation; try apply fin_nn; apply sf_sub; auto using sf_c.
Qed.
Lemma sf_on_objects objs es ps : gvl es ps -> sfin (e_on_objects k es objs).
Proof.
  intros L. unfold e_on_objects. generalize (enumerate objs) (sf_c 1). generalize (C 1).
  intros e m. revert e. induction m as [|[i o] m IH]; intros e E; cbn [fold_left]; auto. apply IH. apply sf_min; auto.
  destruct o; cbn [e_obj_contains]; try apply sf_c; eapply sf_contains; apply gv_c2p; apply gvv_row; eauto.
Qed.
Lemma sf_iwo objs cand es ps patch : gvl es ps -> sfin (e_intersects_with_objects k es objs cand patch).
Proof.
  intros L. unfold e_intersects_with_objects. cbv zeta. generalize (sf_c 0). generalize (C 0). generalize (seq 0 (length es - 1)).
  induction l as [|i l IH]; intros e E; cbn [fold_left]; auto. apply IH.
  generalize (enumerate objs). intros m. revert e E.
  induction m as [|[j o] m IHm]; intros e E; cbn [fold_left]; auto. apply IHm.
  destruct (_ || _)%bool; auto. apply sf_max; auto.
  destruct o; cbn [e_obj_intersects]; try apply sf_c; eapply sf_intersects; apply gvv_row; eauto.
Qed.
Lemma sf_nan_to_num e : sfin e -> sfin (e_nan_to_num e).
Proof.
  intros [S F]. split; [|rewrite ev_nan_to_num; destruct F as [r ->]; eexists; reflexivity].
  unfold e_nan_to_num. cbv zeta. cbn. auto 20.
Qed.
Lemma sf_is_valid es ps le l objs cand inter tol patch : gvl es ps -> gval le l ->
  sfin (e_is_valid k es le objs cand inter tol patch).
Proof.
  intros L E. pose proof (sf_of_gval _ _ E) as SE. unfold e_is_valid. apply sf_nan_to_num.
  pose proof (sf_on_objects inter es ps L) as [S1 [x E1]].
  assert (S2' : sfin (ESub (C 1) (e_intersects_with_objects k es objs cand patch))) by (apply sf_sub; [apply sf_c|eapply sf_iwo; eauto]).
  destruct S2' as [S2 [y E2]].
  assert (S3' : sfin (e_less k le (C tol))).
  { unfold e_less. apply sf_activation; [|apply fin_nn]; apply sf_sub; auto using sf_c. }
  destruct S3' as [S3 [z E3]].
  split.
  - cbn [safe]. right. rewrite E1, E2, E3. repeat split; auto; discriminate.
  - cbn [eval] in *. rewrite E1, E2, E3. eexists; reflexivity.
Qed.
Lemma sf_term eps rc h tol patch objs tx rx t r cand ws : gvv tx t -> gvv rx r -> h <> 0 ->
  gen_pos eps t ws r -> sfin (e_term k eps rc h tol patch objs tx rx (cand, ws)).
Proof.
  intros T Rr Hh (G1 & G2 & G3). pose proof (gvl_image_points tx t ws rx r T Rr G1) as L.
  unfold e_term. apply sf_mul.
  - destruct ws as [|w ws].
    + eapply sf_is_valid; [apply L|apply gv_c].
    + eapply sf_is_valid; [apply L|apply gv_path_loss; [apply L|apply image_points_length|]].
      intros v Hv. apply G3; auto. discriminate.
  - destruct (gv_received_power eps _ _ rc h L G2 Hh) as [y Y]. eapply sf_of_gval; eauto.
Qed.
Lemma sf_facc eps rc h tol patch objs work tx rx t r : gvv tx t -> gvv rx r -> h <> 0 ->
  (forall cand ws, In (cand, ws) work -> gen_pos eps t ws r) ->
  sfin (e_facc k eps rc h tol patch objs work tx rx).
Proof.
  intros T Rr Hh. unfold e_facc. generalize (sf_c 0). generalize (C 0). induction work as [|[cand ws] work IH]; intros e E G; cbn [fold_left]; auto.
  apply IH; [|intros; eapply G; right; eauto]. apply sf_add; auto. eapply sf_term; eauto. eapply G. left; eauto.
Qed.
End Valid.
End Good.
