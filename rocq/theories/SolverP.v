(** Proofs about the objectives of the solver-based paths. *)
From Coq Require Import Reals List Bool ZArith Arith Lia Lra Psatz.
From Verif Require Import Base BaseP LogicM SpecLogic GeometryM OptimizeM PathM SpecGeometry SpecPath SpecOptimize SpecImage SpecSolver
  SegP VecP WallP ShapeP OptimizeP PathP PathSmoothP PathShapeP ImageP ImageExP.
Import ListNotations.
Open Scope R_scope.
Local Notation length := List.length.

(** ** Convexity *)
Definition vmix (t : R) (a b : vec) : vec := vadd (vscale (1 - t) a) (vscale t b).
Lemma norm_mix t u v : 0 <= t <= 1 -> norm (vmix t u v) <= (1 - t) * norm u + t * norm v.
Proof.
  intro H. unfold vmix. eapply Rle_trans; [apply norm_triangle|]. rewrite !norm_scale by lra. lra.
Qed.
Lemma path_length_mix eps t l : forall l', length l = length l' -> 0 <= t <= 1 ->
  path_length eps (map (fun ab => vmix t (fst ab) (snd ab)) (combine l l')) <=
  (1 - t) * path_length eps l + t * path_length eps l'.
Proof.
  induction l as [|p l IH]; intros [|p' l'] L T; cbn in L; try discriminate; [cbn; lra|].
  destruct l as [|q l], l' as [|q' l']; cbn in L; try discriminate; [cbn; lra|].
  specialize (IH (q' :: l') ltac:(cbn; lia) T).
  cbn [combine map fst snd] in IH |- *. rewrite !path_length_cons.
  match goal with |- norm ?x + _ <= _ =>
    replace x with (vmix t (fst q - fst p + eps, snd q - snd p + eps) (fst q' - fst p' + eps, snd q' - snd p' + eps))
      by (unfold vmix, vadd, vscale; apply vec_eq; cbn; ring) end.
  pose proof (norm_mix t (fst q - fst p + eps, snd q - snd p + eps) (fst q' - fst p' + eps, snd q' - snd p' + eps) T). lra.
Qed.
Lemma mix_length t a b : length a = length b -> length (mix t a b) = length a.
Proof. intro L. unfold mix. rewrite map_length, combine_length. lia. Qed.
Lemma mix_nth t a : forall b j, length a = length b -> nth j (mix t a b) 0 = (1 - t) * nth j a 0 + t * nth j b 0.
Proof.
  induction a as [|x a IH]; intros [|y b] j L; cbn in L; try discriminate; [destruct j; cbn; ring|].
  destruct j as [|j]; [reflexivity|]. cbn [nth mix combine map]. apply IH. lia.
Qed.
Lemma position_on_mix o t x y : position_on o ((1 - t) * x + t * y) = vmix t (position_on o x) (position_on o y).
Proof. destruct o; unfold position_on, at_, vmix, vadd, vscale; apply vec_eq; cbn; ring. Qed.
Lemma param_points_ext os ps qs rs f : 
  length ps = walls_before os (length os) -> length qs = length ps -> length rs = length ps ->
  (forall o j, position_on o (nth j ps 0) = f (position_on o (nth j qs 0)) (position_on o (nth j rs 0))) ->
  param_points os ps 0 = map (fun ab => f (fst ab) (snd ab)) (combine (param_points os qs 0) (param_points os rs 0)).
Proof.
  intros L L1 L2 F. apply nth_error_ext'. intro i. rewrite nth_error_map.
  destruct (nth_error os i) as [o|] eqn:E.
  - rewrite (param_points_nth ps os 0 i o E) by lia.
    rewrite (combine_nth_error _ _ i _ _ (param_points_nth qs os 0 i o E ltac:(lia)) (param_points_nth rs os 0 i o E ltac:(lia))).
    cbn [option_map fst snd]. f_equal. apply F.
  - apply nth_error_None in E. 
    assert (X : forall A (l : list A), length l = length os -> nth_error l i = None) by (intros; apply nth_error_None; lia).
    rewrite !X; auto; rewrite ?combine_length, ?param_points_length; auto. apply Nat.min_id.
Qed.
Lemma p2c_mix os tx rx t a b : length a = walls_before os (length os) -> length b = length a ->
  parametric_to_cartesian os (mix t a b) (length os) tx rx =
  map (fun ab => vmix t (fst ab) (snd ab))
    (combine (parametric_to_cartesian os a (length os) tx rx) (parametric_to_cartesian os b (length os) tx rx)).
Proof.
  intros La Lb. rewrite !p2c_eq. cbn [combine map fst snd].
  assert (X : forall p, vmix t p p = p) by (intro p; unfold vmix, vadd, vscale; apply vec_eq; cbn; ring).
  rewrite X. f_equal.
  assert (Y : forall l l' : list vec, length l = length l' ->
    combine (l ++ [rx]) (l' ++ [rx]) = combine l l' ++ [(rx, rx)]).
  { induction l as [|u l IH]; intros [|u' l'] L; cbn in L; try discriminate; [reflexivity|]. cbn. f_equal. apply IH. lia. }
  rewrite Y, map_app by (rewrite !param_points_length; auto). cbn [map fst snd]. rewrite X. f_equal.
  apply (param_points_ext os (mix t a b) a b (vmix t)); rewrite ?mix_length by lia; try lia.
  - intros o j. rewrite mix_nth by lia. apply position_on_mix.
Qed.
Lemma C78_convex_lemma eps os tx rx : convex (fermat_objective eps os tx rx) (walls_before os (length os)).
Proof.
  intros a b t La Lb T. unfold fermat_objective. rewrite p2c_mix by lia. apply path_length_mix; auto.
  rewrite !p2c_eq. cbn [length]. rewrite !app_length, !param_points_length. reflexivity.
Qed.
Lemma local_global f n a : convex f n -> local_minimum f n a -> global_minimum f n a.
Proof.
  intros C (La & r & Hr & M). split; auto. intros b Lb.
  set (D := fold_right (fun xy m => Rabs (snd xy - fst xy) + m) 0 (combine a b)).
  assert (D0 : 0 <= D).
  { unfold D. generalize (combine a b). induction l as [|u l IH]; cbn; [lra|]. pose proof (Rabs_pos (snd u - fst u)). lra. }
  set (t := Rmin 1 (r / (2 * (D + 1)))).
  assert (P : 0 < r / (2 * (D + 1))) by (apply Rdiv_lt_0_compat; lra).
  assert (T : 0 < t <= 1) by (unfold t; split; [apply Rmin_pos; lra|apply Rmin_l]).
  assert (TD : t * D < r).
  { assert (t <= r / (2 * (D + 1))) by apply Rmin_r.
    assert (r / (2 * (D + 1)) * (D + 1) = r / 2) by (field; lra).
    apply Rle_lt_trans with (r / 2); [|lra]. apply Rle_trans with (r / (2 * (D + 1)) * (D + 1)); [|lra].
    apply Rmult_le_compat; lra. }
  assert (K : close r a (mix t a b)).
  { unfold close. assert (LL : length a = length b) by lia. clear La Lb M C. clearbody t. unfold D in TD. clear D D0 P.
    revert b LL TD. induction a as [|x a IH]; intros [|y b] LL TD; cbn in LL; try discriminate; [constructor|].
    cbn [combine fold_right fst snd] in TD.
    assert (E0 : 0 <= fold_right (fun xy m => Rabs (snd xy - fst xy) + m) 0 (combine a b)).
    { generalize (combine a b). induction l as [|u l IHl]; cbn; [lra|]. pose proof (Rabs_pos (snd u - fst u)). lra. }
    pose proof (Rabs_pos (y - x)).
    constructor.
    - cbn [fst snd]. replace (x - ((1 - t) * x + t * y)) with (- (t * (y - x))) by ring.
      rewrite Rabs_Ropp, Rabs_mult, (Rabs_right t) by lra. nra.
    - apply IH; [lia|]. nra. }
  pose proof (M _ K). pose proof (C a b t La Lb ltac:(lra)). nra.
Qed.

(** ** The image path is the only shortest path *)
Lemma triangle_equality a b c : dist a c = dist a b + dist b c -> col b c a.
Proof.
  intro E. unfold col, cross, vsub. cbn [fst snd].
  assert (D1 := dist_nonneg a b). assert (D2 := dist_nonneg b c).
  assert (S : dist a c * dist a c = (dist a b + dist b c) * (dist a b + dist b c)) by (rewrite E; ring).
  pose proof (dist_sq a b) as Q1. pose proof (dist_sq b c) as Q2. rewrite (dist_sq a c) in S.
  set (x := dist a b) in *. set (y := dist b c) in *. clearbody x y.
  destruct a as [a1 a2], b as [b1 b2], c as [c1 c2]. cbn [fst snd] in *.
  assert (X : x * y = (a1 - b1) * (b1 - c1) + (a2 - b2) * (b2 - c2)).
  { transitivity (((x + y) * (x + y) - x * x - y * y) / 2); [field|]. rewrite <- S, Q1, Q2. field. }
  assert (Z : (x * x) * (y * y) = (x * y) * (x * y)) by ring. rewrite Q1, Q2, X in Z.
  assert (W : ((c1 - b1) * (a2 - b2) - (c2 - b2) * (a1 - b1)) * ((c1 - b1) * (a2 - b2) - (c2 - b2) * (a1 - b1)) = 0).
  { replace (((c1 - b1) * (a2 - b2) - (c2 - b2) * (a1 - b1)) * ((c1 - b1) * (a2 - b2) - (c2 - b2) * (a1 - b1)))
      with (((a1 - b1) ^ 2 + (a2 - b2) ^ 2) * ((b1 - c1) ^ 2 + (b2 - c2) ^ 2) -
            ((a1 - b1) * (b1 - c1) + (a2 - b2) * (b2 - c2)) * ((a1 - b1) * (b1 - c1) + (a2 - b2) * (b2 - c2))) by ring.
    rewrite Z. ring. }
  apply Rmult_integral in W. tauto.
Qed.
Lemma shortest_unique tx ws rx pts : gp tx ws rx -> visits tx ws rx pts ->
  polyline pts = dist (img tx ws (length ws)) rx -> pts = image_points tx ws rx.
Proof.
  intros GP (qs & EP & F) EQ. pose proof (Forall2_len _ _ _ F) as LQ.
  assert (LP : length pts = S (S (length ws))) by (subst pts; cbn; rewrite app_length; cbn; lia).
  assert (R0 : row pts 0 = tx) by (apply row_some; subst pts; reflexivity).
  assert (RN : row pts (S (length ws)) = rx).
  { apply row_some. subst pts. cbn [nth_error]. rewrite nth_error_app2 by lia. rewrite LQ, Nat.sub_diag. reflexivity. }
  assert (ON : forall i w, nth_error ws i = Some w -> on_line (w_origin w) (w_dest w) (row pts (S i))).
  { intros i w Hw. assert (Hi : (i < length ws)%nat) by (apply nth_error_Some; congruence).
    destruct (nth_error qs i) as [q|] eqn:Eq; [|apply nth_error_None in Eq; lia].
    replace (row pts (S i)) with q; [apply (Forall2_nth _ _ _ F i); auto|].
    symmetry. apply row_some. subst pts. cbn [nth_error]. rewrite nth_error_app1 by lia. auto. }
  assert (FX : forall m w, nth_error ws m = Some w -> image_of w (row pts (S m)) = row pts (S m))
    by (intros m w E; apply on_line_fixed; auto).
  assert (G : forall m, (m <= length ws)%nat -> dist (img tx ws m) (row pts (S m)) <= steps pts (S m)).
  { induction m as [|m IH]; intro Hm.
    - unfold steps. cbn [seq map]. unfold sumR. cbn [fold_right]. rewrite img_0, R0. lra.
    - rewrite steps_S. destruct (nth_error ws m) as [w|] eqn:E; [|apply nth_error_None in E; lia].
      rewrite (img_S tx ws m w E). eapply Rle_trans; [apply (dist_triangle _ (row pts (S m)))|].
      rewrite <- (FX m w E) at 1. rewrite image_isometry. specialize (IH ltac:(lia)). lra. }
  assert (TIGHT : forall d m, (m + d = length ws)%nat -> dist (img tx ws m) (row pts (S m)) = steps pts (S m)).
  { induction d as [|d IH]; intros m E.
    - replace m with (length ws) by lia. rewrite RN, <- EQ, polyline_steps, LP. reflexivity.
    - specialize (IH (S m) ltac:(lia)). rewrite steps_S in IH.
      destruct (nth_error ws m) as [w|] eqn:Ew; [|apply nth_error_None in Ew; lia].
      rewrite (img_S tx ws m w Ew) in IH. pose proof (G m ltac:(lia)) as Gm.
      pose proof (dist_triangle (image_of w (img tx ws m)) (row pts (S m)) (row pts (S (S m)))) as T.
      rewrite <- (FX m w Ew) in T at 1. rewrite image_isometry in T. lra. }
  assert (COL : forall m w, nth_error ws m = Some w -> col (row pts (S m)) (row pts (S (S m))) (img tx ws (S m))).
  { intros m w Ew. assert (Hm : (m < length ws)%nat) by (apply nth_error_Some; congruence).
    apply triangle_equality. pose proof (TIGHT (length ws - m)%nat m ltac:(lia)) as T1.
    pose proof (TIGHT (length ws - S m)%nat (S m) ltac:(lia)) as T2. rewrite steps_S in T2.
    rewrite T2. f_equal. rewrite <- T1, (img_S tx ws m w Ew). rewrite <- (FX m w Ew) at 2. symmetry. apply image_isometry. }
  assert (P : forall d k, (k + d = S (length ws))%nat -> (1 <= k)%nat -> pt tx ws rx k = row pts k).
  { induction d as [|d IH]; intros k E K1.
    - replace k with (S (length ws)) by lia. rewrite pt_last, RN. reflexivity.
    - destruct k as [|k]; [lia|]. 
      destruct (nth_error ws k) as [w|] eqn:Ew; [|apply nth_error_None in Ew; lia].
      pose proof (IH (S (S k)) ltac:(lia) ltac:(lia)) as IHk.
      rewrite (pt_S tx ws rx k w Ew). rewrite IHk.
      symmetry. destruct (gp_step tx ws rx k w GP Ew) as (PW & _). apply backward_unique.
      + apply on_line_side; auto.
      + apply (COL k w Ew).
      + rewrite <- IHk. apply (proj1 GP k w Ew). }
  apply nth_error_ext'. intro i. destruct (Nat.le_gt_cases i (S (length ws))) as [H|H].
  - rewrite pt_nth, row_nth by lia. f_equal. destruct i as [|i]; [rewrite pt_0, R0; auto|].
    symmetry. apply (P (length ws - i)%nat); lia.
  - transitivity (@None vec); [|symmetry]; apply nth_error_None; rewrite ?pts_length; lia.
Qed.

(** ** The image path among the parametrised ones *)
Lemma walls_count ws : walls_before (map OWall ws) (length ws) = length ws.
Proof.
  rewrite <- (map_length OWall ws) at 1. rewrite <- count_params. unfold n_unknowns.
  assert (X : forall l a, fold_left (fun a o => (a + parameters_count o)%nat) (map OWall l) a = (a + length l)%nat)
    by (induction l as [|w l IH]; intro a; cbn; [lia|rewrite IH; cbn; lia]).
  apply X.
Qed.
Lemma p2c_visits tx ws rx theta : length theta = length ws ->
  visits tx ws rx (parametric_to_cartesian (map OWall ws) theta (length ws) tx rx).
Proof.
  intro L. rewrite <- (map_length OWall ws). rewrite p2c_eq.
  exists (param_points (map OWall ws) theta 0). split; auto.
  pose proof (fun i o H => param_points_nth theta (map OWall ws) 0 i o H) as N. rewrite map_length, walls_count in N.
  assert (H : forall i w q, nth_error ws i = Some w -> nth_error (param_points (map OWall ws) theta 0) i = Some q ->
    on_line (w_origin w) (w_dest w) q).
  { intros i w q Hw Hq. rewrite (N i (OWall w)) in Hq; [|rewrite nth_error_map, Hw; reflexivity|lia]. injection Hq as <-.
    eexists. reflexivity. }
  assert (LP : length (param_points (map OWall ws) theta 0) = length ws) by (rewrite param_points_length, map_length; auto).
  revert H LP. generalize (param_points (map OWall ws) theta 0). clear. induction ws as [|w ws IH]; intros [|q qs] H L; try discriminate; constructor.
  - apply (H O); reflexivity.
  - apply IH; [|cbn in L; lia]. intros i. apply (H (S i)).
Qed.
Lemma visits_p2c tx ws rx pts : visits tx ws rx pts ->
  exists theta, length theta = length ws /\ parametric_to_cartesian (map OWall ws) theta (length ws) tx rx = pts.
Proof.
  intros (qs & -> & F).
  assert (X : exists theta, length theta = length ws /\
    forall i w q, nth_error ws i = Some w -> nth_error qs i = Some q -> q = at_ (w_origin w) (w_dest w) (nth i theta 0)).
  { induction F as [|w q ws qs [t Ht] F (theta & L & H)]; [exists []; split; auto; intros [|i]; discriminate|].
    exists (t :: theta). split; [cbn; auto|]. intros [|i] w' q' Hw Hq; cbn in Hw, Hq.
    - injection Hw as <-. injection Hq as <-. exact Ht.
    - cbn [nth]. apply (H i); auto. }
  destruct X as (theta & L & H). exists theta. split; auto.
  pose proof (Forall2_len _ _ _ F) as LQ.
  rewrite <- (map_length OWall ws). rewrite p2c_eq. f_equal. f_equal. apply nth_error_ext'. intro i.
  destruct (nth_error ws i) as [w|] eqn:Ew.
  - assert (i < length ws)%nat by (apply nth_error_Some; congruence).
    rewrite (param_points_nth theta (map OWall ws) 0 i (OWall w));
      [|rewrite nth_error_map, Ew; reflexivity|rewrite map_length, walls_count; lia].
    destruct (nth_error qs i) as [q|] eqn:Eq; [|apply nth_error_None in Eq; lia].
    f_equal. rewrite (H i w q Ew Eq). cbn [position_on]. f_equal. f_equal. 
    assert (WB : walls_before (map OWall ws) i = i).
    { clear - H0. unfold walls_before. rewrite firstn_map. revert i H0. induction ws as [|w ws IH]; intros [|i] H; cbn in H; try lia; [reflexivity|].
      cbn [firstn map filter wall_of length]. f_equal. apply IH. lia. }
    rewrite WB. lia.
  - apply nth_error_None in Ew. transitivity (@None vec); [|symmetry]; apply nth_error_None; rewrite ?param_points_length, ?map_length; lia.
Qed.

(** C78 *)
Lemma C33_only tx ws rx p pts : ImagePath_from tx (map OWall ws) rx = Ok p -> general_position tx ws (xys p) ->
  (forall i w, nth_error ws i = Some w -> true_reflection (xys p) i w) ->
  visits tx ws rx pts -> polyline pts <= polyline (xys p) -> pts = xys p.
Proof.
  intros HP HG HT V LE. destruct (image_path_walls _ _ _ _ HP) as [X _]. rewrite X in *. apply gp_iff in HG.
  rewrite (C33_length tx ws rx HG HT) in LE. pose proof (C33_lower tx ws rx pts V). apply shortest_unique; auto. lra.
Qed.
Lemma C33_shortest tx ws rx p pts : ImagePath_from tx (map OWall ws) rx = Ok p -> general_position tx ws (xys p) ->
  (forall i w, nth_error ws i = Some w -> true_reflection (xys p) i w) ->
  visits tx ws rx pts -> polyline (xys p) <= polyline pts.
Proof.
  intros HP HG HT V. destruct (image_path_walls _ _ _ _ HP) as [X _]. rewrite X in *. apply gp_iff in HG.
  rewrite (C33_length tx ws rx HG HT). apply C33_lower. auto.
Qed.
Lemma C33_visits tx ws rx p : ImagePath_from tx (map OWall ws) rx = Ok p -> general_position tx ws (xys p) ->
  (forall i w, nth_error ws i = Some w -> true_reflection (xys p) i w) -> visits tx ws rx (xys p).
Proof.
  intros HP HG HT.
  apply (C33_lemma tx ws rx p (imgs_of tx ws) (img tx ws (length ws)) HP HG HT); [|apply img_nth; lia].
  apply (chain_eq _ _ ws); [apply as_walls_map|reflexivity].
Qed.
Lemma true_loss tx ws rx p : ImagePath_from tx (map OWall ws) rx = Ok p -> general_position tx ws (xys p) ->
  (forall i w, nth_error ws i = Some w -> true_reflection (xys p) i w) -> loss p = Fin 0.
Proof.
  intros HP HG HT. destruct (C32_lemma tx ws rx p HP HG) as (flags & LF & _ & E).
  pose proof (proj2 (C32_test tx ws rx p 4 HP HG ltac:(lra)) HT) as B. rewrite E in B |- *. cbn in B.
  f_equal. assert (C : INR (count_occ Bool.bool_dec flags true) < 1) by lra.
  assert (count_occ Bool.bool_dec flags true = 0)%nat by (change 1 with (INR 1) in C; apply INR_lt in C; lia).
  rewrite H. cbn. ring.
Qed.
Lemma length_bound eps pts n : 0 <= eps -> length pts = (n + 2)%nat ->
  Rabs (path_length eps pts - polyline pts) <= INR (n + 1) * (sqrt 2 * eps).
Proof. intros H L. replace (n + 1)%nat with (length pts - 1)%nat by lia. apply path_length_error; auto. Qed.
Lemma visits_length tx ws rx pts : visits tx ws rx pts -> length pts = (length ws + 2)%nat.
Proof. intros (qs & -> & F). pose proof (Forall2_len _ _ _ F). cbn. rewrite app_length. cbn. lia. Qed.
Lemma C78_image tx ws rx p eps : ImagePath_from tx (map OWall ws) rx = Ok p -> general_position tx ws (xys p) ->
  (forall i w, nth_error ws i = Some w -> true_reflection (xys p) i w) -> 0 <= eps ->
  exists theta, length theta = length ws /\
    parametric_to_cartesian (map OWall ws) theta (length ws) tx rx = xys p /\
    forall other, length other = length ws ->
    fermat_objective eps (map OWall ws) tx rx theta <=
    fermat_objective eps (map OWall ws) tx rx other + 2 * INR (length ws + 1) * (sqrt 2 * eps).
Proof.
  intros HP HG HT E. destruct (visits_p2c tx ws rx (xys p)) as (theta & L & X); [apply C33_visits; auto|].
  exists theta. split; auto. split; auto. intros other Lo.
  unfold fermat_objective. rewrite map_length, X.
  pose proof (p2c_visits tx ws rx other Lo) as V.
  pose proof (C33_shortest tx ws rx p _ HP HG HT V) as S.
  pose proof (length_bound eps (xys p) (length ws) E (visits_length _ _ _ _ (C33_visits tx ws rx p HP HG HT))) as B1.
  pose proof (length_bound eps _ (length ws) E (visits_length _ _ _ _ V)) as B2.
  set (b := INR (length ws + 1) * (sqrt 2 * eps)) in *.
  replace (2 * INR (length ws + 1) * (sqrt 2 * eps)) with (2 * b) by (unfold b; ring).
  unfold Rabs in B1, B2. destruct (Rcase_abs _) in B1; destruct (Rcase_abs _) in B2; lra.
Qed.
Lemma fermat_inv eps s P key tx ws rx q : ws <> [] ->
  FermatPath_from eps s P key tx (map OWall ws) rx = Ok q ->
  exists theta l, minimize_many_random_uniform P (fermat_objective eps (map OWall ws) tx rx)
    (sv_grad s (fermat_objective eps (map OWall ws) tx rx)) (sv_opt s) (sv_steps s) key (length ws) (sv_many s) = Ok (theta, l) /\
  xys q = parametric_to_cartesian (map OWall ws) theta (length ws) tx rx /\
  loss q = Fin (path_loss (map OWall ws) (xys q)).
Proof.
  intros N E. destruct ws as [|w0 ws']; [contradiction|]. set (ws := w0 :: ws') in *.
  unfold FermatPath_from in E. change (map OWall ws) with (OWall w0 :: map OWall ws') in E at 1. cbv beta iota zeta in E.
  rewrite count_params, map_length, walls_count in E.
  destruct (minimize_many_random_uniform _ _ _ _ _ _ _ _) as [[th l]|] eqn:Em; cbn [rbind] in E; [|discriminate].
  inversion E; subst q. exists th, l. cbn [xys loss]. auto.
Qed.
Lemma C78_converged tx ws rx p q eps s P key : ws <> [] ->
  ImagePath_from tx (map OWall ws) rx = Ok p -> general_position tx ws (xys p) ->
  (forall i w, nth_error ws i = Some w -> true_reflection (xys p) i w) -> 0 <= eps ->
  FermatPath_from eps s P key tx (map OWall ws) rx = Ok q ->
  converged P s key (fermat_objective eps (map OWall ws) tx rx) (length ws) ->
  visits tx ws rx (xys q) /\
  polyline (xys p) <= polyline (xys q) <= polyline (xys p) + 2 * INR (length ws + 1) * (sqrt 2 * eps).
Proof.
  intros N HP HG HT E HF C. destruct (fermat_inv _ _ _ _ _ _ _ _ N HF) as (th & l & Em & Xq & _).
  specialize (C th l Em).
  pose proof (C78_convex_lemma eps (map OWall ws) tx rx) as CV. rewrite map_length, walls_count in CV.
  destruct (local_global _ _ _ CV C) as [Lt M].
  pose proof (p2c_visits tx ws rx th Lt) as V. rewrite <- Xq in V. split; auto.
  split; [apply (C33_shortest tx ws rx); auto|].
  destruct (visits_p2c tx ws rx (xys p)) as (theta & L & X); [apply C33_visits; auto|].
  specialize (M theta L). unfold fermat_objective in M. rewrite map_length, X, <- Xq in M.
  pose proof (length_bound eps (xys p) (length ws) E (visits_length _ _ _ _ (C33_visits tx ws rx p HP HG HT))) as B1.
  pose proof (length_bound eps _ (length ws) E (visits_length _ _ _ _ V)) as B2.
  set (b := INR (length ws + 1) * (sqrt 2 * eps)) in *.
  replace (2 * INR (length ws + 1) * (sqrt 2 * eps)) with (2 * b) by (unfold b; ring).
  unfold Rabs in B1, B2. destruct (Rcase_abs _) in B1; destruct (Rcase_abs _) in B2; lra.
Qed.
Lemma C78_converged_exact tx ws rx p q s P key : ws <> [] ->
  ImagePath_from tx (map OWall ws) rx = Ok p -> general_position tx ws (xys p) ->
  (forall i w, nth_error ws i = Some w -> true_reflection (xys p) i w) ->
  FermatPath_from 0 s P key tx (map OWall ws) rx = Ok q ->
  converged P s key (fermat_objective 0 (map OWall ws) tx rx) (length ws) -> q = p.
Proof.
  intros N HP HG HT HF C.
  destruct (C78_converged tx ws rx p q 0 s P key N HP HG HT (Rle_refl 0) HF C) as (V & _ & B).
  assert (X : xys q = xys p) by (apply (C33_only tx ws rx p); auto; nra).
  destruct (fermat_inv _ _ _ _ _ _ _ _ N HF) as (th & l & _ & _ & Lq).
  destruct (image_path_walls _ _ _ _ HP) as [_ Lp]. rewrite X, <- Lp in Lq.
  destruct p, q. cbn in *. congruence.
Qed.

(** C79 *)
Lemma min_nonneg ws tx rx theta : 0 <= min_objective (map OWall ws) tx rx theta.
Proof.
  unfold min_objective. rewrite path_loss_eq. 
  set (pts := parametric_to_cartesian _ _ _ _ _).
  assert (X : forall l, (forall x, In x l -> 0 <= x) -> 0 <= sumR l).
  { induction l as [|x l IH]; intro H; [cbn; lra|]. change (sumR (x :: l)) with (x + sumR l).
    assert (0 <= x) by (apply H; cbn; auto). assert (0 <= sumR l); [|lra]. apply IH. intros y Hy. apply H. cbn. auto. }
  apply X. intros x Hx. apply (evals_nonneg _ _ _ Hx).
Qed.
Lemma C79_image tx ws rx p : ImagePath_from tx (map OWall ws) rx = Ok p -> general_position tx ws (xys p) ->
  (forall i w, nth_error ws i = Some w -> true_reflection (xys p) i w) ->
  exists theta, length theta = length ws /\
    parametric_to_cartesian (map OWall ws) theta (length ws) tx rx = xys p /\
    min_objective (map OWall ws) tx rx theta = 0.
Proof.
  intros HP HG HT. destruct (visits_p2c tx ws rx (xys p)) as (theta & L & X); [apply C33_visits; auto|].
  exists theta. split; auto. split; auto. unfold min_objective. rewrite map_length, X.
  pose proof (true_loss tx ws rx p HP HG HT) as Z. destruct (image_path_walls _ _ _ _ HP) as [_ Lp].
  rewrite Lp in Z. inversion Z. auto.
Qed.
Lemma C79_zero tx ws rx p theta : ImagePath_from tx (map OWall ws) rx = Ok p -> length theta = length ws ->
  min_objective (map OWall ws) tx rx theta = 0 ->
  let pts := parametric_to_cartesian (map OWall ws) theta (length ws) tx rx in
  (forall i w A Q B, nth_error ws i = Some w -> nth_error pts i = Some A -> nth_error pts (S i) = Some Q ->
     nth_error pts (S (S i)) = Some B -> side_of w A <> 0 /\ Q <> B) ->
  pts = xys p /\ loss p = Fin 0.
Proof.
  intros HP L Z pts ND. pose proof (p2c_visits tx ws rx theta L) as V. fold pts in V.
  assert (R : xys p = pts /\ loss p = Fin 0); [|destruct R; auto].
  apply (C64_lemma tx ws rx p pts HP V). intros i w A Q B Hw HA HQ HB.
  destruct (ND i w A Q B Hw HA HQ HB) as [S N]. split; auto. split; auto. intros u v Du Dv.
  apply (evaluate_zero w A Q B u v); auto; [apply (side_proper w A S)|].
  unfold min_objective in Z. rewrite map_length in Z. fold pts in Z.
  pose proof (loss_ge ws pts i w Hw) as G. rewrite Z in G.
  rewrite (row_some _ _ _ HA), (row_some _ _ _ HQ), (row_some _ _ _ HB) in G.
  apply Rle_antisym; auto. apply evaluate_range.
Qed.

Lemma min_traj_lemma s P key tx os rx q : os <> [] -> MinPath_from s P key tx os rx = Ok q ->
  let f := min_objective os tx rx in
  exists k x st, x 0%nat = runiform P k (walls_before os (length os)) /\
    trajectory (sv_grad s f) (sv_opt s) x st (sv_steps s) /\
    xys q = parametric_to_cartesian os (x (sv_steps s)) (length os) tx rx /\
    loss q = Fin (f (x (sv_steps s - 1)%nat)).
Proof.
  intros N E f. unfold MinPath_from in E. destruct os as [|o0 os']; [contradiction|]. cbv beta iota zeta in E.
  set (os := o0 :: os') in *. fold f in E. rewrite count_params in E.
  destruct (minimize_many_random_uniform _ _ _ _ _ _ _ _) as [[th l]|] eqn:Em; cbn [rbind] in E; [|discriminate].
  inversion E; subst q. cbn [xys loss]. apply many_is_trial in Em. destruct Em as [k Em]. exists k.
  unfold minimize_random_uniform in Em.
  destruct (traj_exists f (sv_grad s f) (sv_opt s) (sv_steps s) (runiform P k (walls_before os (length os)))) as (x & st & X0 & T).
  exists x, st. split; auto. split; auto.
  destruct (sv_steps s) as [|n] eqn:Es; [rewrite minimize_zero in Em; discriminate|].
  rewrite <- X0 in Em. rewrite (minimize_traj f _ _ (S n) x st) in Em; auto; [|lia]. inversion Em. subst. auto.
Qed.
Lemma fermat_loss eps s P key tx os rx q : FermatPath_from eps s P key tx os rx = Ok q ->
  loss q = Fin (path_loss os (xys q)).
Proof.
  unfold FermatPath_from. destruct os as [|o0 os']; [intro E; inversion E; subst q; reflexivity|]. cbv beta iota zeta.
  destruct (minimize_many_random_uniform _ _ _ _ _ _ _ _) as [[th l]|]; cbn [rbind]; [|discriminate].
  intro E. inversion E. reflexivity.
Qed.

(** ** Examples *)
Definition ex_ws := [mkwall (0, 0) (2, 0); mkwall (3, 0) (3, 4)].
Definition ex_prng : prng := mkprng unit (fun k n => repeat k n) (fun _ _ => [7 / 8; 5 / 12]).
Definition ex_solver : solver := mksolver (fun _ x => x) (mkoptimizer unit (fun _ => tt) (fun g st => (map (fun _ => 0) g, st))) 3 1.
Lemma ex_runs eps : let f := fermat_objective eps (map OWall ex_ws) (1, 1) (2, 3) in
  minimize_many_random_uniform ex_prng f (sv_grad ex_solver f) (sv_opt ex_solver) (sv_steps ex_solver) tt 2 (sv_many ex_solver) =
  Ok ([7 / 8; 5 / 12], f [7 / 8; 5 / 12]).
Proof.
  intro f.
  pose proof (minimize_traj f (sv_grad ex_solver f) (sv_opt ex_solver) 3 (fun _ => [7 / 8; 5 / 12]) (fun _ => tt)) as M.
  apply M; [lia|]. split; [reflexivity|]. intros i _. split; [|reflexivity]. cbn. f_equal; [ring|]. f_equal. ring.
Qed.
Lemma converged_example :
  (exists q, FermatPath_from 0 ex_solver ex_prng tt (1, 1) (map OWall ex_ws) (2, 3) = Ok q) /\
  converged ex_prng ex_solver tt (fermat_objective 0 (map OWall ex_ws) (1, 1) (2, 3)) 2.
Proof.
  split.
  - unfold FermatPath_from. cbn [map ex_ws]. change [OWall (mkwall (0, 0) (2, 0)); OWall (mkwall (3, 0) (3, 4))] with (map OWall ex_ws).
    change (n_unknowns (map OWall ex_ws)) with 2%nat. cbv zeta. rewrite (ex_runs 0). cbn [rbind]. eauto.
  - intros theta l E. cbv zeta in E. rewrite (ex_runs 0) in E. injection E as <- <-.
    destruct two_walls_example as (p & HP & X & G & T). fold ex_ws in HP, G, T.
    assert (XE : parametric_to_cartesian (map OWall ex_ws) [7 / 8; 5 / 12] 2 (1, 1) (2, 3) = xys p).
    { rewrite X. change 2%nat with (length (map OWall ex_ws)). rewrite p2c_eq.
      cbn -[Rdiv]. unfold wall_p2c, vadd, vscale, wall_t, dest, origin, vsub. cbn -[Rdiv].
      f_equal. f_equal; [f_equal; field|]. f_equal. f_equal; field. }
    split; [reflexivity|]. exists 1. split; [lra|]. intros b C.
    pose proof (Forall2_len _ _ _ C) as L. cbn in L.
    destruct (C78_image (1, 1) ex_ws (2, 3) p 0 HP G T (Rle_refl 0)) as (th & Lt & Xt & M).
    specialize (M b ltac:(cbn; lia)).
    assert (Eq : fermat_objective 0 (map OWall ex_ws) (1, 1) (2, 3) [7 / 8; 5 / 12] = fermat_objective 0 (map OWall ex_ws) (1, 1) (2, 3) th).
    { unfold fermat_objective. rewrite map_length. change (length ex_ws) with 2%nat. change (length ex_ws) with 2%nat in Xt. rewrite XE, Xt. reflexivity. }
    rewrite Eq. lra.
Qed.
(** The reported loss of a [MinPath] may hide a broken reflection. *)
Definition jump_prng : prng := mkprng unit (fun k n => repeat k n) (fun _ _ => [1 / 2]).
Definition jump_solver : solver := mksolver (fun _ x => x) (mkoptimizer unit (fun _ => tt) (fun g st => (map (fun _ => 1 / 2) g, st))) 1 1.
Lemma stale_example : forall g k,
  let w := mkwall (0, 0) (2, 0) in
  exists q l, MinPath_from jump_solver jump_prng tt (0, 1) [OWall w] (2, 1) = Ok q /\
  xys q = [(0, 1); (2, 0); (2, 1)] /\
  is_valid g q [OWall w] [0%Z] [OWall w] DEFAULT_TOL DEFAULT_PATCH (Some false) k = Ok (TB true) /\
  path_loss [OWall w] (xys q) = l /\ 4 / 5 <= l.
Proof.
  intros g k w. eexists _, _. split; [unfold MinPath_from; cbn; reflexivity|]. cbn [xys loss].
  assert (X : [(0, 1); wall_p2c w (1 / 2 + 1 / 2); (2, 1)] = [(0, 1); (2, 0); (2, 1)]).
  { unfold wall_p2c, vadd, vscale, wall_t, dest, origin, vsub, w. cbn. f_equal. f_equal. f_equal; field. }
  assert (PW : proper w) by (intro E; injection E; lra).
  split; [exact X|]. split; [|split; [reflexivity|]].
  - match goal with |- is_valid _ ?q _ _ _ _ _ _ _ = _ => set (Q := q) end.
    assert (XQ : xys Q = [(0, 1); (2, 0); (2, 1)]) by exact X.
    assert (LQ : loss Q = Fin 0).
    { unfold Q. cbn [loss]. f_equal. unfold min_objective, path_loss. cbn.
      rewrite Rplus_0_l. unfold p2c_from_slice. cbn.
      apply (evaluate_zero w _ _ _ (fst (normalize (1, -1))) (fst (normalize (1, 1))) PW).
      - replace (vsub (wall_p2c w (1 / 2)) (0, 1)) with (1, -1) by (unfold wall_p2c, vadd, vscale, wall_t, dest, origin, vsub, w; cbn; f_equal; field).
        apply normalize_direction.
      - replace (vsub (2, 1) (wall_p2c w (1 / 2))) with (1, 1) by (unfold wall_p2c, vadd, vscale, wall_t, dest, origin, vsub, w; cbn; f_equal; field).
        apply normalize_direction.
      - assert (N : norm (1, -1) = norm (1, 1)) by (unfold norm, dot; cbn; f_equal; ring).
        unfold normalize. rewrite N. destruct (Reqb (norm (1, 1)) 0); unfold specular, w; cbn; lra. }
    destruct (C38_lemma g Q [OWall w] [0%Z] [OWall w] DEFAULT_TOL DEFAULT_PATCH k) as (b & Eb & Hb).
    { rewrite XQ. cbn. lia. } { rewrite XQ. cbn. lia. }
    rewrite Eb. f_equal. f_equal. apply Hb. split; [|split].
    + rewrite LQ. cbn. unfold DEFAULT_TOL. lra.
    + rewrite XQ. intros i o w' q Ho Hw Hq. destruct i as [|i]; cbn in Ho; [|destruct i; discriminate].
      injection Ho as <-. cbn in Hw. injection Hw as <-. cbn in Hq. injection Hq as <-.
      exists 1. split; [lra|]. unfold projects_at, at_. cbn. lra.
    + rewrite XQ. intros (i & j & A & B & o & w' & [HA HB] & Ho & Hw & NT & _).
      destruct j as [|j]; cbn in Ho; [|destruct j; discriminate]. apply NT.
      destruct i as [|[|i]]; cbn in HA, HB; try discriminate; [left; reflexivity|right; eexists; split; reflexivity|destruct i; discriminate].
  - change (4 / 5 <= path_loss [OWall w] [(0, 1); wall_p2c w (1 / 2 + 1 / 2); (2, 1)]). rewrite X.
    unfold path_loss. cbn. rewrite Rplus_0_l. rewrite evaluate_eq. cbn zeta.
    assert (S5 : 0 < sqrt 5) by (apply sqrt_lt_R0; lra). assert (Q5 : sqrt 5 * sqrt 5 = 5) by (apply sqrt_sqrt; lra).
    rewrite (direction_normalize (vsub (2, 0) (0, 1)) (2 / sqrt 5, -1 / sqrt 5)).
    + rewrite (direction_normalize (vsub (2, 1) (2, 0)) (0, 1)).
      * rewrite mir_eq by auto. cbn zeta. unfold len2, tvx, tvy, wall_t, w, origin, dest, vsub, dot. cbn [fst snd w_origin w_dest].
        match goal with |- _ <= ?a * ?a + ?b * ?b => set (u := a); set (v := b) end.
        assert (UU : u * u = 4 / 5). { unfold u. replace (4 / 5) with (4 / (sqrt 5 * sqrt 5)) by (rewrite Q5; reflexivity). field. lra. }
        nra.
      * right. split; [cbn; ring|]. exists 1. split; [lra|]. unfold vsub. cbn. f_equal; ring.
    + right. cbn [fst snd]. split.
      * replace ((2 / sqrt 5) ^ 2 + (-1 / sqrt 5) ^ 2) with (5 / (sqrt 5 * sqrt 5)) by (field; lra). rewrite Q5. field.
      * exists (sqrt 5). split; auto. unfold vsub. cbn. f_equal; field; lra.
Qed.
