(** Proofs: gradient descent makes the Fermat path converge to the image path. *)
From Coq Require Import Reals List Bool ZArith Lia Lra Psatz.
From Verif Require Import Base BaseP LogicM SpecLogic GeometryM SpecGeometry VecP OptimizeM SpecOptimize OptimizeP PathM SpecPath PathShapeP SpecImage ImageP ImageExP WallP SpecSolver SolverP SpecRun SpecCont ContP ContPathP ContImageP SpecDescent DescentP.
Import ListNotations.
Local Notation length := List.length.
Open Scope R_scope.

Lemma fermat_th eps s P key tx ws rx q : ws <> [] -> FermatPath_from eps s P key tx (map OWall ws) rx = Ok q ->
  exists th l, minimize_many_random_uniform P (fermat_objective eps (map OWall ws) tx rx)
    (sv_grad s (fermat_objective eps (map OWall ws) tx rx)) (sv_opt s) (sv_steps s) key (length ws) (sv_many s) = Ok (th, l) /\
  xys q = parametric_to_cartesian (map OWall ws) th (length ws) tx rx /\ loss q = Fin (path_loss (map OWall ws) (xys q)).
Proof. apply fermat_inv. Qed.

Lemma rate_lemma d D eta eps grad steps many P key tx ws rx q theta : ws <> [] -> step_fits d D eta eps tx ws rx ->
  (1 <= steps)%nat -> unit_draws P ->
  (forall x, length x = length ws -> is_gradient_of (fermat_objective eps (map OWall ws) tx rx) x (grad (fermat_objective eps (map OWall ws) tx rx) x)) ->
  FermatPath_from eps (mksolver grad (sgd eta) steps many) P key tx (map OWall ws) rx = Ok q -> length theta = length ws ->
  path_length eps (xys q) <= fermat_objective eps (map OWall ws) tx rx theta + reach theta / (2 * eta * INR steps).
Proof.
  intros N (Hd & HD & HW & HL & He & Ht & Hs) S1 U G E L. destruct (fermat_th _ _ _ _ _ _ _ _ N E) as (th & l & M & X & _).
  cbn [sv_grad sv_opt sv_steps sv_many] in M.
  destruct (rate_core eps d D eta P _ steps key many tx ws rx th l theta Hd HD HW (legs_ok eps d tx ws rx He HL) Ht Hs S1 U G M L) as [Lt B].
  assert (Ef : path_length eps (xys q) = fermat_objective eps (map OWall ws) tx rx th) by (unfold fermat_objective; rewrite X, map_length; auto).
  rewrite Ef. assert (Is : 0 < INR steps) by (apply lt_0_INR; lia). assert (0 < 2 * eta * INR steps) by (apply Rmult_lt_0_compat; lra).
  set (f := fermat_objective eps (map OWall ws) tx rx) in *.
  assert (f th - f theta <= reach theta / (2 * eta * INR steps)); [|lra]. apply le_div; auto. lra.
Qed.

Lemma above x : exists n, x < INR n.
Proof.
  destruct (Rle_or_lt x 0) as [H|H]; [exists 1%nat; cbn; lra|]. destruct (archimed x) as [A _]. exists (Z.to_nat (up x)).
  rewrite INR_IZR_INZ, Z2Nat.id; auto. apply le_IZR. cbn. lra.
Qed.
Lemma legs0_at_least d tx ws rx : legs_at_least d tx ws rx -> legs_at_least (d + sqrt 2 * 0) tx ws rx.
Proof. rewrite Rmult_0_r, Rplus_0_r. auto. Qed.

(** Both ends coincide, the points between are near: the paths are near. *)
Lemma points_near tx rx ps qs e : 0 < e -> Forall2 (fun p q => norm (vsub p q) < e) ps qs ->
  Forall2 (fun a b => dist a b < e) (tx :: ps ++ [rx]) (tx :: qs ++ [rx]).
Proof.
  intros He F. assert (Z : forall x, dist x x < e) by (intro x; unfold dist; rewrite !Rminus_diag_eq by auto; rewrite pow_i by lia; rewrite Rplus_0_l, sqrt_0; auto).
  constructor; auto. apply Forall2_app; [|constructor; auto].
  clear -F. induction F as [|a b l m H F IH]; constructor; auto. rewrite dist_norm. auto.
Qed.

Lemma conv_eps_lemma d D eta grad many tx ws rx p : ws <> [] -> step_fits d D eta 0 tx ws rx ->
  ImagePath_from tx (map OWall ws) rx = Ok p -> general_position tx ws (xys p) ->
  (forall i w, nth_error ws i = Some w -> true_reflection (xys p) i w) ->
  forall e, 0 < e -> exists eps0 N, 0 < eps0 /\ forall eps steps P key q, 0 <= eps <= eps0 -> step_fits d D eta eps tx ws rx ->
  (forall x, length x = length ws -> is_gradient_of (fermat_objective eps (map OWall ws) tx rx) x (grad (fermat_objective eps (map OWall ws) tx rx) x)) ->
  (N <= steps)%nat -> unit_draws P ->
  FermatPath_from eps (mksolver grad (sgd eta) steps many) P key tx (map OWall ws) rx = Ok q ->
  Forall2 (fun a b => dist a b < e) (xys q) (xys p).
Proof.
  intros N F0 HP HG HT e He.
  destruct F0 as (Hd & HD & HW & HL & _ & Ht & Hs).
  destruct (visits_p2c tx ws rx (xys p)) as (ths & Ls & Xp); [apply C33_visits; auto|].
  pose proof (legs_ok 0 d tx ws rx (Rle_refl 0) HL) as LK.
  assert (Ap : apart tx ws rx). { intros th L. eapply Forall_impl; [|apply LK; auto]. intros u Hu. cbn in Hu. lra. }
  set (f := fun th => total (legs 0 tx ws th rx)). set (g := fun th => slopes ws (legs 0 tx ws th rx)).
  assert (Ef : forall y, length y = length ws -> fermat_objective 0 (map OWall ws) tx rx y = f y) by (intros; apply objective_legs; auto).
  assert (Walls : Forall (fun w => norm (wd w) <= D) ws).
  { apply Forall_forall. intros w I. specialize (HW w I). rewrite dist_norm in HW.
    assert (norm (wd w) = norm (vsub (w_origin w) (w_dest w))) by (unfold norm, wd; f_equal; unfold dot, vsub; cbn; ring). lra. }
  assert (Min : forall y, length y = length ws -> f ths <= f y).
  { intros y Ly. rewrite <- !Ef by auto.
    destruct (C78_image tx ws rx p 0 HP HG HT (Rle_refl 0)) as (th' & L' & X' & B). specialize (B y Ly).
    rewrite Rmult_0_r, Rmult_0_r, Rplus_0_r in B.
    assert (E : fermat_objective 0 (map OWall ws) tx rx ths = fermat_objective 0 (map OWall ws) tx rx th').
    { unfold fermat_objective. rewrite map_length, Xp, X'. reflexivity. }
    rewrite E. exact B. }
  assert (G0 : Forall (fun a => a = 0) (g ths)).
  { apply scalar_zero. assert (Lm : length (moved ths (map (fun a => - eta * a) (g ths))) = length ws).
    { rewrite moved_step_length; auto. unfold g. rewrite slopes_length; auto. }
    assert (S1 : f (moved ths (map (fun a => - eta * a) (g ths))) <= f ths - eta / 2 * scalar (g ths) (g ths)).
    { exact (f_step 0 d D tx rx ws Hd HD Walls LK ths eta Ls Ht Hs). }
    pose proof (Min _ Lm) as M1. set (Q := scalar (g ths) (g ths)) in *. apply Rnot_lt_le. intro Z.
    assert (0 < eta / 2 * Q) by (apply Rmult_lt_0_compat; lra). lra. }
  assert (Gap : forall th, length th = length ws -> f th = f ths + over rest (legs 0 tx ws ths rx) (legs 0 tx ws th rx)).
  { intros th L. assert (X : f th = f ths + scalar (g ths) (minus th ths) + over rest (legs 0 tx ws ths rx) (legs 0 tx ws th rx)).
    { exact (f_expand 0 d tx rx ws Hd LK ths th Ls L). }
    assert (Z : scalar (g ths) (minus th ths) = 0).
    { clear -G0. generalize (minus th ths). induction G0 as [|a l Ha F IH]; intros [|b m]; try reflexivity. rewrite scalar_cons, IH, Ha. ring. }
    rewrite Z in X. lra. }
  destruct (near (f ths + 1) ws tx ths rx e Ls He Ap) as (gg & r & Hg & Hr & H).
  set (gm := Rmin gg 1). assert (Gm : 0 < gm) by (apply Rmin_glb_lt; lra).
  pose proof (Rmin_l gg 1) as Gm1. pose proof (Rmin_r gg 1) as Gm2. fold gm in Gm1, Gm2.
  set (n := INR (length ws + 1)). assert (Hn : 0 <= n) by apply pos_INR.
  assert (Cl : forall eps th, 0 <= eps -> length th = length ws -> Rabs (fermat_objective eps (map OWall ws) tx rx th - f th) <= n * (sqrt 2 * eps)).
  { intros eps th E L. pose proof (p2c_visits tx ws rx th L) as V.
    pose proof (length_bound eps _ (length ws) E (visits_length _ _ _ _ V)) as B1.
    pose proof (length_bound 0 _ (length ws) (Rle_refl 0) (visits_length _ _ _ _ V)) as B2. rewrite Rmult_0_r, Rmult_0_r in B2.
    rewrite <- Ef by auto. unfold fermat_objective. rewrite map_length.
    assert (Z : path_length 0 (parametric_to_cartesian (map OWall ws) th (length ws) tx rx) = polyline (parametric_to_cartesian (map OWall ws) th (length ws) tx rx)).
    { unfold Rabs in B2. destruct (Rcase_abs _) in B2; lra. }
    rewrite Z. exact B1. }
  destruct (small (2 * (n * sqrt 2)) (gm / 2)) as (eps0 & E0 & He0); [|lra|].
  { pose proof (sqrt_pos 2). apply Rmult_le_pos; [lra|]. apply Rmult_le_pos; auto. }
  destruct (above (reach ths / (2 * eta * (gm / 2)))) as [N0 HN0].
  exists eps0, (S N0). split; auto. intros eps steps P key q Hep Fe G Hst U E.
  destruct Fe as (_ & _ & _ & HLe & _ & _ & _). pose proof (legs_ok eps d tx ws rx (proj1 Hep) HLe) as LKe.
  destruct (fermat_th _ _ _ _ _ _ _ _ N E) as (th & l & M & X & _). cbn [sv_grad sv_opt sv_steps sv_many] in M.
  destruct (rate_core eps d D eta P _ steps key many tx ws rx th l ths Hd HD HW LKe Ht Hs ltac:(lia) U G M Ls) as [Lt B].
  pose proof (Cl eps th (proj1 Hep) Lt) as C1. pose proof (Cl eps ths (proj1 Hep) Ls) as C2. pose proof (He0 eps Hep) as C3.
  set (fe := fermat_objective eps (map OWall ws) tx rx) in *.
  assert (Is : INR N0 < INR steps) by (apply lt_INR; lia).
  assert (Bg : fe th - fe ths <= gm / 2).
  { assert (Q : reach ths < INR steps * (2 * eta * (gm / 2))).
    { assert (0 < 2 * eta * (gm / 2)) by (apply Rmult_lt_0_compat; lra). assert (R1 : reach ths / (2 * eta * (gm / 2)) < INR steps) by lra.
      apply Rmult_lt_compat_r with (r := 2 * eta * (gm / 2)) in R1; auto. unfold Rdiv in R1 at 1. rewrite Rmult_assoc, Rinv_l in R1 by lra. lra. }
    assert (P0 : 0 < 2 * eta * INR steps). { pose proof (pos_INR N0). apply Rmult_lt_0_compat; lra. }
    apply Rmult_le_reg_l with (2 * eta * INR steps); auto. lra. }
  assert (Bf : f th - f ths <= gm).
  { assert (A1 : f th - fe th <= n * (sqrt 2 * eps)) by (unfold Rabs in C1; destruct (Rcase_abs _) in C1; lra).
    assert (A2 : fe ths - f ths <= n * (sqrt 2 * eps)) by (unfold Rabs in C2; destruct (Rcase_abs _) in C2; lra). lra. }
  rewrite X, <- Xp. rewrite <- (map_length OWall ws) at 1 2. rewrite !points_p2c by auto. apply points_near; auto.
  apply (H tx th); auto.
  - assert (Z : norm (vsub tx tx) = 0) by (apply norm_zero; unfold vsub; f_equal; ring). lra.
  - fold (f th). lra.
  - pose proof (Gap th Lt). lra.
Qed.
Lemma conv_lemma d D eta grad many tx ws rx p : ws <> [] -> step_fits d D eta 0 tx ws rx ->
  (forall x, length x = length ws -> is_gradient_of (fermat_objective 0 (map OWall ws) tx rx) x (grad (fermat_objective 0 (map OWall ws) tx rx) x)) ->
  ImagePath_from tx (map OWall ws) rx = Ok p -> general_position tx ws (xys p) ->
  (forall i w, nth_error ws i = Some w -> true_reflection (xys p) i w) ->
  forall e, 0 < e -> exists N, forall steps P key q, (N <= steps)%nat -> unit_draws P ->
  FermatPath_from 0 (mksolver grad (sgd eta) steps many) P key tx (map OWall ws) rx = Ok q ->
  Forall2 (fun a b => dist a b < e) (xys q) (xys p).
Proof.
  intros N F G HP HG HT e He. destruct (conv_eps_lemma d D eta grad many tx ws rx p N F HP HG HT e He) as (eps0 & N0 & E0 & H).
  exists N0. intros steps P key q Hs U E. apply (H 0 steps P key q); auto. lra.
Qed.

Lemma fermat_ok eps grad eta steps many P key tx ws rx : good_split P -> (1 <= steps)%nat -> (1 <= many)%nat ->
  exists q, FermatPath_from eps (mksolver grad (sgd eta) steps many) P key tx (map OWall ws) rx = Ok q.
Proof.
  intros GS S1 M1. exact (solver_ok P (ClsFermat eps (mksolver grad (sgd eta) steps many)) key tx (map OWall ws) rx (mksolver grad (sgd eta) steps many)
    (or_introl (ex_intro _ eps eq_refl)) S1 M1 (GS key many)).
Qed.
Lemma dist_coords a b e : dist a b < e -> Rabs (fst a - fst b) < e /\ Rabs (snd a - snd b) < e.
Proof.
  intro H. unfold dist in H.
  assert (A : forall x y, Rabs x <= sqrt (x ^ 2 + y ^ 2)).
  { intros x y. rewrite <- (sqrt_Rsqr_abs x). apply sqrt_le_1_alt. unfold Rsqr. pose proof (pow2_ge_0 y). lra. }
  pose proof (A (fst a - fst b) (snd a - snd b)). pose proof (A (snd a - snd b) (fst a - fst b)) as A2. rewrite Rplus_comm in A2. lra.
Qed.
Lemma path_conv_lemma d D eta grad many P keys tx ws rx p : ws <> [] -> step_fits d D eta 0 tx ws rx ->
  (forall x, length x = length ws -> is_gradient_of (fermat_objective 0 (map OWall ws) tx rx) x (grad (fermat_objective 0 (map OWall ws) tx rx) x)) ->
  ImagePath_from tx (map OWall ws) rx = Ok p -> general_position tx ws (xys p) ->
  (forall i w, nth_error ws i = Some w -> true_reflection (xys p) i w) ->
  unit_draws P -> good_split P -> (1 <= many)%nat ->
  rconv path_conv (fun n => FermatPath_from 0 (mksolver grad (sgd eta) (S n) many) P (keys n) tx (map OWall ws) rx) (Ok p).
Proof.
  intros N F G HP HG HT U GS M1.
  set (F0 := fun n => FermatPath_from 0 (mksolver grad (sgd eta) (S n) many) P (keys n) tx (map OWall ws) rx).
  set (qs := fun n => match F0 n with Ok q => q | _ => p end).
  assert (E : forall n, F0 n = Ok (qs n)).
  { intro n. unfold qs. destruct (fermat_ok 0 grad eta (S n) many P (keys n) tx ws rx GS ltac:(lia) M1) as [q Hq]. fold (F0 n) in Hq. rewrite Hq. reflexivity. }
  pose proof (conv_lemma d D eta grad many tx ws rx p N F G HP HG HT) as CV.
  assert (Lq : forall n, length (xys (qs n)) = length (xys p)).
  { intro n. destruct (fermat_th _ _ _ _ _ _ _ _ N (E n)) as (th & l & M & X & _). cbn [sv_grad sv_opt sv_steps sv_many] in M.
    destruct F as (Hd & HD & HW & HL & _ & Ht & Hs).
    destruct (rate_core 0 d D eta P _ (S n) (keys n) many tx ws rx th l th Hd HD HW (legs_ok 0 d tx ws rx (Rle_refl 0) HL) Ht Hs ltac:(lia) U G M) as [Lt _].
    { destruct (min_inv _ _ _ _ _ _ _ _ _ _ (le_n_S 0 n (Nat.le_0_l n)) M) as (k & x & st & X0 & T & ->). destruct (U k (length ws)) as [Lu _]. rewrite <- X0 in Lu.
      apply (iterates_length (grad (fermat_objective 0 (map OWall ws) tx rx)) (length ws) eta) with (st := st) (m := S n); auto.
      intros y Ly. rewrite <- Ly. apply (proj1 (G y Ly)). }
    rewrite X. pose proof (p2c_visits tx ws rx th Lt) as V1. pose proof (C33_visits tx ws rx p HP HG HT) as V2.
    rewrite (visits_length _ _ _ _ V1), (visits_length _ _ _ _ V2). reflexivity. }
  assert (PC : lconv pconv (fun n => xys (qs n)) (xys p)).
  { apply lconv_of_nth; auto. intros i x Hx. exists (fun n => nth i (xys (qs n)) (0, 0)).
    assert (Li : (i < length (xys p))%nat) by (apply nth_error_Some; congruence). split.
    - assert (B : forall e, 0 < e -> exists N0, forall n, (n >= N0)%nat -> dist (nth i (xys (qs n)) (0, 0)) x < e).
      { intros e He. destruct (CV e He) as [N0 H0]. exists N0. intros n Hn. specialize (H0 (S n) P (keys n) (qs n) ltac:(lia) U (E n)).
        rewrite (nth_error_nth' _ (0, 0)) in Hx by auto. injection Hx as <-.
        clear - H0 Li. revert i Li. induction H0 as [|a b l m H F IH]; intros i Li; [cbn in Li; lia|]. destruct i as [|i]; cbn [nth]; auto.
        apply IH. cbn in Li. lia. }
      split; intros e He; destruct (B e He) as [N0 HN]; exists N0; intros n Hn; apply (dist_coords _ _ e (HN n Hn)).
    - intro n. apply nth_error_nth'. rewrite Lq. auto. }
  exists qs, p. split; auto. split; auto. split; auto.
  destruct (image_path_walls _ _ _ _ HP) as [X1 X2].
  rewrite X1 in X2. 
  exists (fun n => path_loss (map OWall ws) (xys (qs n))), (path_loss (map OWall ws) (image_points tx ws rx)). split; [|split].
  - intro n. destruct (fermat_th _ _ _ _ _ _ _ _ N (E n)) as (_ & _ & _ & _ & L). exact L.
  - exact X2.
  - apply (loss_cv (fun _ => map OWall ws)).
    + exists (map (fun o _ => o) (map OWall ws)). split; [intro; rewrite map_map; symmetry; apply map_id|].
      clear. induction ws as [|w ws IH]; cbn [map]; constructor; auto. exists (fun _ => w). split; auto.
      split; split; apply cv_const.
    + apply as_walls_map.
    + apply gp_iff. rewrite <- X1. auto.
    + rewrite <- X1. exact PC.
Qed.

(** ** One reflection *)
Lemma one_legs tx w rx : proper w -> same_side w tx rx -> exists d, 0 < d /\ legs_at_least d tx [w] rx.
Proof.
  intros PW SS. unfold same_side in SS. set (a := Rabs (side_of w tx)). set (b := Rabs (side_of w rx)). set (W := norm (wd w)).
  assert (Wp : 0 < W).
  { unfold W. pose proof (norm_nonneg (wd w)). destruct (Req_dec (norm (wd w)) 0) as [Z|]; [|lra]. exfalso. apply norm_zero in Z. apply PW.
    unfold wd, vsub in Z. injection Z as Za Zb. destruct (w_origin w), (w_dest w). cbn in *. f_equal; lra. }
  assert (Ha : 0 < a). { apply Rabs_pos_lt. intro Z. rewrite Z in SS. lra. }
  assert (Hb : 0 < b). { apply Rabs_pos_lt. intro Z. rewrite Z in SS. lra. }
  exists (Rmin a b / W). split; [apply Rdiv_lt_0_compat; auto; apply Rmin_glb_lt; auto|].
  assert (K : forall X q, on_line (w_origin w) (w_dest w) q -> Rabs (side_of w X) <= dist X q * W).
  { intros X q [t ->]. rewrite dist_norm. eapply Rle_trans; [|apply cr_le]. right. rewrite <- Rabs_Ropp. f_equal.
    unfold cr, wd, at_, vsub, side_of. cbn [fst snd]. ring. }
  intros pts i A B (qs & -> & F) H1 H2. inversion F as [|? q ? l Q F']; subst. inversion F'; subst.
  pose proof (Rmin_l a b). pose proof (Rmin_r a b). apply div_le; auto.
  destruct i as [|[|i]]; cbn in H1, H2; try (destruct i; discriminate).
  - injection H1 as <-. injection H2 as <-. pose proof (K tx q Q) as K1. fold a in K1. lra.
  - injection H1 as <-. injection H2 as <-. pose proof (K rx q Q) as K1. fold b in K1.
    assert (Sy : dist q rx = dist rx q) by (unfold dist; f_equal; ring). rewrite Sy. lra.
Qed.
Lemma one_gp tx w rx p : proper w -> same_side w tx rx -> ImagePath_from tx (map OWall [w]) rx = Ok p ->
  general_position tx [w] (xys p) /\ forall i w', nth_error [w] i = Some w' -> true_reflection (xys p) i w'.
Proof.
  intros PW SS HP. destruct (image_path_walls _ _ _ _ HP) as [X _]. rewrite X.
  unfold same_side in SS. rewrite (side_of_side w tx), (side_of_side w rx) in SS.
  assert (SI : side w (image_of w tx) = - side w tx) by (apply side_image; auto).
  assert (NS : side w (image_of w tx) <> side w rx) by (rewrite SI; intro Z; rewrite <- Z in SS; pose proof (Rle_0_sqr (side w tx)) as S2; unfold Rsqr in S2; lra).
  pose proof (backward_side w _ rx NS) as BS. rewrite points_one in *.
  remember (backward rx (w, image_of w tx)) as Q0 eqn:EQ. clear EQ. split.
  - split.
    + intros imgs i w' I B HC Hw HI HB. apply (chain_eq _ _ [w]) in HC; [|reflexivity]. subst imgs.
      destruct i as [|i]; cbn in Hw; [|destruct i; discriminate]. injection Hw as <-. cbn in HI, HB. injection HI as <-. injection HB as <-.
      intro Pl. apply NS. unfold parallel in Pl. unfold side, cross, wall_t, dest, origin, vsub. cbn [fst snd]. lra.
    + apply consecutive_nth. intros [|[|[|i]]] a b Ha Hb; cbn in Ha, Hb; try (destruct i; discriminate); try discriminate;
        injection Ha as <-; injection Hb as <-; intro Z.
      * rewrite <- Z in BS. rewrite BS in SS. lra.
      * rewrite Z in BS. rewrite BS in SS. lra.
  - intros [|i] w' Hw; cbn in Hw; [|destruct i; discriminate]. injection Hw as <-. exists tx, rx. split; [reflexivity|]. split; [reflexivity|].
    unfold same_side. rewrite (side_of_side w tx), (side_of_side w rx). exact SS.
Qed.
Lemma one_fits tx w rx : proper w -> same_side w tx rx -> exists eta0, 0 < eta0 /\ forall eta, 0 < eta <= eta0 -> exists d D, step_fits d D eta 0 tx [w] rx.
Proof.
  intros PW SS. destruct (one_legs tx w rx PW SS) as (d & Hd & HL). set (D := dist (w_origin w) (w_dest w)).
  assert (HD : 0 <= D) by (unfold D, dist; apply sqrt_pos).
  destruct (small (4 * (D * D)) d ltac:(nra) Hd) as (x & Hx & H). exists x. split; auto. intros eta He. exists d, D.
  split; auto. split; auto. split; [intros w' [<-|[]]; unfold D; lra|]. split; [apply legs0_at_least; auto|]. split; [lra|]. split; [lra|].
  left. apply H. lra.
Qed.

(** ** A corridor *)
Definition cor : list wall := [mkwall (0, 0) (2, 0); mkwall (0, 3) (2, 3)].
Lemma img_c x y : image_of (mkwall (0, 3) (2, 3)) (x, y) = (x, 6 - y).
Proof.
  apply image_known. left. split; [proper_tac|]. cbn [fst snd w_origin w_dest]. split; [|ring].
  exists (x / 2). unfold at_. apply vec_eq; cbn; field.
Qed.
Lemma cor_points : image_points (0, 1) cor (6, 1) = [(0, 1); (1, 0); (4, 3); (6, 1)].
Proof.
  unfold cor. rewrite points_two. cbn zeta. rewrite img_h, img_c.
  assert (E2 : backward (6, 1) (@pair wall vec (mkwall (0, 3) (2, 3)) (0, 6 - - (1))) = (4, 3)).
  { symmetry. apply backward_unique; [side_num|unfold col, cross, vsub; cbn; lra|side_num]. }
  rewrite E2.
  assert (E1 : backward (4, 3) (@pair wall vec (mkwall (0, 0) (2, 0)) (0, - (1))) = (1, 0)).
  { symmetry. apply backward_unique; [side_num|unfold col, cross, vsub; cbn; lra|side_num]. }
  rewrite E1. reflexivity.
Qed.
Lemma cor_example : exists p, ImagePath_from (0, 1) (map OWall cor) (6, 1) = Ok p /\ xys p = [(0, 1); (1, 0); (4, 3); (6, 1)] /\
  general_position (0, 1) cor (xys p) /\ (forall i w, nth_error cor i = Some w -> true_reflection (xys p) i w).
Proof.
  eexists. split; [apply image_from_ok|]. cbn [xys]. rewrite cor_points. split; [reflexivity|]. split; [split|].
  - intros imgs i w I B HC Hw HI HB. apply (chain_eq _ _ cor) in HC; [|reflexivity]. subst imgs. unfold imgs_of in HI. unfold cor in HI. cbn [images] in HI.
    rewrite img_h, img_c in HI. 
    destruct i as [|[|i]]; cbn in Hw; [| |destruct i; discriminate];
      injection Hw as <-; cbn in HI, HB; injection HI as <-; injection HB as <-; unfold parallel; cbn; lra.
  - apply consecutive_nth. intros [|[|[|[|i]]]] a b Ha Hb; cbn in Ha, Hb; try (destruct i; discriminate); try discriminate;
      injection Ha as <-; injection Hb as <-; intro X; injection X; lra.
  - intros [|[|i]] w Hw; cbn in Hw; [| |destruct i; discriminate]; injection Hw as <-;
      eexists; eexists; (split; [reflexivity|]); (split; [reflexivity|]); unfold same_side, side_of; cbn; lra.
Qed.
Lemma vert a b : Rabs (snd a - snd b) <= dist a b.
Proof.
  unfold dist. rewrite <- (sqrt_Rsqr_abs (snd a - snd b)). apply sqrt_le_1_alt. unfold Rsqr. pose proof (pow2_ge_0 (fst a - fst b)). lra.
Qed.
Lemma cor_fits : step_fits 1 2 (1 / 16) 0 (0, 1) cor (6, 1).
Proof.
  split; [lra|]. split; [lra|]. split; [|split; [|lra]].
  - intros w [<-|[<-|[]]]; unfold dist; cbn [w_origin w_dest fst snd];
      replace ((0 - 2) ^ 2 + (0 - 0) ^ 2) with (2 * 2) by ring; replace ((0 - 2) ^ 2 + (3 - 3) ^ 2) with (2 * 2) by ring; rewrite sqrt_square; lra.
  - apply legs0_at_least. intros pts i A B (qs & -> & F) H1 H2. inversion F as [|? q1 ? l Q1 F1]; subst. inversion F1 as [|? q2 ? l2 Q2 F2]; subst. inversion F2; subst.
    destruct Q1 as [t1 ->]. destruct Q2 as [t2 ->]. apply Rle_trans with (2 := vert A B).
    destruct i as [|[|[|i]]]; cbn in H1, H2; try (destruct i; discriminate); injection H1 as <-; injection H2 as <-; unfold at_; cbn [fst snd w_origin w_dest];
      unfold Rabs; destruct (Rcase_abs _); lra.
Qed.
Definition cor_grad (f : list R -> R) (th : list R) : list R := slopes cor (legs 0 (0, 1) cor th (6, 1)).
Lemma cor_gradient x : length x = length cor -> is_gradient_of (fermat_objective 0 (map OWall cor) (0, 1) (6, 1)) x (cor_grad (fermat_objective 0 (map OWall cor) (0, 1) (6, 1)) x).
Proof.
  intro L. apply (gradient_ext (fun th => total (legs 0 (0, 1) cor th (6, 1)))); [intros; symmetry; apply objective_legs; lia|].
  destruct cor_fits as (Hd & HD & HW & HL & _). apply (f_gradient 0 1 2); auto.
  - apply Forall_forall. intros w I. specialize (HW w I). rewrite dist_norm in HW.
    assert (norm (wd w) = norm (vsub (w_origin w) (w_dest w))) by (unfold norm, wd; f_equal; unfold dot, vsub; cbn; ring). lra.
  - apply legs_ok; auto. lra.
Qed.
Definition cor_prng : prng := mkprng unit (fun k n => repeat k n) (fun _ n => repeat (1 / 2) n).
Lemma cor_draws : unit_draws cor_prng /\ good_split cor_prng.
Proof.
  split; intros k n; [split|]; cbn; try apply repeat_length. apply Forall_forall. intros x I. apply repeat_spec in I. lra.
Qed.
Lemma one_lemma tx w rx p : proper w -> same_side w tx rx -> ImagePath_from tx [OWall w] rx = Ok p ->
  exists eta0, 0 < eta0 /\ forall eta grad many, 0 < eta <= eta0 ->
  (forall x, length x = 1%nat -> is_gradient_of (fermat_objective 0 [OWall w] tx rx) x (grad (fermat_objective 0 [OWall w] tx rx) x)) ->
  forall e, 0 < e -> exists N, forall steps P key q, (N <= steps)%nat -> unit_draws P ->
  FermatPath_from 0 (mksolver grad (sgd eta) steps many) P key tx [OWall w] rx = Ok q ->
  Forall2 (fun a b => dist a b < e) (xys q) (xys p).
Proof.
  intros PW SS HP. destruct (one_fits tx w rx PW SS) as (eta0 & He & H). exists eta0. split; auto.
  intros eta grad many Ht HG. destruct (H eta Ht) as (d & D & F). destruct (one_gp tx w rx p PW SS HP) as [G1 G2].
  apply (conv_lemma d D eta grad many tx [w] rx p ltac:(discriminate) F HG HP G1 G2).
Qed.
Lemma valid_conv_lemma d D eta grad many P keys tx ws rx p g cand os tol patch k : ws <> [] -> step_fits d D eta 0 tx ws rx ->
  (forall x, length x = length ws -> is_gradient_of (fermat_objective 0 (map OWall ws) tx rx) x (grad (fermat_objective 0 (map OWall ws) tx rx) x)) ->
  ImagePath_from tx (map OWall ws) rx = Ok p -> general_position tx ws (xys p) ->
  (forall i w, nth_error ws i = Some w -> true_reflection (xys p) i w) ->
  unit_draws P -> good_split P -> (1 <= many)%nat ->
  shipped k -> 0 < ak_alpha k -> (length (xys p) <= length cand + 2)%nat -> ~ grazes (xys p) os cand patch ->
  exists qs, (forall n, FermatPath_from 0 (mksolver grad (sgd eta) (S n) many) P (keys n) tx (map OWall ws) rx = Ok (qs n)) /\
    rconv tconv (fun n => is_valid g (qs n) os cand (map OWall ws) tol patch (Some true) k)
      (is_valid g p os cand (map OWall ws) tol patch (Some true) k).
Proof.
  intros N F G HP HG HT U GS M1 SK A Lc Gz.
  destruct (path_conv_lemma d D eta grad many P keys tx ws rx p N F G HP HG HT U GS M1) as (qs & p' & E & Ep & C). injection Ep as <-.
  assert (OC : forall os : list object, lconv oconv (fun _ => os) os).
  { intro l. exists (map (fun o _ => o) l). split; [intro; rewrite map_map; symmetry; apply map_id|].
    clear. induction l as [|o l IH]; cbn [map]; constructor; auto. 
    destruct o as [w|w phi|q]; cbn; [exists (fun _ => w)|exists (fun _ => w), (fun _ => phi)|exists (fun _ => q)]; repeat split; auto; apply cv_const. }
  exists qs. split; auto. apply (C67_lemma g qs p (fun _ => os) os (fun _ => map OWall ws)); auto.
  intros o w Io Hw. apply in_map_iff in Io. destruct Io as (w' & <- & I). injection Hw as <-.
  destruct (image_path_walls _ _ _ _ HP) as [X1 _]. rewrite X1 in HG. apply gp_iff in HG.
  apply In_nth_error in I. destruct I as [i Hi]. apply (gp_proper tx ws rx HG i). auto.
Qed.
Lemma cor_fits_eps : step_fits (1 / 2) 2 (1 / 32) (1 / 4) (0, 1) cor (6, 1).
Proof.
  destruct cor_fits as (_ & _ & HW & HL & _). split; [lra|]. split; [lra|]. split; auto. split; [|lra].
  intros pts i A B V H1 H2. pose proof (HL pts i A B V H1 H2) as B1. rewrite Rmult_0_r, Rplus_0_r in B1.
  assert (sqrt 2 <= 2); [|lra]. rewrite <- (sqrt_square 2) at 2 by lra. apply sqrt_le_1_alt. lra.
Qed.
Lemma fits_gradient d D eta eps tx ws rx : step_fits d D eta eps tx ws rx ->
  exists grad : list R -> list R, forall x, length x = length ws -> is_gradient_of (fermat_objective eps (map OWall ws) tx rx) x (grad x).
Proof.
  intros (Hd & HD & HW & HL & He & _). exists (fun th => slopes ws (legs eps tx ws th rx)). intros x L.
  apply (gradient_ext (fun th => total (legs eps tx ws th rx))); [intros; symmetry; apply objective_legs; lia|].
  apply (f_gradient eps d D); auto.
  - apply Forall_forall. intros w I. specialize (HW w I). rewrite dist_norm in HW.
    assert (norm (wd w) = norm (vsub (w_origin w) (w_dest w))) by (unfold norm, wd; f_equal; unfold dot, vsub; cbn; ring). lra.
  - apply legs_ok; auto.
Qed.
