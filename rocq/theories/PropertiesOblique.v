(** C96, for oblique walls and coordinates that need not be on a grid. *)
From Coq Require Import Reals List Bool ZArith Lra Lia.
From Flocq Require Import Core.Core IEEE754.BinarySingleNaN.
From Verif Require Import Base BaseP LogicM GeometryM PathM FloatM FloatImageM SpecFloat32 SpecGrid SpecImage32 SpecAnywhere FloatP FloatLogicP FloatCmpP FloatAccP FloatGeomP FloatSegP FloatGridP FloatImageErrP FloatImageLossP FloatAnyP FloatObliqueP FloatShiftP PropertiesAnywhere.
Import ListNotations.
Open Scope R_scope.

(** The images in any sequence of walls (up to 256) that are at least [L / 12] long in a
    square of size [L]: the [k]-th one is within [2^-17 (k+1) (k+2) L] of the exact one. *)
Theorem C96_images_anywhere :
  forall L ws walls tx p is, ordinary L -> ordinary (512 * L) -> Forall2 wall_stands_for ws walls -> walls_within L walls -> (length walls <= 256)%nat ->
  stands_for tx p -> (forall a b, In (a, b) walls -> close_by L p a) -> mirror_chain p walls is ->
  length (f_images tx ws) = length is /\
  forall k f i, nth_error (f_images tx ws) k = Some f -> nth_error is k = Some i ->
    computed_near (bpow radix2 (-17) * (INR k + 1) * (INR k + 2) * L) f i.
Proof.
  intros L ws walls tx p is HL HL' F W Hn Op C M.
  assert (L0 : 0 < L) by (destruct HL; pose proof (bpow_gt_0 radix2 (-50)); lra). split.
  - clear -F M. revert tx p is M. induction F as [|w [a b] ws walls _ F IH]; intros tx p is M; inversion M; subst; cbn [length f_images]; auto. f_equal. eapply IH. eauto.
  - intros k f i Nf Ni. assert (Z : hyp 0 0 = 0) by (unfold hyp; rewrite Rmult_0_r, Rplus_0_r; apply sqrt_0).
    destruct (images_any L ws walls HL HL' F W tx p p is 0 Op M) with (k := k) (f := f) (i := i) as (i' & Oi & Ei); auto; try lra.
    + rewrite Rplus_0_l. replace 256 with (INR 256) by (rewrite INR_IZR_INZ; reflexivity). apply le_INR. auto.
    + replace (fst p - fst p) with 0 by ring. replace (snd p - snd p) with 0 by ring. rewrite Z. lra.
    + intros a b I. destruct (C a b I) as [C1 C2]. pose proof (hyp_small _ _ _ C1 C2). lra.
    + exists (fst i'), (snd i'). rewrite <- surjective_pairing. split; auto. apply coords in Ei.
      assert (B : 91 * u24 * ((0 + INR k + 1) * (0 + INR k + 2)) * L <= bpow radix2 (-17) * (INR k + 1) * (INR k + 2) * L); [|destruct Ei; split; lra].
      apply Rmult_le_compat_r; [lra|]. rewrite Rplus_0_l, (Rmult_assoc (bpow _ _)). pose proof (pos_INR k). apply Rmult_le_compat_r; [nra|]. unfold u24. cbn. lra.
Qed.
Print Assumptions C96_images_anywhere.

(** One reflection, on any wall: the computed point is within [2^-15 L / tau] of the exact
    one and the loss is at most [10^-7 / tau^4], for a wall at least [tau L] long and nodes
    on the same side of it, at least [tau L] away from its line, in a square of size [L]. *)
Theorem C96_one_reflection_anywhere :
  forall tau L w tx rx a b p r q, / 12 <= tau <= 1 -> wall_stands_for w (a, b) -> stands_for tx p -> stands_for rx r ->
  one_reflection tau L a b p r -> reflection_point a b p r q ->
  exists pt l, f_xys (f_ImagePath_from tx [w] rx) = [tx; pt; rx] /\ computed_near (bpow radix2 (-15) * L / tau) pt q /\
    fval (f_loss (f_ImagePath_from tx [w] rx)) = Fin l /\ 0 <= l <= / 10000000 / (tau * tau * (tau * tau)).
Proof.
  intros tau L w tx rx a b p r q Ht [Oa Ob] Op Or H Q. cbn [fst snd] in *.
  destruct (one_reflection_any tau L w tx rx a b p r q Ht Oa Ob Op Or H Q) as ((x & y & Oq & Ex & Ey) & (l & Lv & Lb) & _).
  destruct (one_path tx w rx) as [Xs Ls]. exists (f_backward rx (w, f_image_of w tx)), l. split; [auto|]. split; [|split; [|auto]].
  - exists x, y. split; auto. destruct H as (HL & _). assert (L0 : 0 < L) by (destruct HL; pose proof (bpow_gt_0 radix2 (-50)); lra).
    assert (B : 262 * u24 * L / tau <= bpow radix2 (-15) * L / tau); [|split; lra].
    apply Rmult_le_compat_r; [left; apply Rinv_0_lt_compat; lra|]. apply Rmult_le_compat_r; [lra|]. unfold u24. cbn. lra.
  - rewrite Ls, (FloatImageP.zero_add_val _ _ val_zero). auto.
Qed.
Print Assumptions C96_one_reflection_anywhere.

(** Hence the exact validity test: never rejected for its loss, and for its point as it
    should up to the fraction [2^-14 / tau^2] of the wall. *)
Theorem C96_verdict_anywhere :
  forall tau L w tx rx a b p r q objects cand tol patch k tl obstructed, / 12 <= tau <= 1 -> wall_stands_for w (a, b) -> stands_for tx p -> stands_for rx r ->
  one_reflection tau L a b p r -> reflection_point a b p r q ->
  f_intersects_with_objects false (f_ImagePath_from tx [w] rx) objects cand patch k = Ok obstructed ->
  fval tol = Fin tl -> / 10000000 / (tau * tau * (tau * tau)) < tl ->
  let m := bpow radix2 (-14) / (tau * tau) in
  exists v, f_is_valid false (f_ImagePath_from tx [w] rx) objects cand [FWall w] tol patch k = Ok (FB v) /\
    (projects_with_margin m q a b -> v = negb (f_to_b obstructed)) /\ (v = true -> projects_with_margin (- m) q a b /\ f_to_b obstructed = false).
Proof. intros tau L w tx rx a b p r q objects cand tol patch k tl obstructed Ht [Oa Ob]. apply one_verdict; auto. Qed.
Print Assumptions C96_verdict_anywhere.

Lemma scene_any t : fval F_SEG_TOL = Fin t -> 0 <= t <= 1 -> Rabs (t - 5 / 1000) <= bpow radix2 (-32) ->
  forall tau s L w tx rx a b p r q objects shapes j tol patch k tl, / 12 <= tau <= 1 -> / 128 <= s ->
  wall_stands_for w (a, b) -> stands_for tx p -> stands_for rx r -> Forall2 object_stands_for objects shapes ->
  one_reflection tau L a b p r -> reflection_point a b p r q -> ordinary (4 * L) ->
  scene_within L a shapes -> legs_clear s L [p; q; r] shapes [j] ->
  fval patch = Fin 0 -> fval tol = Fin tl -> / 10000000 / (tau * tau * (tau * tau)) < tl ->
  let m := bpow radix2 (-14) / (tau * tau) in
  let M := bpow radix2 (-11) / (tau * s) in
  exists v, f_is_valid false (f_ImagePath_from tx [w] rx) objects [j] [FWall w] tol patch k = Ok (FB v) /\
    (v = true -> projects_with_margin (- m) q a b /\ ~ obstructed (- t + M) (1 + t - M) [p; q; r] shapes [j]) /\
    (projects_with_margin m q a b -> ~ obstructed (- (t + M)) (1 + t + M) [p; q; r] shapes [j] -> v = true).
Proof.
  intros T Ht Err tau s L w tx rx a b p r q objects shapes j tol patch k tl Et Es W Op Or F H Q HL4 Sc Cl Z Tv Tl m M. pose proof W as [Oa Ob]. cbn [fst snd] in Oa, Ob.
  destruct (one_path tx w rx) as [Xs Ls]. pose proof H as (HL & _ & _ & _ & _ & Cab & Cpa & Cra & _).
  assert (L0 : 0 < L) by (destruct HL; pose proof (bpow_gt_0 radix2 (-50)); lra).
  destruct (f_intersects_with_objects false (f_ImagePath_from tx [w] rx) objects [j] patch k) as [ob|] eqn:R; [|rewrite f_inter_fold in R by (rewrite Xs; cbn; lia); discriminate].
  destruct (one_verdict tau L w tx rx a b p r q objects [j] tol patch k tl ob Et Oa Ob Op Or H Q R Tv Tl) as (v & V & V1 & V2). fold m in V1, V2.
  destruct (one_reflection_any tau L w tx rx a b p r q Et Oa Ob Op Or H Q) as ((x & y & Oq & Ex & Ey) & _ & R1 & R2).
  set (e := 262 * u24 * L / tau) in *.
  assert (Ee : 0 <= e <= L / 5200).
  { split; [pose proof (Rabs_pos (x - fst q)); lra|]. apply Rmult_le_reg_r with tau; [lra|]. unfold e, Rdiv at 1. rewrite (Rmult_assoc _ (/ tau)), Rinv_l, Rmult_1_r by lra. unfold u24. nra. }
  assert (Mv : Forall2 (fun q' q => close_by e q' q) [p; (x, y); r] [p; q; r]).
  { constructor; [apply close_refl; lra|]. constructor; [split; auto|]. constructor; [apply close_refl; lra|constructor]. }
  assert (Cq : close_by (17 / 12 * L) q a) by (split; auto).
  assert (Nr : forall z, In z [p; q; r] -> close_by (17 / 12 * L) z a).
  { intros z [<-|[<-|[<-|[]]]]; auto; (eapply close_more; [|eassumption]); lra. }
  assert (Lg : forall i y z, nth_error [p; q; r] i = Some y -> nth_error [p; q; r] (S i) = Some z -> close_by (29 / 12 * L) y z).
  { intros i y0 z N N'. destruct i as [|[|i]]; cbn in N, N'; [| |destruct i; discriminate]; injection N as <-; injection N' as <-.
    - eapply close_more; [|eapply close_trans; [exact Cpa|apply close_sym, Cq]]. lra.
    - eapply close_more; [|eapply close_trans; [exact Cq|apply close_sym, Cra]]. lra. }
  assert (St : Forall2 stands_for (f_xys (f_ImagePath_from tx [w] rx)) [p; (x, y); r]).
  { rewrite Xs. constructor; [exact Op|]. constructor; [exact Oq|]. constructor; [exact Or|constructor]. }
  destruct (any_obstruction (144 / 1000 * s) (f_ImagePath_from tx [w] rx) [p; (x, y); r] objects shapes [j] patch k t ob) as [O1 O2]; auto; try lra.
  { intros i j' c d p' q' J I I' N. eapply moved_clear with (qs := [p; q; r]) (e := e); eauto. }
  assert (Mb : margin (144 / 1000 * s) + 80 / 3 * (e / (L * s)) <= M).
  { unfold M, margin, e. replace (bpow radix2 (-18) / (144 / 1000 * s)) with (bpow radix2 (-18) * (1000 / 144) / s) by (field; lra).
    replace (80 / 3 * (262 * u24 * L / tau / (L * s))) with (80 / 3 * 262 * u24 / (tau * s)) by (field; lra).
    assert (/ s <= / (tau * s)) by (apply Rinv_le_contravar; nra). pose proof (bpow_gt_0 radix2 (-18)).
    assert (0 < / (tau * s)) by (apply Rinv_0_lt_compat; nra).
    assert (bpow radix2 (-18) * (1000 / 144) / s <= bpow radix2 (-18) * (1000 / 144) / (tau * s)) by (apply Rmult_le_compat_l; lra).
    assert (bpow radix2 (-18) * (1000 / 144) / (tau * s) + 80 / 3 * 262 * u24 / (tau * s) <= bpow radix2 (-11) / (tau * s)); [|lra].
    replace (bpow radix2 (-18) * (1000 / 144) / (tau * s) + 80 / 3 * 262 * u24 / (tau * s)) with ((bpow radix2 (-18) * (1000 / 144) + 80 / 3 * 262 * u24) / (tau * s)) by (field; lra). apply Rmult_le_compat_r; [lra|]. unfold u24. cbn. lra. }
  assert (Ml : M <= 3 / 4).
  { unfold M. assert (/ 1536 <= tau * s) by nra. assert (/ (tau * s) <= 1536) by (replace 1536 with (/ / 1536) by lra; apply Rinv_le_contravar; lra).
    apply Rle_trans with (bpow radix2 (-11) * 1536); [apply Rmult_le_compat_l; [apply bpow_ge_0|auto]|cbn; lra]. }
  assert (m0 : 0 < margin (144 / 1000 * s)) by (unfold margin; apply Rmult_lt_0_compat; [apply bpow_gt_0|apply Rinv_0_lt_compat; lra]).
  assert (sh0 : 0 <= 80 / 3 * (e / (L * s))) by (apply Rmult_le_pos; [lra|]; apply Rmult_le_pos; [lra|]; left; apply Rinv_0_lt_compat; nra).
  assert (Tb : t <= 6 / 1000) by (apply Rabs_le_inv in Err; assert (bpow radix2 (-32) <= / 1000) by (cbn; lra); lra).
  assert (Hob : f_to_b ob = true -> obstructed (- (t + M)) (1 + t + M) [p; q; r] shapes [j]).
  { intro B. apply O2 in B. eapply obstructed_wider; [| |eapply obstructed_back with (qs' := [p; (x, y); r]) (s := s) (L := L) (e := e); eauto; lra]; lra. }
  assert (Hob' : obstructed (- t + M) (1 + t - M) [p; q; r] shapes [j] -> f_to_b ob = true).
  { intro B. apply O1. eapply obstructed_wider; [| |eapply obstructed_moves with (qs := [p; q; r]) (s := s) (L := L) (e := e); eauto; lra]; lra. }
  exists v. split; [exact V|]. split.
  - intro E. destruct (V2 E) as [P B]. split; auto. intro O. apply Hob' in O. congruence.
  - intros P N. rewrite (V1 P). destruct (f_to_b ob) eqn:B; [elim N; auto|reflexivity].
Qed.
(** The whole validity test of one reflection, in a scene of walls, RIS and vertices: right
    about the point up to [2^-14 / tau^2] of the wall and about obstruction up to
    [2^-11 / (tau s)] of the legs and walls. *)
Theorem C96_scene_anywhere :
  exists t, Rabs (t - 5 / 1000) <= bpow radix2 (-32) /\
  forall tau s L w tx rx a b p r q objects shapes j tol patch k tl, / 12 <= tau <= 1 -> / 128 <= s ->
  wall_stands_for w (a, b) -> stands_for tx p -> stands_for rx r -> Forall2 object_stands_for objects shapes ->
  one_reflection tau L a b p r -> reflection_point a b p r q -> ordinary (4 * L) ->
  scene_within L a shapes -> legs_clear s L [p; q; r] shapes [j] ->
  fval patch = Fin 0 -> fval tol = Fin tl -> / 10000000 / (tau * tau * (tau * tau)) < tl ->
  let m := bpow radix2 (-14) / (tau * tau) in
  let M := bpow radix2 (-11) / (tau * s) in
  exists v, f_is_valid false (f_ImagePath_from tx [w] rx) objects [j] [FWall w] tol patch k = Ok (FB v) /\
    (v = true -> projects_with_margin (- m) q a b /\ ~ obstructed (- t + M) (1 + t - M) [p; q; r] shapes [j]) /\
    (projects_with_margin m q a b -> ~ obstructed (- (t + M)) (1 + t + M) [p; q; r] shapes [j] -> v = true).
Proof. destruct val_seg_tol as (t & T & Ht & Err). exists t. split; [exact Err|]. apply scene_any; auto. Qed.
Print Assumptions C96_scene_anywhere.

(** The default tolerance is above that bound. *)
Theorem C96_default_tolerance_anywhere : forall tau, / 12 <= tau <= 1 ->
  exists tl, fval (f_lit 1 100) = Fin tl /\ / 10000000 / (tau * tau * (tau * tau)) < tl.
Proof.
  intros tau Ht. rewrite val_lit by (cbn; lia). exists (rnd (1 * / 100)). split; [reflexivity|].
  assert (K : Rabs (rnd (1 * / 100) - 1 * / 100) <= bpow radix2 (-6 - 25)) by (apply rnd_err; [lia|]; rewrite Rabs_pos_eq by lra; cbn; lra).
  assert (K2 : bpow radix2 (-6 - 25) <= / 1000000) by (cbn; lra). apply Rabs_le_inv in K.
  assert (T2 : / 144 <= tau * tau) by nra. assert (T4 : / 20736 <= tau * tau * (tau * tau)) by nra.
  assert (/ (tau * tau * (tau * tau)) <= 20736) by (replace 20736 with (/ / 20736) by lra; apply Rinv_le_contravar; lra). unfold Rdiv. lra.
Qed.
Print Assumptions C96_default_tolerance_anywhere.

(** The reflection on the oblique wall from (1/3, 0) to (3, 1/3) of the path from (1/3, 1)
    to (2, 1), and the images in that wall and in the wall from (1/3, 2) to (2, 1/3). *)
Definition any_image : R * R := (79055914911534259362323 / 136423919740534271246336, -3940649640394752 / 4065749637500473).
Definition any_image2 : R * R := (450548741144280004549139 / 136423919740534271246336, 7130699331709611 / 4065749637500473).
Definition any_point : R * R := (1007106268967895109125324874640738424891 / 733865125653730464076805102700857393152, 2840476403723074016940849627136 / 21870885063819005014801177462961).
Lemma any_image_is : mirror_image (third, 0) (3, third) (third, 1) any_image.
Proof. unfold mirror_image, det, any_image, third. cbn [fst snd]. split; lra. Qed.
Lemma any_image2_is : mirror_image (third, 2) (2, third) any_image any_image2.
Proof. unfold mirror_image, det, any_image, any_image2, third. cbn [fst snd]. split; lra. Qed.
Lemma any_ordinary n : (0 <= n <= 50)%Z -> ordinary (bpow radix2 n).
Proof. intro H. split; apply bpow_le; lia. Qed.
Example C96_anywhere_ex :
  wall_stands_for any_wall ((third, 0), (3, third)) /\ stands_for (f_third, f_int 1) (third, 1) /\ stands_for (f_int 2, f_int 1) (2, 1) /\
  one_reflection (/ 6) 4 (third, 0) (3, third) (third, 1) (2, 1) /\ reflection_point (third, 0) (3, third) (third, 1) (2, 1) any_point /\
  projects_with_margin (1 / 4) any_point (third, 0) (3, third) /\
  f_is_valid false (f_ImagePath_from (f_third, f_int 1) [any_wall] (f_int 2, f_int 1)) [FWall any_wall; FWall any_away] [0%Z] [FWall any_wall] (f_lit 1 100) f_zero default_fkw = Ok (FB true) /\
  walls_within 4 [((third, 0), (3, third)); ((third, 2), (2, third))] /\ Forall2 wall_stands_for [any_wall; any_across] [((third, 0), (3, third)); ((third, 2), (2, third))] /\
  ordinary (512 * 4) /\ (forall a b, In (a, b) [((third, 0), (3, third)); ((third, 2), (2, third))] -> close_by 4 (third, 1) a) /\
  mirror_chain (third, 1) [((third, 0), (3, third)); ((third, 2), (2, third))] [any_image; any_image2].
Proof.
  assert (Z : fval f_zero = Fin 0) by apply val_zero.
  assert (O2048 : ordinary (512 * 4)) by (replace (512 * 4) with (bpow radix2 11) by (cbn; lra); apply any_ordinary; lia).
  assert (W1 : wall_stands_for any_wall ((third, 0), (3, third))) by (split; split; try apply val_third; try apply Z; apply val_i; lia).
  assert (W2 : wall_stands_for any_across ((third, 2), (2, third))) by (split; split; try apply val_third; try apply Z; apply val_i; lia).
  split; [exact W1|]. split; [split; [apply val_third|apply val_i; lia]|]. split; [split; apply val_i; lia|]. split; [|split; [|split; [|split; [|split; [|split; [|split; [|split]]]]]]].
  - split; [apply ordinary_4|]. split; [replace (2 * 4) with (bpow radix2 3) by (cbn; lra); apply any_ordinary; lia|]. unfold within, close_by. cbn [fst snd].
    repeat (split; [split; apply Rabs_le; unfold third; lra|]). split; [unfold third; lra|].
    set (l := hyp (3 - third) third). pose proof (hyp_sq (3 - third) third) as Q. fold l in Q. pose proof (hyp_pos (3 - third) third) as P. fold l in P.
    assert (l0 : 0 < l) by (unfold third in *; nra). assert (l1 : l <= 3) by (unfold third in *; nra).
    exists (- third / l, (3 - third) / l). unfold height. cbn [fst snd]. split; [|split; [|split]].
    + apply Rmult_eq_reg_r with (l * l); [|nra]. rewrite Rmult_1_l. rewrite Q at 2. field. lra.
    + field. lra.
    + apply Rmult_le_reg_r with l; [auto|]. replace (((third - third) * (- third / l) + (1 - 0) * ((3 - third) / l)) * l) with (3 - third) by (field; lra). unfold third. lra.
    + apply Rmult_le_reg_r with l; [auto|]. replace (((2 - third) * (- third / l) + (1 - 0) * ((3 - third) / l)) * l) with (- (2 - third) * third + (3 - third)) by (field; lra). unfold third. lra.
  - split; [unfold det, any_point, third; cbn [fst snd]; lra|]. exists any_image, (3002399740395520 / 5379299517632057). split; [apply any_image_is|].
    unfold between, any_point, any_image. cbn [fst snd]. f_equal; lra.
  - unfold projects_with_margin, any_point, third. cbn [fst snd]. lra.
  - vm_compute. reflexivity.
  - split.
    + intros a b [I|[I|[]]]; injection I as <- <-; unfold within, close_by, third; cbn [fst snd]; (split; [split; apply Rabs_le; lra|]); (split; [split; apply Rabs_le; lra|lra]).
    + intros a b c d [I|[I|[]]] [J|[J|[]]]; injection I as <- <-; injection J as <- <-; unfold close_by, third; cbn [fst snd]; split; apply Rabs_le; lra.
  - repeat constructor; apply W1 || apply W2.
  - exact O2048.
  - intros a b [I|[I|[]]]; injection I as <- <-; unfold close_by, third; cbn [fst snd]; split; apply Rabs_le; lra.
  - constructor; [apply any_image_is|]. constructor; [apply any_image2_is|constructor].
Qed.

(** The same reflection in a scene with another wall beside it, and in one with a wall in
    the way: the hypotheses of [C96_scene_anywhere] hold and decide both. *)
Lemma any_ordinary' x : 1 <= x <= 1024 -> ordinary x.
Proof.
  intro H. split; [apply Rle_trans with (bpow radix2 0); [apply bpow_le; lia|cbn; lra]|apply Rle_trans with (bpow radix2 10); [cbn; lra|apply bpow_le; lia]].
Qed.
Lemma any_reflection : one_reflection (/ 4) 3 (third, 0) (3, third) (third, 1) (2, 1) /\ reflection_point (third, 0) (3, third) (third, 1) (2, 1) any_point.
Proof.
  split.
  - split; [apply any_ordinary'; lra|]. split; [apply any_ordinary'; lra|]. unfold within, close_by. cbn [fst snd].
    repeat (split; [split; apply Rabs_le; unfold third; lra|]). split; [unfold third; lra|].
    set (l := hyp (3 - third) third). pose proof (hyp_sq (3 - third) third) as Q. fold l in Q. pose proof (hyp_pos (3 - third) third) as P. fold l in P.
    assert (l0 : 0 < l) by (unfold third in *; nra). assert (l1 : l <= 27 / 10) by (unfold third in *; nra).
    exists (- third / l, (3 - third) / l). unfold height. cbn [fst snd]. split; [|split; [|split]].
    + apply Rmult_eq_reg_r with (l * l); [|nra]. rewrite Rmult_1_l. rewrite Q at 2. field. lra.
    + field. lra.
    + apply Rmult_le_reg_r with l; [auto|]. replace (((third - third) * (- third / l) + (1 - 0) * ((3 - third) / l)) * l) with (3 - third) by (field; lra). unfold third. lra.
    + apply Rmult_le_reg_r with l; [auto|]. replace (((2 - third) * (- third / l) + (1 - 0) * ((3 - third) / l)) * l) with (- (2 - third) * third + (3 - third)) by (field; lra). unfold third. lra.
  - split; [unfold det, any_point, third; cbn [fst snd]; lra|]. exists any_image, (3002399740395520 / 5379299517632057). split; [apply any_image_is|].
    unfold between, any_point, any_image. cbn [fst snd]. f_equal; lra.
Qed.
Lemma any_legs shapes c d : shapes = [Segment (third, 0) (3, third); Segment c d] ->
  transverse (/ 33) 3 c d (third, 1) any_point -> transverse (/ 33) 3 c d any_point (2, 1) -> legs_clear (/ 33) 3 [(third, 1); any_point; (2, 1)] shapes [0%Z].
Proof.
  intros -> C1 C2 i j a b p q J I I' N. left. destruct j as [|[|j]]; cbn in J; [|injection J as <- <-|destruct j; discriminate].
  - exfalso. apply N. destruct i as [|[|i]]; cbn in I'; [left; reflexivity|right; exists 0%nat; split; reflexivity|destruct i; discriminate].
  - destruct i as [|[|i]]; cbn in I, I'; [injection I as <-; injection I' as <-; auto|injection I as <-; injection I' as <-; auto|destruct i; discriminate].
Qed.
Ltac any_spans := unfold transverse, det, any_point, third; cbn [fst snd]; first [rewrite Rabs_left by lra; lra | rewrite Rabs_right by lra; lra].
Example C96_scene_ex :
  one_reflection (/ 4) 3 (third, 0) (3, third) (third, 1) (2, 1) /\ reflection_point (third, 0) (3, third) (third, 1) (2, 1) any_point /\ ordinary (4 * 3) /\
  scene_within 3 (third, 0) any_scene1 /\ scene_within 3 (third, 0) any_scene2 /\
  legs_clear (/ 33) 3 [(third, 1); any_point; (2, 1)] any_scene1 [0%Z] /\ legs_clear (/ 33) 3 [(third, 1); any_point; (2, 1)] any_scene2 [0%Z] /\
  projects_with_margin (1 / 4) any_point (third, 0) (3, third) /\
  ~ obstructed (- (1 / 10)) (11 / 10) [(third, 1); any_point; (2, 1)] any_scene1 [0%Z] /\ obstructed (1 / 10) (9 / 10) [(third, 1); any_point; (2, 1)] any_scene2 [0%Z] /\
  f_is_valid false (f_ImagePath_from (f_third, f_int 1) [any_wall] (f_int 2, f_int 1)) [FWall any_wall; FWall any_away] [0%Z] [FWall any_wall] (f_lit 1 100) f_zero default_fkw = Ok (FB true) /\
  f_is_valid false (f_ImagePath_from (f_third, f_int 1) [any_wall] (f_int 2, f_int 1)) [FWall any_wall; FWall any_across] [0%Z] [FWall any_wall] (f_lit 1 100) f_zero default_fkw = Ok (FB false).
Proof.
  split; [apply any_reflection|]. split; [apply any_reflection|]. split; [apply any_ordinary'; lra|].
  split; [|split; [|split; [|split; [|split; [|split; [|split; [|split]]]]]]].
  1, 2: intros a b [I|[I|[]]]; injection I as <- <-; unfold close_by, third; cbn [fst snd]; split; split; apply Rabs_le; lra.
  - apply (any_legs _ (3, 1) (4, 3)); [reflexivity|any_spans|any_spans].
  - apply (any_legs _ (third, 2) (2, third)); [reflexivity|any_spans|any_spans].
  - unfold projects_with_margin, any_point, third. cbn [fst snd]. lra.
  - intros (i & j & a & b & p & q & J & P & Q & T & N & s & t & S1 & S2 & E1 & E2).
    destruct j as [|[|j]]; cbn in J; [|injection J as <- <-|destruct j; discriminate].
    + apply T. destruct i as [|[|i]]; cbn in Q; [left; reflexivity|right; exists 0%nat; split; reflexivity|destruct i; discriminate].
    + destruct i as [|[|i]]; cbn in P, Q; [| |destruct i; discriminate]; injection P as <-; injection Q as <-; unfold any_point, third in *; cbn [fst snd] in *; lra.
  - exists 1%nat, 1%nat, (third, 2), (2, third), any_point, (2, 1). cbn [nth_error any_scene2]. repeat (split; [reflexivity|]). split; [|split].
    + intros [H|(i & H & K)]; [discriminate H|]. injection H as <-. discriminate K.
    + unfold parallel, any_point, third. cbn [fst snd]. lra.
    + exists (21526584867445983814114625978368 / 25861636772927053874247226706097), (609935125844773894394480116425694380032 / 1099178535656965849172681846625873487813).
      unfold any_point, third. cbn [fst snd]. lra.
  - vm_compute. reflexivity.
  - vm_compute. reflexivity.
Qed.
