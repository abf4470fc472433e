(** Single precision: properties C71 to C77. *)
From Coq Require Import Reals List Bool ZArith Lra Lia.
From Flocq Require Import Core.Core IEEE754.BinarySingleNaN.
From Verif Require Import Base BaseP LogicM GeometryM PathM FloatM SpecFloat32 FloatP FloatLogicP FloatCmpP FloatAccP FloatGeomP FloatSegP.
Import ListNotations.
Open Scope R_scope.

Lemma like_hs h : hard_sigmoid_like h -> exists inv, h = hs_fun inv.
Proof. intros [->| ->]; [exists false|exists true]; reflexivity. Qed.

(** C71: in single precision, every smoothed truth value is a number between 0 and 1 or
    NaN, whatever the operands (zeros, subnormal numbers, infinities and NaN included). *)
Theorem C71_smoothed_values_in_range :
  (forall h, hard_sigmoid_like h -> unit_function h) /\
  (forall approx x y k, unit_function (fk_function k) ->
     unit_or_nan (f_greater approx x y k) /\ unit_or_nan (f_greater_equal approx x y k) /\
     unit_or_nan (f_less approx x y k) /\ unit_or_nan (f_less_equal approx x y k)) /\
  (forall approx x y, unit_or_nan x -> unit_or_nan y ->
     unit_or_nan (f_and approx x y) /\ unit_or_nan (f_or approx x y) /\ unit_or_nan (f_not approx x)) /\
  (forall approx t ts, unit_or_nan t -> Forall unit_or_nan ts ->
     unit_or_nan (f_all approx t ts) /\ unit_or_nan (f_any approx t ts)).
Proof.
  split; [intros h H; destruct (like_hs h H) as [inv ->]; apply hard_sigmoid_unit|].
  split; [intros; apply compare_unit; auto|]. split; intros; repeat split; auto using and_unit, or_unit, not_unit, all_unit, any_unit.
Qed.
Print Assumptions C71_smoothed_values_in_range.

(** A comparison of finite numbers with a finite non-zero slope is never NaN, even when
    the difference or its product overflows. *)
Theorem C71_finite_comparisons_are_not_nan :
  forall x y alpha h, hard_sigmoid_like h -> finite x -> finite y -> finite alpha -> fval alpha <> Fin 0 ->
  unit_truth (f_greater true x y (mkfkw alpha h)) /\ unit_truth (f_less true x y (mkfkw alpha h)).
Proof.
  intros x y alpha h H X Y A Z. destruct (like_hs h H) as [inv ->]. destruct A as [a A].
  assert (K : forall u v, finite u -> finite v -> unit_float (hs_fun inv (f_sub u v) alpha)).
  { intros u v [ru U] [rv V]. unfold unit_float. rewrite val_hs. apply hs_val_unit. rewrite val_mul, xround_nan, A.
    pose proof (sub_not_nan u v (ex_intro _ ru U) (ex_intro _ rv V)) as N. unfold not_nan in N.
    assert (a <> 0) by congruence. destruct (fval (f_sub u v)); cbn; try discriminate; unfold inf_times;
    try (destruct (Reqb_spec a 0); [contradiction|]; destruct (Rltb 0 a); discriminate). congruence. }
  split; apply K; auto.
Qed.
Print Assumptions C71_finite_comparisons_are_not_nan.

(** C72: the comparison grows with its first argument and decreases with its second. *)
Theorem C72_comparison_is_monotone :
  forall x x' y y' alpha h a, hard_sigmoid_like h -> fval alpha = Fin a -> 0 < a ->
  finite x -> finite x' -> finite y -> finite y' -> at_most x x' -> at_most y y' ->
  at_most (f_to_f (f_greater true x y' (mkfkw alpha h))) (f_to_f (f_greater true x' y (mkfkw alpha h))).
Proof.
  intros x x' y y' alpha h a H A P [rx X] [rx' X'] [ry Y] [ry' Y'] LX LY. destruct (like_hs h H) as [inv ->].
  cbn [f_greater f_to_f f_activation fk_function fk_alpha]. unfold f_activation. cbn [fk_function fk_alpha].
  apply (hs_mono inv alpha a _ _ A P). apply xle_trans with (fval (f_sub x' y')).
  - eapply sub_mono_l; eauto.
  - eapply sub_mono_r; eauto.
Qed.
Print Assumptions C72_comparison_is_monotone.

(** Beyond [3 / alpha] the comparison is exactly 1 or exactly 0. *)
Theorem C72_exact_saturation :
  forall x y alpha h, hard_sigmoid_like h ->
  (at_most (f_int 3) (f_mul alpha (f_sub x y)) -> fval (f_to_f (f_greater true x y (mkfkw alpha h))) = Fin 1) /\
  (at_most (f_mul alpha (f_sub x y)) (f_int (-3)) -> fval (f_to_f (f_greater true x y (mkfkw alpha h))) = Fin 0).
Proof.
  intros x y alpha h H. destruct (like_hs h H) as [inv ->]. cbn [f_greater f_to_f]. unfold f_activation, at_most. cbn [fk_function fk_alpha].
  rewrite val_hs, !val_int by (cbn; lia). split; [apply hs_sat|apply hs_msat].
Qed.
Print Assumptions C72_exact_saturation.

(** The smoothed answer never contradicts the order: above 1/2 means greater, below 1/2
    means less; hence [is_true] and [is_false] with a tolerance of at most 1/2 are right. *)
Theorem C72_answers_agree_with_the_order :
  forall x y alpha h a v, hard_sigmoid_like h -> fval alpha = Fin a -> 0 < a -> not_nan x -> not_nan y ->
  f_greater true x y (mkfkw alpha h) = FF v ->
  (forall r, fval v = Fin r -> / 2 < r -> below y x) /\
  (forall r, fval v = Fin r -> r < / 2 -> below x y) /\
  (forall tol t, fval tol = Fin t -> 0 <= t <= / 2 ->
     (f_is_true v tol = true -> below y x) /\ (f_is_false v tol = true -> below x y)).
Proof.
  intros x y alpha h a v H A P Nx Ny E. destruct (like_hs h H) as [inv ->]. cbn [f_greater] in E. unfold f_activation in E. cbn [fk_function fk_alpha] in E.
  injection E as <-. split; [intros r V L; exact (hs_above inv alpha a x y r A P Nx Ny V L)|]. split; [intros r V L; exact (hs_below inv alpha a x y r A P Nx Ny V L)|].
  intros tol t T Ht. destruct (hard_sigmoid_unit inv (f_sub x y) alpha) as [N|(r & V & U)].
  - unfold f_is_true, f_is_false. rewrite !val_ltb, N. split; [destruct (fval (f_sub f_one tol)); discriminate|discriminate].
  - unfold f_is_true, f_is_false. rewrite !val_ltb, V. split; intro K.
    + destruct (not_val tol t T) as [E _]; [lra|]. rewrite E in K. cbn in K.
      assert (L : rnd (1 - t) < r) by (destruct (Rltb_spec (rnd (1 - t)) r); [auto|discriminate]).
      apply (hs_above inv alpha a x y r A P Nx Ny V). apply Rle_lt_trans with (rnd (1 - t)); auto. rewrite <- (rnd_id _ half_format). apply rnd_le. lra.
    + rewrite T in K. cbn in K. assert (L : r < t) by (destruct (Rltb_spec r t); [auto|discriminate]).
      destruct (Req_dec r (/ 2)) as [E|N]; [lra|]. apply (hs_below inv alpha a x y r A P Nx Ny V). lra.
Qed.
Print Assumptions C72_answers_agree_with_the_order.

(** Differences smaller than [2^-23 / alpha] are invisible: the answer is exactly 1/2. *)
Theorem C72_dead_zone :
  forall x y alpha h r, hard_sigmoid_like h -> fval (f_mul alpha (f_sub x y)) = Fin r -> Rabs r <= bpow radix2 (-23) ->
  fval (f_to_f (f_greater true x y (mkfkw alpha h))) = Fin (/ 2).
Proof.
  intros x y alpha h r H M B. destruct (like_hs h H) as [inv ->]. cbn [f_greater f_to_f]. unfold f_activation. cbn [fk_function fk_alpha].
  rewrite val_hs, M. apply hs_dead; auto.
Qed.
Print Assumptions C72_dead_zone.

(** The four smoothed comparisons are this one, with the operands in the order of the
    sign; the exact ones are the IEEE order, NaN included. *)
Theorem C72_the_other_comparisons :
  forall x y k,
  f_greater_equal true x y k = f_greater true x y k /\
  f_less true x y k = f_greater true y x k /\ f_less_equal true x y k = f_greater true y x k /\
  exists gt ge lt le,
    f_greater false x y k = FB gt /\ f_greater_equal false x y k = FB ge /\
    f_less false x y k = FB lt /\ f_less_equal false x y k = FB le /\
    (gt = true <-> below y x) /\ (ge = true <-> at_most y x) /\ (lt = true <-> below x y) /\ (le = true <-> at_most x y).
Proof.
  intros x y k. repeat (split; [reflexivity|]). do 4 eexists. repeat (split; [reflexivity|]).
  unfold below, at_most. rewrite !val_ltb, !val_leb. tauto.
Qed.
Print Assumptions C72_the_other_comparisons.
Example C72_dead_zone_ex :
  below f_zero (f_scaled 1 (-31)) /\
  fval (f_to_f (f_greater true (f_scaled 1 (-31)) f_zero default_fkw)) = Fin (/ 2).
Proof.
  split; [unfold below; rewrite val_zero, val_scaled by (cbn; lia); cbn [xltb]; destruct (Rltb_spec 0 (1 * bpow radix2 (-31))) as [L|L]; [auto|elim L; cbn; lra]|].
  replace (/ 2) with (8388608 * bpow radix2 (-24)) by (cbn; lra). apply (fval_of_SF _ false). vm_compute. reflexivity.
Qed.
Example C72_ex :
  fval (f_to_f (f_greater true (f_int 5) (f_int 2) default_fkw)) = Fin 1 /\
  fval (f_to_f (f_greater true (f_scaled 1 (-7)) f_zero default_fkw)) = Fin (10573141 * bpow radix2 (-24)).
Proof.
  split.
  - replace 1 with (8388608 * bpow radix2 (-23)) by (cbn; lra). apply (fval_of_SF _ false). vm_compute. reflexivity.
  - apply (fval_of_SF _ false). vm_compute. reflexivity.
Qed.

(** C73: De Morgan's laws hold exactly, in both modes, for all floats and booleans. *)
Theorem C73_de_morgan_is_exact :
  forall approx x y,
  fval (f_to_f (f_not approx (f_or approx x y))) = fval (f_to_f (f_and approx (f_not approx x) (f_not approx y))) /\
  fval (f_to_f (f_not approx (f_and approx x y))) = fval (f_to_f (f_or approx (f_not approx x) (f_not approx y))).
Proof.
  intros approx x y. destruct approx.
  - assert (K : fval (f_to_f (f_not true (f_or true x y))) = fval (f_sub f_one (f_max (f_to_f x) (f_to_f y)))).
    { unfold f_not, f_or. cbn [f_to_f]. destruct x as [[|]|x], y as [[|]|y]; cbn [f_to_f]; try reflexivity. }
    assert (K' : fval (f_to_f (f_not true (f_and true x y))) = fval (f_sub f_one (f_min (f_to_f x) (f_to_f y)))).
    { unfold f_not, f_and. cbn [f_to_f]. destruct x as [[|]|x], y as [[|]|y]; cbn [f_to_f]; try reflexivity. }
    rewrite K, K'. rewrite not_max, not_min. split; reflexivity.
  - cbn. destruct (f_to_b x), (f_to_b y); split; reflexivity.
Qed.
Print Assumptions C73_de_morgan_is_exact.

(** Negating twice is exact on [[1/2, 1]], moves a truth value by at most [2^-25]
    otherwise, and negating three times is negating once. *)
Theorem C73_double_negation :
  forall x r, fval x = Fin r -> 0 <= r <= 1 ->
  (/ 2 <= r -> fval (f_to_f (f_not true (f_not true (FF x)))) = Fin r) /\
  (exists r', fval (f_to_f (f_not true (f_not true (FF x)))) = Fin r' /\ Rabs (r' - r) <= bpow radix2 (-25)) /\
  fval (f_to_f (f_not true (f_not true (f_not true (FF x))))) = fval (f_to_f (f_not true (FF x))).
Proof.
  intros x r X H. unfold f_not. cbn [f_to_f]. split; [intro L; apply notnot_exact; auto; lra|].
  split; [apply notnot_err; auto|]. eapply notnotnot; eauto.
Qed.
Print Assumptions C73_double_negation.
(** It is not always exact. *)
Theorem C73_double_negation_loses_small_values :
  exists x r, fval x = Fin r /\ 0 < r <= 1 /\ fval (f_to_f (f_not true (f_not true (FF x)))) = Fin 0.
Proof.
  exists (f_scaled 1 (-30)), (1 * bpow radix2 (-30)). split; [apply val_scaled; cbn; lia|]. split; [cbn; lra|].
  assert (K : f_sub f_one (f_sub f_one (f_scaled 1 (-30))) = f_zero) by (apply B2SF_inj; vm_compute; reflexivity).
  unfold f_not. cbn [f_to_f]. rewrite K. reflexivity.
Qed.
Print Assumptions C73_double_negation_loses_small_values.

(** C74: the validity score of a path is always a boolean, or a float between 0 and 1:
    never NaN and never infinite, for all coordinates, losses, tolerances and slopes. *)
Theorem C74_validity_score_in_range :
  forall approx p objects cand inter tol patch k v, unit_function (fk_function k) ->
  f_is_valid approx p objects cand inter tol patch k = Ok v -> unit_truth v.
Proof. exact is_valid_unit. Qed.
Print Assumptions C74_validity_score_in_range.

(** A path whose loss is NaN, or with a NaN point where it interacts with a wall, is
    invalid: its score is exactly 0 (or [False]). *)
Theorem C74_nan_paths_are_invalid :
  forall approx p objects cand inter tol patch alpha h v, hard_sigmoid_like h ->
  f_is_valid approx p objects cand inter tol patch (mkfkw alpha h) = Ok v ->
  fval (f_loss p) = NaN \/
  (exists i o, nth_error inter i = Some o /\ (forall q, o <> FVertex q) /\ nan_point (f_row (f_xys p) (i + 1))) ->
  v = f_false approx.
Proof.
  intros approx p objects cand inter tol patch alpha h v H E N. destruct (like_hs h H) as [inv ->].
  unfold f_is_valid in E. destruct (f_intersects_with_objects _ _ _ _ _ _) as [r|]; cbn [rbind] in E; [|discriminate].
  injection E as <-. apply bad_truth, all_bad. destruct N as [N|(i & o & I & O & N)].
  - right. right. left. apply less_nan; [apply hs_nan_function|auto].
  - left. eapply on_objects_bad; eauto. apply hs_nan_function.
Qed.
Print Assumptions C74_nan_paths_are_invalid.
Example C74_ex :
  let w := mkfwall (f_int 0, f_int 0) (f_int 4, f_int 0) in
  let p := mkfpath [(f_int 0, f_int 2); (f_int 2, f_int 0); (f_int 4, f_int 2)] f_zero in
  f_is_valid false p [FWall w] [0%Z] [FWall w] (f_lit 1 100) f_zero default_fkw = Ok (FB true).
Proof. vm_compute. reflexivity. Qed.

(** C75: for finite points the path length is non-negative (infinite only by overflow)
    and at least the computed length of each of its legs, in whatever order the legs are
    added. *)
Theorem C75_path_length_bounds :
  forall pts r, Forall finite_point pts -> f_path_length pts r ->
  not_nan r /\ at_most f_zero r /\ forall l, In l (f_lengths pts) -> at_most l r.
Proof.
  intros pts r P L. pose proof (lengths_nneg pts P) as N. pose proof (sum_nneg _ _ L N) as R. split; [apply nneg_not_nan; auto|].
  split; auto. intros l I. eapply sum_ge; eauto.
Qed.
Print Assumptions C75_path_length_bounds.

(** The received power is between 0 and the rounded inverse of the rounded square of the
    height. *)
Theorem C75_received_power_bounds :
  forall pts r_coef height x h, Forall finite_point pts -> unit_float r_coef ->
  fval (f_mul height height) = Fin h -> 0 < h -> f_received_power pts r_coef height x ->
  not_nan x /\ at_most f_zero x /\ xleb (fval x) (xround (Fin (/ h))) = true.
Proof.
  intros pts r_coef height x h P C H Ph R. destruct (received_power_bounds _ _ _ _ _ P C H Ph R) as [A B].
  split; [apply nneg_not_nan; exact A|]. auto.
Qed.
Print Assumptions C75_received_power_bounds.

(** The accumulated value is never NaN, never negative, and never decreases when a path
    is added. *)
Theorem C75_accumulation_only_grows :
  forall terms v x, Forall (fun '(v, x) => unit_truth v /\ at_most f_zero x /\ finite x) (terms ++ [(v, x)]) ->
  not_nan (f_accumulate terms) /\ at_most f_zero (f_accumulate terms) /\
  at_most (f_accumulate terms) (f_accumulate (terms ++ [(v, x)])).
Proof.
  intros terms v x H. apply Forall_app in H. destruct H as [H H1]. apply Forall_inv in H1. cbn beta iota in H1. destruct H1 as (V & X & F).
  pose proof (accumulate_nneg terms H) as N. split; [apply nneg_not_nan; auto|]. split; auto.
  rewrite accumulate_snoc. apply nneg_add; auto. apply term_nneg; auto.
Qed.
Print Assumptions C75_accumulation_only_grows.
Example C75_ex :
  exists x, f_received_power [(f_int 0, f_int 0); (f_int 3, f_int 0); (f_int 3, f_int 4)] (f_lit 1 2) (f_lit 1 10) x /\
    unit_float (f_lit 1 2) /\ exists r, fval x = Fin r /\ 0.0102 < r < 0.0103.
Proof.
  eexists. split.
  - exists (f_add (nth 0 (f_lengths [(f_int 0, f_int 0); (f_int 3, f_int 0); (f_int 3, f_int 4)]) f_zero)
             (nth 1 (f_lengths [(f_int 0, f_int 0); (f_int 3, f_int 0); (f_int 3, f_int 4)]) f_zero)), (f_lit 1 2).
    split; [|split; [apply f_power_1|reflexivity]].
    apply (f_sum_add [_] [_]); apply f_sum_one.
  - split.
    + exists (8388608 * bpow radix2 (-24)). split; [apply (fval_of_SF _ false); vm_compute; reflexivity|cbn; lra].
    + eexists. split; [apply (fval_of_SF _ false); vm_compute; reflexivity|]. cbn. lra.
Qed.

(** C76: the smoothed comparison in single precision is within [2^-22] of its exact
    value, for all finite operands whose difference does not overflow and every positive
    slope. *)
Theorem C76_comparison_accuracy :
  forall x y alpha h a rx ry, hard_sigmoid_like h -> fval alpha = Fin a -> 0 < a -> fval x = Fin rx -> fval y = Fin ry ->
  finite (f_sub x y) ->
  exists v, fval (f_to_f (f_greater true x y (mkfkw alpha h))) = Fin v /\
    Rabs (v - exact_sigmoid (rx - ry) a) <= bpow radix2 (-22).
Proof.
  intros x y alpha h a rx ry H A P X Y F. destruct (like_hs h H) as [inv ->]. cbn [f_greater f_to_f]. unfold f_activation, exact_sigmoid. cbn [fk_function fk_alpha].
  apply hs_accuracy; auto.
Qed.
Print Assumptions C76_comparison_accuracy.
(** With the default arguments (the slope 100, the hard sigmoid). *)
Theorem C76_default_arguments :
  forall x y rx ry, fval x = Fin rx -> fval y = Fin ry -> finite (f_sub x y) ->
  exists v, fval (f_to_f (f_greater true x y default_fkw)) = Fin v /\ Rabs (v - exact_sigmoid (rx - ry) 100) <= bpow radix2 (-22).
Proof.
  intros x y rx ry X Y F. apply C76_comparison_accuracy; auto; try lra.
  - left. reflexivity.
  - apply (val_int 100). cbn. lia.
Qed.
Print Assumptions C76_default_arguments.
(** Without the hypothesis on the difference it can be completely wrong. *)
Theorem C76_overflow_breaks_accuracy :
  exists x y alpha rx ry a, fval x = Fin rx /\ fval y = Fin ry /\ fval alpha = Fin a /\ 0 < a /\
    fval (f_to_f (f_greater true x y (mkfkw alpha f_hard_sigmoid))) = Fin 1 /\ exact_sigmoid (rx - ry) a = 5 / 6.
Proof.
  exists (f_scaled 1 127), (f_scaled (-1) 127), (f_scaled 1 (-127)). do 3 eexists.
  split; [apply (fval_of_SF _ false); vm_compute; reflexivity|]. split; [apply (fval_of_SF _ true); vm_compute; reflexivity|].
  split; [apply val_scaled; cbn; lia|]. assert (B : 0 < bpow radix2 (-127)) by apply bpow_gt_0. split; [lra|]. split.
  - replace 1 with (8388608 * bpow radix2 (-23)) by (cbn; lra). apply (fval_of_SF _ false). vm_compute. reflexivity.
  - unfold exact_sigmoid.
    replace (1 * bpow radix2 (-127) * _) with 2.
    + rewrite Rmax_left, Rmin_left by lra. lra.
    + cbn -[bpow]. assert (E : bpow radix2 (-127) * bpow radix2 104 = bpow radix2 (-23)) by (rewrite <- bpow_plus; reflexivity).
      transitivity (2 * 8388608 * (bpow radix2 (-127) * bpow radix2 104)); [rewrite E; cbn; lra|]. ring.
Qed.
Print Assumptions C76_overflow_breaks_accuracy.

(** C77: on points of a common grid of 2049 x 2049 positions (any power of two apart), the
    segment test is right: parallel segments are detected exactly, a crossing within the
    tolerance is always found, and a crossing that is found exists up to [2^-22]. *)
Theorem C77_segments_on_a_grid :
  forall e P1 P2 P3 P4 Q1 Q2 Q3 Q4 tol k t, (-74 <= e <= 51)%Z ->
  on_grid e P1 Q1 -> on_grid e P2 Q2 -> on_grid e P3 Q3 -> on_grid e P4 Q4 -> fval tol = Fin t -> 0 <= t <= 1 ->
  (parallel Q1 Q2 Q3 Q4 -> f_segments_intersect false P1 P2 P3 P4 tol k = FB false) /\
  (~ parallel Q1 Q2 Q3 Q4 -> crosses (- t) (1 + t) Q1 Q2 Q3 Q4 -> f_segments_intersect false P1 P2 P3 P4 tol k = FB true) /\
  (f_segments_intersect false P1 P2 P3 P4 tol k = FB true -> crosses (- (t + bpow radix2 (-22))) (1 + t + bpow radix2 (-22)) Q1 Q2 Q3 Q4).
Proof. exact grid_segments. Qed.
Print Assumptions C77_segments_on_a_grid.

(** Off the grid a proper crossing can be missed: the determinant rounds to 0. *)
Theorem C77_a_crossing_can_be_missed :
  exists P1 P2 P3 P4 Q1 Q2 Q3 Q4,
    (fval (fst P1) = Fin (fst Q1) /\ fval (snd P1) = Fin (snd Q1)) /\ (fval (fst P2) = Fin (fst Q2) /\ fval (snd P2) = Fin (snd Q2)) /\
    (fval (fst P3) = Fin (fst Q3) /\ fval (snd P3) = Fin (snd Q3)) /\ (fval (fst P4) = Fin (fst Q4) /\ fval (snd P4) = Fin (snd Q4)) /\
    ~ parallel Q1 Q2 Q3 Q4 /\ crosses (1 / 2) (1 / 2) Q1 Q2 Q3 Q4 /\
    f_segments_intersect false P1 P2 P3 P4 F_SEG_TOL default_fkw = FB false.
Proof.
  exists (f_scaled (-8193) (-13), f_scaled (-1) 0), (f_scaled 8193 (-13), f_scaled 1 0), (f_scaled 1 0, f_scaled 8191 (-13)), (f_scaled (-1) 0, f_scaled (-8191) (-13)).
  exists (-8193 * bpow radix2 (-13), -1 * bpow radix2 0), (8193 * bpow radix2 (-13), 1 * bpow radix2 0), (1 * bpow radix2 0, 8191 * bpow radix2 (-13)), (-1 * bpow radix2 0, -8191 * bpow radix2 (-13)).
  cbn [fst snd]. repeat (split; [split; apply val_scaled; cbn; lia|]). split; [unfold parallel; cbn; lra|]. split.
  - exists (1 / 2), (1 / 2). cbn. lra.
  - vm_compute. reflexivity.
Qed.
Print Assumptions C77_a_crossing_can_be_missed.
Example C77_ex :
  f_segments_intersect false (f_int 0, f_int 0) (f_int 4, f_int 4) (f_int 0, f_int 4) (f_int 4, f_int 0) F_SEG_TOL default_fkw = FB true /\
  on_grid 0 (f_int 4, f_int 0) (4 * bpow radix2 0, 0 * bpow radix2 0).
Proof.
  split; [vm_compute; reflexivity|]. exists 4%Z, 0%Z. repeat split; try (cbn; lia); apply val_scaled; cbn; lia.
Qed.
