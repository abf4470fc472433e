(** C75: how accurate lengths, powers and accumulated values are in single precision. *)
From Coq Require Import Reals List Bool ZArith Lra Lia Permutation.
From Flocq Require Import Core.Core IEEE754.BinarySingleNaN.
From Verif Require Import Base BaseP LogicM GeometryM PathM FloatM SpecGeometry SpecFloat32 SpecImage32 SpecAccuracy FloatP FloatLogicP FloatCmpP FloatAccP FloatGeomP FloatSegP FloatImageErrP FloatImageLossP FloatAnyP FloatObliqueP FloatLenP.
Import ListNotations.
Open Scope R_scope.

(** The computed length of a path of [n] legs (up to 500) and exact length [l] is within
    [2^-24 ((n + 6) l + 4 n)] of [l], in whatever order the legs are added. *)
Theorem C75_path_length_accuracy :
  forall pts qs r, Forall2 stands_for pts qs -> (length qs <= 501)%nat -> polyline qs <= bpow radix2 60 -> f_path_length pts r ->
  let n := INR (length qs - 1) in
  exists v, fval r = Fin v /\ 0 <= v /\ Rabs (v - polyline qs) <= bpow radix2 (-24) * ((n + 6) * polyline qs + 4 * n).
Proof.
  intros pts qs r F N B H n. destruct (length_near pts qs r F B N H) as (v & V & V0 & E). exists v. split; auto. split; auto.
  replace (Nat.pred (length qs)) with (length qs - 1)%nat in E by lia. rewrite b24. exact E.
Qed.
Print Assumptions C75_path_length_accuracy.

(** The computed power of a path of [n] legs (up to 256) is within the fraction
    [2^-22 (n + 4 + 2 n / h)] of [1 / (h^2 + l^2)] of the exact power. *)
Theorem C75_received_power_accuracy :
  forall pts qs r_coef c height h x, Forall2 stands_for pts qs -> (2 <= length qs <= 257)%nat -> polyline qs <= bpow radix2 50 ->
  fval r_coef = Fin c -> 0 <= c <= 1 -> fval height = Fin h -> / 256 <= h <= 1048576 -> f_received_power pts r_coef height x ->
  let n := INR (length qs - 1) in
  exists v, fval x = Fin v /\ 0 <= v /\
    Rabs (v - exact_power c h (length qs - 2) (polyline qs)) <= bpow radix2 (-22) * (n + 4 + 2 * n / h) / (h * h + polyline qs * polyline qs).
Proof.
  intros pts qs r_coef c height h x F N B C C0 H H0 P n. destruct (received_near pts qs r_coef c height h x F B N C C0 H H0 P) as (v & V & V0 & E). exists v. split; auto. split; auto.
  replace (bpow radix2 (-22)) with (4 * u24) by (unfold u24; cbn; lra). exact E.
Qed.
Print Assumptions C75_received_power_accuracy.

(** The accumulated value of [n] paths (up to 1000) is within [2^-24 (n + 1)] of the sum
    of the products (relatively, and [n 2^-149]), and within [2^-24 n] with approximation
    off. *)
Theorem C75_accumulation_accuracy :
  forall terms rs, Forall2 contributes terms rs -> (length terms <= 1000)%nat -> sum_of rs <= bpow radix2 100 ->
  let n := INR (length terms) in
  exists v, fval (f_accumulate terms) = Fin v /\ 0 <= v /\
    Rabs (v - sum_of rs) <= bpow radix2 (-24) * (n + 1) * sum_of rs + n * bpow radix2 (-149) /\
    (Forall (fun t => exists b, fst t = FB b) terms -> Rabs (v - sum_of rs) <= bpow radix2 (-24) * n * sum_of rs).
Proof.
  intros terms rs F N B n. destruct (accumulate_near terms rs F N B) as (v & V & V0 & E). exists v. rewrite b24. split; auto. split; auto. split; auto.
  intro Bo. destruct (accumulate_bool terms rs F Bo N B) as (v' & V' & _ & E'). rewrite V in V'. apply Fin_inj in V'. subst v'. exact E'.
Qed.
Print Assumptions C75_accumulation_accuracy.

(** The path (0, 0), (3, 0), (3, 4): length 7, power [(1/2) / (h^2 + 49)]; added to that of
    the direct path, of length 5, when both are valid. *)
Definition acc_pts : list fvec := [(f_int 0, f_int 0); (f_int 3, f_int 0); (f_int 3, f_int 4)].
Definition acc_qs : list (R * R) := [(0, 0); (3, 0); (3, 4)].
Lemma acc_stands : Forall2 stands_for acc_pts acc_qs.
Proof. repeat constructor; cbn [fst snd]; apply val_int; cbn; lia. Qed.
Lemma acc_length : polyline acc_qs = 7.
Proof.
  unfold acc_qs. cbn [polyline]. unfold dist. cbn [fst snd].
  replace ((0 - 3) ^ 2 + (0 - 0) ^ 2) with (3 * 3) by ring. replace ((3 - 3) ^ 2 + (0 - 4) ^ 2) with (4 * 4) by ring. rewrite !sqrt_square by lra. ring.
Qed.
Example C75_accuracy_ex :
  Forall2 stands_for acc_pts acc_qs /\ polyline acc_qs = 7 /\ polyline acc_qs <= bpow radix2 50 /\
  (exists x, f_received_power acc_pts (f_lit 1 2) (f_int 2) x /\ exists v, fval x = Fin v /\ Rabs (v - / 2 / 53) <= bpow radix2 (-22) * 8 / 53) /\
  exists v, fval (f_accumulate [(FB true, f_lit 1 2); (FF (f_lit 1 4), f_int 3); (FB false, f_int 5)]) = Fin v /\ Rabs (v - 5 / 4) <= bpow radix2 (-22) * 2 + 3 * bpow radix2 (-149).
Proof.
  assert (L : polyline acc_qs <= bpow radix2 50) by (rewrite acc_length; apply Rle_trans with (bpow radix2 3); [cbn; lra|apply bpow_le; lia]).
  assert (H2 : fval (f_lit 1 2) = Fin (/ 2)) by (rewrite (fval_of_SF _ false 8388608 (-24)) by (vm_compute; reflexivity); f_equal; cbn; lra).
  assert (H4 : fval (f_lit 1 4) = Fin (/ 4)) by (rewrite (fval_of_SF _ false 8388608 (-25)) by (vm_compute; reflexivity); f_equal; cbn; lra).
  split; [apply acc_stands|]. split; [apply acc_length|]. split; [exact L|]. split.
  - eexists. split.
    { exists (f_add (nth 0 (f_lengths acc_pts) f_zero) (nth 1 (f_lengths acc_pts) f_zero)), (f_lit 1 2). split; [apply (f_sum_add [_] [_]); apply f_sum_one|]. split; [apply f_power_1|reflexivity]. }
    edestruct (C75_received_power_accuracy acc_pts acc_qs (f_lit 1 2) (/ 2) (f_int 2) 2) as (v & V & _ & E).
    + apply acc_stands.
    + cbn. lia.
    + exact L.
    + exact H2.
    + lra.
    + apply (val_int 2). cbn. lia.
    + lra.
    + exists (f_add (nth 0 (f_lengths acc_pts) f_zero) (nth 1 (f_lengths acc_pts) f_zero)), (f_lit 1 2). split; [apply (f_sum_add [_] [_]); apply f_sum_one|]. split; [apply f_power_1|reflexivity].
    + exists v. split; [exact V|]. rewrite acc_length in E. unfold exact_power in E. cbn [length acc_qs Nat.sub pow] in E. replace (INR 2) with 2 in E by (cbn; lra).
      replace (/ 2 * 1 / (2 * 2 + 7 * 7)) with (/ 2 / 53) in E by field. replace (bpow radix2 (-22) * (2 + 4 + 2 * 2 / 2) / (2 * 2 + 7 * 7)) with (bpow radix2 (-22) * 8 / 53) in E by field. exact E.
  - destruct (C75_accumulation_accuracy [(FB true, f_lit 1 2); (FF (f_lit 1 4), f_int 3); (FB false, f_int 5)] [/ 2; / 4 * 3; 0]) as (v & V & _ & E & _).
    + constructor; [exists 1, (/ 2); cbn [fst snd weighs]; repeat split; auto; lra|]. constructor; [exists (/ 4), 3; cbn [fst snd weighs]; repeat split; auto; try lra; apply (val_int 3); cbn; lia|].
      constructor; [exists 0, 5; cbn [fst snd weighs]; repeat split; auto; try lra; apply (val_int 5); cbn; lia|constructor].
    + cbn. lia.
    + cbn [sum_of fold_right]. apply Rle_trans with (bpow radix2 1); [cbn; lra|apply bpow_le; lia].
    + exists v. split; [exact V|]. cbn [length sum_of fold_right] in E. replace (INR 3) with 3 in E by (cbn; lra). replace (/ 2 + (/ 4 * 3 + (0 + 0))) with (5 / 4) in E by field.
      eapply Rle_trans; [exact E|]. apply Rplus_le_compat_r. replace (bpow radix2 (-22)) with (4 * bpow radix2 (-24)) by (cbn; lra). pose proof (bpow_gt_0 radix2 (-24)). lra.
Qed.
