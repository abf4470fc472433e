(** Single precision: one reflection on any wall, with coordinates that need not be on a grid. *)
From Coq Require Import Reals List Bool ZArith Lra Lia Psatz.
From Flocq Require Import Core.Core Relative IEEE754.BinarySingleNaN.
From Verif Require Import Base BaseP LogicM GeometryM PathM FloatM FloatImageM SpecFloat32 SpecGrid SpecImage32 SpecAnywhere FloatP FloatLogicP FloatCmpP FloatAccP FloatGeomP FloatSegP FloatGridP FloatBoundP FloatImageP FloatImageErrP FloatImageLossP FloatAnyP.
Import ListNotations.
Open Scope R_scope.
Local Instance p24z : Prec_gt_0 24 := eq_refl.

(** ** Computed numbers, their exact values and the error in units of [2^-24 K] *)
Definition sz (K : R) : Prop := 0 < K /\ bpow radix2 (-150) <= u24 * K / 1000 /\ 100000 * K <= bpow radix2 127.
Definition nr (K : R) (x : f32) (r c : R) : Prop := exists v, fval x = Fin v /\ Rabs (v - r) <= c * (u24 * K).
Lemma u24_pos : 0 < u24 < / 16000000. Proof. unfold u24. lra. Qed.
Lemma nr_weak K x r c c' : sz K -> nr K x r c -> c <= c' -> nr K x r c'.
Proof. intros (K0 & _) (v & V & E) C. exists v. split; auto. pose proof u24_pos. assert (0 < u24 * K) by nra. nra. Qed.
Lemma nr_exact K x r : fval x = Fin r -> nr K x r 0.
Proof. intro H. exists r. split; auto. replace (r - r) with 0 by ring. rewrite Rabs_R0. lra. Qed.
Lemma nr_round K x z r c M : sz K -> fval x = xround (Fin z) -> Rabs (z - r) <= c * (u24 * K) -> Rabs r <= M * K ->
  0 <= c <= 1000000 -> M <= 1000 -> nr K x r (c + M + / 10).
Proof.
  intros (K0 & K1 & K2) X Z Rm C Hm. pose proof u24_pos as U. assert (UK : 0 < u24 * K) by nra.
  assert (Zb : Rabs z <= (M + / 15) * K).
  { replace z with ((z - r) + r) by ring. eapply Rle_trans; [apply Rabs_triang|]. assert (c * (u24 * K) <= / 15 * K) by nra. lra. }
  unfold nr. rewrite X, fin_round by nra. eexists. split; [reflexivity|]. pose proof (rnd_rel z) as E. fold u24 in E.
  assert (u24 * Rabs z <= u24 * ((M + / 15) * K)) by (apply Rmult_le_compat_l; lra).
  replace (rnd z - r) with ((rnd z - z) + (z - r)) by ring. eapply Rle_trans; [apply Rabs_triang|]. lra.
Qed.
Lemma nr_add K x y r s c d M : sz K -> nr K x r c -> nr K y s d -> Rabs (r + s) <= M * K -> 0 <= c -> 0 <= d -> c + d <= 1000000 -> M <= 1000 ->
  nr K (f_add x y) (r + s) (c + d + M + / 10).
Proof.
  intros HK (v & V & Ev) (w & W & Ew) Hm C D CD M1. apply nr_round with (z := v + w); auto; [|  |lra].
  - rewrite val_add, V, W. reflexivity.
  - replace (v + w - (r + s)) with ((v - r) + (w - s)) by ring. eapply Rle_trans; [apply Rabs_triang|]. lra.
Qed.
Lemma nr_sub K x y r s c d M : sz K -> nr K x r c -> nr K y s d -> Rabs (r - s) <= M * K -> 0 <= c -> 0 <= d -> c + d <= 1000000 -> M <= 1000 ->
  nr K (f_sub x y) (r - s) (c + d + M + / 10).
Proof.
  intros HK (v & V & Ev) (w & W & Ew) Hm C D CD M1. apply nr_round with (z := v - w); auto; [|  |lra].
  - rewrite val_sub, V, W. reflexivity.
  - replace (v - w - (r - s)) with ((v - r) + - (w - s)) by ring. eapply Rle_trans; [apply Rabs_triang|]. rewrite Rabs_Ropp. lra.
Qed.
Lemma nr_mul K J x y r s c d A B e M : sz (K * J) -> 0 < K -> 0 < J -> nr K x r c -> nr J y s d -> Rabs r <= A * K -> Rabs s <= B * J ->
  Rabs (r * s) <= M * (K * J) -> 0 <= c -> 0 <= d -> c * B + d * A + c * d * u24 <= e -> e <= 1000000 -> M <= 1000 ->
  nr (K * J) (f_mul x y) (r * s) (e + M + / 10).
Proof.
  intros HK K0 J0 (v & V & Ev) (w & W & Ew) Ra Sb Hm C D He E1 M1. pose proof u24_pos as U.
  pose proof (Rabs_pos r). pose proof (Rabs_pos s). assert (0 <= A) by nra. assert (0 <= B) by nra. assert (0 <= c * B) by nra. assert (0 <= d * A) by nra.
  assert (0 <= c * d) by nra. assert (0 <= c * d * u24) by nra.
  apply nr_round with (z := v * w); auto; [| |lra].
  - rewrite val_mul, V, W. reflexivity.
  - replace (v * w - r * s) with ((v - r) * (w - s) + (v - r) * s + r * (w - s)) by ring.
    eapply Rle_trans; [apply Rabs_triang|]. eapply Rle_trans; [apply Rplus_le_compat_r, Rabs_triang|]. rewrite !Rabs_mult.
    assert (Rabs (v - r) * Rabs (w - s) <= (c * (u24 * K)) * (d * (u24 * J))) by (apply Rmult_le_compat; auto using Rabs_pos).
    assert (Rabs (v - r) * Rabs s <= (c * (u24 * K)) * (B * J)) by (apply Rmult_le_compat; auto using Rabs_pos).
    assert (Rabs r * Rabs (w - s) <= (A * K) * (d * (u24 * J))) by (apply Rmult_le_compat; auto using Rabs_pos).
    assert (KJ : 0 < u24 * (K * J)) by (assert (0 < K * J) by nra; nra).
    apply Rle_trans with ((c * B + d * A + c * d * u24) * (u24 * (K * J))); [|apply Rmult_le_compat_r; lra].
    lra.
Qed.
Lemma nr_div K J x y p q c d w e M : sz J -> 0 < K -> nr (K * J) x p c -> nr K y q d -> 0 < w -> w * K <= Rabs q -> Rabs (p / q) <= M * J ->
  0 <= c -> 0 <= d -> c + M * d <= e * (w - d * u24) -> 0 < w - d * u24 -> e <= 1000000 -> M <= 1000 ->
  q <> 0 /\ (exists q', fval y = Fin q' /\ q' <> 0) /\ nr J (f_div x y) (p / q) (e + M + / 10).
Proof.
  intros HJ K0 (v & V & Ev) (z & Z & Ez) W0 Hw Hm C D He Dw E1 M1. pose proof u24_pos as U. pose proof HJ as (J0 & _).
  assert (Q0 : q <> 0) by (intro Q; rewrite Q, Rabs_R0 in Hw; nra).
  assert (Zw : (w - d * u24) * K <= Rabs z).
  { pose proof (Rabs_triang_inv q (q - z)) as T. replace (q - (q - z)) with z in T by ring. rewrite (Rabs_minus_sym q z) in T. lra. }
  assert (WK : 0 < (w - d * u24) * K) by nra.
  assert (Z0 : z <> 0) by (intro Q; rewrite Q, Rabs_R0 in Zw; lra).
  assert (M0 : 0 <= M) by (pose proof (Rabs_pos (p / q)); nra).
  assert (e0 : 0 <= e) by (assert (0 <= c + M * d) by nra; nra).
  split; [auto|]. split; [exists z; auto|]. apply nr_round with (z := v / z); auto.
  - apply div_small; auto.
  - replace (v / z - p / q) with ((v - p - p / q * (z - q)) * / z) by (field; auto). rewrite Rabs_mult, Rabs_inv.
    assert (Rabs (v - p - p / q * (z - q)) <= (c + M * d) * (u24 * (K * J))).
    { unfold Rminus at 1. eapply Rle_trans; [apply Rabs_triang|]. rewrite Rabs_Ropp, Rabs_mult.
      assert (Rabs (p / q) * Rabs (z - q) <= (M * J) * (d * (u24 * K))) by (apply Rmult_le_compat; auto using Rabs_pos). lra. }
    apply Rmult_le_reg_r with (Rabs z); [lra|]. rewrite Rmult_assoc, Rinv_l, Rmult_1_r by lra.
    eapply Rle_trans; [exact H|]. apply Rle_trans with (e * (w - d * u24) * (u24 * (K * J))); [apply Rmult_le_compat_r; [assert (0 < K * J) by nra; nra|lra]|].
    replace (e * (w - d * u24) * (u24 * (K * J))) with (e * (u24 * J) * ((w - d * u24) * K)) by ring.
    apply Rmult_le_compat_l; [|lra]. assert (0 < u24 * J) by nra. nra.
Qed.

(** ** [normalize] *)
Definition len_ok (l : R) : Prop := bpow radix2 (-56) <= l <= bpow radix2 54.
Lemma len_sz l : len_ok l -> 0 < l /\ sz l /\ sz (l * l).
Proof.
  intros [A B]. pose proof (bpow_gt_0 radix2 (-56)) as P. assert (l0 : 0 < l) by lra. split; [auto|].
  assert (U : bpow radix2 (-34) <= u24 / 1000) by (unfold u24; cbn; lra).
  assert (T : 100000 <= bpow radix2 17) by (cbn; lra). pose proof (bpow_gt_0 radix2 (-34)) as Q.
  assert (SQ1 : bpow radix2 (-112) <= l * l) by (change (-112)%Z with (-56 + -56)%Z; rewrite bpow_plus; nra).
  assert (SQ2 : l * l <= bpow radix2 108) by (change 108%Z with (54 + 54)%Z; rewrite bpow_plus; nra).
  split; (split; [nra|]); split.
  - apply Rle_trans with (bpow radix2 (-34) * bpow radix2 (-56)); [rewrite <- bpow_plus; apply bpow_le; lia|nra].
  - apply Rle_trans with (bpow radix2 17 * bpow radix2 54); [nra|rewrite <- bpow_plus; apply bpow_le; lia].
  - apply Rle_trans with (bpow radix2 (-34) * bpow radix2 (-112)); [rewrite <- bpow_plus; apply bpow_le; lia|]. pose proof (bpow_gt_0 radix2 (-112)). nra.
  - apply Rle_trans with (bpow radix2 17 * bpow radix2 108); [|rewrite <- bpow_plus; apply bpow_le; lia]. pose proof (bpow_gt_0 radix2 (-112)). nra.
Qed.
Lemma sz_1 : sz 1.
Proof.
  assert (len_ok 1) by (split; [apply Rle_trans with (bpow radix2 0); [apply bpow_le; lia|cbn; lra]|apply Rle_trans with (bpow radix2 0); [cbn; lra|apply bpow_le; lia]]).
  apply len_sz in H. tauto.
Qed.
Lemma norm_round v x y : fval (fst v) = Fin x -> fval (snd v) = Fin y -> len_ok (hyp x y) ->
  nr 1 (fst (fst (f_normalize v))) (x / hyp x y) (7 / 2) /\ nr 1 (snd (fst (f_normalize v))) (y / hyp x y) (7 / 2).
Proof.
  intros X Y HL. destruct (len_sz _ HL) as (l0 & S1 & S2). pose proof (hyp_sq x y) as HQ. destruct (hyp_ge x y) as [Gx Gy].
  set (l := hyp x y) in *. pose proof u24_pos as U.
  assert (Ll : 0 < l * l) by nra.
  assert (Sq : forall z, z * z = z * z / (l * l) * (l * l)) by (intro z; field; lra).
  assert (Px : forall f z, fval f = Fin z -> nr (l * l) (f_mul f f) (z * z) (0 + z * z / (l * l) + / 10) \/ 1000 < z * z / (l * l)).
  { intros f z F. destruct (Rle_or_lt (z * z / (l * l)) 1000); [left|auto].
    apply nr_mul with (c := 0) (d := 0) (A := Rabs z / l) (B := Rabs z / l); auto using nr_exact; try lra.
    - right. field. lra.
    - right. field. lra.
    - rewrite Rabs_pos_eq by apply Rle_0_sqr. rewrite <- Sq. lra. }
  assert (Sum : x * x / (l * l) + y * y / (l * l) = 1) by (rewrite HQ; field; rewrite <- HQ; lra).
  assert (Px0 : 0 <= x * x / (l * l)) by (apply Rmult_le_pos; [apply Rle_0_sqr|left; apply Rinv_0_lt_compat; lra]).
  assert (Py0 : 0 <= y * y / (l * l)) by (apply Rmult_le_pos; [apply Rle_0_sqr|left; apply Rinv_0_lt_compat; lra]).
  destruct (Px _ x X) as [Nx|]; [|lra]. destruct (Px _ y Y) as [Ny|]; [|lra].
  assert (Ns : nr (l * l) (f_dot v v) (x * x + y * y) (0 + x * x / (l * l) + / 10 + (0 + y * y / (l * l) + / 10) + 1 + / 10)).
  { apply nr_add; auto; try lra. rewrite <- HQ, Rabs_pos_eq; lra. }
  apply nr_weak with (c' := 24 / 10) in Ns; [|auto|lra]. destruct Ns as (s & Sv & Se). rewrite <- HQ in Se. apply Rabs_le_inv in Se.
  assert (Sp : 999 / 1000 * (l * l) <= s) by nra.
  assert (Rt : exists l', fval (f_norm v) = Fin l' /\ Rabs (l' - l) <= 232 / 100 * (u24 * l)).
  { unfold f_norm. rewrite val_sqrt, Sv. replace (Rltb s 0) with false by (symmetry; apply Rltb_false; nra). eexists. split; [reflexivity|].
    assert (R0 : 0 <= sqrt s) by apply sqrt_pos. assert (RR : sqrt s * sqrt s = s) by (apply sqrt_sqrt; nra).
    assert (R1 : 99 / 100 * l <= sqrt s) by nra.
    assert (R2 : Rabs (sqrt s - l) <= 121 / 100 * (u24 * l)).
    { apply Rabs_le. assert (0 < u24 * l) by nra. split.
      - apply Rnot_lt_le. intro K. assert (sqrt s * sqrt s < (l - 121 / 100 * (u24 * l)) * (l - 121 / 100 * (u24 * l))) by nra. nra.
      - apply Rnot_lt_le. intro K. assert ((l + 121 / 100 * (u24 * l)) * (l + 121 / 100 * (u24 * l)) < sqrt s * sqrt s) by nra. nra. }
    pose proof (rnd_rel (sqrt s)) as E. fold u24 in E. destruct S1 as (_ & T1 & _).
    assert (Rabs (sqrt s) <= 101 / 100 * l) by (rewrite Rabs_pos_eq by auto; apply Rabs_le_inv in R2; nra).
    replace (rnd (sqrt s) - l) with ((rnd (sqrt s) - sqrt s) + (sqrt s - l)) by ring. eapply Rle_trans; [apply Rabs_triang|].
    assert (u24 * Rabs (sqrt s) <= u24 * (101 / 100 * l)) by (apply Rmult_le_compat_l; lra). nra. }
  destruct Rt as (l' & Lv & Le).
  assert (NZ : f_eqb (f_norm v) f_zero = false).
  { destruct (f_eqb (f_norm v) f_zero) eqn:Q; auto. exfalso. apply val_eqb_zero in Q. rewrite Lv in Q. apply Fin_inj in Q. apply Rabs_le_inv in Le. nra. }
  assert (Nl : nr l (f_norm v) l (232 / 100)) by (exists l'; auto).
  assert (D : forall f z, fval f = Fin z -> Rabs z <= l -> nr 1 (f_div f (f_norm v)) (z / l) (7 / 2)).
  { intros f z F Z. apply nr_weak with (c := 233 / 100 + 1 + / 10); [apply sz_1| |lra].
    apply (nr_div l 1 f (f_norm v) z l 0 (232 / 100) 1 (233 / 100) 1); auto using sz_1, nr_exact; try lra; try (unfold u24; lra).
    - rewrite Rabs_pos_eq; lra.
    - unfold Rdiv. rewrite Rabs_mult, Rabs_inv, (Rabs_pos_eq l) by lra. apply Rmult_le_reg_r with l; auto. rewrite Rmult_assoc, Rinv_l by lra. lra. }
  unfold f_normalize. rewrite NZ. cbn [fst snd fv_div]. split; apply D; auto.
Qed.

(** ** Stability of the direction of a vector *)
Lemma cs x y z w : x * z + y * w <= hyp x y * hyp z w.
Proof.
  pose proof (hyp_sq x y) as A. pose proof (hyp_sq z w) as B. pose proof (hyp_pos x y). pose proof (hyp_pos z w).
  destruct (Rle_or_lt (x * z + y * w) 0) as [N|P]; [pose proof (Rmult_le_pos _ _ H H0); lra|]. apply Rsqr_incr_0_var; [|apply Rmult_le_pos; auto]. unfold Rsqr.
  replace (hyp x y * hyp z w * (hyp x y * hyp z w)) with ((hyp x y * hyp x y) * (hyp z w * hyp z w)) by ring. rewrite A, B. pose proof (Rle_0_sqr (x * w - y * z)) as Q. unfold Rsqr in Q. lra.
Qed.
Lemma cs_abs x y z w : Rabs (x * z + y * w) <= hyp x y * hyp z w.
Proof.
  apply Rabs_le. pose proof (cs x y z w). pose proof (cs (- x) (- y) z w) as N.
  replace (hyp (- x) (- y)) with (hyp x y) in N by (unfold hyp; f_equal; ring). lra.
Qed.
Lemma hyp_triang x y z w : hyp (x + z) (y + w) <= hyp x y + hyp z w.
Proof.
  pose proof (hyp_sq x y) as A. pose proof (hyp_sq z w) as B. pose proof (hyp_sq (x + z) (y + w)) as C. pose proof (hyp_pos x y). pose proof (hyp_pos z w). pose proof (cs x y z w).
  apply Rsqr_incr_0_var; [|lra]. unfold Rsqr. rewrite C. nra.
Qed.
Lemma hyp_small x y e : Rabs x <= e -> Rabs y <= e -> hyp x y <= 17 / 12 * e.
Proof.
  intros X Y. pose proof (Rabs_pos x). pose proof (hyp_sq x y) as Q. pose proof (hyp_pos x y). apply Rsqr_incr_0_var; [|lra]. unfold Rsqr. rewrite Q.
  apply Rabs_le_inv in X, Y. nra.
Qed.
Lemma unit_stable x y x' y' e l : Rabs (x' - x) <= e -> Rabs (y' - y) <= e -> l <= hyp x y -> 0 < l -> 0 < hyp x' y' ->
  Rabs (x' / hyp x' y' - x / hyp x y) <= 5 / 2 * (e / l) /\ Rabs (y' / hyp x' y' - y / hyp x y) <= 5 / 2 * (e / l) /\ Rabs (hyp x' y' - hyp x y) <= 17 / 12 * e.
Proof.
  intros X Y Hl l0 H'. set (m := hyp x y) in *. set (m' := hyp x' y') in *. assert (e0 : 0 <= e) by (pose proof (Rabs_pos (x' - x)); lra).
  assert (Lip : Rabs (m' - m) <= 17 / 12 * e).
  { apply Rabs_le. pose proof (hyp_triang x y (x' - x) (y' - y)) as T1. pose proof (hyp_triang x' y' (x - x') (y - y')) as T2.
    replace (x + (x' - x)) with x' in T1 by ring. replace (y + (y' - y)) with y' in T1 by ring. replace (x' + (x - x')) with x in T2 by ring. replace (y' + (y - y')) with y in T2 by ring.
    pose proof (hyp_small _ _ _ X Y). rewrite Rabs_minus_sym in X, Y. pose proof (hyp_small _ _ _ X Y). fold m m' in T1, T2. lra. }
  destruct (hyp_ge x' y') as [Gx Gy]. fold m' in Gx, Gy.
  assert (G : forall z z', Rabs (z' - z) <= e -> Rabs z' <= m' -> Rabs (z' / m' - z / m) <= 5 / 2 * (e / l)).
  { intros z z' Z Z'. replace (z' / m' - z / m) with ((z' - z) * / m + (z' * / m') * ((m - m') * / m)) by (field; lra).
    assert (I : / m <= / l) by (apply Rinv_le_contravar; lra). assert (I0 : 0 < / m) by (apply Rinv_0_lt_compat; lra).
    assert (B1 : Rabs (z' * / m') <= 1).
    { rewrite Rabs_mult, Rabs_inv, (Rabs_pos_eq m') by lra. apply Rmult_le_reg_r with m'; auto. rewrite Rmult_assoc, Rinv_l by lra. lra. }
    eapply Rle_trans; [apply Rabs_triang|]. rewrite (Rabs_mult (z' * / m')), !(Rabs_mult _ (/ m)), (Rabs_pos_eq (/ m)) by lra. rewrite (Rabs_minus_sym m m').
    assert (Rabs (z' - z) * / m <= e * / l) by (apply Rmult_le_compat; auto using Rabs_pos; lra).
    assert (Rabs (m' - m) * / m <= 17 / 12 * e * / l) by (apply Rmult_le_compat; auto using Rabs_pos; lra).
    assert (0 <= Rabs (m' - m) * / m) by (apply Rmult_le_pos; [apply Rabs_pos|lra]).
    assert (Rabs (z' * / m') * (Rabs (m' - m) * / m) <= 1 * (Rabs (m' - m) * / m)) by (apply Rmult_le_compat_r; auto).
    assert (0 <= e * / l) by (apply Rmult_le_pos; [auto|left; apply Rinv_0_lt_compat; auto]). unfold Rdiv. lra. }
  split; [apply G; auto|]. split; [apply G; auto|auto].
Qed.
(** The direction of a vector known up to [c] units. *)
Lemma direction_any L v x y c T : bpow radix2 (-54) <= L / T -> L <= bpow radix2 51 -> 1 <= T <= 12 -> nr L (fst v) x c -> nr L (snd v) y c -> 0 <= c -> c * T <= 200000 -> L / T <= hyp x y -> hyp x y <= 7 / 2 * L ->
  nr 1 (fst (fst (f_normalize v))) (x / hyp x y) (7 / 2 + 5 / 2 * (c * T)) /\ nr 1 (snd (fst (f_normalize v))) (y / hyp x y) (7 / 2 + 5 / 2 * (c * T)).
Proof.
  intros HL1 HL2 HT (x' & X & Ex) (y' & Y & Ey) C0 CT Lo Hi. pose proof (bpow_gt_0 radix2 (-54)) as P. pose proof u24_pos as U.
  assert (TL : 0 < L / T) by lra. assert (L0 : 0 < L) by (replace L with (L / T * T) by (field; lra); nra).
  assert (Ce : c * (u24 * L) <= / 50 * (L / T)).
  { replace (c * (u24 * L)) with ((c * T * u24) * (L / T)) by (field; lra). apply Rmult_le_compat_r; [lra|]. unfold u24. lra. }
  assert (H' : 9 / 10 * (L / T) <= hyp x' y' <= 4 * L).
  { pose proof (hyp_triang x y (x' - x) (y' - y)) as T1. pose proof (hyp_triang x' y' (x - x') (y - y')) as T2.
    replace (x + (x' - x)) with x' in T1 by ring. replace (y + (y' - y)) with y' in T1 by ring. replace (x' + (x - x')) with x in T2 by ring. replace (y' + (y - y')) with y in T2 by ring.
    pose proof (hyp_small _ _ _ Ex Ey). pose proof Ex as Ex'. pose proof Ey as Ey'. rewrite Rabs_minus_sym in Ex', Ey'. pose proof (hyp_small _ _ _ Ex' Ey').
    assert (L / T <= L) by (apply Rmult_le_reg_r with T; [lra|]; unfold Rdiv; rewrite Rmult_assoc, Rinv_l by lra; nra). lra. }
  assert (OK : len_ok (hyp x' y')).
  { split.
    - apply Rle_trans with (/ 4 * bpow radix2 (-54)); [|lra]. replace (/ 4) with (bpow radix2 (-2)) by (cbn; lra). rewrite <- bpow_plus. apply bpow_le. lia.
    - apply Rle_trans with (4 * bpow radix2 51); [lra|]. replace 4 with (bpow radix2 2) by (cbn; lra). rewrite <- bpow_plus. apply bpow_le. lia. }
  destruct (norm_round v x' y' X Y OK) as [(n1 & N1 & E1) (n2 & N2 & E2)].
  destruct (unit_stable x y x' y' _ (L / T) Ex Ey Lo TL ltac:(lra)) as (S1 & S2 & _).
  replace (5 / 2 * (c * (u24 * L) / (L / T))) with (5 / 2 * (c * T) * (u24 * 1)) in S1, S2 by (field; lra).
  split; [exists n1|exists n2]; (split; [auto|]).
  - replace (n1 - x / hyp x y) with ((n1 - x' / hyp x' y') + (x' / hyp x' y' - x / hyp x y)) by ring. eapply Rle_trans; [apply Rabs_triang|]. lra.
  - replace (n2 - y / hyp x y) with ((n2 - y' / hyp x' y') + (y' / hyp x' y' - y / hyp x y)) by ring. eapply Rle_trans; [apply Rabs_triang|]. lra.
Qed.

(** ** Products with the normal *)
Lemma abs_sum n1 n2 : n1 * n1 + n2 * n2 = 1 -> Rabs n1 + Rabs n2 <= 17 / 12 /\ Rabs n1 <= 1 /\ Rabs n2 <= 1.
Proof.
  intro H. pose proof (Rabs_pos n1). pose proof (Rabs_pos n2).
  assert (A : Rabs n1 * Rabs n1 = n1 * n1) by (rewrite <- Rabs_mult; apply Rabs_pos_eq, Rle_0_sqr).
  assert (B : Rabs n2 * Rabs n2 = n2 * n2) by (rewrite <- Rabs_mult; apply Rabs_pos_eq, Rle_0_sqr). pose proof (Rle_0_sqr (Rabs n1 - Rabs n2)) as Q. unfold Rsqr in Q. repeat split; apply Rsqr_incr_0_var; unfold Rsqr; nra.
Qed.
Lemma dotn K V N r1 r2 n1 n2 c A M : sz K -> nr K (fst V) r1 c -> nr K (snd V) r2 c -> nr 1 (fst N) n1 (13 / 2) -> nr 1 (snd N) n2 (13 / 2) ->
  n1 * n1 + n2 * n2 = 1 -> Rabs r1 <= A * K -> Rabs r2 <= A * K -> Rabs (r1 * n1 + r2 * n2) <= M * K -> 0 <= c <= 200000 -> A <= 10 -> M <= 10 ->
  nr K (f_dot V N) (r1 * n1 + r2 * n2) (c * (17 / 12) + 13 * A + 17 / 12 * A + M + / 2).
Proof.
  intros HK V1 V2 N1 N2 Hn R1 R2 Hm Hc HA HM. pose proof HK as (K0 & _). destruct (abs_sum n1 n2 Hn) as (S & S1 & S2). pose proof (Rabs_pos n1). pose proof (Rabs_pos n2).
  assert (A0 : 0 <= A) by (pose proof (Rabs_pos r1); nra).
  assert (P : forall x y r n, nr K x r c -> nr 1 y n (13 / 2) -> Rabs r <= A * K -> Rabs n <= 1 -> nr K (f_mul x y) (r * n) (c * Rabs n + 13 / 2 * A + / 10 + A * Rabs n + / 10)).
  { intros x y r n X Y Rb Nb. rewrite <- (Rmult_1_r K) at 1. pose proof (Rabs_pos n). assert (c * Rabs n <= 200000) by nra. assert (0 <= A * Rabs n <= 10) by nra. pose proof u24_pos.
    apply nr_mul with (c := c) (d := 13 / 2) (A := A) (B := Rabs n); auto; try lra; try (rewrite Rmult_1_r; auto; fail).
    rewrite Rabs_mult, Rmult_1_r. rewrite Rmult_assoc, (Rmult_comm (Rabs n)), <- Rmult_assoc. apply Rmult_le_compat_r; auto. unfold u24 in *. lra. }
  assert (0 <= c * Rabs n1) by nra. assert (0 <= c * Rabs n2) by nra. assert (0 <= A * Rabs n1) by nra. assert (0 <= A * Rabs n2) by nra.
  assert (c * Rabs n1 + c * Rabs n2 <= c * (17 / 12)) by (rewrite <- Rmult_plus_distr_l; apply Rmult_le_compat_l; lra).
  assert (A * Rabs n1 + A * Rabs n2 <= A * (17 / 12)) by (rewrite <- Rmult_plus_distr_l; apply Rmult_le_compat_l; lra).
  unfold f_dot. eapply nr_weak; [auto|apply nr_add; [auto|apply P; eauto|apply P; eauto|exact Hm|lra|lra|lra|lra]|]. lra.
Qed.

Section Reflect.
Variables (L : R) (w : fwall) (tx rx : fvec) (a b p r : R * R).
Hypothesis HL : ordinary L.
Hypothesis Oa : stands_for (fw_origin w) a.
Hypothesis Ob : stands_for (fw_dest w) b.
Hypothesis Op : stands_for tx p.
Hypothesis Or : stands_for rx r.
Hypothesis Wa : within L a.
Hypothesis Wp : within L p.
Hypothesis Wr : within L r.
Hypothesis Cab : close_by L a b.
Hypothesis Cpa : close_by L p a.
Hypothesis Cra : close_by L r a.
Let l := hyp (fst b - fst a) (snd b - snd a).
Hypothesis Hl : bpow radix2 (-54) <= l.
Let n1 := (snd b - snd a) / l.
Let n2 := - (fst b - fst a) / l.
Let h1 := (fst p - fst a) * n1 + (snd p - snd a) * n2.
Let h2 := (fst r - fst a) * n1 + (snd r - snd a) * n2.
Let i1 := fst p - 2 * h1 * n1.
Let i2 := snd p - 2 * h1 * n2.

Lemma L_pos : 0 < L. Proof. destruct HL. pose proof (bpow_gt_0 radix2 (-50)). lra. Qed.
Lemma szL : sz L /\ sz (L * L).
Proof.
  destruct HL as [A B]. assert (len_ok L) by (split; [apply Rle_trans with (bpow radix2 (-50)); auto; apply bpow_le; lia|apply Rle_trans with (bpow radix2 50); auto; apply bpow_le; lia]).
  apply len_sz in H. tauto.
Qed.
Lemma l_pos : 0 < l. Proof. pose proof (bpow_gt_0 radix2 (-54)). lra. Qed.
Lemma n_unit : n1 * n1 + n2 * n2 = 1.
Proof.
  pose proof l_pos. pose proof (hyp_sq (fst b - fst a) (snd b - snd a)) as Q. fold l in Q. unfold n1, n2.
  apply Rmult_eq_reg_r with (l * l); [|nra]. rewrite Rmult_1_l. rewrite Q at 2. field. lra.
Qed.
Lemma exact_sub K P Q x y M : sz K -> fval P = Fin x -> fval Q = Fin y -> Rabs (x - y) <= M * K -> M <= 1000 -> nr K (f_sub P Q) (x - y) (M + / 10).
Proof. intros. eapply nr_weak; [auto|apply nr_sub with (c := 0) (d := 0); eauto using nr_exact; lra|lra]. Qed.
Lemma normal_any : nr 1 (fst (f_normal w)) n1 (13 / 2) /\ nr 1 (snd (f_normal w)) n2 (13 / 2).
Proof.
  destruct Oa as [Ax Ay], Ob as [Bx By]. pose proof l_pos as l0. pose proof L_pos as L0. destruct HL as [HL1 HL2].
  assert (lu : l <= 17 / 12 * L) by (apply close_sym in Cab; destruct Cab; apply hyp_small; auto).
  pose proof Hl as lo.
  assert (hi : l <= bpow radix2 51) by (apply Rle_trans with (2 * bpow radix2 50); [lra|]; replace 2 with (bpow radix2 1) at 1 by (cbn; lra); rewrite <- bpow_plus; apply bpow_le; lia).
  assert (OKl : len_ok l) by (split; [apply Rle_trans with (bpow radix2 (-54)); auto; apply bpow_le; lia|apply Rle_trans with (bpow radix2 51); auto; apply bpow_le; lia]).
  destruct (len_sz _ OKl) as (_ & Sl & _).
  destruct (hyp_ge (fst b - fst a) (snd b - snd a)) as [G1 G2]. fold l in G1, G2.
  pose proof (exact_sub l (snd (fw_dest w)) (snd (fw_origin w)) _ _ 1 Sl By Ay ltac:(lra) ltac:(lra)) as D2.
  pose proof (exact_sub l (fst (fw_dest w)) (fst (fw_origin w)) _ _ 1 Sl Bx Ax ltac:(lra) ltac:(lra)) as (d1 & D1 & E1).
  assert (D1' : nr l (f_opp (fst (fw_t w))) (- (fst b - fst a)) (1 + / 10)).
  { exists (- d1). split; [rewrite val_opp; change (fst (fw_t w)) with (f_sub (fst (fw_dest w)) (fst (fw_origin w))); rewrite D1; reflexivity|].
    replace (- d1 - - (fst b - fst a)) with (- (d1 - (fst b - fst a))) by ring. rewrite Rabs_Ropp. auto. }
  assert (Hh : hyp (snd b - snd a) (- (fst b - fst a)) = l) by (unfold l, hyp; f_equal; ring).
  destruct (direction_any l (snd (fw_t w), f_opp (fst (fw_t w))) (snd b - snd a) (- (fst b - fst a)) (1 + / 10) 1) as [R1 R2]; rewrite ?Hh; auto; try lra.
  rewrite Hh in R1, R2. unfold f_normal, n1, n2. split; eapply nr_weak; try apply sz_1; eauto; lra.
Qed.

(** *** Exact geometry *)
Lemma h1_le : Rabs h1 <= 17 / 12 * L.
Proof.
  pose proof n_unit as N. assert (Hn : hyp n1 n2 = 1) by (unfold hyp; rewrite N; apply sqrt_1). destruct Cpa as [P1 P2].
  pose proof (cs_abs (fst p - fst a) (snd p - snd a) n1 n2) as A1. fold h1 in A1. rewrite Hn, Rmult_1_r in A1. pose proof (hyp_small _ _ _ P1 P2). lra.
Qed.
Lemma image_range : hyp (i1 - fst a) (i2 - snd a) <= 17 / 12 * L /\ (i1 - fst a) * n1 + (i2 - snd a) * n2 = - h1.
Proof.
  pose proof n_unit as N. destruct Cpa as [P1 P2]. split.
  - replace (hyp (i1 - fst a) (i2 - snd a)) with (hyp (fst p - fst a) (snd p - snd a)); [apply hyp_small; auto|]. unfold hyp. f_equal.
    replace ((i1 - fst a) * (i1 - fst a) + (i2 - snd a) * (i2 - snd a)) with ((fst p - fst a) * (fst p - fst a) + (snd p - snd a) * (snd p - snd a) - 4 * h1 * ((fst p - fst a) * n1 + (snd p - snd a) * n2) + 4 * (h1 * h1) * (n1 * n1 + n2 * n2)) by (unfold i1, i2; ring).
    fold h1. rewrite N. ring.
  - replace ((i1 - fst a) * n1 + (i2 - snd a) * n2) with (((fst p - fst a) * n1 + (snd p - snd a) * n2) - 2 * h1 * (n1 * n1 + n2 * n2)) by (unfold i1, i2; ring). fold h1. rewrite N. ring.
Qed.
Lemma coords x y e : hyp x y <= e -> Rabs x <= e /\ Rabs y <= e.
Proof. intro H. destruct (hyp_ge x y). lra. Qed.

(** *** The computed image *)
Lemma image_any : nr L (fst (f_image_of w tx)) i1 64 /\ nr L (snd (f_image_of w tx)) i2 64.
Proof.
  destruct normal_any as [N1 N2]. destruct szL as [SL _]. pose proof L_pos as L0. pose proof n_unit as N. destruct (abs_sum _ _ N) as (_ & B1 & B2).
  pose proof h1_le as Hh1. destruct Oa as [Ax Ay], Op as [Px Py], Cpa as [C1 C2].
  pose proof (exact_sub L _ _ _ _ 1 SL Px Ax ltac:(lra) ltac:(lra)) as D1. pose proof (exact_sub L _ _ _ _ 1 SL Py Ay ltac:(lra) ltac:(lra)) as D2.
  pose proof (dotn L (fv_sub tx (fw_origin w)) (f_normal w) _ _ n1 n2 (1 + / 10) 1 (17 / 12) SL D1 D2 N1 N2 N ltac:(lra) ltac:(lra) ltac:(fold h1; lra) ltac:(lra) ltac:(lra) ltac:(lra)) as Dt.
  fold h1 in Dt. apply nr_weak with (c' := 18) in Dt; [|auto|lra].
  assert (Tw : nr L (f_mul (f_int 2) (f_dot (fv_sub tx (fw_origin w)) (f_normal w))) (2 * h1) 39).
  { eapply nr_weak; [auto| |]. { rewrite <- (Rmult_1_l L) at 1. apply (nr_mul 1 L) with (c := 0) (d := 18) (A := 2) (B := 17 / 12) (e := 36) (M := 17 / 6); try lra; auto.
    - rewrite Rmult_1_l. auto. - apply nr_exact. apply val_int. lia. - rewrite Rabs_pos_eq; lra. - rewrite Rmult_1_l, Rabs_mult, (Rabs_pos_eq 2); lra. } lra. }
  assert (A2 : Rabs (2 * h1) <= 17 / 6 * L) by (rewrite Rabs_mult, (Rabs_pos_eq 2); lra).
  assert (Sc : forall y n, nr 1 y n (13 / 2) -> Rabs n <= 1 -> nr L (f_mul (f_mul (f_int 2) (f_dot (fv_sub tx (fw_origin w)) (f_normal w))) y) (2 * h1 * n) 61).
  { intros y n Y B. pose proof (Rabs_pos n). eapply nr_weak; [auto| |]. { rewrite <- (Rmult_1_r L) at 1. apply (nr_mul L 1) with (c := 39) (d := 13 / 2) (A := 17 / 6) (B := 1) (e := 575 / 10) (M := 17 / 6); try lra; auto.
    - rewrite Rmult_1_r. auto. - rewrite Rmult_1_r, Rabs_mult. apply Rle_trans with (17 / 6 * L * 1); [apply Rmult_le_compat; auto using Rabs_pos|lra]. - unfold u24. lra. } lra. }
  destruct image_range as [Ir _]. apply coords in Ir. destruct Ir as [I1 I2]. destruct Wa as [W1 W2].
  unfold f_image_of. cbv zeta. cbn [fst snd fv_sub fv_scale]. split; (eapply nr_weak; [auto| |]).
  1, 3: (apply nr_sub with (c := 0) (d := 61) (M := 29 / 12); auto using nr_exact; try lra).
  - fold i1. replace i1 with (i1 - fst a + fst a) by ring. eapply Rle_trans; [apply Rabs_triang|]. lra.
  - fold i2. replace i2 with (i2 - snd a + snd a) by ring. eapply Rle_trans; [apply Rabs_triang|]. lra.
  - lra.
  - lra.
Qed.

Variable T : R.
Hypothesis HT : 1 <= T <= 12.
Hypothesis Hsides : (L / T <= h1 /\ L / T <= h2) \/ (h1 <= - (L / T) /\ h2 <= - (L / T)).
Lemma LT : L / 12 <= L / T /\ L / T <= L /\ 0 < L / T /\ L / T * T = L.
Proof.
  pose proof L_pos. assert (I : / T <= / 1) by (apply Rinv_le_contravar; lra). assert (I' : / 12 <= / T) by (apply Rinv_le_contravar; lra). rewrite Rinv_1 in I.
  unfold Rdiv. repeat split; try nra. rewrite Rmult_assoc, Rinv_l; lra.
Qed.
Lemma h_facts : Rabs h1 <= 17 / 12 * L /\ Rabs h2 <= 17 / 12 * L /\ 2 * (L / T) <= Rabs (h1 + h2) /\ Rabs h2 <= Rabs (h1 + h2) /\ h1 + h2 <> 0 /\
  0 < h2 / (h1 + h2) < 1 /\ L / T <= Rabs h1 /\ L / T <= Rabs h2.
Proof.
  pose proof LT as (_ & _ & T3 & _). pose proof n_unit as N. assert (Hn : hyp n1 n2 = 1) by (unfold hyp; rewrite N; apply sqrt_1).
  destruct Cpa as [P1 P2], Cra as [R1 R2]. pose proof (cs_abs (fst p - fst a) (snd p - snd a) n1 n2) as A1. pose proof (cs_abs (fst r - fst a) (snd r - snd a) n1 n2) as A2.
  fold h1 in A1. fold h2 in A2. rewrite Hn, Rmult_1_r in A1, A2. pose proof (hyp_small _ _ _ P1 P2). pose proof (hyp_small _ _ _ R1 R2).
  split; [lra|]. split; [lra|].
  destruct Hsides as [[S1 S2]|[S1 S2]].
  - rewrite !Rabs_pos_eq by lra. repeat split; try lra; try (apply Rdiv_lt_0_compat; lra). apply Rmult_lt_reg_r with (h1 + h2); [lra|]. unfold Rdiv. rewrite Rmult_assoc, Rinv_l; lra.
  - rewrite !Rabs_left by lra. repeat split; try lra; replace (h2 / (h1 + h2)) with (- h2 / - (h1 + h2)) by (field; lra); try (apply Rdiv_lt_0_compat; lra).
    apply Rmult_lt_reg_r with (- (h1 + h2)); [lra|]. unfold Rdiv. rewrite Rmult_assoc, Rinv_l; lra.
Qed.

(** *** The computed reflection point *)
Let lam := h2 / (h1 + h2).
Let q1 := fst r - lam * (fst r - i1).
Let q2 := snd r - lam * (snd r - i2).
Lemma ray_range : Rabs (fst r - i1) <= 29 / 12 * L /\ Rabs (snd r - i2) <= 29 / 12 * L /\ (fst r - i1) * n1 + (snd r - i2) * n2 = h1 + h2.
Proof.
  destruct image_range as [Ir Ih]. apply coords in Ir. destruct Ir as [I1 I2], Cra as [R1 R2]. repeat split.
  - replace (fst r - i1) with ((fst r - fst a) - (i1 - fst a)) by ring. unfold Rminus at 1. eapply Rle_trans; [apply Rabs_triang|]. rewrite Rabs_Ropp. lra.
  - replace (snd r - i2) with ((snd r - snd a) - (i2 - snd a)) by ring. unfold Rminus at 1. eapply Rle_trans; [apply Rabs_triang|]. rewrite Rabs_Ropp. lra.
  - replace ((fst r - i1) * n1 + (snd r - i2) * n2) with (h2 - ((i1 - fst a) * n1 + (i2 - snd a) * n2)) by (unfold h2; ring). rewrite Ih. ring.
Qed.
Lemma point_range : Rabs (q1 - fst a) <= 17 / 12 * L /\ Rabs (q2 - snd a) <= 17 / 12 * L.
Proof.
  destruct image_range as [Ir _]. apply coords in Ir. destruct Ir as [I1 I2], Cra as [R1 R2]. pose proof h_facts as (_ & _ & _ & _ & _ & Lm & _). fold lam in Lm. pose proof L_pos.
  apply Rabs_le_inv in I1, I2, R1, R2. split; apply Rabs_le; unfold q1, q2; nra.
Qed.
Lemma point_any : nr L (fst (f_backward rx (w, f_image_of w tx))) q1 (262 * T) /\ nr L (snd (f_backward rx (w, f_image_of w tx))) q2 (262 * T).
Proof.
  destruct normal_any as [N1 N2]. destruct szL as [SL SLL]. pose proof L_pos as L0. pose proof n_unit as N. destruct image_any as [J1 J2]. destruct ray_range as (U1 & U2 & Un).
  pose proof h_facts as (_ & Hh2 & Hs & Hle & Hnz & Lm & _ & Hl2). fold lam in Lm. pose proof LT as (_ & _ & T3 & T4). destruct Oa as [Ax Ay], Or as [Rx Ry], Cra as [C1 C2].
  assert (Ud1 : nr L (fst (fv_sub rx (f_image_of w tx))) (fst r - i1) 67) by (eapply nr_weak; [auto|apply nr_sub with (c := 0) (d := 64) (M := 29 / 12); auto using nr_exact; lra|lra]).
  assert (Ud2 : nr L (snd (fv_sub rx (f_image_of w tx))) (snd r - i2) 67) by (eapply nr_weak; [auto|apply nr_sub with (c := 0) (d := 64) (M := 29 / 12); auto using nr_exact; lra|lra]).
  assert (UN : nr L (f_dot (fv_sub rx (f_image_of w tx)) (f_normal w)) (h1 + h2) 134).
  { rewrite <- Un. eapply nr_weak; [auto|apply (dotn L _ _ _ _ n1 n2 67 (29 / 12) (17 / 6)); auto; try lra|lra].
    rewrite Un. eapply Rle_trans; [apply Rabs_triang|]. pose proof h_facts as (Hh1 & _). lra. }
  assert (VN : nr L (f_dot (fv_sub (fw_origin w) rx) (f_normal w)) (- h2) 18).
  { replace (- h2) with ((fst a - fst r) * n1 + (snd a - snd r) * n2) by (unfold h2; ring).
    eapply nr_weak; [auto|apply (dotn L _ _ _ _ n1 n2 (1 + / 10) 1 (17 / 12)); auto; try lra|lra].
    - apply exact_sub; auto; [rewrite Rabs_minus_sym|]; lra.
    - apply exact_sub; auto; [rewrite Rabs_minus_sym|]; lra.
    - rewrite Rabs_minus_sym. lra.
    - rewrite Rabs_minus_sym. lra.
    - replace ((fst a - fst r) * n1 + (snd a - snd r) * n2) with (- h2) by (unfold h2; ring). rewrite Rabs_Ropp. auto. }
  set (nu := Rabs h2 / L) in *. assert (Nu : Rabs h2 = nu * L) by (unfold nu; field; lra). assert (Nu0 : 0 <= nu) by (pose proof (Rabs_pos h2); nra). assert (Nu1 : nu <= 17 / 12) by nra.
  set (om := Rabs (h1 + h2) / L) in *. assert (Om : Rabs (h1 + h2) = om * L) by (unfold om; field; lra). assert (NO : nu <= om) by nra.
  assert (OT : 2 <= om * T) by (rewrite Om in Hs; apply Rmult_le_reg_r with (L / T); [auto|]; replace (om * T * (L / T)) with (om * L) by (field; lra); lra).
  assert (O0 : / 6 <= om) by nra.
  assert (Pr : forall x d, nr L x d 67 -> Rabs d <= 29 / 12 * L -> nr (L * L) (f_mul (f_dot (fv_sub (fw_origin w) rx) (f_normal w)) x) (- h2 * d) (437 / 10 + 695 / 10 * nu)).
  { intros x d X D. eapply nr_weak; [auto|apply nr_mul with (c := 18) (d := 67) (A := nu) (B := 29 / 12) (e := 436 / 10 - / 100 + 67 * nu) (M := 29 / 12 * nu); auto; try lra|lra].
    - rewrite Rabs_Ropp. lra.
    - rewrite Rabs_mult, Rabs_Ropp, Nu. replace (29 / 12 * nu * (L * L)) with (nu * L * (29 / 12 * L)) by ring. apply Rmult_le_compat_l; [nra|auto].
    - unfold u24. lra. }
  assert (Dv : forall x d, nr L x d 67 -> Rabs d <= 29 / 12 * L ->
    (exists u, fval (f_dot (fv_sub rx (f_image_of w tx)) (f_normal w)) = Fin u /\ u <> 0) /\
    nr L (f_div (f_mul (f_dot (fv_sub (fw_origin w) rx) (f_normal w)) x) (f_dot (fv_sub rx (f_image_of w tx)) (f_normal w))) (- (lam * d)) (184 * T + 73)).
  { intros x d X D. replace (- (lam * d)) with (- h2 * d / (h1 + h2)) by (unfold lam; field; auto).
    destruct (nr_div L L _ _ (- h2 * d) (h1 + h2) (437 / 10 + 695 / 10 * nu) 134 om (184 * T + 70) (29 / 12) SL L0 (Pr x d X D) UN) as (_ & Z & R); auto; try lra.
    - replace (- h2 * d / (h1 + h2)) with (- (lam * d)) by (unfold lam; field; auto). rewrite Rabs_Ropp, Rabs_mult, (Rabs_pos_eq lam) by lra. pose proof (Rabs_pos d). nra.
    - assert (134 * u24 <= / 10000 * om) by (unfold u24; lra).
      assert (E0 : 0 <= 184 * T + 70) by lra. apply Rle_trans with ((184 * T + 70) * (9999 / 10000 * om)); [|apply Rmult_le_compat_l; lra]. nra.
    - unfold u24. lra.
    - split; auto. eapply nr_weak; [auto|exact R|lra]. }
  destruct (Dv _ _ Ud1 U1) as [(u & Uv & Uz) R1]. destruct (Dv _ _ Ud2 U2) as [_ R2].
  assert (NZ : f_eqb (f_dot (fv_sub rx (f_image_of w tx)) (f_normal w)) f_zero = false).
  { destruct (f_eqb _ f_zero) eqn:Q; auto. exfalso. apply val_eqb_zero in Q. rewrite Uv in Q. apply Fin_inj in Q. auto. }
  unfold f_backward. cbv zeta. rewrite NZ. cbn [fst snd fv_add fv_div fv_scale].
  destruct point_range as [P1 P2]. destruct Wa as [W1 W2].
  split; (eapply nr_weak; [auto| |]).
  1: { unfold q1, Rminus at 1. apply nr_add with (c := 0) (d := 184 * T + 73) (M := 29 / 12); auto using nr_exact; try lra.
       change (fst r + - (lam * (fst r - i1))) with q1. replace q1 with (q1 - fst a + fst a) by ring. eapply Rle_trans; [apply Rabs_triang|]. lra. }
  2: { unfold q2, Rminus at 1. apply nr_add with (c := 0) (d := 184 * T + 73) (M := 29 / 12); auto using nr_exact; try lra.
       change (snd r + - (lam * (snd r - i2))) with q2. replace q2 with (q2 - snd a + snd a) by ring. eapply Rle_trans; [apply Rabs_triang|]. lra. }
  - lra.
  - lra.
Qed.

(** *** The computed loss *)
Let z1 := q1 - fst p.
Let z2 := q2 - snd p.
Let w1 := fst r - q1.
Let w2 := snd r - q2.
Lemma law : z1 * n1 + z2 * n2 = - h1 /\ w1 * n1 + w2 * n2 = h2 /\
  z1 / hyp z1 z2 - 2 * (z1 / hyp z1 z2 * n1 + z2 / hyp z1 z2 * n2) * n1 = w1 / hyp w1 w2 /\
  z2 / hyp z1 z2 - 2 * (z1 / hyp z1 z2 * n1 + z2 / hyp z1 z2 * n2) * n2 = w2 / hyp w1 w2.
Proof.
  pose proof h_facts as (_ & _ & Hs & _ & Hnz & Lm & _). fold lam in Lm. pose proof LT as (_ & _ & T3 & _). pose proof n_unit as N. destruct ray_range as (_ & _ & Un).
  set (W1 := fst r - i1) in *. set (W2 := snd r - i2) in *. assert (Z1 : z1 = (1 - lam) * W1 - 2 * h1 * n1) by (unfold z1, q1, W1, i1; ring).
  assert (Z2 : z2 = (1 - lam) * W2 - 2 * h1 * n2) by (unfold z2, q2, W2, i2; ring). assert (V1 : w1 = lam * W1) by (unfold w1, q1; fold W1; ring). assert (V2 : w2 = lam * W2) by (unfold w2, q2; fold W2; ring).
  assert (Mu : (1 - lam) * (h1 + h2) = h1) by (unfold lam; field; auto). assert (La : lam * (h1 + h2) = h2) by (unfold lam; field; auto).
  assert (Zn : z1 * n1 + z2 * n2 = - h1).
  { rewrite Z1, Z2. replace (_ + _) with ((1 - lam) * (W1 * n1 + W2 * n2) - 2 * h1 * (n1 * n1 + n2 * n2)) by ring. rewrite Un, N, Mu. ring. }
  split; [auto|]. split; [rewrite V1, V2; replace (_ + _) with (lam * (W1 * n1 + W2 * n2)) by ring; rewrite Un; auto|].
  assert (M0 : 0 < hyp W1 W2).
  { pose proof (cs_abs W1 W2 n1 n2) as C. rewrite Un in C. replace (hyp n1 n2) with 1 in C by (unfold hyp; rewrite N, sqrt_1; auto). lra. }
  assert (Hz : hyp z1 z2 = (1 - lam) * hyp W1 W2).
  { rewrite <- hyp_scale by lra. unfold hyp. f_equal. rewrite Z1, Z2.
    replace (_ + _) with ((1 - lam) * W1 * ((1 - lam) * W1) + (1 - lam) * W2 * ((1 - lam) * W2) - 4 * h1 * ((1 - lam) * (W1 * n1 + W2 * n2)) + 4 * h1 * h1 * (n1 * n1 + n2 * n2)) by ring.
    rewrite Un, N, Mu. ring. }
  assert (Hw : hyp w1 w2 = lam * hyp W1 W2) by (rewrite V1, V2; apply hyp_scale; lra).
  assert (S : forall z n W V, z = (1 - lam) * W - 2 * h1 * n -> V = lam * W -> z / hyp z1 z2 - 2 * (z1 / hyp z1 z2 * n1 + z2 / hyp z1 z2 * n2) * n = V / hyp w1 w2).
  { intros z n W V -> ->. replace (z1 / hyp z1 z2 * n1 + z2 / hyp z1 z2 * n2) with ((z1 * n1 + z2 * n2) / hyp z1 z2) by (unfold Rdiv; ring).
    rewrite Zn, Hz, Hw. field. repeat split; lra. }
  split; [apply (S z1 n1 W1 w1)|apply (S z2 n2 W2 w2)]; auto.
Qed.
Lemma unit_bounds x y : 0 < hyp x y -> Rabs (x / hyp x y) <= 1 /\ Rabs (y / hyp x y) <= 1 /\ x / hyp x y * (x / hyp x y) + y / hyp x y * (y / hyp x y) = 1.
Proof.
  intro H. assert (Q : x / hyp x y * (x / hyp x y) + y / hyp x y * (y / hyp x y) = 1).
  { apply Rmult_eq_reg_r with (hyp x y * hyp x y); [|nra]. rewrite Rmult_1_l. rewrite (hyp_sq x y) at 2. field. lra. }
  destruct (abs_sum _ _ Q) as (_ & A & B). auto.
Qed.
Lemma loss_any : exists v, fval (f_evaluate w tx (f_backward rx (w, f_image_of w tx)) rx) = Fin v /\ 0 <= v <= / 10000000 * (T * T * (T * T)).
Proof.
  destruct normal_any as [N1 N2]. destruct szL as [SL SLL]. pose proof L_pos as L0. pose proof n_unit as N. destruct (abs_sum _ _ N) as (_ & B1 & B2).
  assert (Hn : hyp n1 n2 = 1) by (unfold hyp; rewrite N; apply sqrt_1).
  destruct point_any as [Q1 Q2]. set (pt := f_backward rx (w, f_image_of w tx)) in *. clearbody pt.
  destruct law as (Zn & Wn & La1 & La2). pose proof h_facts as (_ & _ & _ & _ & _ & _ & Hz1 & Hw1). pose proof LT as (T1 & T2 & T3 & T4).
  destruct point_range as [P1 P2]. destruct Op as [Px Py], Or as [Rx Ry]. destruct Cpa as [C1 C2], Cra as [D1 D2].
  assert (Zb : Rabs z1 <= 29 / 12 * L /\ Rabs z2 <= 29 / 12 * L).
  { apply Rabs_le_inv in P1, P2, C1, C2. unfold z1, z2. split; apply Rabs_le; lra. }
  assert (Wb : Rabs w1 <= 29 / 12 * L /\ Rabs w2 <= 29 / 12 * L).
  { apply Rabs_le_inv in P1, P2, D1, D2. unfold w1, w2. split; apply Rabs_le; lra. }
  destruct Zb as [Zb1 Zb2], Wb as [Wb1 Wb2].
  assert (Zl : L / T <= hyp z1 z2).
  { pose proof (cs_abs z1 z2 n1 n2) as C. rewrite Zn, Hn, Rabs_Ropp in C. lra. }
  assert (Wl : L / T <= hyp w1 w2) by (pose proof (cs_abs w1 w2 n1 n2) as C; rewrite Wn, Hn in C; lra).
  assert (Zh : hyp z1 z2 <= 7 / 2 * L) by (pose proof (hyp_small z1 z2 _ Zb1 Zb2); lra).
  assert (Wh : hyp w1 w2 <= 7 / 2 * L) by (pose proof (hyp_small w1 w2 _ Wb1 Wb2); lra).
  assert (lo : bpow radix2 (-54) <= L / T).
  { destruct HL as [HL1 _]. apply Rle_trans with (/ 16 * bpow radix2 (-50)); [|pose proof (bpow_gt_0 radix2 (-50)); lra]. replace (/ 16) with (bpow radix2 (-4)) by (cbn; lra). rewrite <- bpow_plus. apply bpow_le. lia. }
  assert (hi : L <= bpow radix2 51) by (destruct HL as [_ HL2]; apply Rle_trans with (bpow radix2 50); auto; apply bpow_le; lia).
  assert (T2p : 1 <= T * T <= 144) by nra. set (T2' := T * T) in *.
  assert (Dz1 : nr L (fst (fv_sub pt tx)) z1 (265 * T)) by (eapply nr_weak; [auto|apply nr_sub with (c := 262 * T) (d := 0) (M := 29 / 12); auto using nr_exact; lra|lra]).
  assert (Dz2 : nr L (snd (fv_sub pt tx)) z2 (265 * T)) by (eapply nr_weak; [auto|apply nr_sub with (c := 262 * T) (d := 0) (M := 29 / 12); auto using nr_exact; lra|lra]).
  assert (Dw1 : nr L (fst (fv_sub rx pt)) w1 (265 * T)) by (eapply nr_weak; [auto|apply nr_sub with (c := 0) (d := 262 * T) (M := 29 / 12); auto using nr_exact; lra|lra]).
  assert (Dw2 : nr L (snd (fv_sub rx pt)) w2 (265 * T)) by (eapply nr_weak; [auto|apply nr_sub with (c := 0) (d := 262 * T) (M := 29 / 12); auto using nr_exact; lra|lra]).
  destruct (direction_any L (fv_sub pt tx) z1 z2 (265 * T) T lo hi HT Dz1 Dz2 ltac:(lra) ltac:(unfold T2' in *; lra) Zl Zh) as [I1 I2].
  destruct (direction_any L (fv_sub rx pt) w1 w2 (265 * T) T lo hi HT Dw1 Dw2 ltac:(lra) ltac:(unfold T2' in *; lra) Wl Wh) as [R1 R2].
  replace (265 * T * T) with (265 * T2') in * by (unfold T2'; ring).
  apply nr_weak with (c' := 667 * T2') in I1, I2, R1, R2; try apply sz_1; try lra.
  destruct (unit_bounds z1 z2 ltac:(lra)) as (Uz1 & Uz2 & Uz). destruct (unit_bounds w1 w2 ltac:(lra)) as (Uw1 & Uw2 & Uw).
  set (a1 := z1 / hyp z1 z2) in *. set (a2 := z2 / hyp z1 z2) in *. set (b1 := w1 / hyp w1 w2) in *. set (b2 := w2 / hyp w1 w2) in *.
  set (fi := fst (f_normalize (fv_sub pt tx))) in *. set (fr := fst (f_normalize (fv_sub rx pt))) in *.
  assert (An : Rabs (a1 * n1 + a2 * n2) <= 1).
  { pose proof (cs_abs a1 a2 n1 n2) as C. rewrite Hn in C. replace (hyp a1 a2) with 1 in C by (unfold hyp; rewrite Uz, sqrt_1; auto). lra. }
  assert (Dt : nr 1 (f_dot fi (f_normal w)) (a1 * n1 + a2 * n2) (961 * T2')).
  { eapply nr_weak; [apply sz_1|apply (dotn 1 fi _ a1 a2 n1 n2 (667 * T2') 1 1); auto using sz_1; lra|lra]. }
  assert (Tw : nr 1 (f_mul (f_int 2) (f_dot fi (f_normal w))) (2 * (a1 * n1 + a2 * n2)) (1925 * T2')).
  { eapply nr_weak; [apply sz_1| |]. { rewrite <- (Rmult_1_l 1) at 1. apply (nr_mul 1 1) with (c := 0) (d := 961 * T2') (A := 2) (B := 1) (e := 1922 * T2') (M := 2); try lra; auto.
    - rewrite Rmult_1_l. apply sz_1. - apply nr_exact. apply val_int. lia. - rewrite Rabs_pos_eq; lra. - rewrite !Rmult_1_r, Rabs_mult, (Rabs_pos_eq 2); lra. } lra. }
  assert (A2 : Rabs (2 * (a1 * n1 + a2 * n2)) <= 2 * 1) by (rewrite Rabs_mult, (Rabs_pos_eq 2); lra).
  assert (Sc : forall y n, nr 1 y n (13 / 2) -> Rabs n <= 1 -> nr 1 (f_mul (f_mul (f_int 2) (f_dot fi (f_normal w))) y) (2 * (a1 * n1 + a2 * n2) * n) (1941 * T2')).
  { intros y n Y B. pose proof (Rabs_pos n). eapply nr_weak; [apply sz_1| |]. { rewrite <- (Rmult_1_r 1) at 1. apply (nr_mul 1 1) with (c := 1925 * T2') (d := 13 / 2) (A := 2) (B := 1) (e := 1925 * T2' + 132 / 10) (M := 2); try lra; auto.
    - rewrite Rmult_1_r. apply sz_1. - rewrite !Rmult_1_r, Rabs_mult. replace 2 with (2 * 1) at 2 by ring. apply Rmult_le_compat; auto using Rabs_pos. lra. - unfold u24. lra. } lra. }
  assert (E : forall fa fb fn A n B, nr 1 fa A (667 * T2') -> nr 1 fb B (667 * T2') -> nr 1 fn n (13 / 2) -> Rabs n <= 1 -> Rabs B <= 1 -> A - 2 * (a1 * n1 + a2 * n2) * n = B ->
    exists v, fval (f_sub fb (f_sub fa (f_mul (f_mul (f_int 2) (f_dot fi (f_normal w))) fn))) = Fin v /\ Rabs v <= 3278 * T2' * u24).
  { intros fa fb fn A n B FA FB FN Bn BB EQ. pose proof (Sc fn n FN Bn) as S.
    assert (S1 : nr 1 (f_sub fa (f_mul (f_mul (f_int 2) (f_dot fi (f_normal w))) fn)) B (2610 * T2')).
    { rewrite <- EQ. eapply nr_weak; [apply sz_1|apply nr_sub with (c := 667 * T2') (d := 1941 * T2') (M := 1); auto using sz_1; try lra; rewrite EQ; lra|lra]. }
    assert (S2 : nr 1 (f_sub fb (f_sub fa (f_mul (f_mul (f_int 2) (f_dot fi (f_normal w))) fn))) (B - B) (667 * T2' + 2610 * T2' + 0 + / 10)).
    { apply nr_sub; auto using sz_1; try lra. replace (B - B) with 0 by ring. rewrite Rabs_R0. lra. }
    destruct S2 as (v & V & Ve). exists v. split; auto. replace (v - (B - B)) with v in Ve by ring. pose proof u24_pos. nra. }
  destruct (E (fst fi) (fst fr) (fst (f_normal w)) a1 n1 b1 I1 R1 N1 B1 Uw1 La1) as (e1 & E1 & Eb1).
  destruct (E (snd fi) (snd fr) (snd (f_normal w)) a2 n2 b2 I2 R2 N2 B2 Uw2 La2) as (e2 & E2 & Eb2).
  set (M := 3278 * T2' * u24) in *.
  assert (M0 : 0 <= M <= / 20) by (unfold M, u24; lra).
  assert (Sq : forall x v, fval x = Fin v -> Rabs v <= M -> exists s, fval (f_mul x x) = Fin s /\ 0 <= s <= 1001 / 1000 * (M * M) + bpow radix2 (-150)).
  { intros x v X V. assert (V2 : 0 <= v * v <= M * M) by (apply Rabs_le_inv in V; split; [apply Rle_0_sqr|nra]).
    rewrite val_mul, X. cbn [xmul]. rewrite fin_round by (rewrite Rabs_pos_eq by lra; apply Rle_trans with 1; [nra|]; change 1 with (bpow radix2 0); apply bpow_le; lia).
    eexists. split; [reflexivity|]. split; [apply rnd_pos; lra|]. pose proof (rnd_rel (v * v)) as E0. apply Rabs_le_inv in E0. rewrite Rabs_pos_eq in E0 by lra. lra. }
  destruct (Sq _ _ E1 Eb1) as (s1 & S1 & Sb1). destruct (Sq _ _ E2 Eb2) as (s2 & S2 & Sb2).
  assert (tiny : bpow radix2 (-150) <= / 1000000000) by (apply Rle_trans with (bpow radix2 (-40)); [apply bpow_le; lia|cbn; lra]).
  pose proof (bpow_gt_0 radix2 (-150)) as tiny0.
  unfold f_evaluate. cbv zeta. fold fi fr. unfold f_dot at 1. cbn [fst snd fv_sub fv_scale] in *. rewrite val_add, S1, S2. cbn [xadd].
  rewrite fin_round by (rewrite Rabs_pos_eq by lra; apply Rle_trans with 1; [nra|]; change 1 with (bpow radix2 0); apply bpow_le; lia).
  eexists. split; [reflexivity|]. split; [apply rnd_pos; lra|]. pose proof (rnd_rel (s1 + s2)) as E0. apply Rabs_le_inv in E0. rewrite Rabs_pos_eq in E0 by lra.
  assert (MM : M * M = 3278 * 3278 * u24 * u24 * (T2' * T2')) by (unfold M; ring). assert (T4' : 1 <= T2' * T2') by nra. unfold u24 in MM. lra.
Qed.
End Reflect.

(** ** From the vocabulary of the statements *)
Section Normal.
Variables (a b : R * R).
Let l := hyp (fst b - fst a) (snd b - snd a).
Hypothesis l0 : 0 < l.
Let n1 := (snd b - snd a) / l.
Let n2 := - (fst b - fst a) / l.
Lemma nn : n1 * n1 + n2 * n2 = 1.
Proof.
  pose proof (hyp_sq (fst b - fst a) (snd b - snd a)) as Q. fold l in Q. unfold n1, n2. apply Rmult_eq_reg_r with (l * l); [|nra]. rewrite Rmult_1_l. rewrite Q at 2. field. lra.
Qed.
Lemma dn : fst b - fst a = - (l * n2) /\ snd b - snd a = l * n1.
Proof. unfold n1, n2. split; field; lra. Qed.
Lemma mirror_is p i : mirror_image a b p i ->
  i = (fst p - 2 * ((fst p - fst a) * n1 + (snd p - snd a) * n2) * n1, snd p - 2 * ((fst p - fst a) * n1 + (snd p - snd a) * n2) * n2).
Proof.
  intros [A B]. unfold det in A. cbn [fst snd] in A. destruct dn as [D1 D2]. rewrite D1, D2 in A, B. pose proof nn as N. destruct i as [x y]. cbn [fst snd] in *.
  set (h := (fst p - fst a) * n1 + (snd p - snd a) * n2).
  assert (H1 : (fst p - x) * n1 + (snd p - y) * n2 = 2 * h).
  { apply Rmult_eq_reg_r with l; [|lra]. unfold h. lra. }
  assert (H2 : - (fst p - x) * n2 + (snd p - y) * n1 = 0) by (apply Rmult_eq_reg_r with l; lra).
  assert (E1 : fst p - x = 2 * h * n1).
  { rewrite <- H1. replace (fst p - x) with ((fst p - x) * (n1 * n1 + n2 * n2)) at 1 by (rewrite N; ring). replace ((fst p - x) * (n1 * n1 + n2 * n2)) with (((fst p - x) * n1 + (snd p - y) * n2) * n1 - n2 * (- (fst p - x) * n2 + (snd p - y) * n1)) by ring. rewrite H2. ring. }
  assert (E2 : snd p - y = 2 * h * n2).
  { rewrite <- H1. replace (snd p - y) with ((snd p - y) * (n1 * n1 + n2 * n2)) at 1 by (rewrite N; ring). replace ((snd p - y) * (n1 * n1 + n2 * n2)) with (((fst p - x) * n1 + (snd p - y) * n2) * n2 + n1 * (- (fst p - x) * n2 + (snd p - y) * n1)) by ring. rewrite H2. ring. }
  f_equal; lra.
Qed.
Lemma normal_pm n : fst n * fst n + snd n * snd n = 1 -> fst n * (fst b - fst a) + snd n * (snd b - snd a) = 0 ->
  (fst n = n1 /\ snd n = n2) \/ (fst n = - n1 /\ snd n = - n2).
Proof.
  intros U O. destruct dn as [D1 D2]. rewrite D1, D2 in O. pose proof nn as N.
  assert (O' : - fst n * n2 + snd n * n1 = 0) by (apply Rmult_eq_reg_r with l; lra).
  set (c := fst n * n1 + snd n * n2).
  assert (E1 : fst n = c * n1) by (unfold c; replace (fst n) with (fst n * (n1 * n1 + n2 * n2) + n2 * (- fst n * n2 + snd n * n1)) at 1 by (rewrite N, O'; ring); ring).
  assert (E2 : snd n = c * n2) by (unfold c; replace (snd n) with (snd n * (n1 * n1 + n2 * n2) - n1 * (- fst n * n2 + snd n * n1)) at 1 by (rewrite N, O'; ring); ring).
  assert (C : (c - 1) * (c + 1) = 0) by (rewrite E1, E2 in U; replace (c * n1 * (c * n1) + c * n2 * (c * n2)) with (c * c * (n1 * n1 + n2 * n2)) in U by ring; rewrite N in U; lra).
  apply Rmult_integral in C. destruct C as [C|C]; [left|right]; assert (c = 1 \/ c = -1) by lra; destruct H as [H|H]; rewrite H in *; split; lra.
Qed.
End Normal.
Lemma ordinary_low L tau : ordinary L -> / 12 <= tau -> bpow radix2 (-54) <= tau * L.
Proof.
  intros [HL1 _] Ht. apply Rle_trans with (/ 16 * bpow radix2 (-50)); [|pose proof (bpow_gt_0 radix2 (-50)); nra].
  replace (/ 16) with (bpow radix2 (-4)) by (cbn; lra). rewrite <- bpow_plus. apply bpow_le. lia.
Qed.
Lemma hyp_lower x y e : 0 <= e -> e * e <= x * x + y * y -> e <= hyp x y.
Proof. intros E H. rewrite <- (sqrt_square e E). apply sqrt_le_1_alt. exact H. Qed.
Lemma one_reflection_any tau L w tx rx a b p r q : / 12 <= tau <= 1 -> stands_for (fw_origin w) a -> stands_for (fw_dest w) b -> stands_for tx p -> stands_for rx r ->
  one_reflection tau L a b p r -> reflection_point a b p r q ->
  computed_near (262 * u24 * L / tau) (f_backward rx (w, f_image_of w tx)) q /\
  (exists v, fval (f_evaluate w tx (f_backward rx (w, f_image_of w tx)) rx) = Fin v /\ 0 <= v <= / 10000000 / (tau * tau * (tau * tau))) /\
  Rabs (fst q - fst a) <= 17 / 12 * L /\ Rabs (snd q - snd a) <= 17 / 12 * L.
Proof.
  intros Ht Oa Ob Op Or (HL & _ & Wa & Wp & Wr & Cab & Cpa & Cra & Len & n & Un & On & H1 & H2) (Qd & i & s & Mi & Qs).
  assert (L0 : 0 < L) by (destruct HL; pose proof (bpow_gt_0 radix2 (-50)); lra).
  set (l := hyp (fst b - fst a) (snd b - snd a)). assert (tl : tau * L <= l) by (apply hyp_lower; [nra|auto]).
  pose proof (ordinary_low L tau HL ltac:(lra)) as low. assert (Hl : bpow radix2 (-54) <= l) by lra.
  assert (l0 : 0 < l) by (pose proof (bpow_gt_0 radix2 (-54)); lra).
  assert (HT : 1 <= / tau <= 12).
  { split; [rewrite <- Rinv_1; apply Rinv_le_contravar; lra|]. replace 12 with (/ / 12) by lra. apply Rinv_le_contravar; lra. }
  assert (LT' : L / / tau = tau * L) by (field; lra).
  set (n1 := (snd b - snd a) / l). set (n2 := - (fst b - fst a) / l).
  set (h1 := (fst p - fst a) * n1 + (snd p - snd a) * n2). set (h2 := (fst r - fst a) * n1 + (snd r - snd a) * n2).
  assert (Sides : (L / / tau <= h1 /\ L / / tau <= h2) \/ (h1 <= - (L / / tau) /\ h2 <= - (L / / tau))).
  { rewrite LT'. unfold height in H1, H2. destruct (normal_pm a b l0 n Un On) as [[E1 E2]|[E1 E2]]; fold l n1 in E1; fold l n2 in E2; rewrite E1, E2 in H1, H2; [left|right]; unfold h1, h2; lra. }
  pose proof (mirror_is a b l0 p i Mi) as Ei. fold l n1 n2 h1 in Ei.
  pose proof (h_facts L a b p r HL Cpa Cra Hl (/ tau) HT Sides) as (_ & _ & _ & _ & Hnz & _ ). fold l n1 n2 h1 h2 in Hnz.
  assert (Eq : q = (fst r - h2 / (h1 + h2) * (fst r - (fst p - 2 * h1 * n1)), snd r - h2 / (h1 + h2) * (snd r - (snd p - 2 * h1 * n2)))).
  { assert (Hs : s * (h1 + h2) = h1).
    { destruct (dn a b l0) as [D1 D2]. fold l n2 in D1. fold l n1 in D2. unfold det in Qd. rewrite D1, D2, Qs, Ei in Qd. unfold between in Qd. cbn [fst snd] in Qd.
      pose proof (nn a b l0) as N. fold l n1 n2 in N.
      assert (K : (fst p - 2 * h1 * n1 + s * (fst r - (fst p - 2 * h1 * n1)) - fst a) * n1 + (snd p - 2 * h1 * n2 + s * (snd r - (snd p - 2 * h1 * n2)) - snd a) * n2 = 0) by (apply Rmult_eq_reg_r with l; lra).
      replace (_ + _) with (h1 - 2 * h1 * (n1 * n1 + n2 * n2) + s * (h2 - h1 + 2 * h1 * (n1 * n1 + n2 * n2))) in K by (unfold h1, h2; ring). rewrite N in K. lra. }
    assert (s = 1 - h2 / (h1 + h2)) by (apply Rmult_eq_reg_r with (h1 + h2); auto; rewrite Hs; field; auto).
    rewrite Qs, Ei. unfold between. cbn [fst snd]. rewrite H. f_equal; ring. }
  destruct (point_any L w tx rx a b p r HL Oa Ob Op Or Wa Cab Cpa Cra Hl (/ tau) HT Sides) as [(x & X & Ex) (y & Y & Ey)].
  destruct (loss_any L w tx rx a b p r HL Oa Ob Op Or Wa Cab Cpa Cra Hl (/ tau) HT Sides) as (v & V & Vb).
  pose proof (point_range L a b p r HL Cpa Cra Hl (/ tau) HT Sides) as Pr.
  fold l n1 n2 h1 h2 in Ex, Ey, Pr. split; [|split].
  - exists x, y. rewrite Eq. cbn [fst snd]. split; [split; auto|]. replace (262 * u24 * L / tau) with (262 * / tau * (u24 * L)) by (field; lra). auto.
  - exists v. split; [auto|]. replace (/ 10000000 / (tau * tau * (tau * tau))) with (/ 10000000 * (/ tau * / tau * (/ tau * / tau))) by (field; lra). auto.
  - rewrite Eq. cbn [fst snd]. exact Pr.
Qed.

(** ** Several images *)
Lemma reflect_hyp n1 n2 x y : n1 * n1 + n2 * n2 = 1 -> hyp (x - 2 * (x * n1 + y * n2) * n1) (y - 2 * (x * n1 + y * n2) * n2) = hyp x y.
Proof.
  intro N. unfold hyp. f_equal. set (h := x * n1 + y * n2).
  replace (_ + _) with (x * x + y * y - 4 * h * (x * n1 + y * n2) + 4 * (h * h) * (n1 * n1 + n2 * n2)) by ring. fold h. rewrite N. ring.
Qed.
Lemma images_step L w P a b p p' i j : ordinary L -> ordinary (512 * L) -> stands_for (fw_origin w) a -> stands_for (fw_dest w) b -> stands_for P p' ->
  within L a -> close_by L a b -> (L / 12) * (L / 12) <= (fst b - fst a) * (fst b - fst a) + (snd b - snd a) * (snd b - snd a) ->
  0 <= j <= 255 -> hyp (fst p' - fst p) (snd p' - snd p) <= 91 * u24 * (j * (j + 1)) * L -> hyp (fst p - fst a) (snd p - snd a) <= 17 / 12 * (j + 1) * L ->
  mirror_image a b p i ->
  exists i', stands_for (f_image_of w P) i' /\ hyp (fst i' - fst i) (snd i' - snd i) <= 91 * u24 * ((j + 1) * (j + 1 + 1)) * L /\
    hyp (fst i - fst a) (snd i - snd a) <= 17 / 12 * (j + 1) * L.
Proof.
  intros HL HL' Oa Ob OP Wa Cab Len Hj Ej Hp Mi. assert (L0 : 0 < L) by (destruct HL; pose proof (bpow_gt_0 radix2 (-50)); lra).
  set (l := hyp (fst b - fst a) (snd b - snd a)). assert (tl : L / 12 <= l) by (apply hyp_lower; [lra|auto]).
  pose proof (ordinary_low L (/ 12) HL ltac:(lra)) as low. assert (Hl : bpow radix2 (-54) <= l) by lra.
  assert (l0 : 0 < l) by (pose proof (bpow_gt_0 radix2 (-54)); lra).
  set (K := 2 * (j + 1) * L). assert (KL : 2 * L <= K <= 512 * L) by (unfold K; nra).
  assert (HK : ordinary K) by (destruct HL as [A _], HL' as [_ B]; split; lra).
  assert (Cp : close_by K p' a).
  { assert (H : hyp (fst p' - fst a) (snd p' - snd a) <= K).
    { replace (fst p' - fst a) with ((fst p - fst a) + (fst p' - fst p)) by ring. replace (snd p' - snd a) with ((snd p - snd a) + (snd p' - snd p)) by ring.
      eapply Rle_trans; [apply hyp_triang|]. unfold K. assert (91 * u24 * (j * (j + 1)) * L <= 7 / 12 * (j + 1) * L); [|lra].
      apply Rmult_le_compat_r; [lra|]. replace (91 * u24 * (j * (j + 1))) with (91 * u24 * j * (j + 1)) by ring. apply Rmult_le_compat_r; [lra|]. unfold u24. lra. }
    apply coords in H. exact H. }
  assert (Wk : within K a) by (destruct Wa; split; lra). assert (Ck : close_by K a b) by (destruct Cab; split; lra).
  destruct (image_any K w P a b p' HK Oa Ob OP Wk Ck Cp Hl) as [(x & X & Ex) (y & Y & Ey)].
  pose proof (mirror_is a b l0 p i Mi) as Ei. pose proof (nn a b l0) as N. fold l in Ex, Ey, Ei, N.
  set (n1 := (snd b - snd a) / l) in *. set (n2 := - (fst b - fst a) / l) in *.
  exists (x, y). split; [split; auto|]. cbn [fst snd]. rewrite Ei. cbn [fst snd]. split.
  - set (h' := (fst p' - fst a) * n1 + (snd p' - snd a) * n2) in *. set (h := (fst p - fst a) * n1 + (snd p - snd a) * n2).
    replace (x - (fst p - 2 * h * n1)) with ((fst p' - fst p - 2 * ((fst p' - fst p) * n1 + (snd p' - snd p) * n2) * n1) + (x - (fst p' - 2 * h' * n1))) by (unfold h', h; ring).
    replace (y - (snd p - 2 * h * n2)) with ((snd p' - snd p - 2 * ((fst p' - fst p) * n1 + (snd p' - snd p) * n2) * n2) + (y - (snd p' - 2 * h' * n2))) by (unfold h', h; ring).
    eapply Rle_trans; [apply hyp_triang|]. rewrite reflect_hyp by auto. pose proof (hyp_small _ _ _ Ex Ey) as E.
    replace (17 / 12 * (64 * (u24 * K))) with (181 * u24 * (j + 1) * L + / 3 * u24 * (j + 1) * L) in E by (unfold K; field).
    assert (0 < u24 * ((j + 1) * L)) by (pose proof u24_pos; assert (0 < (j + 1) * L) by nra; nra). lra.
  - match goal with |- hyp ?A ?B <= _ => replace A with (fst p - fst a - 2 * ((fst p - fst a) * n1 + (snd p - snd a) * n2) * n1) by ring;
      replace B with (snd p - snd a - 2 * ((fst p - fst a) * n1 + (snd p - snd a) * n2) * n2) by ring end.
    rewrite reflect_hyp by auto. auto.
Qed.
Lemma images_any L ws walls : ordinary L -> ordinary (512 * L) -> Forall2 wall_stands_for ws walls -> walls_within L walls ->
  forall P p p' is j, stands_for P p' -> mirror_chain p walls is -> 0 <= j -> j + INR (length walls) <= 256 ->
  hyp (fst p' - fst p) (snd p' - snd p) <= 91 * u24 * (j * (j + 1)) * L ->
  (forall a b, In (a, b) walls -> hyp (fst p - fst a) (snd p - snd a) <= 17 / 12 * (j + 1) * L) ->
  forall k f i, nth_error (f_images P ws) k = Some f -> nth_error is k = Some i ->
  exists i', stands_for f i' /\ hyp (fst i' - fst i) (snd i' - snd i) <= 91 * u24 * ((j + INR k + 1) * (j + INR k + 2)) * L.
Proof.
  intros HL HL' F. assert (L0 : 0 < L) by (destruct HL; pose proof (bpow_gt_0 radix2 (-50)); lra).
  induction F as [|w [a b] ws walls [Oa Ob] F IH]; intros W P p p' is j OP C Hj Hn E Hd k f i Nf Ni.
  - destruct k; discriminate Nf.
  - inversion C as [|? ? ? i0 ? is' Mi C' E1 E2]; subst. cbn [fst snd] in *.
    destruct W as [W1 W2]. destruct (W1 a b (or_introl eq_refl)) as (Wa & Cab & Len).
    assert (Hn' : 0 <= j <= 255 /\ j + 1 + INR (length walls) <= 256) by (cbn [length] in Hn; rewrite S_INR in Hn; pose proof (pos_INR (length walls)); lra).
    destruct (images_step L w P a b p p' i0 j HL HL' Oa Ob OP Wa Cab Len ltac:(lra) E (Hd a b (or_introl eq_refl)) Mi) as (i' & Oi & Ei & Hi).
    destruct k as [|k].
    + cbn in Nf, Ni. injection Nf as <-. injection Ni as <-. exists i'. split; auto. cbn [INR]. replace (j + 0 + 1) with (j + 1) by ring. replace (j + 0 + 2) with (j + 1 + 1) by ring. auto.
    + cbn [nth_error f_images] in Nf, Ni.
      assert (W' : walls_within L walls) by (split; [intros; apply W1; right; auto|intros; eapply W2; right; eauto]).
      destruct (IH W' (f_image_of w P) i0 i' is' (j + 1) Oi C' ltac:(lra) ltac:(lra) Ei) with (k := k) (f := f) (i := i) as (z & Z & Ez); auto.
      * intros c d I. replace (fst i0 - fst c) with ((fst i0 - fst a) + (fst a - fst c)) by ring. replace (snd i0 - snd c) with ((snd i0 - snd a) + (snd a - snd c)) by ring.
        eapply Rle_trans; [apply hyp_triang|]. destruct (W2 a b c d (or_introl eq_refl) (or_intror I)) as [Q1 Q2]. pose proof (hyp_small _ _ _ Q1 Q2). lra.
      * exists z. split; auto. rewrite S_INR. replace (j + (INR k + 1) + 1) with (j + 1 + INR k + 1) by ring. replace (j + (INR k + 1) + 2) with (j + 1 + INR k + 2) by ring. auto.
Qed.

(** ** The verdict *)
Lemma projects_shift m e a b q q' : Rabs (fst q' - fst q) <= e -> Rabs (snd q' - snd q) <= e -> 0 <= e ->
  0 < hyp (fst b - fst a) (snd b - snd a) ->
  projects_with_margin (m + 17 / 12 * e / hyp (fst b - fst a) (snd b - snd a)) q a b -> projects_with_margin m q' a b.
Proof.
  intros E1 E2 E0 l0. unfold projects_with_margin. cbv zeta. pose proof (hyp_sq (fst b - fst a) (snd b - snd a)) as Q. set (l := hyp (fst b - fst a) (snd b - snd a)) in *.
  pose proof (cs_abs (fst q' - fst q) (snd q' - snd q) (fst b - fst a) (snd b - snd a)) as C. fold l in C.
  pose proof (hyp_small _ _ _ E1 E2) as H. assert (C' : Rabs ((fst q' - fst q) * (fst b - fst a) + (snd q' - snd q) * (snd b - snd a)) <= 17 / 12 * e * l) by nra.
  rewrite <- Q. replace ((m + 17 / 12 * e / l) * (l * l)) with (m * (l * l) + 17 / 12 * e * l) by (field; lra).
  replace ((1 - (m + 17 / 12 * e / l)) * (l * l)) with ((1 - m) * (l * l) - 17 / 12 * e * l) by (field; lra).
  apply Rabs_le_inv in C'. intros [H1 H2]. split; lra.
Qed.
Lemma projects_less m m' q a b : m' <= m -> projects_with_margin m q a b -> projects_with_margin m' q a b.
Proof. unfold projects_with_margin. cbv zeta. intros H [A B]. pose proof (hyp_sq (fst b - fst a) (snd b - snd a)) as Q. set (d := (fst b - fst a) * (fst b - fst a) + (snd b - snd a) * (snd b - snd a)) in *. assert (0 <= d) by nra. nra. Qed.
Lemma one_path tx w rx : f_xys (f_ImagePath_from tx [w] rx) = [tx; f_backward rx (w, f_image_of w tx); rx] /\
  f_loss (f_ImagePath_from tx [w] rx) = f_add f_zero (f_evaluate w tx (f_backward rx (w, f_image_of w tx)) rx).
Proof. split; reflexivity. Qed.
Lemma one_verdict tau L w tx rx a b p r q objects cand tol patch k tl obst : / 12 <= tau <= 1 ->
  stands_for (fw_origin w) a -> stands_for (fw_dest w) b -> stands_for tx p -> stands_for rx r ->
  one_reflection tau L a b p r -> reflection_point a b p r q ->
  f_intersects_with_objects false (f_ImagePath_from tx [w] rx) objects cand patch k = Ok obst ->
  fval tol = Fin tl -> / 10000000 / (tau * tau * (tau * tau)) < tl ->
  let m := bpow radix2 (-14) / (tau * tau) in
  exists v, f_is_valid false (f_ImagePath_from tx [w] rx) objects cand [FWall w] tol patch k = Ok (FB v) /\
    (projects_with_margin m q a b -> v = negb (f_to_b obst)) /\ (v = true -> projects_with_margin (- m) q a b /\ f_to_b obst = false).
Proof.
  intros Ht Oa Ob Op Or H Q I Tv Tl m.
  destruct (one_reflection_any tau L w tx rx a b p r q Ht Oa Ob Op Or H Q) as ((x & y & Oq & Ex & Ey) & (l & Lv & Lb) & R1 & R2).
  destruct H as (HL & HL2 & _ & _ & _ & Cab & _ & _ & Len & _).
  assert (L0 : 0 < L) by (destruct HL; pose proof (bpow_gt_0 radix2 (-50)); lra).
  assert (tl0 : tau * L <= hyp (fst b - fst a) (snd b - snd a)) by (apply hyp_lower; [nra|auto]).
  assert (Et : 262 * u24 * L / tau <= / 1000 * L).
  { apply Rmult_le_reg_r with tau; [lra|]. unfold Rdiv. rewrite (Rmult_assoc _ (/ tau)), Rinv_l, Rmult_1_r by lra. unfold u24. nra. }
  set (e := 262 * u24 * L / tau) in *. assert (e0 : 0 <= e) by (pose proof (Rabs_pos (x - fst q)); lra).
  set (h := hyp (fst b - fst a) (snd b - snd a)) in *. assert (h0 : 0 < h) by nra.
  assert (Sz : sizeable (tau * tau / 4) a b (x, y)).
  { exists (2 * L). split; [auto|]. split; [destruct Cab; split; lra|]. split; [|lra]. apply Rabs_le_inv in Ex, Ey, R1, R2. split; cbn [fst snd]; apply Rabs_le; lra. }
  assert (S0 : / 1024 <= tau * tau / 4) by nra.
  assert (t2 : 0 < tau * tau) by nra.
  assert (Mg : margin (tau * tau / 4) + 17 / 12 * e / h <= m).
  { assert (17 / 12 * e / h <= 372 * u24 / (tau * tau)).
    { apply Rmult_le_reg_r with h; [auto|]. replace (17 / 12 * e / h * h) with (17 / 12 * e) by (field; lra).
      apply Rle_trans with (372 * u24 / (tau * tau) * (tau * L)); [|apply Rmult_le_compat_l; [|auto]; apply Rmult_le_pos; [unfold u24; lra|left; apply Rinv_0_lt_compat; auto]].
      unfold e. replace (372 * u24 / (tau * tau) * (tau * L)) with (372 * u24 * L / tau) by (field; lra). replace (17 / 12 * (262 * u24 * L / tau)) with ((17 / 12 * 262) * u24 * L / tau) by (field; lra).
      apply Rmult_le_compat_r; [left; apply Rinv_0_lt_compat; lra|]. apply Rmult_le_compat_r; [lra|]. unfold u24. lra. }
    assert (margin (tau * tau / 4) = bpow radix2 (-16) / (tau * tau)) by (unfold margin; cbn; field; lra).
    assert (bpow radix2 (-16) / (tau * tau) + 372 * u24 / (tau * tau) <= m); [|lra].
    unfold m, Rdiv. rewrite <- Rmult_plus_distr_r. apply Rmult_le_compat_r; [left; apply Rinv_0_lt_compat; auto|]. unfold u24. cbn. lra. }
  destruct (one_path tx w rx) as [Xs Ls].
  destruct (any_on_objects (tau * tau / 4) (f_ImagePath_from tx [w] rx) [p; (x, y); r] [FWall w] [Segment a b] k S0) as [O1 O2].
  { rewrite Xs. repeat constructor; try apply Op; try apply Or; apply Oq. }
  { constructor; [split; auto|constructor]. }
  { cbn. lia. }
  { intros i c d z N N'. destruct i as [|i]; cbn in N, N'; [|destruct i; discriminate]. injection N as <- <-. injection N' as <-. auto. }
  unfold f_is_valid. rewrite I. cbn [rbind]. rewrite all3_exact. eexists. split; [reflexivity|].
  assert (Lt : f_to_b (f_less false (f_loss (f_ImagePath_from tx [w] rx)) tol k) = true).
  { cbn [f_to_b f_less]. rewrite Ls, val_ltb, (zero_add_val _ _ val_zero), Lv, Tv. cbn [xltb]. apply Rltb_true. lra. }
  rewrite Lt, andb_true_r. cbn [f_to_b f_not]. split.
  - intro P. rewrite O1; [cbn [andb]; destruct (negb (f_to_b obst)); reflexivity|].
    intros i c d z N N'. destruct i as [|i]; cbn in N, N'; [|destruct i; discriminate]. injection N as <- <-. injection N' as <-.
    apply projects_shift with (e := e) (q := q); auto. fold h. eapply projects_less; [exact Mg|exact P].
  - intro P. apply andb_prop in P. destruct P as [O P]. split; [|destruct (f_to_b obst); [discriminate P|reflexivity]].
    pose proof (O2 O 0%nat a b (x, y) eq_refl eq_refl) as F.
    apply projects_shift with (e := e) (q := (x, y)); cbn [fst snd]; auto; try (rewrite Rabs_minus_sym; auto; fail). fold h.
    eapply projects_less; [|exact F]. lra.
Qed.
