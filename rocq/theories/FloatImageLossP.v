(** The image method in single precision: the residual of the reflection law. *)
From Coq Require Import Reals List Bool ZArith Lra Lia Psatz.
From Flocq Require Import Core.Core IEEE754.BinarySingleNaN.
From Verif Require Import Base BaseP LogicM GeometryM PathM FloatM SpecFloat32 FloatP FloatLogicP FloatCmpP FloatAccP FloatGeomP FloatSegP FloatGridP FloatBoundP FloatImageM SpecImage32 FloatImageP FloatImageErrP FloatImageChainP.
Import ListNotations.
Open Scope R_scope.

(** ** Real analysis: unit vectors with a common second coordinate. *)
Definition hyp (x h : R) : R := sqrt (x * x + h * h).
Lemma hyp_sq x h : hyp x h * hyp x h = x * x + h * h. Proof. apply sqrt_sqrt. nra. Qed.
Lemma hyp_pos x h : 0 <= hyp x h. Proof. apply sqrt_pos. Qed.
Lemma hyp_ge x h : Rabs x <= hyp x h /\ Rabs h <= hyp x h.
Proof. pose proof (hyp_sq x h). pose proof (hyp_pos x h). split; apply Rabs_le; split; nra. Qed.
Lemma hyp_lip x X h : Rabs (hyp x h - hyp X h) <= Rabs (x - X).
Proof.
  pose proof (hyp_sq x h) as A. pose proof (hyp_sq X h) as B. pose proof (hyp_pos x h). pose proof (hyp_pos X h).
  assert (C : x * X + h * h <= hyp x h * hyp X h).
  { destruct (Rle_or_lt (x * X + h * h) 0); [pose proof (Rmult_le_pos _ _ H H0); lra|]. apply Rsqr_incr_0_var; [|apply Rmult_le_pos; auto]. unfold Rsqr.
    replace (hyp x h * hyp X h * (hyp x h * hyp X h)) with ((hyp x h * hyp x h) * (hyp X h * hyp X h)) by ring. rewrite A, B.
    pose proof (Rle_0_sqr (x * h - X * h)) as Sq. unfold Rsqr in Sq. lra. }
  apply Rsqr_le_abs_0. unfold Rsqr. nra.
Qed.
Lemma inv_lip x X h : h <> 0 -> Rabs (/ hyp x h - / hyp X h) <= Rabs (x - X) / (Rabs h * hyp X h).
Proof.
  intro H. assert (P : 0 < Rabs h) by (apply Rabs_pos_lt; auto). destruct (hyp_ge x h) as [_ A]. destruct (hyp_ge X h) as [_ B].
  replace (/ hyp x h - / hyp X h) with ((hyp X h - hyp x h) * / hyp x h * / hyp X h) by (field; lra).
  rewrite !Rabs_mult, !Rabs_inv, (Rabs_pos_eq (hyp x h)), (Rabs_pos_eq (hyp X h)), Rabs_minus_sym by lra.
  unfold Rdiv. rewrite Rinv_mult. rewrite <- Rmult_assoc. apply Rmult_le_compat_r; [left; apply Rinv_0_lt_compat; lra|].
  apply Rmult_le_compat; [apply Rabs_pos|left; apply Rinv_0_lt_compat; lra|apply hyp_lip|apply Rinv_le_contravar; lra].
Qed.
Lemma unit_lip x X h : h <> 0 -> Rabs (x / hyp x h - X / hyp X h) <= 2 * (Rabs (x - X) / Rabs h) /\ Rabs (h / hyp x h - h / hyp X h) <= Rabs (x - X) / Rabs h.
Proof.
  intro H. assert (P : 0 < Rabs h) by (apply Rabs_pos_lt; auto). destruct (hyp_ge x h) as [A1 A]. destruct (hyp_ge X h) as [B1 B].
  pose proof (inv_lip x X h H) as IL. pose proof (Rabs_pos (x - X)) as D0.
  assert (G : forall t, Rabs t <= hyp X h -> Rabs (t * (/ hyp x h - / hyp X h)) <= Rabs (x - X) / Rabs h).
  { intros t T. rewrite Rabs_mult. apply Rle_trans with (hyp X h * (Rabs (x - X) / (Rabs h * hyp X h))).
    - apply Rmult_le_compat; auto; apply Rabs_pos.
    - right. field. split; lra. }
  split.
  - replace (x / hyp x h - X / hyp X h) with ((x - X) * / hyp x h + X * (/ hyp x h - / hyp X h)) by (unfold Rdiv; ring).
    eapply Rle_trans; [apply Rabs_triang|]. pose proof (G X B1).
    assert (Rabs ((x - X) * / hyp x h) <= Rabs (x - X) / Rabs h).
    { rewrite Rabs_mult, Rabs_inv, (Rabs_pos_eq (hyp x h)) by lra. apply Rmult_le_compat_l; [auto|]. apply Rinv_le_contravar; lra. }
    lra.
  - replace (h / hyp x h - h / hyp X h) with (h * (/ hyp x h - / hyp X h)) by (unfold Rdiv; ring). apply G. auto.
Qed.
Lemma hyp_scale t x h : 0 <= t -> hyp (t * x) (t * h) = t * hyp x h.
Proof. intro T. unfold hyp. replace (t * x * (t * x) + t * h * (t * h)) with ((t * t) * (x * x + h * h)) by ring. rewrite sqrt_mult by nra. rewrite sqrt_square by auto. reflexivity. Qed.
Lemma hyp_opp x h : hyp x (- h) = hyp x h. Proof. unfold hyp. f_equal. ring. Qed.

(** ** [normalize] *)
Section Norm.
Variables (d : axis) (e : Z) (v : fvec) (x : R) (y : Z).
Let b := bpow radix2 e.
Context (E : (-60 <= e <= 50)%Z) (X : fval (along d v) = Fin x) (Xb : Rabs x <= 4096 * b) (Y : gr e (across d v) y) (Yb : (1 <= Z.abs y <= 2048)%Z).
Let h := IZR y * b.
Let L := hyp x h.

Lemma nb_pos : 0 < b. Proof. apply bpow_gt_0. Qed.
Lemma h_facts : b <= Rabs h <= 2048 * b.
Proof.
  pose proof nb_pos. unfold h. rewrite Rabs_mult, (Rabs_pos_eq b) by lra. rewrite <- abs_IZR.
  assert (1 <= IZR (Z.abs y) <= 2048) by (split; apply IZR_le; lia). nra.
Qed.
Lemma L_facts : b <= L <= 6144 * b /\ L * L = x * x + h * h /\ Rabs x <= L /\ Rabs h <= L.
Proof.
  pose proof nb_pos. pose proof h_facts. unfold L. pose proof (hyp_sq x h) as Q. destruct (hyp_ge x h) as [A1 A2]. pose proof (hyp_pos x h).
  repeat split; auto; try lra. apply Rsqr_incr_0_var; [|nra]. unfold Rsqr. rewrite Q. apply Rabs_le_inv in Xb. destruct H0 as [_ H0]. apply Rabs_le_inv in H0. nra.
Qed.
Lemma len_val : exists l, fval (f_norm v) = Fin l /\ Rabs (l - L) <= 2 / 10000000 * L.
Proof.
  pose proof nb_pos as B0. pose proof h_facts as Hf. destruct L_facts as ((L1 & L2) & L3 & L4 & L5).
  assert (Et : bpow radix2 (-150) <= L * L * / 1000000000 /\ bpow radix2 (-150) <= L * / 1000000000).
  { destruct (eta_small e) as [Q1 Q2]; auto. fold b in Q1, Q2. split; [|lra]. eapply Rle_trans; [exact Q1|]. nra. }
  destruct Et as [Et1 Et2].
  assert (Lb : L * L <= bpow radix2 (e + e) * bpow radix2 26).
  { rewrite bp. fold b. change (bpow radix2 26) with 67108864. nra. }
  assert (XX : Rabs (x * x) <= L * L) by (rewrite Rabs_pos_eq by nra; nra).
  assert (PV : fval (f_mul (along d v) (along d v)) = Fin (rnd (x * x))).
  { rewrite val_mul, X. cbn [xmul]. apply fin_round. eapply (range_at (e + e) 26); [lia|lra]. }
  assert (HV : fval (f_mul (across d v) (across d v)) = Fin (h * h)).
  { assert (Q : gr (e + e) (f_mul (across d v) (across d v)) (y * y)) by (apply gr_mul; auto; [rewrite Z.abs_mul; nia|lia]).
    rewrite Q. f_equal. rewrite bp, mult_IZR. unfold h, b. ring. }
  pose proof (rnd_rel (x * x)) as PE. set (p := rnd (x * x)) in *.
  assert (L20 : 0 < L * L) by nra.
  assert (PE' : Rabs (p - x * x) <= L * L * (61 / 1000000000)) by lra.
  apply Rabs_le_inv in PE'.
  assert (P0 : 0 <= p) by (apply rnd_pos; nra).
  assert (SB : Rabs (p + h * h) <= L * L * (1 + 61 / 1000000000)) by (rewrite Rabs_pos_eq by nra; lra).
  assert (SV : fval (f_dot v v) = Fin (rnd (p + h * h))).
  { unfold f_dot. destruct d; cbn [along across] in *; rewrite val_add, PV, HV; cbn [xadd]; [|rewrite Rplus_comm]; (apply fin_round; apply (range_at (e + e) 27); [lia|]);
    (assert (B27 : bpow radix2 27 = 2 * bpow radix2 26) by (cbn; lra)); rewrite B27; lra. }
  pose proof (rnd_rel (p + h * h)) as SE. set (t := rnd (p + h * h)) in *.
  assert (SE' : Rabs (t - L * L) <= L * L * (13 / 100000000)).
  { replace (t - L * L) with ((t - (p + h * h)) + (p - x * x)) by (rewrite L3; ring). eapply Rle_trans; [apply Rabs_triang|].
    assert (Rabs (p - x * x) <= L * L * (61 / 1000000000)) by (apply Rabs_le; lra). lra. }
  assert (T0 : 0 <= t) by (apply rnd_pos; nra).
  assert (RV : fval (f_norm v) = Fin (rnd (sqrt t))).
  { unfold f_norm. rewrite val_sqrt, SV. destruct (Rltb_spec t 0); [lra|reflexivity]. }
  pose proof (sqrt_pos t) as R0. pose proof (sqrt_sqrt t T0) as R1. set (r := sqrt t) in *.
  assert (RE : Rabs (r - L) <= L * (13 / 100000000)).
  { assert (Q : Rabs (r - L) * (r + L) = Rabs (t - L * L)).
    { rewrite <- (Rabs_pos_eq (r + L)) at 1 by lra. rewrite <- Rabs_mult. f_equal. rewrite <- R1. ring. }
    pose proof (Rabs_pos (r - L)). assert (Rabs (r - L) * L <= L * L * (13 / 100000000)) by nra. apply Rmult_le_reg_r with L; nra. }
  pose proof (rnd_rel r) as LE. rewrite (Rabs_pos_eq r) in LE by auto.
  exists (rnd r). split; [exact RV|]. replace (rnd r - L) with ((rnd r - r) + (r - L)) by ring. eapply Rle_trans; [apply Rabs_triang|].
  pose proof RE as RE'. apply Rabs_le_inv in RE'. lra.
Qed.
End Norm.

Lemma norm_component d e v x y : (-60 <= e <= 50)%Z -> fval (along d v) = Fin x -> Rabs x <= 4096 * bpow radix2 e -> gr e (across d v) y -> (1 <= Z.abs y <= 2048)%Z ->
  exists i1 i2, fval (along d (fst (f_normalize v))) = Fin i1 /\ fval (across d (fst (f_normalize v))) = Fin i2 /\
    Rabs (i1 - x / hyp x (IZR y * bpow radix2 e)) <= / 2000000 /\ Rabs (i2 - IZR y * bpow radix2 e / hyp x (IZR y * bpow radix2 e)) <= / 2000000.
Proof.
  intros E X Xb Y Yb. destruct (len_val d e v x y E X Xb Y Yb) as (l & Lv & Le). destruct (L_facts e x y Xb Yb) as ((L1 & _) & _ & L4 & L5).
  set (h := IZR y * bpow radix2 e) in *. set (L := hyp x h) in *. pose proof (bpow_gt_0 radix2 e) as B0.
  apply Rabs_le_inv in Le. assert (l0 : 0 < l) by lra.
  unfold f_normalize. cbv zeta. cbn [fst]. destruct (f_eqb (f_norm v) f_zero) eqn:Q; [apply val_eqb_zero in Q; rewrite Lv in Q; injection Q as Q; lra|].
  assert (G : forall c z, fval c = Fin z -> Rabs z <= L -> exists i, fval (f_div c (f_norm v)) = Fin i /\ Rabs (i - z / L) <= / 2000000).
  { intros c z C Z. assert (Q1 : Rabs (z * / l - z / L) <= 21 / 100000000).
    { replace (z * / l - z / L) with (z * / L * ((L - l) * / l)) by (field; lra). rewrite !Rabs_mult, !Rabs_inv, (Rabs_pos_eq L), (Rabs_pos_eq l) by lra.
      assert (Rabs z * / L <= 1) by (apply Rmult_le_reg_r with L; [lra|]; rewrite Rmult_assoc, Rinv_l by lra; lra).
      assert (Rabs (L - l) * / l <= 21 / 100000000).
      { apply Rmult_le_reg_r with l; [lra|]. rewrite Rmult_assoc, Rinv_l by lra. assert (Rabs (L - l) <= 2 / 10000000 * L) by (apply Rabs_le; lra). lra. }
      assert (0 <= Rabs z * / L) by (apply Rmult_le_pos; [apply Rabs_pos|left; apply Rinv_0_lt_compat; lra]).
      assert (0 <= Rabs (L - l) * / l) by (apply Rmult_le_pos; [apply Rabs_pos|left; apply Rinv_0_lt_compat; lra]). nra. }
    assert (Q2 : Rabs (z / L) <= 1).
    { unfold Rdiv. rewrite Rabs_mult, Rabs_inv, (Rabs_pos_eq L) by lra. apply Rmult_le_reg_r with L; [lra|]. rewrite Rmult_assoc, Rinv_l by lra. lra. }
    assert (Q3 : Rabs (z * / l) <= bpow radix2 1).
    { change (bpow radix2 1) with 2. replace (z * / l) with ((z * / l - z / L) + z / L) by ring. eapply Rle_trans; [apply Rabs_triang|]. lra. }
    exists (rnd (z * / l)). split.
    - rewrite (val_div _ _ _ Lv ltac:(lra)), C. cbn [xmul]. apply fin_round. eapply Rle_trans; [exact Q3|]. apply bpow_le. lia.
    - pose proof (rnd_err 1 _ ltac:(lia) Q3) as R. replace (rnd (z * / l) - z / L) with ((rnd (z * / l) - z * / l) + (z * / l - z / L)) by ring.
      eapply Rle_trans; [apply Rabs_triang|]. assert (bpow radix2 (1 - 25) = / 16777216) by (cbn; lra). lra. }
  rewrite along_div, across_div. destruct (G _ _ X L4) as (i1 & I1 & I1'). destruct (G _ _ Y L5) as (i2 & I2 & I2'). exists i1, i2. auto.
Qed.

(** The direction from one computed point to the next. *)
Lemma direction d N e n p q P Q : (0 <= N <= 1024)%Z -> (-60 <= e <= 50)%Z -> 0 <= n <= 64 -> close d e n p P -> close d e n q Q -> tame d N e P -> tame d N e Q -> across d P <> across d Q ->
  let X := along d Q - along d P in let h := across d Q - across d P in
  exists i1 i2, fval (along d (fst (f_normalize (fv_sub q p)))) = Fin i1 /\ fval (across d (fst (f_normalize (fv_sub q p)))) = Fin i2 /\
    Rabs (i1 - X / hyp X h) <= 4 * n / 1024 + / 4000 /\ Rabs (i2 - h / hyp X h) <= 4 * n / 1024 + / 4000.
Proof.
  intros HN E Hn (Pc & xp & Px & Pe) (Qc & xq & Qx & Qe) ((jp & Jp & Jpe) & Pa) ((jq & Jq & Jqe) & Qa) NE X h.
  pose proof (bpow_gt_0 radix2 e) as B0. set (b := bpow radix2 e) in *.
  assert (N1 : IZR N <= 1024) by (apply IZR_le; lia). assert (N0 : 0 <= IZR N) by (apply IZR_le; lia).
  assert (Gy : gr e (across d (fv_sub q p)) (jq - jp)) by (rewrite across_sub; apply gr_sub; [unfold gr; rewrite Qc, Jqe; reflexivity|unfold gr; rewrite Pc, Jpe; reflexivity|lia|lia]).
  assert (Hh : h = IZR (jq - jp) * b) by (unfold h; rewrite Jqe, Jpe, minus_IZR; ring).
  assert (NEj : jp <> jq) by (intros ->; apply NE; rewrite Jpe, Jqe; reflexivity).
  assert (XE : Rabs (xq - xp - X) <= n * (b / 512)).
  { replace (xq - xp - X) with ((xq - along d Q) - (xp - along d P)) by (unfold X; ring). eapply Rle_trans; [apply Rabs_triang|]. rewrite Rabs_Ropp. lra. }
  assert (XB : Rabs X <= 2048 * b).
  { unfold X. eapply Rle_trans; [apply Rabs_triang|]. rewrite Rabs_Ropp. nra. }
  assert (DB : Rabs (xq - xp) <= b * bpow radix2 12).
  { change (bpow radix2 12) with 4096. replace (xq - xp) with ((xq - xp - X) + X) by ring. eapply Rle_trans; [apply Rabs_triang|]. nra. }
  assert (Vx : fval (along d (fv_sub q p)) = Fin (rnd (xq - xp))).
  { rewrite along_sub, val_sub, Qx, Px. cbn [xsub xadd xopp]. apply fin_round. apply (range_at e 12); [lia|exact DB]. }
  pose proof (rnd_err_at e 12 _ ltac:(lia) DB) as RE. cbn in RE. fold b in RE. set (x := rnd (xq - xp)) in *.
  assert (xE : Rabs (x - X) <= n * (b / 512) + b / 8192).
  { replace (x - X) with ((x - (xq - xp)) + (xq - xp - X)) by ring. eapply Rle_trans; [apply Rabs_triang|]. lra. }
  assert (xB : Rabs x <= 4096 * b).
  { replace x with ((x - X) + X) by ring. eapply Rle_trans; [apply Rabs_triang|]. nra. }
  destruct (norm_component d e _ x (jq - jp) E Vx xB Gy ltac:(lia)) as (i1 & i2 & I1 & I2 & D1 & D2). fold b in D1, D2. rewrite <- Hh in D1, D2.
  assert (h0 : h <> 0) by (rewrite Hh; apply Rmult_integral_contrapositive_currified; [apply not_0_IZR; lia|lra]).
  destruct (unit_lip x X h h0) as [U1 U2].
  assert (hb : b <= Rabs h).
  { rewrite Hh, Rabs_mult, (Rabs_pos_eq b) by lra. rewrite <- abs_IZR. assert (1 <= IZR (Z.abs (jq - jp))) by (apply IZR_le; lia). nra. }
  assert (G : Rabs (x - X) / Rabs h <= n / 512 + / 8192).
  { apply Rmult_le_reg_r with (Rabs h); [lra|]. unfold Rdiv at 1. rewrite Rmult_assoc, Rinv_l by lra. nra. }
  exists i1, i2. split; [auto|]. split; [auto|]. split.
  - replace (i1 - X / hyp X h) with ((i1 - x / hyp x h) + (x / hyp x h - X / hyp X h)) by ring. eapply Rle_trans; [apply Rabs_triang|]. lra.
  - replace (i2 - h / hyp X h) with ((i2 - h / hyp x h) + (h / hyp x h - h / hyp X h)) by ring. eapply Rle_trans; [apply Rabs_triang|]. assert (0 <= Rabs (x - X) / Rabs h) by (apply Rmult_le_pos; [apply Rabs_pos|left; apply Rinv_0_lt_compat; lra]). lra.
Qed.

(** Three points obeying the law of reflection. *)
Definition specular (d : axis) (A B C : R * R) : Prop :=
  exists vx vh t t', 0 < t /\ 0 < t' /\ vh <> 0 /\ along d B - along d A = t' * vx /\ across d B - across d A = t' * vh /\
    along d C - along d B = t * vx /\ across d C - across d B = t * (- vh).

Lemma evaluate_small d N e c w n a b0 c0 A B C : axis_wall N e w (d, c) -> (0 <= N <= 1024)%Z -> (-60 <= e <= 50)%Z -> 1 <= n <= 64 ->
  close d e n a A -> close d e n b0 B -> close d e n c0 C -> tame d N e A -> tame d N e B -> tame d N e C -> specular d A B C ->
  exists l, fval (f_evaluate w a b0 c0) = Fin l /\ 0 <= l <= n * n * (5 / 32768).
Proof.
  intros W HN E Hn Ca Cb Cc Ta Tb Tc (vx & vh & t & t' & T & T' & V0 & E1 & E2 & E3 & E4).
  destruct (normal_axis d c N e w W ltac:(lia) ltac:(lia)) as (s & U).
  assert (N1 : across d A <> across d B) by (intro Q; assert (Z : t' * vh = 0) by lra; apply Rmult_integral in Z; lra).
  assert (N2 : across d B <> across d C) by (intro Q; assert (Z : t * - vh = 0) by lra; apply Rmult_integral in Z; lra).
  destruct (direction d N e n a b0 A B HN E ltac:(lra) Ca Cb Ta Tb N1) as (i1 & i2 & I1 & I2 & D1 & D2).
  destruct (direction d N e n b0 c0 B C HN E ltac:(lra) Cb Cc Tb Tc N2) as (r1 & r2 & R1 & R2 & F1 & F2).
  rewrite E1, E2, hyp_scale in D1, D2 by lra. rewrite E3, E4, hyp_scale, hyp_opp in F1, F2 by lra.
  destruct (hyp_ge vx vh) as [G1 G2]. assert (V1 : 0 < Rabs vh) by (apply Rabs_pos_lt; auto). assert (H0 : 0 < hyp vx vh) by lra.
  set (H := hyp vx vh) in *.
  assert (Q1 : t' * vx / (t' * H) = vx / H) by (field; split; lra). assert (Q2 : t' * vh / (t' * H) = vh / H) by (field; split; lra).
  assert (Q3 : t * vx / (t * H) = vx / H) by (field; split; lra). assert (Q4 : t * - vh / (t * H) = - (vh / H)) by (field; split; lra).
  rewrite Q1 in D1. rewrite Q2 in D2. rewrite Q3 in F1. rewrite Q4 in F2.
  assert (K2 : Rabs (vh / H) <= 1).
  { unfold Rdiv. rewrite Rabs_mult, Rabs_inv, (Rabs_pos_eq H) by lra. apply Rmult_le_reg_r with H; [lra|]. rewrite Rmult_assoc, Rinv_l by lra. lra. }
  set (de := 4 * n / 1024 + / 4000) in *. assert (De : 0 <= de <= 1 / 2) by (unfold de; lra).
  apply Rabs_le_inv in D1, D2, F1, F2, K2.
  unfold f_evaluate. cbv zeta. set (i := fst (f_normalize (fv_sub b0 a))) in *. set (r := fst (f_normalize (fv_sub c0 b0))) in *. set (nn := f_normal w) in *.
  pose proof U as (U0 & U1 & S).
  pose proof (dot_across d i nn s i2 U ltac:(eexists; exact I1) I2) as Dv.
  assert (As : -2 <= i2 * s <= 2) by (destruct S as [-> | ->]; lra).
  assert (KV : fval (f_mul (f_int 2) (f_dot i nn)) = Fin (rnd (2 * (i2 * s)))).
  { rewrite val_mul, Dv, (val_int 2) by (cbn; lia). cbn [xmul]. apply fin_round. apply Rle_trans with (bpow radix2 2); [|apply bpow_le; lia]. change (bpow radix2 2) with 4. apply Rabs_le. lra. }
  assert (KE : Rabs (rnd (2 * (i2 * s)) - 2 * (i2 * s)) <= bpow radix2 (2 - 25)).
  { apply rnd_err; [lia|]. change (bpow radix2 2) with 4. apply Rabs_le. lra. }
  set (k := rnd (2 * (i2 * s))) in *. change (2 - 25)%Z with (-23)%Z in KE. assert (B23 : bpow radix2 (-23) = / 8388608) by (cbn; lra). rewrite B23 in KE. apply Rabs_le_inv in KE.
  pose proof (mul_sign _ _ _ _ KV U1 S) as KS.
  assert (KSE : - / 8388608 <= k * s - 2 * i2 <= / 8388608) by (destruct S as [-> | ->]; lra).
  set (refl := fv_sub i (fv_scale (f_mul (f_int 2) (f_dot i nn)) nn)).
  assert (X1 : fval (along d refl) = Fin i1).
  { unfold refl. rewrite along_sub, along_scale, sub_zero_val; [auto|]. apply mul_zero_r; [auto|eexists; eauto]. }
  assert (X2 : fval (across d refl) = Fin (rnd (i2 - k * s))).
  { unfold refl. rewrite across_sub, across_scale, val_sub, I2, KS. cbn [xsub xadd xopp]. apply fin_round. apply Rle_trans with (bpow radix2 2); [|apply bpow_le; lia]. change (bpow radix2 2) with 4. apply Rabs_le. lra. }
  assert (XE : Rabs (rnd (i2 - k * s) - (i2 - k * s)) <= bpow radix2 (2 - 25)).
  { apply rnd_err; [lia|]. change (bpow radix2 2) with 4. apply Rabs_le. lra. }
  set (j2 := rnd (i2 - k * s)) in *. change (2 - 25)%Z with (-23)%Z in XE. rewrite B23 in XE. apply Rabs_le_inv in XE.
  assert (Y1 : fval (along d (fv_sub r refl)) = Fin (rnd (r1 - i1))).
  { rewrite along_sub, val_sub, R1, X1. cbn [xsub xadd xopp]. apply fin_round. apply Rle_trans with (bpow radix2 2); [|apply bpow_le; lia]. change (bpow radix2 2) with 4. apply Rabs_le. lra. }
  assert (Y2 : fval (across d (fv_sub r refl)) = Fin (rnd (r2 - j2))).
  { rewrite across_sub, val_sub, R2, X2. cbn [xsub xadd xopp]. apply fin_round. apply Rle_trans with (bpow radix2 2); [|apply bpow_le; lia]. change (bpow radix2 2) with 4. apply Rabs_le. lra. }
  assert (Z1 : Rabs (rnd (r1 - i1) - (r1 - i1)) <= bpow radix2 (2 - 25)).
  { apply rnd_err; [lia|]. change (bpow radix2 2) with 4. apply Rabs_le. lra. }
  assert (Z2 : Rabs (rnd (r2 - j2) - (r2 - j2)) <= bpow radix2 (2 - 25)).
  { apply rnd_err; [lia|]. change (bpow radix2 2) with 4. apply Rabs_le. lra. }
  change (2 - 25)%Z with (-23)%Z in Z1, Z2. rewrite B23 in Z1, Z2. apply Rabs_le_inv in Z1, Z2.
  set (e1 := rnd (r1 - i1)) in *. set (e2 := rnd (r2 - j2)) in *.
  assert (M1 : - (2 * de + / 1000000) <= e1 <= 2 * de + / 1000000) by lra.
  assert (M2 : - (2 * de + / 1000000) <= e2 <= 2 * de + / 1000000) by lra.
  set (D := 2 * de + / 1000000) in *. assert (HD : D <= n * (852 / 100 / 1024)) by (unfold D, de; lra). assert (D0 : 0 < D) by (unfold D; lra).
  assert (S1 : 0 <= e1 * e1 <= D * D) by nra. assert (S2 : 0 <= e2 * e2 <= D * D) by nra.
  assert (DD : D * D <= n * n * (726 / 10 / 1048576)).
  { apply Rle_trans with ((n * (852 / 100 / 1024)) * (n * (852 / 100 / 1024))); [apply Rmult_le_compat; lra|]. nra. }
  assert (nn1 : 1 <= n * n <= 4096) by nra.
  assert (B4 : bpow radix2 2 = 4) by reflexivity.
  assert (Big : forall z, 0 <= z <= 4 -> xround (Fin z) = Fin (rnd z) /\ 0 <= rnd z <= z + / 8388608 * (z + / 1000000)).
  { intros z Z. split; [apply fin_round; apply Rle_trans with (bpow radix2 2); [rewrite Rabs_pos_eq; lra|apply bpow_le; lia]|].
    split; [apply rnd_pos; lra|]. pose proof (rnd_rel z) as RR. rewrite (Rabs_pos_eq z) in RR by lra. apply Rabs_le_inv in RR.
    assert (bpow radix2 (-150) <= bpow radix2 (-44)) by (apply bpow_le; lia). assert (bpow radix2 (-44) <= / 8388608 * / 1000000) by (cbn; lra). lra. }
  destruct (Big (e1 * e1)) as [P1 P1']; [lra|]. destruct (Big (e2 * e2)) as [P2 P2']; [lra|].
  destruct (Big (rnd (e1 * e1) + rnd (e2 * e2))) as [P3 P3']; [lra|].
  exists (rnd (rnd (e1 * e1) + rnd (e2 * e2))). split; [|lra].
  unfold f_dot. destruct d; cbn [along across] in *; rewrite val_add, !val_mul, Y1, Y2; cbn [xmul]; rewrite P1, P2; cbn [xadd]; [|rewrite Rplus_comm]; exact P3.
Qed.
