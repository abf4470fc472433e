(** The image method in single precision: rounding errors of the reflection points. *)
From Coq Require Import Reals List Bool ZArith Lra Lia Psatz.
From Flocq Require Import Core.Core Relative IEEE754.BinarySingleNaN.
From Verif Require Import Base BaseP LogicM GeometryM PathM FloatM SpecFloat32 FloatP FloatLogicP FloatCmpP FloatAccP FloatGeomP FloatSegP FloatGridP FloatBoundP FloatImageM SpecImage32 FloatImageP.
Import ListNotations.
Open Scope R_scope.
Local Instance p24e : Prec_gt_0 24 := eq_refl.

Lemma rnd_rel z : Rabs (rnd z - z) <= / 16777216 * Rabs z + bpow radix2 (-150).
Proof.
  unfold rnd. destruct (error_N_FLT radix2 (-149) 24 ltac:(lia) (fun n => negb (Z.even n)) z) as (ep & et & A & B & _ & ->).
  replace (z * (1 + ep) + et - z) with (z * ep + et) by ring. eapply Rle_trans; [apply Rabs_triang|]. rewrite Rabs_mult.
  assert (E1 : / 2 * bpow radix2 (- (24) + 1) = / 16777216) by (cbn; lra).
  assert (E2 : / 2 * bpow radix2 (-149) = bpow radix2 (-150)).
  { change (-150)%Z with (-149 + -1)%Z. rewrite bpow_plus. cbn -[bpow]. change (bpow radix2 (-1)) with (/ 2). ring. }
  rewrite E1 in A. rewrite E2 in B. pose proof (Rabs_pos z). nra.
Qed.
Lemma fin_round z : Rabs z <= bpow radix2 127 -> xround (Fin z) = Fin (rnd z).
Proof. intro H. destruct (round_bd 127 z ltac:(lia) H) as (q & E & _). pose proof E as E'. unfold xround in E. destruct (Rltb _ _) eqn:K; [|destruct (Rltb 0 z); discriminate]. unfold xround. rewrite K. reflexivity. Qed.
Lemma bp e k : bpow radix2 (e + k) = bpow radix2 e * bpow radix2 k. Proof. apply bpow_plus. Qed.
Lemma rnd_err_at e k z : (-100 <= e + k)%Z -> Rabs z <= bpow radix2 e * bpow radix2 k -> Rabs (rnd z - z) <= bpow radix2 e * bpow radix2 (k - 25).
Proof. intros K H. rewrite <- bp. replace (e + (k - 25))%Z with (e + k - 25)%Z by ring. apply rnd_err; [lia|]. rewrite bp. auto. Qed.
Lemma range_at e k z : (e + k <= 127)%Z -> Rabs z <= bpow radix2 e * bpow radix2 k -> Rabs z <= bpow radix2 127.
Proof. intros K H. eapply Rle_trans; [exact H|]. rewrite <- bp. apply bpow_le. lia. Qed.

Section Step.
Variables (d : axis) (N K e : Z) (w : fwall) (c : R) (o m : Z) (s : R) (p image : fvec) (x : R) (jp ii ji : Z).
Let b := bpow radix2 e.
Context (W : wall_facts d N e w c o m s) (HN : (0 <= N <= 1024)%Z) (E : (-60 <= e <= 50)%Z).
Context (X : fval (along d p) = Fin x) (Xb : Rabs x <= 2048 * b) (P : gr e (across d p) jp) (Pb : (Z.abs jp <= N)%Z).
Context (I : at_ d e image ii ji) (Ib : (Z.abs ii <= N)%Z) (Jb : (Z.abs ji <= K)%Z) (NE : jp <> ji).
Context (HK : (2 * N * (N + K) <= 2 ^ 24)%Z) (K0 : (0 <= K <= 2 ^ 23)%Z).
Let lam := IZR (m - jp) / IZR (ji - jp).
Context (L : 0 <= lam <= 1).

Lemma b_pos : 0 < b. Proof. apply bpow_gt_0. Qed.
Lemma u_along : fval (along d (fv_sub p image)) = Fin (rnd (x - IZR ii * b)) /\ Rabs (rnd (x - IZR ii * b) - (x - IZR ii * b)) <= b / 8192 /\ Rabs (rnd (x - IZR ii * b)) <= 4096 * b.
Proof.
  pose proof b_pos as B0. destruct I as [I1 _]. rewrite along_sub, val_sub, X, I1. cbn [xsub xadd xopp].
  assert (Ir : Rabs (IZR ii) <= 1024) by (rewrite <- abs_IZR; apply IZR_le; lia).
  assert (Q : Rabs (IZR ii * b) <= 1024 * b) by (rewrite Rabs_mult, (Rabs_pos_eq b) by lra; nra).
  assert (R1 : Rabs (x - IZR ii * b) <= b * bpow radix2 12).
  { change (bpow radix2 12) with 4096. eapply Rle_trans; [apply Rabs_triang|]. rewrite Rabs_Ropp. lra. }
  replace (x + - (IZR ii * bpow radix2 e)) with (x - IZR ii * b) by (unfold b; ring).
  rewrite fin_round by (apply (range_at e 12); auto; lia). split; [reflexivity|].
  pose proof (rnd_err_at e 12 _ ltac:(lia) R1) as R2. cbn in R2. fold b in R2. split; [lra|].
  destruct (round_bd (e + 12) (x - IZR ii * b) ltac:(lia)) as (q & Q1 & Q2); [rewrite bp; exact R1|].
  rewrite fin_round in Q1 by (apply (range_at e 12); auto; lia). injection Q1 as <-. rewrite bp in Q2. change (bpow radix2 12) with 4096 in Q2. fold b in Q2. lra.
Qed.
Lemma u_across : gr e (across d (fv_sub p image)) (jp - ji).
Proof. destruct I as [_ I2]. rewrite across_sub. apply gr_sub; auto; lia. Qed.
Lemma v_across : gr e (across d (fv_sub (fw_origin w) p)) (m - jp).
Proof. destruct W as (_ & [_ O] & _ & M & _). rewrite across_sub. apply gr_sub; auto; lia. Qed.
Lemma v_along : finite (along d (fv_sub (fw_origin w) p)).
Proof.
  destruct W as (_ & [O _] & Ho & _ & _). pose proof b_pos as B0. eexists. rewrite along_sub, val_sub, X, O. cbn [xsub xadd xopp]. apply fin_round.
  apply (range_at e 12); [lia|]. change (bpow radix2 12) with 4096. fold b.
  assert (Ir : Rabs (IZR o) <= 1024) by (rewrite <- abs_IZR; apply IZR_le; lia).
  eapply Rle_trans; [apply Rabs_triang|]. rewrite Rabs_Ropp, Rabs_mult, (Rabs_pos_eq b) by lra. nra.
Qed.
Lemma un_val : fval (f_dot (fv_sub p image) (f_normal w)) = Fin (IZR (jp - ji) * b * s).
Proof. destruct W as (U & _). apply (dot_across d _ _ _ _ U); [eexists; apply u_along|apply u_across]. Qed.
Lemma vn_val : fval (f_dot (fv_sub (fw_origin w) p) (f_normal w)) = Fin (IZR (m - jp) * b * s).
Proof. destruct W as (U & _). apply (dot_across d _ _ _ _ U); [apply v_along|apply v_across]. Qed.
Lemma s_sq : s * s = 1. Proof. destruct W as ((_ & _ & [-> | ->]) & _); ring. Qed.
Lemma un_nz : IZR (jp - ji) * b * s <> 0.
Proof.
  pose proof b_pos. pose proof s_sq. assert (IZR (jp - ji) <> 0) by (apply not_0_IZR; lia). repeat apply Rmult_integral_contrapositive_currified; auto; nra.
Qed.

Lemma back_unfold : f_backward p (w, image) = fv_add p (fv_div (fv_scale (f_dot (fv_sub (fw_origin w) p) (f_normal w)) (fv_sub p image)) (f_dot (fv_sub p image) (f_normal w))).
Proof.
  unfold f_backward. cbv zeta. destruct (f_eqb _ f_zero) eqn:Q; [|reflexivity]. exfalso. apply val_eqb_zero in Q. rewrite un_val in Q. injection Q as Q. apply (un_nz Q).
Qed.
Lemma back_across : gr e (across d (f_backward p (w, image))) m.
Proof.
  rewrite back_unfold, across_add, across_div, across_scale. pose proof W as (_ & _ & _ & Hm & _). pose proof b_pos as B0. pose proof s_sq as S2.
  assert (M : fval (f_mul (f_dot (fv_sub (fw_origin w) p) (f_normal w)) (across d (fv_sub p image))) = Fin (IZR (m - jp) * b * s * (IZR (jp - ji) * b))).
  { rewrite val_mul, vn_val, u_across. cbn [xmul]. fold b.
    assert (Q : exists z, (Z.abs z <= 2 ^ 24)%Z /\ IZR (m - jp) * b * s * (IZR (jp - ji) * b) = IZR z * bpow radix2 (e + e)).
    { destruct W as ((_ & _ & S) & _). rewrite bp. fold b. assert (Bd : (Z.abs ((m - jp) * (jp - ji)) <= 2 ^ 24)%Z).
      { rewrite Z.abs_mul. transitivity (2 * N * (N + K))%Z; [|auto]. apply Z.mul_le_mono_nonneg; lia. }
      destruct S as [-> | ->]; [exists ((m - jp) * (jp - ji))%Z|exists (- ((m - jp) * (jp - ji)))%Z]; (split; [lia|]); rewrite ?opp_IZR, mult_IZR; ring. }
    destruct Q as (z & Z1 & ->). apply gr_round; lia. }
  assert (Q : gr e (f_div (f_mul (f_dot (fv_sub (fw_origin w) p) (f_normal w)) (across d (fv_sub p image))) (f_dot (fv_sub p image) (f_normal w))) (m - jp)).
  { unfold gr. rewrite (val_div _ _ _ un_val un_nz), M. cbn [xmul].
    replace (IZR (m - jp) * b * s * (IZR (jp - ji) * b) * / (IZR (jp - ji) * b * s)) with (IZR (m - jp) * bpow radix2 e).
    - apply gr_round; lia.
    - fold b. assert (IZR (jp - ji) <> 0) by (apply not_0_IZR; lia). assert (s <> 0) by nra. field. repeat split; auto; lra. }
  replace m with (jp + (m - jp))%Z by ring. apply gr_add; [auto|auto|lia|lia].
Qed.

Lemma eta_small : bpow radix2 (-150) <= b * b * / 1000000000 /\ bpow radix2 (-150) <= b * / 1000000000.
Proof.
  assert (H1 : bpow radix2 (-150) <= bpow radix2 (e + e + -30)) by (apply bpow_le; lia).
  assert (H2 : bpow radix2 (-150) <= bpow radix2 (e + -30)) by (apply bpow_le; lia).
  rewrite !bp in H1. rewrite bp in H2. fold b in H1, H2. assert (H3 : bpow radix2 (-30) = / 1073741824) by (cbn; lra). rewrite H3 in *.
  pose proof b_pos. assert (0 < b * b) by nra. split; lra.
Qed.
Lemma back_along : exists x', fval (along d (f_backward p (w, image))) = Fin x' /\ Rabs (x' - (x + lam * (IZR ii * b - x))) <= b / 1024.
Proof.
  rewrite back_unfold, along_add, along_div, along_scale. pose proof W as (_ & _ & _ & Hm & _). pose proof b_pos as B0. pose proof s_sq as S2.
  destruct u_along as (U1 & U2 & U3). set (u := rnd (x - IZR ii * b)) in *.
  set (vn := IZR (m - jp) * b * s). set (un := IZR (jp - ji) * b * s).
  assert (Un0 : un <> 0) by apply un_nz.
  assert (D0 : IZR (ji - jp) <> 0) by (apply not_0_IZR; lia).
  assert (S0 : s <> 0) by nra.
  assert (Lam : vn / un = - lam).
  { unfold vn, un, lam. replace (IZR (jp - ji)) with (- IZR (ji - jp)) by (rewrite !minus_IZR; ring). field. repeat split; auto; lra. }
  assert (Vb : Rabs vn <= 2048 * b).
  { unfold vn. rewrite !Rabs_mult, (Rabs_pos_eq b) by lra. assert (Rabs s = 1) as -> by (destruct W as ((_ & _ & [-> | ->]) & _); unfold Rabs; destruct (Rcase_abs _); lra).
    assert (Rabs (IZR (m - jp)) <= 2048) by (rewrite <- abs_IZR; apply IZR_le; lia). nra. }
  assert (Unb : b <= Rabs un).
  { unfold un. rewrite !Rabs_mult, (Rabs_pos_eq b) by lra. assert (Rabs s = 1) as -> by (destruct W as ((_ & _ & [-> | ->]) & _); unfold Rabs; destruct (Rcase_abs _); lra).
    assert (1 <= Rabs (IZR (jp - ji))) by (rewrite <- abs_IZR; apply IZR_le; lia). nra. }
  assert (PB : Rabs (vn * u) <= bpow radix2 (e + e) * bpow radix2 23).
  { rewrite Rabs_mult, bp. fold b. change (bpow radix2 23) with 8388608. pose proof (Rabs_pos vn). pose proof (Rabs_pos u). nra. }
  (* the product *)
  assert (PV : fval (f_mul (f_dot (fv_sub (fw_origin w) p) (f_normal w)) (along d (fv_sub p image))) = Fin (rnd (vn * u))).
  { rewrite val_mul, vn_val, U1. cbn [xmul]. apply fin_round. apply (range_at (e + e) 23); [lia|exact PB]. }
  pose proof (rnd_rel (vn * u)) as PE. set (pr := rnd (vn * u)) in *. destruct eta_small as [Et1 Et2].
  (* divided by [un] *)
  assert (QE : Rabs (pr * / un - vn / un * u) <= b / 4096 + b / 1000000000).
  { replace (pr * / un - vn / un * u) with ((pr - vn * u) * / un) by (unfold Rdiv; ring). rewrite Rabs_mult, Rabs_inv.
    assert (IU : 0 < / Rabs un <= / b) by (split; [apply Rinv_0_lt_compat; lra|apply Rinv_le_contravar; lra]).
    assert (G : Rabs (vn * u) * / Rabs un <= 4096 * b).
    { rewrite Rabs_mult. assert (Q : Rabs vn * / Rabs un = lam).
      { rewrite <- Rabs_inv, <- Rabs_mult. fold (vn / un). rewrite Lam, Rabs_Ropp, Rabs_pos_eq; lra. }
      replace (Rabs vn * Rabs u * / Rabs un) with (lam * Rabs u) by (rewrite <- Q; ring). pose proof (Rabs_pos u). nra. }
    assert (G2 : bpow radix2 (-150) * / Rabs un <= b / 1000000000).
    { apply Rle_trans with (b * b * / 1000000000 * / b); [|right; field; lra]. apply Rmult_le_compat; try lra. apply bpow_ge_0. }
    apply Rle_trans with ((/ 16777216 * Rabs (vn * u) + bpow radix2 (-150)) * / Rabs un); [apply Rmult_le_compat_r; [lra|exact PE]|].
    rewrite Rmult_plus_distr_r. apply Rplus_le_compat; [|exact G2]. replace (/ 16777216 * Rabs (vn * u) * / Rabs un) with (/ 16777216 * (Rabs (vn * u) * / Rabs un)) by ring. lra. }
  rewrite Lam in QE.
  assert (LU : Rabs (- lam * u) <= 4096 * b) by (rewrite Rabs_mult, Rabs_Ropp, (Rabs_pos_eq lam) by lra; pose proof (Rabs_pos u); nra).
  assert (QB : Rabs (pr * / un) <= b * bpow radix2 13).
  { change (bpow radix2 13) with 8192. replace (pr * / un) with ((pr * / un - - lam * u) + - lam * u) by ring. eapply Rle_trans; [apply Rabs_triang|]. lra. }
  assert (QV : fval (f_div (f_mul (f_dot (fv_sub (fw_origin w) p) (f_normal w)) (along d (fv_sub p image))) (f_dot (fv_sub p image) (f_normal w))) = Fin (rnd (pr * / un))).
  { rewrite (val_div _ _ _ un_val un_nz), PV. cbn [xmul]. apply fin_round. apply (range_at e 13); [lia|exact QB]. }
  pose proof (rnd_err_at e 13 _ ltac:(lia) QB) as RE. cbn in RE. fold b in RE. set (q := rnd (pr * / un)) in *.
  (* the sum *)
  assert (Ir : Rabs (IZR ii * b) <= 1024 * b).
  { assert (Rabs (IZR ii) <= 1024) by (rewrite <- abs_IZR; apply IZR_le; lia). rewrite Rabs_mult, (Rabs_pos_eq b) by lra. nra. }
  assert (TE : Rabs (x + q - (x + lam * (IZR ii * b - x))) <= b * (/ 8192 + / 4096 + / 1000000000 + / 4096)).
  { replace (x + q - (x + lam * (IZR ii * b - x))) with ((q - pr * / un) + (pr * / un - - lam * u) + (- lam) * (u - (x - IZR ii * b))) by ring.
    eapply Rle_trans; [apply Rabs_triang|]. eapply Rle_trans; [apply Rplus_le_compat_r, Rabs_triang|].
    assert (Rabs (- lam * (u - (x - IZR ii * b))) <= b / 8192).
    { rewrite Rabs_mult, Rabs_Ropp, (Rabs_pos_eq lam) by lra. pose proof (Rabs_pos (u - (x - IZR ii * b))). nra. }
    lra. }
  assert (XB : Rabs (x + lam * (IZR ii * b - x)) <= 2048 * b).
  { apply Rabs_le_inv in Xb. apply Rabs_le_inv in Ir. apply Rabs_le. split; nra. }
  assert (SB : Rabs (x + q) <= b * bpow radix2 12).
  { change (bpow radix2 12) with 4096. replace (x + q) with ((x + q - (x + lam * (IZR ii * b - x))) + (x + lam * (IZR ii * b - x))) by ring. eapply Rle_trans; [apply Rabs_triang|]. lra. }
  exists (rnd (x + q)). split.
  - rewrite val_add, X, QV. cbn [xadd]. apply fin_round. apply (range_at e 12); [lia|exact SB].
  - pose proof (rnd_err_at e 12 _ ltac:(lia) SB) as SE. cbn in SE. fold b in SE.
    replace (rnd (x + q) - (x + lam * (IZR ii * b - x))) with ((rnd (x + q) - (x + q)) + (x + q - (x + lam * (IZR ii * b - x)))) by ring.
    eapply Rle_trans; [apply Rabs_triang|]. lra.
Qed.
End Step.
