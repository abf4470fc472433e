(** Accuracy of lengths, powers and sums in single precision. *)
From Coq Require Import Reals List Bool ZArith Permutation Lra Lia Psatz.
From Flocq Require Import Core.Core IEEE754.BinarySingleNaN.
From Verif Require Import Base BaseP LogicM GeometryM PathM FloatM SpecGeometry SpecFloat32 SpecImage32 SpecAccuracy FloatP FloatLogicP FloatCmpP FloatAccP FloatGeomP FloatSegP FloatImageErrP FloatImageLossP FloatAnyP FloatObliqueP.
Import ListNotations.
Open Scope R_scope.

Definition tiny : R := bpow radix2 (-150).
Lemma tiny_small : 0 < tiny <= u24 * u24 * u24 * u24 * u24 * u24.
Proof.
  split; [apply bpow_gt_0|]. unfold tiny, u24. replace (/ 16777216) with (bpow radix2 (-24)) by (cbn; lra). rewrite <- !bpow_plus. apply bpow_le. lia.
Qed.
Lemma rnd_u z : Rabs (rnd z - z) <= u24 * Rabs z + tiny. Proof. apply rnd_rel. Qed.
Lemma round_fin z : Rabs z <= bpow radix2 126 -> xround (Fin z) = Fin (rnd z).
Proof.
  intro H. unfold xround. replace (Rltb (Rabs (rnd z)) (bpow radix2 128)) with true; [reflexivity|]. symmetry. apply Rltb_true.
  pose proof (rnd_u z) as E. pose proof tiny_small as [_ T]. pose proof u24_pos as U.
  assert (Rabs (rnd z) <= Rabs (rnd z - z) + Rabs z) by (replace (rnd z) with ((rnd z - z) + z) at 1 by ring; apply Rabs_triang).
  assert (B1 : 1 <= bpow radix2 126) by (change 1 with (bpow radix2 0); apply bpow_le; lia).
  assert (B2 : bpow radix2 128 = 4 * bpow radix2 126) by (change 128%Z with (2 + 126)%Z; rewrite bpow_plus; cbn -[bpow]; change (bpow radix2 2) with 4; ring).
  assert (tiny <= 1) by (assert (u24 * u24 * u24 * u24 * u24 * u24 <= 1) by (unfold u24; lra); lra). nra.
Qed.
Lemma b126 c k : (k + 10 <= 126)%Z -> c <= 1024 -> c * bpow radix2 k <= bpow radix2 126.
Proof.
  intros K C. apply Rle_trans with (bpow radix2 (k + 10)); [|apply bpow_le; auto]. rewrite bpow_plus, Rmult_comm. apply Rmult_le_compat_l; [apply bpow_ge_0|]. cbn -[IZR]. lra.
Qed.

(** ** One leg *)
Lemma hyp_abs x y : hyp (Rabs x) (Rabs y) = hyp x y.
Proof. unfold hyp. f_equal. rewrite <- !Rabs_mult, !Rabs_pos_eq by apply Rle_0_sqr. reflexivity. Qed.
Lemma hyp_mono x y X Y : Rabs x <= X -> Rabs y <= Y -> hyp x y <= hyp X Y.
Proof. intros A B. pose proof (Rabs_pos x). pose proof (Rabs_pos y). rewrite <- (hyp_abs x y). apply sqrt_le_1_alt. nra. Qed.
Lemma hyp_diff x y z w : Rabs (hyp x y - hyp z w) <= hyp (x - z) (y - w).
Proof.
  pose proof (hyp_triang (x - z) (y - w) z w) as A. pose proof (hyp_triang (z - x) (w - y) x y) as B.
  replace (x - z + z) with x in A by ring. replace (y - w + w) with y in A by ring. replace (z - x + x) with z in B by ring. replace (w - y + y) with w in B by ring.
  replace (hyp (z - x) (w - y)) with (hyp (x - z) (y - w)) in B by (unfold hyp; f_equal; ring). apply Rabs_le. lra.
Qed.
Lemma coord_near f dx : fval f = xround (Fin dx) -> Rabs dx <= bpow radix2 60 ->
  exists x, fval (f_add f F_EPS) = Fin x /\ Rabs (x - dx) <= 201 / 100 * u24 * (Rabs dx + 1).
Proof.
  intros F D. pose proof u24_pos as U. pose proof tiny_small as [T0 T]. assert (T1 : tiny <= u24 / 10000) by (eapply Rle_trans; [exact T|]; unfold u24; lra). clear T.
  rewrite round_fin in F by (eapply Rle_trans; [exact D|]; apply bpow_le; lia).
  pose proof (rnd_u dx) as E1. rewrite val_add, F, val_eps. cbn [xadd]. set (z := rnd dx) in *. assert (Ep : bpow radix2 (-23) = 2 * u24) by (unfold u24; cbn; lra). rewrite Ep.
  pose proof (Rabs_pos dx) as P. assert (P60 : 1 <= bpow radix2 60) by (change 1 with (bpow radix2 0); apply bpow_le; lia).
  assert (Z : Rabs z <= Rabs dx + u24 * Rabs dx + tiny) by (replace z with ((z - dx) + dx) by ring; eapply Rle_trans; [apply Rabs_triang|]; lra).
  assert (Zz : Rabs (z + 2 * u24) <= Rabs dx + u24 * Rabs dx + tiny + 2 * u24) by (eapply Rle_trans; [apply Rabs_triang|]; rewrite (Rabs_pos_eq (2 * u24)) by lra; lra).
  rewrite round_fin.
  - eexists. split; [reflexivity|]. pose proof (rnd_u (z + 2 * u24)) as E2.
    replace (rnd (z + 2 * u24) - dx) with ((rnd (z + 2 * u24) - (z + 2 * u24)) + (z - dx) + 2 * u24) by ring.
    eapply Rle_trans; [apply Rabs_triang|]. rewrite (Rabs_pos_eq (2 * u24)) by lra. eapply Rle_trans; [apply Rplus_le_compat_r, Rabs_triang|].
    assert (u24 * Rabs (z + 2 * u24) <= u24 * (Rabs dx + u24 * Rabs dx + tiny + 2 * u24)) by (apply Rmult_le_compat_l; lra).
    assert (u24 * u24 <= u24 / 10000) by (unfold u24; lra). assert (u24 * u24 * Rabs dx <= u24 / 10000 * Rabs dx) by (apply Rmult_le_compat_r; lra). nra.
  - eapply Rle_trans; [exact Zz|]. apply Rle_trans with (4 * bpow radix2 60); [nra|apply b126; [lia|lra]].
Qed.
Lemma norm_near v x y : fval (fst v) = Fin x -> fval (snd v) = Fin y -> hyp x y <= 4 * bpow radix2 60 ->
  exists n, fval (f_norm v) = Fin n /\ 0 <= n /\ Rabs (n - hyp x y) <= 310 / 100 * u24 * hyp x y + u24 / 1000.
Proof.
  intros X Y HB. pose proof u24_pos as U. pose proof tiny_small as [T0 T].
  pose proof (hyp_sq x y) as HQ. pose proof (hyp_pos x y) as H0. set (H := hyp x y) in *.
  set (B := bpow radix2 60) in *. assert (BB : B * B = bpow radix2 120) by (unfold B; rewrite <- bpow_plus; reflexivity).
  assert (B0 : 1 <= B) by (change 1 with (bpow radix2 0); apply bpow_le; lia).
  assert (HH : H * H <= 16 * bpow radix2 120) by (rewrite <- BB; nra). assert (B1 : 1 <= bpow radix2 120) by (rewrite <- BB; nra).
  assert (T1 : tiny <= / 10) by (assert (u24 * u24 * u24 * u24 * u24 * u24 <= / 10) by (unfold u24; lra); lra).
  assert (Lim : forall z, Rabs z <= 17 * bpow radix2 120 -> xround (Fin z) = Fin (rnd z)).
  { intros z Z. apply round_fin. eapply Rle_trans; [exact Z|]. apply Rle_trans with (bpow radix2 (6 + 120)); [|apply bpow_le; lia]. rewrite bpow_plus. apply Rmult_le_compat_r; [lra|cbn; lra]. }
  assert (Xs : 0 <= x * x) by apply Rle_0_sqr. assert (Ys : 0 <= y * y) by apply Rle_0_sqr.
  unfold f_norm, f_dot. rewrite val_sqrt, val_add, !val_mul, X, Y. cbn [xmul].
  rewrite !Lim by (rewrite Rabs_pos_eq by auto; lra). cbn [xadd].
  pose proof (rnd_u (x * x)) as E1. pose proof (rnd_u (y * y)) as E2. rewrite (Rabs_pos_eq (x * x)) in E1 by auto. rewrite (Rabs_pos_eq (y * y)) in E2 by auto. apply Rabs_le_inv in E1, E2.
  pose proof (rnd_pos _ Xs) as R1. pose proof (rnd_pos _ Ys) as R2. set (a := rnd (x * x)) in *. set (b := rnd (y * y)) in *.
  assert (AB : Rabs (a + b - H * H) <= u24 * (H * H) + 2 * tiny) by (apply Rabs_le; rewrite HQ; lra). apply Rabs_le_inv in AB.
  assert (UHH : u24 * (H * H) <= H * H / 1000) by (assert (0 <= H * H) by nra; nra).
  rewrite Lim by (rewrite Rabs_pos_eq by lra; lra).
  pose proof (rnd_u (a + b)) as E3. rewrite (Rabs_pos_eq (a + b)) in E3 by lra. apply Rabs_le_inv in E3. assert (S0 : 0 <= rnd (a + b)) by (apply rnd_pos; lra).
  set (s := rnd (a + b)) in *. replace (Rltb s 0) with false by (symmetry; apply Rltb_false; lra). eexists. split; [reflexivity|].
  split; [apply rnd_pos, sqrt_pos|].
  assert (SE : Rabs (s - H * H) <= 201 / 100 * u24 * (H * H) + 4 * tiny).
  { assert (HH0 : 0 <= H * H) by nra. assert (u24 * (a + b) <= u24 * (H * H + u24 * (H * H) + 2 * tiny)) by (apply Rmult_le_compat_l; lra).
    assert (u24 * u24 <= u24 / 10000) by (unfold u24; lra). assert (u24 * u24 * (H * H) <= u24 / 10000 * (H * H)) by (apply Rmult_le_compat_r; auto).
    assert (u24 * tiny <= tiny / 10) by nra. apply Rabs_le. lra. }
  apply Rabs_le_inv in SE. pose proof (sqrt_pos s) as Q0. pose proof (sqrt_sqrt s S0) as QQ. set (q := sqrt s) in *.
  assert (QE : Rabs (q - H) <= 202 / 100 * u24 * H + u24 / 10000).
  { assert (U3 : 4 * tiny < u24 * u24 / 100000000).
    { eapply Rle_lt_trans; [apply Rmult_le_compat_l; [lra|exact T]|]. unfold u24. lra. }
    assert (UH : 0 <= u24 * H) by nra. assert (UU : u24 * u24 <= u24 / 10000) by (unfold u24; lra).
    set (b1 := u24 / 10000) in *. assert (b0 : 0 < b1) by (unfold b1; lra). assert (bb : 4 * tiny < b1 * b1) by (unfold b1; nra).
    set (c := 202 / 100 * u24) in *. assert (c0 : 0 < c < / 1000) by (unfold c; lra). assert (HH0 : 0 <= H * H) by nra.
    assert (SE' : H * H - c * (H * H) - 4 * tiny <= s <= H * H + c * (H * H) + 4 * tiny) by (assert (0 <= u24 * (H * H)) by nra; unfold c; lra).
    clear - SE' QQ Q0 b0 bb c0 H0 HH0. apply Rabs_le. split.
    - apply Rnot_lt_le. intro K. set (d := c * H + b1) in *. assert (Zp : q < H - d) by lra. assert (q * q < (H - d) * (H - d)) by nra.
      assert (cH : 0 <= c * H) by nra. assert (d0 : b1 <= d) by (unfold d; lra). assert (b1 < H) by lra.
      assert ((H - d) * (H - d) <= H * (H - d)) by (apply Rmult_le_compat_r; lra).
      assert (H * (H - d) = H * H - c * (H * H) - b1 * H) by (unfold d; ring). assert (b1 * b1 <= b1 * H) by (apply Rmult_le_compat_l; lra). lra.
    - apply Rnot_lt_le. intro K. set (z := H + c * H + b1) in *. assert (zq : z < q) by (unfold z; lra). assert (cH : 0 <= c * H) by nra. assert (z0 : 0 <= z) by (unfold z; lra). assert (z * z < q * q) by nra.
      assert (z * z = H * H + 2 * (c * (H * H)) + (c * H) * (c * H) + 2 * b1 * (H + c * H) + b1 * b1) by (unfold z; ring).
      assert (0 <= c * H) by nra. assert (0 <= (c * H) * (c * H)) by nra. assert (0 <= 2 * b1 * (H + c * H)) by nra. assert (0 <= c * (H * H)) by nra. lra. }
  apply Rabs_le_inv in QE. pose proof (rnd_u q) as E4. rewrite (Rabs_pos_eq q) in E4 by auto. apply Rabs_le_inv in E4. 
  assert (UU : u24 * u24 <= u24 / 10000) by (unfold u24; lra).
  assert (u24 * q <= u24 * (H + 202 / 100 * u24 * H + u24 / 10000)) by (apply Rmult_le_compat_l; lra).
  assert (u24 * u24 * H <= u24 / 10000 * H) by (apply Rmult_le_compat_r; lra).
  assert (T2 : tiny <= u24 / 100000) by (eapply Rle_trans; [exact T|]; unfold u24; lra). apply Rabs_le. lra.
Qed.
Lemma dist_hyp p q : dist p q = hyp (fst q - fst p) (snd q - snd p).
Proof. unfold dist, hyp. f_equal. ring. Qed.
Lemma leg_near P Q p q : stands_for P p -> stands_for Q q -> dist p q <= bpow radix2 60 ->
  exists n, fval (f_norm (f_add (fst (fv_sub Q P)) F_EPS, f_add (snd (fv_sub Q P)) F_EPS)) = Fin n /\ 0 <= n /\ Rabs (n - dist p q) <= 6 * u24 * dist p q + 3 * u24.
Proof.
  intros [P1 P2] [Q1 Q2] D. rewrite dist_hyp in D |- *. cbn [fv_sub fst snd]. set (dx := fst q - fst p) in *. set (dy := snd q - snd p) in *.
  destruct (hyp_ge dx dy) as [G1 G2]. pose proof u24_pos as U. assert (B0 : 1 <= bpow radix2 60) by (change 1 with (bpow radix2 0); apply bpow_le; lia).
  destruct (coord_near (f_sub (fst Q) (fst P)) dx) as (x & X & Ex); [rewrite val_sub, Q1, P1; reflexivity|lra|].
  destruct (coord_near (f_sub (snd Q) (snd P)) dy) as (y & Y & Ey); [rewrite val_sub, Q2, P2; reflexivity|lra|].
  assert (HD : Rabs (hyp x y - hyp dx dy) <= 201 / 100 * u24 * (hyp dx dy + 17 / 12)).
  { eapply Rle_trans; [apply hyp_diff|]. eapply Rle_trans; [apply hyp_mono; eassumption|]. rewrite hyp_scale by lra. apply Rmult_le_compat_l; [lra|].
    eapply Rle_trans; [apply hyp_triang|]. rewrite hyp_abs. apply Rplus_le_compat_l. replace (17 / 12) with (17 / 12 * 1) by ring. apply hyp_small; rewrite Rabs_R1; lra. }
  apply Rabs_le_inv in HD. pose proof (hyp_pos dx dy) as H0. pose proof (hyp_pos x y) as H1.
  assert (UD : 0 <= u24 * hyp dx dy) by nra. assert (UD1 : u24 * hyp dx dy <= hyp dx dy / 1000) by nra.
  destruct (norm_near (f_add (f_sub (fst Q) (fst P)) F_EPS, f_add (f_sub (snd Q) (snd P)) F_EPS) x y X Y) as (n & N & N0 & En); [lra|].
  exists n. split; [exact N|]. split; auto. apply Rabs_le_inv in En.
  assert (u24 * hyp x y <= u24 * (hyp dx dy + 201 / 100 * u24 * (hyp dx dy + 17 / 12))) by (apply Rmult_le_compat_l; lra).
  assert (UU : u24 * u24 <= u24 / 10000) by (unfold u24; lra). assert (u24 * u24 * hyp dx dy <= u24 / 10000 * hyp dx dy) by (apply Rmult_le_compat_r; lra).
  apply Rabs_le. lra.
Qed.

(** ** Sums in any order *)
Lemma rel_add (x y : f32) : exists e, Rabs e <= u24 /\ rnd (B2R x + B2R y) = (B2R x + B2R y) * (1 + e).
Proof.
  destruct (rel_sub x (f_opp y)) as (e & E & H). assert (O : B2R (f_opp y) = - B2R y) by apply B2R_Bopp. rewrite O in H. exists e. split; [unfold u24; cbn in E; lra|]. unfold Rminus in H. rewrite Ropp_involutive in H. exact H.
Qed.
Lemma pow_u k : INR k <= 1000 -> 1 <= (1 + u24) ^ k <= 1 + 1001 / 1000 * INR k * u24.
Proof.
  intro K. pose proof u24_pos as U. split; [apply pow_R1_Rle; lra|].
  assert (A : forall j, INR j <= 1000 -> (1 + u24) ^ j * (1 - INR j * u24) <= 1).
  { induction j as [|j IH]; [cbn; lra|]. rewrite S_INR. intro J. specialize (IH ltac:(lra)). cbn [pow].
    pose proof (pow_R1_Rle (1 + u24) j ltac:(lra)) as P. pose proof (pos_INR j) as J0. set (p := (1 + u24) ^ j) in *. set (i := INR j) in *.
    assert ((1 + u24) * (1 - (i + 1) * u24) <= 1 - i * u24) by nra. nra. }
  specialize (A k K). pose proof (pow_R1_Rle (1 + u24) k ltac:(lra)) as P. pose proof (pos_INR k) as K0. set (p := (1 + u24) ^ k) in *. set (x := INR k * u24) in *.
  assert (X : 0 <= x <= / 15000) by (unfold x, u24 in *; lra). replace (1001 / 1000 * INR k * u24) with (1001 / 1000 * x) by (unfold x; ring).
  apply Rnot_lt_le. intro L. assert ((1 + 1001 / 1000 * x) * (1 - x) <= p * (1 - x)) by (apply Rmult_le_compat_r; lra).
  assert ((1 + 1001 / 1000 * x) * (1 - x) < p * (1 - x)) by (apply Rmult_lt_compat_r; lra). nra.
Qed.
Definition amount (x : f32) : Prop := exists v, fval x = Fin v /\ 0 <= v.
Definition total (l : list f32) : R := fold_right (fun x s => B2R x + s) 0 l.
Lemma total_app l l' : total (l ++ l') = total l + total l'.
Proof. unfold total. induction l; cbn [app fold_right]; [ring|]. rewrite IHl. ring. Qed.
Lemma total_perm l l' : Permutation l l' -> total l = total l'.
Proof. unfold total. induction 1; cbn [fold_right]; try lra; congruence. Qed.
Lemma amount_val x : amount x -> fval x = Fin (B2R x) /\ 0 <= B2R x.
Proof. intros (v & V & P). destruct (fval_fin_inv _ _ V) as [_ <-]. auto. Qed.
Lemma total_pos l : Forall amount l -> 0 <= total l.
Proof. unfold total. induction 1 as [|x l A _ IH]; cbn [fold_right]; [lra|]. apply amount_val in A. lra. Qed.
Lemma sum_near l r : f_sum l r -> Forall amount l -> INR (length l) <= 1000 -> total l <= bpow radix2 110 ->
  exists v, fval r = Fin v /\ 0 <= v /\ Rabs (v - total l) <= ((1 + u24) ^ (Nat.pred (length l)) - 1) * total l.
Proof.
  pose proof u24_pos as U.
  induction 1 as [|x|l l' a b A IHa B IHb|l l' a P A IH]; intros F N T.
  - exists 0. split; [reflexivity|]. split; [lra|]. cbn [length Nat.pred pow total fold_right]. rewrite Rminus_0_r, Rabs_R0. lra.
  - inversion F as [|? ? H _]; subst. apply amount_val in H. destruct H as [V P]. exists (B2R x). split; auto. split; auto. cbn [length Nat.pred pow total fold_right]. replace (B2R x - (B2R x + 0)) with 0 by ring. rewrite Rabs_R0. lra.
  - apply Forall_app in F. destruct F as [F F']. rewrite app_length, plus_INR in N. rewrite total_app in T |- *. pose proof (total_pos _ F) as T1. pose proof (total_pos _ F') as T2.
    pose proof (pos_INR (length l)) as N1. pose proof (pos_INR (length l')) as N2.
    destruct (IHa F) as (v & V & V0 & E); try lra. destruct (IHb F') as (w & W & W0 & E'); try lra. clear IHa IHb.
    assert (Sum : Rabs (v + w) <= bpow radix2 126).
    { assert (Q : forall m, INR m <= 1000 -> (1 + u24) ^ (Nat.pred m) - 1 <= 1).
      { intros m M. destruct (pow_u (Nat.pred m)) as [_ K]; [destruct m; cbn [Nat.pred]; [cbn; lra|rewrite S_INR in M; lra]|].
        assert (INR (Nat.pred m) <= 1000) by (destruct m; cbn [Nat.pred]; [cbn; lra|rewrite S_INR in M; lra]). unfold u24 in *. lra. }
      assert (Q1 := Q (length l) ltac:(lra)). assert (Q2 := Q (length l') ltac:(lra)). apply Rabs_le_inv in E, E'.
      assert (((1 + u24) ^ Nat.pred (length l) - 1) * total l <= 1 * total l) by (apply Rmult_le_compat_r; auto).
      assert (((1 + u24) ^ Nat.pred (length l') - 1) * total l' <= 1 * total l') by (apply Rmult_le_compat_r; auto).
      rewrite Rabs_pos_eq by lra. apply Rle_trans with (2 * bpow radix2 110); [lra|apply b126; [lia|lra]]. }
    rewrite val_add, V, W. cbn [xadd]. rewrite round_fin by exact Sum. exists (rnd (v + w)). split; [reflexivity|]. split; [apply rnd_pos; lra|].
    destruct (fval_fin_inv _ _ V) as [_ V']. destruct (fval_fin_inv _ _ W) as [_ W'].
    destruct l as [|x l].
    { cbn [length Nat.pred pow total fold_right] in E. rewrite Rminus_0_r, Rmult_0_r in E. apply Rabs_le_inv in E. assert (H : v = 0) by lra. rewrite H in *. rewrite Rplus_0_l, rnd_id by (rewrite <- W'; apply format_val).
      cbn [app total fold_right]. rewrite Rplus_0_l. exact E'. }
    destruct l' as [|y l'].
    { cbn [length Nat.pred pow total fold_right] in E'. rewrite Rminus_0_r, Rmult_0_r in E'. apply Rabs_le_inv in E'. assert (H : w = 0) by lra. rewrite H in *. rewrite Rplus_0_r, rnd_id by (rewrite <- V'; apply format_val).
      rewrite app_nil_r. cbn [total fold_right] in *. rewrite Rplus_0_r. exact E. }
    destruct (rel_add a b) as (e & Ee & Q). rewrite V', W' in Q. rewrite Q.
    set (K := Nat.max (length l) (length l')). set (ta := total (x :: l)) in *. set (tb := total (y :: l')) in *.
    cbn [length Nat.pred] in E, E'. replace (Nat.pred (length ((x :: l) ++ y :: l'))) with (length l + S (length l'))%nat by (rewrite app_length; cbn; lia).
    assert (M1 : (1 + u24) ^ length l <= (1 + u24) ^ K) by (apply Rle_pow; [lra|unfold K; lia]).
    assert (M2 : (1 + u24) ^ length l' <= (1 + u24) ^ K) by (apply Rle_pow; [lra|unfold K; lia]).
    assert (M3 : (1 + u24) * (1 + u24) ^ K <= (1 + u24) ^ (length l + S (length l'))) by (change ((1 + u24) * (1 + u24) ^ K) with ((1 + u24) ^ (S K)); apply Rle_pow; [lra|unfold K; lia]).
    set (p := (1 + u24) ^ K) in *. apply Rabs_le_inv in E, E', Ee.
    assert (E1 : Rabs (v + w - (ta + tb)) <= (p - 1) * (ta + tb)).
    { assert (((1 + u24) ^ length l - 1) * ta <= (p - 1) * ta) by (apply Rmult_le_compat_r; lra).
      assert (((1 + u24) ^ length l' - 1) * tb <= (p - 1) * tb) by (apply Rmult_le_compat_r; lra). apply Rabs_le. lra. }
    apply Rle_trans with (((1 + u24) * p - 1) * (ta + tb)); [|apply Rmult_le_compat_r; lra].
    replace ((v + w) * (1 + e) - (ta + tb)) with ((v + w - (ta + tb)) + (v + w) * e) by ring. eapply Rle_trans; [apply Rabs_triang|].
    assert (Rabs ((v + w) * e) <= p * (ta + tb) * u24). { rewrite Rabs_mult. apply Rmult_le_compat; try apply Rabs_pos; [|apply Rabs_le; lra]. apply Rabs_le_inv in E1. rewrite Rabs_pos_eq by lra. lra. }
    lra.
  - pose proof (Permutation_length P) as L. rewrite <- L in *. rewrite <- (total_perm _ _ P) in *. apply IH; auto. eapply Permutation_Forall; [apply Permutation_sym, P|auto].
Qed.

(** ** The length of a path *)
Lemma polyline_pos pts : 0 <= polyline pts.
Proof. induction pts as [|p [|q pts] IH]; cbn [polyline] in *; try lra. assert (0 <= dist p q) by apply sqrt_pos. lra. Qed.
Lemma legs_near Ps ps : Forall2 stands_for Ps ps -> polyline ps <= bpow radix2 60 ->
  Forall amount (f_lengths Ps) /\ length (f_lengths Ps) = Nat.pred (length ps) /\
  Rabs (total (f_lengths Ps) - polyline ps) <= 6 * u24 * polyline ps + 3 * INR (Nat.pred (length ps)) * u24.
Proof.
  induction 1 as [|P p Ps ps S F IH]; intro D; [cbn; split; [constructor|split; [auto|rewrite Rminus_0_r, Rabs_R0; lra]]|].
  destruct F as [|Q q Ps ps S' F]; [cbn; split; [constructor|split; [auto|rewrite Rminus_0_r, Rabs_R0; lra]]|].
  change (polyline (p :: q :: ps)) with (dist p q + polyline (q :: ps)) in *. pose proof (polyline_pos (q :: ps)) as P0. assert (D0 : 0 <= dist p q) by apply sqrt_pos.
  destruct IH as (A & L & E); [lra|]. destruct (leg_near P Q p q S S') as (n & N & N0 & En); [lra|].
  change (f_lengths (P :: Q :: Ps)) with (f_norm (f_add (fst (fv_sub Q P)) F_EPS, f_add (snd (fv_sub Q P)) F_EPS) :: f_lengths (Q :: Ps)).
  split; [constructor; [exists n; auto|exact A]|]. split; [cbn [length Nat.pred] in *; lia|].
  change (total (?x :: ?l)) with (B2R x + total l).
  destruct (fval_fin_inv _ _ N) as [_ Nv]. rewrite Nv. cbn [length Nat.pred] in E |- *. rewrite S_INR. apply Rabs_le_inv in E, En. apply Rabs_le. lra.
Qed.
Lemma length_near Ps ps r : Forall2 stands_for Ps ps -> polyline ps <= bpow radix2 60 -> (length ps <= 501)%nat -> f_path_length Ps r ->
  exists v, fval r = Fin v /\ 0 <= v /\
    Rabs (v - polyline ps) <= u24 * ((INR (Nat.pred (length ps)) + 6) * polyline ps + 4 * INR (Nat.pred (length ps))).
Proof.
  intros F D N H. destruct (legs_near Ps ps F D) as (A & L & E). unfold f_path_length in H. pose proof u24_pos as U. pose proof (polyline_pos ps) as P0.
  set (n := Nat.pred (length ps)) in *. assert (Nn : INR n <= 500) by (replace 500 with (INR 500) by (rewrite INR_IZR_INZ; reflexivity); apply le_INR; unfold n; lia).
  pose proof (pos_INR n) as N0. apply Rabs_le_inv in E. set (t := total (f_lengths Ps)) in *. set (l := polyline ps) in *.
  assert (U1 : 0 <= u24 * l) by nra. assert (U2 : u24 * l <= l / 1000000) by nra. assert (B0 : 1 <= bpow radix2 60) by (change 1 with (bpow radix2 0); apply bpow_le; lia).
  assert (B1 : 4 * bpow radix2 60 <= bpow radix2 110) by (apply Rle_trans with (bpow radix2 (2 + 60)); [rewrite bpow_plus; apply Rmult_le_compat_r; [lra|cbn; lra]|apply bpow_le; lia]).
  destruct (sum_near _ _ H A) as (v & V & V0 & Ev); [rewrite L; lra|fold t; unfold u24 in *; nra|]. fold t in Ev. rewrite L in Ev.
  exists v. split; auto. split; auto. apply Rabs_le_inv in Ev.
  assert (T0 : 0 <= t) by (apply total_pos; auto).
  destruct n as [|n']; [cbn [Nat.pred pow INR] in *; apply Rabs_le; lra|]. cbn [Nat.pred] in Ev. rewrite S_INR in *. set (k := INR n') in *. pose proof (pos_INR n') as K0. fold k in K0.
  destruct (pow_u n') as [Q1 Q2]; [fold k; lra|]. fold k in Q2.
  assert (G : ((1 + u24) ^ n' - 1) * t <= 1001 / 1000 * k * u24 * t) by (apply Rmult_le_compat_r; lra).
  assert (T1 : t <= l + 6 * u24 * l + 3 * (k + 1) * u24) by lra.
  assert (G2 : 1001 / 1000 * k * u24 * t <= 1001 / 1000 * k * u24 * (l + 6 * u24 * l + 3 * (k + 1) * u24)) by (apply Rmult_le_compat_l; [nra|auto]).
  assert (KU : 0 <= k * u24 <= / 10000) by (unfold u24 in *; split; lra).
  assert (G3 : 1001 / 1000 * k * u24 * (6 * u24 * l + 3 * (k + 1) * u24) <= / 1000 * (6 * u24 * l + 3 * (k + 1) * u24)).
  { apply Rmult_le_compat_r; [nra|lra]. }
  assert (G4 : / 1000 * k * u24 * l <= 51 / 100 * (u24 * l)) by nra.
  apply Rabs_le. split; nra.
Qed.

(** ** Powers *)
Lemma power_near c g m x : fval c = Fin g -> 0 <= g <= 1 -> f_power c m x ->
  exists v, fval x = Fin v /\ 0 <= v <= 1 /\ Rabs (v - g ^ m) <= INR (Nat.pred m) * u24.
Proof.
  intros C G H. pose proof u24_pos as U. induction H as [| |m n a b A IHa B IHb].
  - exists 1. split; [apply val_one|]. split; [lra|]. cbn. rewrite Rminus_eq_0, Rabs_R0. lra.
  - exists g. split; auto. split; [lra|]. cbn. replace (g - g * 1) with 0 by ring. rewrite Rabs_R0. lra.
  - destruct IHa as (v & V & V0 & E). destruct IHb as (w & W & W0 & E').
    assert (VW : 0 <= v * w <= 1) by nra. rewrite val_mul, V, W. cbn [xmul].
    rewrite round_fin by (rewrite Rabs_pos_eq by lra; apply Rle_trans with (bpow radix2 0); [cbn; lra|apply bpow_le; lia]).
    assert (R1 : rnd 1 = 1) by (apply rnd_id, (format_int 1); cbn; lia).
    exists (rnd (v * w)). split; [reflexivity|]. split; [split; [apply rnd_pos; lra|apply Rle_trans with (rnd 1); [apply rnd_le|]; lra]|].
    destruct (val_format _ _ V) as [Fv _]. destruct (val_format _ _ W) as [Fw _].
    destruct m as [|m]; [|destruct n as [|n]].
    + cbn in E. rewrite Rmult_0_l in E. apply Rabs_le_inv in E. assert (v = 1) by lra. subst v. rewrite Rmult_1_l, rnd_id by auto. exact E'.
    + cbn in E'. rewrite Rmult_0_l in E'. apply Rabs_le_inv in E'. assert (w = 1) by lra. subst w. rewrite Rmult_1_r, rnd_id by auto. rewrite Nat.add_0_r. exact E.
    + assert (Rd : Rabs (rnd (v * w) - v * w) <= u24).
      { pose proof (rnd_err 0 (v * w) ltac:(lia)) as Z. eapply Rle_trans; [apply Z|]; [rewrite Rabs_pos_eq by lra; cbn; lra|]. unfold u24. cbn. lra. }
      replace (Nat.pred (S m + S n)) with (m + n + 1)%nat by lia. rewrite !plus_INR. cbn [Nat.pred INR] in *.
      rewrite pow_add. assert (G1 : 0 <= g ^ S m <= 1) by (split; [apply pow_le; lra|rewrite <- (pow1 (S m)); apply pow_incr; lra]).
      assert (G2 : 0 <= g ^ S n <= 1) by (split; [apply pow_le; lra|rewrite <- (pow1 (S n)); apply pow_incr; lra]).
      set (gm := g ^ S m) in *. set (gn := g ^ S n) in *.
      replace (rnd (v * w) - gm * gn) with ((rnd (v * w) - v * w) + ((v - gm) * w + gm * (w - gn))) by ring.
      eapply Rle_trans; [apply Rabs_triang|]. eapply Rle_trans; [apply Rplus_le_compat_l, Rabs_triang|]. rewrite !Rabs_mult, (Rabs_pos_eq w), (Rabs_pos_eq gm) by lra.
      pose proof (Rabs_pos (v - gm)). pose proof (Rabs_pos (w - gn)).
      assert (Rabs (v - gm) * w <= Rabs (v - gm)) by nra. assert (gm * Rabs (w - gn) <= Rabs (w - gn)) by nra. lra.
Qed.

(** ** Received power *)
Lemma square_moves l r h n d : 0 <= l -> / 256 <= h -> 1 <= n <= 256 -> Rabs (r - l) <= u24 * ((n + 6) * l + 4 * n) -> d = h * h + l * l ->
  Rabs (r * r - l * l) <= u24 * (21 / 10 * (n + 6) + 43 / 10 * (n / h)) * d.
Proof.
  intros L0 H0 N E Ed. rewrite Ed. clear Ed d. pose proof u24_pos as U. set (e := u24 * ((n + 6) * l + 4 * n)) in *.
  assert (e0 : 0 <= e) by (pose proof (Rabs_pos (r - l)); lra).
  assert (A : Rabs (r * r - l * l) <= 2 * l * e + e * e).
  { replace (r * r - l * l) with ((r - l) * (2 * l + (r - l))) by ring. rewrite Rabs_mult. apply Rabs_le_inv in E as E1.
    assert (Rabs (2 * l + (r - l)) <= 2 * l + e) by (apply Rabs_le; lra). replace (2 * l * e + e * e) with (e * (2 * l + e)) by ring. apply Rmult_le_compat; auto using Rabs_pos. }
  eapply Rle_trans; [exact A|]. set (d := h * h + l * l). assert (Ll : 0 <= l * l) by nra. assert (Hh : 0 < h * h) by nra. assert (Ld : l * l <= d) by (unfold d; lra). assert (Hd : h * h <= d) by (unfold d; lra).
  assert (l2 : 2 * l <= d / h).
  { apply Rmult_le_reg_r with h; [lra|]. replace (d / h * h) with d by (field; lra). unfold d. pose proof (Rle_0_sqr (h - l)) as Sq. unfold Rsqr in Sq. lra. }
  set (q := n / h). assert (qh : q * h = n) by (unfold q; field; lra). assert (q0 : 0 < q <= 65536).
  { split; [unfold q; apply Rmult_lt_0_compat; [lra|apply Rinv_0_lt_compat; lra]|]. apply Rmult_le_reg_r with h; [lra|]. rewrite qh. nra. }
  assert (Dq : n * (2 * l) <= q * d).
  { replace (q * d) with (n * (d / h)) by (unfold q; field; lra). apply Rmult_le_compat_l; lra. }
  assert (X1 : 2 * l * e = u24 * (2 * (n + 6) * (l * l) + 4 * (n * (2 * l)))) by (unfold e; ring).
  assert (X2 : 2 * l * e <= u24 * (2 * (n + 6) + 4 * q) * d).
  { rewrite X1. rewrite (Rmult_assoc u24). apply Rmult_le_compat_l; [lra|]. assert ((n + 6) * (l * l) <= (n + 6) * d) by (apply Rmult_le_compat_l; lra). lra. }
  assert (d0 : 0 <= d) by lra.
  assert (Nd : n * n <= q * q * d) by (rewrite <- qh; replace (q * h * (q * h)) with (q * q * (h * h)) by ring; apply Rmult_le_compat_l; nra).
  assert (X3 : e * e <= u24 * u24 * (2 * ((n + 6) * (n + 6)) * d + 32 * (q * q * d))).
  { assert (e * e <= u24 * u24 * (2 * ((n + 6) * (n + 6) * (l * l)) + 32 * (n * n))).
    { unfold e. replace (u24 * ((n + 6) * l + 4 * n) * (u24 * ((n + 6) * l + 4 * n))) with (u24 * u24 * (((n + 6) * l + 4 * n) * ((n + 6) * l + 4 * n))) by ring.
      apply Rmult_le_compat_l; [nra|]. pose proof (Rle_0_sqr ((n + 6) * l - 4 * n)) as Sq. unfold Rsqr in Sq. nra. }
    eapply Rle_trans; [exact H|]. apply Rmult_le_compat_l; [nra|].
    assert ((n + 6) * (n + 6) * (l * l) <= (n + 6) * (n + 6) * d) by (apply Rmult_le_compat_l; nra). lra. }
  assert (U1 : u24 * (2 * (n + 6)) <= / 10000) by (unfold u24; lra). assert (U2 : u24 * (32 * q) <= 13 / 100) by (unfold u24; lra).
  assert (X4 : u24 * u24 * (2 * ((n + 6) * (n + 6)) * d + 32 * (q * q * d)) <= u24 * (/ 10000 * (n + 6) + 13 / 100 * q) * d).
  { replace (u24 * u24 * (2 * ((n + 6) * (n + 6)) * d + 32 * (q * q * d))) with ((u24 * (2 * (n + 6)) * (n + 6) + u24 * (32 * q) * q) * (u24 * d)) by ring.
    replace (u24 * (/ 10000 * (n + 6) + 13 / 100 * q) * d) with ((/ 10000 * (n + 6) + 13 / 100 * q) * (u24 * d)) by ring. apply Rmult_le_compat_r; [nra|].
    assert (u24 * (2 * (n + 6)) * (n + 6) <= / 10000 * (n + 6)) by (apply Rmult_le_compat_r; lra). assert (u24 * (32 * q) * q <= 13 / 100 * q) by (apply Rmult_le_compat_r; lra). lra. }
  apply Rle_trans with (u24 * (2 * (n + 6) + 4 * q) * d + u24 * (/ 10000 * (n + 6) + 13 / 100 * q) * d); [lra|].
  rewrite <- Rmult_plus_distr_r, <- Rmult_plus_distr_l. apply Rmult_le_compat_r; [auto|]. apply Rmult_le_compat_l; lra.
Qed.
Lemma quotient_near v D d g k j : 0 <= v <= 1 -> 0 <= g <= 1 -> 0 < d -> Rabs (v - g) <= j -> Rabs (D - d) <= k * d -> 0 <= k <= / 40 ->
  0 <= v / D <= 103 / 100 / d /\ Rabs (v / D - g / d) <= 103 / 100 * (j + k) / d.
Proof.
  intros V G d0 J K k0. apply Rabs_le_inv in K. assert (KD : k * d <= d / 40) by nra. assert (D0 : 39 / 40 * d <= D) by lra. assert (Dp : 0 < D) by lra.
  assert (I : / D <= 103 / 100 / d). { apply Rmult_le_reg_r with D; auto. rewrite Rinv_l by lra. apply Rmult_le_reg_r with d; auto. replace (103 / 100 / d * D * d) with (103 / 100 * D) by (field; lra). lra. }
  assert (I0 : 0 < / D) by (apply Rinv_0_lt_compat; auto). assert (d1 : 0 < / d) by (apply Rinv_0_lt_compat; auto). split; [split|].
  - apply Rmult_le_pos; lra.
  - unfold Rdiv at 1. apply Rle_trans with (1 * / D); [apply Rmult_le_compat_r; lra|lra].
  - replace (v / D - g / d) with ((v - g) * / D + g * ((d - D) / d) * / D) by (field; lra).
    eapply Rle_trans; [apply Rabs_triang|]. rewrite !Rabs_mult, (Rabs_pos_eq (/ D)), (Rabs_pos_eq g) by lra.
    assert (Q : Rabs ((d - D) / d) <= k). { unfold Rdiv. rewrite Rabs_mult, (Rabs_pos_eq (/ d)) by lra. apply Rmult_le_reg_r with d; auto. rewrite Rmult_assoc, Rinv_l by lra. rewrite Rmult_1_r. apply Rabs_le. lra. }
    pose proof (Rabs_pos ((d - D) / d)). pose proof (Rabs_pos (v - g)).
    assert (A1 : Rabs (v - g) * / D <= j * (103 / 100 / d)) by (apply Rmult_le_compat; lra).
    assert (A2 : g * Rabs ((d - D) / d) * / D <= k * (103 / 100 / d)) by (apply Rmult_le_compat; nra).
    replace (103 / 100 * (j + k) / d) with (j * (103 / 100 / d) + k * (103 / 100 / d)) by (field; lra). lra.
Qed.
Lemma received_near Ps ps c g H h x : Forall2 stands_for Ps ps -> polyline ps <= bpow radix2 50 -> (2 <= length ps <= 257)%nat ->
  fval c = Fin g -> 0 <= g <= 1 -> fval H = Fin h -> / 256 <= h <= 1048576 -> f_received_power Ps c H x ->
  let n := INR (length ps - 1) in
  exists v, fval x = Fin v /\ 0 <= v /\
    Rabs (v - g ^ (length ps - 2) / (h * h + polyline ps * polyline ps)) <= 4 * u24 * (n + 4 + 2 * n / h) / (h * h + polyline ps * polyline ps).
Proof.
  intros F D N C G Hv Hb (r & y & RL & PW & ->) n. pose proof u24_pos as U. pose proof tiny_small as [T0 T].
  assert (LP : length Ps = length ps) by (clear -F; induction F; cbn; auto). rewrite LP in PW.
  assert (B50 : bpow radix2 50 <= bpow radix2 60) by (apply bpow_le; lia). assert (B0 : 1 <= bpow radix2 50) by (change 1 with (bpow radix2 0); apply bpow_le; lia).
  destruct (length_near Ps ps r F) as (rv & Rv & R0 & Er); [lra|lia|exact RL|]. replace (Nat.pred (length ps)) with (length ps - 1)%nat in Er by lia. fold n in Er.
  destruct (power_near c g _ y C G PW) as (yv & Yv & Y0 & Ey).
  assert (N1 : 1 <= n <= 256) by (unfold n; split; [apply (le_INR 1); lia|replace 256 with (INR 256) by (rewrite INR_IZR_INZ; reflexivity); apply le_INR; lia]).
  assert (Ny : INR (Nat.pred (length ps - 2)) <= n - 1) by (unfold n; rewrite <- (INR_IZR_INZ 1) || idtac; replace (length ps - 1)%nat with (S (length ps - 2)) by lia; rewrite S_INR; assert (INR (Nat.pred (length ps - 2)) <= INR (length ps - 2)) by (apply le_INR; lia); lra).
  pose proof (polyline_pos ps) as L0. set (l := polyline ps) in *. set (d := h * h + l * l).
  pose proof (square_moves l rv h n d L0 (proj1 Hb) N1 Er eq_refl) as Sq.
  set (q := n / h) in *. assert (qh : q * h = n) by (unfold q; field; lra). assert (q0 : 0 < q <= 65536).
  { split; [unfold q; apply Rmult_lt_0_compat; [lra|apply Rinv_0_lt_compat; lra]|]. apply Rmult_le_reg_r with h; [lra|]. rewrite qh. nra. }
  assert (hh : / 65536 <= h * h <= 1048576 * 1048576) by (split; nra).
  assert (dl : / 65536 <= d) by (unfold d; nra).
  set (B := bpow radix2 50) in *. assert (BB : B * B = bpow radix2 100) by (unfold B; rewrite <- bpow_plus; reflexivity).
  assert (Bb : 1048576 * 1048576 <= B) by (unfold B; cbn; lra).
  assert (ll : 0 <= l * l <= B * B) by nra. assert (du : d <= 2 * (B * B)) by (unfold d; nra).
  set (k1 := u24 * (21 / 10 * (n + 6) + 43 / 10 * q)) in *.
  assert (k1b : 0 <= k1 <= 18 / 1000) by (unfold k1, u24; lra).
  assert (rr : 0 <= rv * rv <= 3 * (B * B)) by (split; [nra|]; apply Rabs_le_inv in Sq; nra).
  assert (Lim : forall z, 0 <= z <= 8 * (B * B) -> xround (Fin z) = Fin (rnd z)).
  { intros z Z. apply round_fin. rewrite Rabs_pos_eq by lra. eapply Rle_trans; [apply Z|]. rewrite BB. apply b126; [lia|lra]. }
  assert (tn : tiny <= u24 * d / 100000).
  { eapply Rle_trans; [exact T|]. apply Rle_trans with (u24 * (/ 65536) / 100000); [unfold u24; lra|]. apply Rmult_le_compat_r; [lra|]. apply Rmult_le_compat_l; lra. }
  assert (ud : 0 <= u24 * d) by nra.
  set (a := rnd (h * h)). set (b := rnd (rv * rv)).
  assert (Ea : Rabs (a - h * h) <= u24 * (h * h) + tiny) by (pose proof (rnd_u (h * h)) as Z; rewrite (Rabs_pos_eq (h * h)) in Z by lra; exact Z).
  assert (Eb : Rabs (b - rv * rv) <= u24 * (rv * rv) + tiny) by (pose proof (rnd_u (rv * rv)) as Z; rewrite (Rabs_pos_eq (rv * rv)) in Z by lra; exact Z).
  assert (a0 : 0 <= a) by (apply rnd_pos; lra). assert (b0 : 0 <= b) by (apply rnd_pos; lra).
  apply Rabs_le_inv in Ea, Eb, Sq.
  assert (dd : h * h + l * l = d) by reflexivity.
  assert (S1 : u24 * (rv * rv) <= u24 * (l * l + k1 * d)) by (apply Rmult_le_compat_l; lra).
  assert (S2 : u24 * (k1 * d) <= 18 / 1000 * (u24 * d)) by nra.
  assert (Sab : Rabs (a + b - d) <= (k1 + 1019 / 1000 * u24) * d).
  { assert (u24 * (h * h) + u24 * (l * l) = u24 * d) by (unfold d; ring). apply Rabs_le. lra. }
  assert (k2b : k1 + 1019 / 1000 * u24 <= 19 / 1000) by lra.
  assert (ab : 0 <= a + b <= 102 / 100 * d) by (split; [lra|]; apply Rabs_le_inv in Sab; nra).
  assert (Dv : fval (f_add (f_mul H H) (f_mul r r)) = Fin (rnd (a + b))).
  { rewrite val_add, !val_mul, Hv, Rv. cbn [xmul]. rewrite (Lim (h * h)), (Lim (rv * rv)) by nra. cbn [xadd]. fold a. fold b. apply Lim. lra. }
  pose proof (rnd_u (a + b)) as Eab. rewrite (Rabs_pos_eq (a + b)) in Eab by lra.
  assert (ED : Rabs (rnd (a + b) - d) <= (k1 + 21 / 10 * u24) * d).
  { apply Rabs_le_inv in Eab, Sab. assert (u24 * (a + b) <= u24 * (102 / 100 * d)) by (apply Rmult_le_compat_l; lra). apply Rabs_le. lra. }
  set (m := (length ps - 2)%nat) in *.
  assert (Gm : 0 <= g ^ m <= 1) by (split; [apply pow_le; lra|rewrite <- (pow1 m); apply pow_incr; lra]).
  assert (Ey' : Rabs (yv - g ^ m) <= (n - 1) * u24) by (eapply Rle_trans; [exact Ey|]; apply Rmult_le_compat_r; lra).
  destruct (quotient_near yv (rnd (a + b)) d (g ^ m) (k1 + 21 / 10 * u24) ((n - 1) * u24) Y0 Gm ltac:(lra) Ey' ED) as [Q0 Q1]; [unfold u24 in *; lra|].
  assert (D0 : 0 < rnd (a + b)) by (apply Rabs_le_inv in ED; assert ((k1 + 21 / 10 * u24) * d <= d / 10) by (unfold u24 in *; nra); lra).
  rewrite (val_div _ _ _ Dv), Yv by lra. cbn [xmul]. fold (yv / rnd (a + b)). set (z := yv / rnd (a + b)) in *.
  assert (di : / (2 * (B * B)) <= / d <= 65536) by (split; [apply Rinv_le_contravar; lra|replace 65536 with (/ / 65536) by lra; apply Rinv_le_contravar; lra]).
  assert (Z1 : xround (Fin z) = Fin (rnd z)) by (apply Lim; split; [lra|]; assert (B * 1 <= B * B) by (apply Rmult_le_compat_l; lra); unfold Rdiv in Q0; lra).
  exists (rnd z). split; [exact Z1|]. split; [apply rnd_pos; lra|].
  pose proof (rnd_u z) as Ez. rewrite (Rabs_pos_eq z) in Ez by lra.
  replace (rnd z - g ^ m / d) with ((rnd z - z) + (z - g ^ m / d)) by ring. eapply Rle_trans; [apply Rabs_triang|].
  assert (ti : tiny <= u24 / 1000 / d).
  { apply Rle_trans with (u24 / 1000 * / (2 * (B * B))); [|apply Rmult_le_compat_l; lra]. rewrite BB. apply Rmult_le_reg_r with (2 * bpow radix2 100); [pose proof (bpow_gt_0 radix2 100); lra|].
    rewrite Rmult_assoc, Rinv_l by (pose proof (bpow_gt_0 radix2 100); lra). unfold tiny. replace (bpow radix2 (-150) * (2 * bpow radix2 100)) with (2 * (bpow radix2 (-150) * bpow radix2 100)) by ring. rewrite <- bpow_plus. unfold u24. cbn. lra. }
  assert (uz : u24 * z <= u24 * (103 / 100) / d) by (replace (u24 * (103 / 100) / d) with (u24 * (103 / 100 / d)) by (field; lra); apply Rmult_le_compat_l; lra).
  apply Rle_trans with ((u24 * (103 / 100) + u24 / 1000 + 103 / 100 * ((n - 1) * u24 + (k1 + 21 / 10 * u24))) / d).
  { unfold Rdiv in *. rewrite !Rmult_plus_distr_r in *. lra. }
  apply Rmult_le_compat_r; [lra|]. unfold k1. replace (2 * n / h) with (2 * q) by (unfold q; field; lra).
  clear - U N1 q0. assert (0 < u24 * q) by (apply Rmult_lt_0_compat; lra). assert (u24 * 1 <= u24 * n) by (apply Rmult_le_compat_l; lra). lra.
Qed.

(** ** Accumulation *)
Definition term_of (t : ftruthy * f32) : f32 := f_mul (f_to_f (fst t)) (snd t).
Lemma accumulate_sum terms : f_sum (map term_of terms) (f_accumulate terms).
Proof.
  unfold f_accumulate. assert (G : forall ts l a, f_sum l a -> f_sum (l ++ map term_of ts) (fold_left (fun acc '(v, x) => f_add acc (f_mul (f_to_f v) x)) ts a)).
  { induction ts as [|[v x] ts IH]; intros l a S; cbn [map fold_left]; [rewrite app_nil_r; auto|].
    replace (l ++ term_of (v, x) :: map term_of ts) with ((l ++ [term_of (v, x)]) ++ map term_of ts) by (rewrite <- app_assoc; reflexivity).
    apply IH. apply f_sum_add; [auto|apply f_sum_one]. }
  apply (G terms [] f_zero), f_sum_nil.
Qed.
Lemma term_near t r : contributes t r -> r <= bpow radix2 120 -> amount (term_of t) /\ 0 <= r /\ Rabs (B2R (term_of t) - r) <= u24 * r + tiny.
Proof.
  intros (w & y & W & Y & Y0 & ->) B. pose proof u24_pos as U. destruct tiny_small as [T0 _]. unfold term_of. destruct t as [v x]. cbn [fst snd] in *.
  assert (V : fval (f_to_f v) = Fin w /\ 0 <= w <= 1).
  { destruct v as [[|]|f]; cbn [weighs f_to_f] in *; [subst; split; [apply val_one|lra]|subst; split; [reflexivity|lra]|auto]. }
  destruct V as [V W0]. assert (P : 0 <= w * y) by (apply Rmult_le_pos; lra).
  assert (E : fval (f_mul (f_to_f v) x) = Fin (rnd (w * y))).
  { rewrite val_mul, V, Y. cbn [xmul]. apply round_fin. rewrite Rabs_pos_eq by auto. eapply Rle_trans; [exact B|]. apply bpow_le. lia. }
  split; [exists (rnd (w * y)); split; [auto|apply rnd_pos; auto]|]. split; auto. destruct (fval_fin_inv _ _ E) as [_ ->].
  pose proof (rnd_u (w * y)) as Z. rewrite (Rabs_pos_eq (w * y)) in Z by auto. exact Z.
Qed.
Lemma sum_of_pos rs : Forall (fun r => 0 <= r) rs -> 0 <= sum_of rs.
Proof. unfold sum_of. induction 1; cbn; lra. Qed.
Lemma accumulate_near terms rs : Forall2 contributes terms rs -> (length terms <= 1000)%nat -> sum_of rs <= bpow radix2 100 ->
  exists v, fval (f_accumulate terms) = Fin v /\ 0 <= v /\
    Rabs (v - sum_of rs) <= u24 * (INR (length terms) + 1) * sum_of rs + INR (length terms) * bpow radix2 (-149).
Proof.
  intros F N B. pose proof u24_pos as U. destruct tiny_small as [T0 T1]. fold tiny in *.
  assert (t2 : bpow radix2 (-149) = 2 * tiny) by (unfold tiny; change (-149)%Z with (1 + -150)%Z; rewrite bpow_plus; reflexivity). rewrite t2.
  assert (Pos : Forall (fun r => 0 <= r) rs).
  { clear -F. induction F as [|t r ts rs C F IH]; constructor; auto. destruct C as (w & y & W & _ & Y0 & ->). apply Rmult_le_pos; auto. destruct (fst t) as [[|]|]; cbn in W; lra. }
  assert (G : Forall amount (map term_of terms) /\ Rabs (total (map term_of terms) - sum_of rs) <= u24 * sum_of rs + INR (length terms) * tiny).
  { clear N. induction F as [|t r ts rs C F IH]; [split; [constructor|cbn; rewrite Rminus_0_r, Rabs_R0; lra]|].
    inversion Pos as [|? ? r0 Pos']; subst. pose proof (sum_of_pos _ Pos') as S0. change (sum_of (r :: rs)) with (r + sum_of rs) in *.
    destruct (IH ltac:(lra) Pos') as [A E]. destruct (term_near t r C) as (A1 & _ & E1); [eapply Rle_trans; [|apply bpow_le with (e1 := 100%Z); lia]; lra|].
    split; [constructor; auto|]. cbn [map length]. change (total (term_of t :: map term_of ts)) with (B2R (term_of t) + total (map term_of ts)). rewrite S_INR.
    apply Rabs_le_inv in E, E1. apply Rabs_le. lra. }
  destruct G as [A E]. pose proof (sum_of_pos _ Pos) as S0. pose proof (total_pos _ A) as T0'. set (t := total (map term_of terms)) in *. set (s := sum_of rs) in *.
  set (n := INR (length terms)) in *. assert (N0 : 0 <= n <= 1000) by (split; [apply pos_INR|unfold n; replace 1000 with (INR 1000) by (rewrite INR_IZR_INZ; reflexivity); apply le_INR; auto]).
  apply Rabs_le_inv in E.
  assert (us : 0 <= u24 * s <= s / 1000000) by nra. assert (nt : 0 <= n * tiny <= / 1000).
  { split; [nra|]. apply Rle_trans with (1000 * (u24 * u24 * u24 * u24 * u24 * u24)); [nra|unfold u24; lra]. }
  assert (B1 : 1 <= bpow radix2 100) by (change 1 with (bpow radix2 0); apply bpow_le; lia).
  assert (B2 : 4 * bpow radix2 100 <= bpow radix2 110) by (apply Rle_trans with (bpow radix2 (2 + 100)); [rewrite bpow_plus; apply Rmult_le_compat_r; [lra|cbn; lra]|apply bpow_le; lia]).
  destruct (sum_near _ _ (accumulate_sum terms) A) as (v & V & V0 & Ev); [rewrite map_length; apply N0|fold t; lra|]. fold t in Ev. rewrite map_length in Ev.
  exists v. split; auto. split; auto.
  assert (K : ((1 + u24) ^ Nat.pred (length terms) - 1) * t <= 1001 / 1000 * n * u24 * t /\ (terms <> [] -> ((1 + u24) ^ Nat.pred (length terms) - 1) * t <= 1001 / 1000 * (n - 1) * u24 * t)).
  { destruct terms as [|t0 terms]; [split; [|congruence]; cbn; unfold n; cbn; lra|].
    assert (Nn : INR (length terms) = n - 1) by (unfold n; cbn [length]; rewrite S_INR; ring). cbn [length Nat.pred].
    destruct (pow_u (length terms)) as [_ Q]; [lra|]. rewrite Nn in Q. assert (X : ((1 + u24) ^ length terms - 1) * t <= 1001 / 1000 * (n - 1) * u24 * t) by (apply Rmult_le_compat_r; lra).
    split; auto. eapply Rle_trans; [exact X|]. apply Rmult_le_compat_r; [auto|]. apply Rmult_le_compat_r; lra. }
  apply Rabs_le_inv in Ev. destruct terms as [|t0 terms].
  { inversion F. subst rs. unfold t, s, n in *. cbn in *. apply Rabs_le. lra. }
  destruct K as [_ K]. specialize (K ltac:(discriminate)). assert (N1 : 1 <= n) by (unfold n; apply (le_INR 1); cbn; lia).
  assert (T2 : t <= s + u24 * s + n * tiny) by lra.
  assert (K2 : 1001 / 1000 * (n - 1) * u24 * t <= 1001 / 1000 * (n - 1) * u24 * (s + u24 * s + n * tiny)) by (apply Rmult_le_compat_l; [apply Rmult_le_pos; nra|auto]).
  assert (nu : 0 <= (n - 1) * u24 <= / 10000) by (unfold u24; lra).
  assert (K3 : 1001 / 1000 * (n - 1) * u24 * (u24 * s + n * tiny) <= / 1000 * (u24 * s + n * tiny)) by (apply Rmult_le_compat_r; lra).
  assert (K4 : / 1000 * (n - 1) * (u24 * s) <= 999 / 1000 * (u24 * s)) by (apply Rmult_le_compat_r; lra).
  clear - Ev E K K2 K3 K4 nt us. apply Rabs_le. lra.
Qed.
(** With boolean validities the products are exact. *)
Lemma accumulate_bool terms rs : Forall2 contributes terms rs -> Forall (fun t => exists b, fst t = FB b) terms -> (length terms <= 1000)%nat -> sum_of rs <= bpow radix2 100 ->
  exists v, fval (f_accumulate terms) = Fin v /\ 0 <= v /\ Rabs (v - sum_of rs) <= u24 * INR (length terms) * sum_of rs.
Proof.
  intros F Bo N B. pose proof u24_pos as U.
  assert (Pos : Forall (fun r => 0 <= r) rs).
  { clear -F. induction F as [|t r ts rs C F IH]; constructor; auto. destruct C as (w & y & W & _ & Y0 & ->). apply Rmult_le_pos; auto. destruct (fst t) as [[|]|]; cbn in W; lra. }
  assert (G : Forall amount (map term_of terms) /\ total (map term_of terms) = sum_of rs).
  { clear N. revert Bo. induction F as [|t r ts rs C F IH]; intro Bo; [split; [constructor|reflexivity]|].
    inversion Pos as [|? ? r0 Pos']; subst. inversion Bo as [|? ? b0 Bo']; subst. pose proof (sum_of_pos _ Pos') as S0. change (sum_of (r :: rs)) with (r + sum_of rs) in *.
    destruct (IH ltac:(lra) Pos' Bo') as [A E]. destruct (term_near t r C) as (A1 & _ & _); [eapply Rle_trans; [|apply bpow_le with (e1 := 100%Z); lia]; lra|].
    split; [constructor; auto|]. cbn [map]. change (total (term_of t :: map term_of ts)) with (B2R (term_of t) + total (map term_of ts)). rewrite E. f_equal.
    destruct C as (w & y & W & Y & Y0 & ->). destruct b0 as [b Hb]. rewrite Hb in W. cbn [weighs] in W. unfold term_of. rewrite Hb.
    destruct (val_format _ _ Y) as [Fy Ly]. destruct b; cbn [f_to_f]; subst w.
    - assert (Q : fval (f_mul f_one (snd t)) = Fin y) by (rewrite val_mul, val_one, Y; cbn [xmul]; rewrite Rmult_1_l; apply xround_id; auto). destruct (fval_fin_inv _ _ Q) as [_ ->]. ring.
    - assert (Q : fval (f_mul f_zero (snd t)) = Fin 0) by (rewrite val_mul, val_zero, Y; cbn [xmul]; rewrite Rmult_0_l; apply xround_id; [apply generic_format_0|rewrite Rabs_R0; apply bpow_gt_0]). destruct (fval_fin_inv _ _ Q) as [_ ->]. ring. }
  destruct G as [A E]. pose proof (sum_of_pos _ Pos) as S0.
  assert (N0 : INR (length terms) <= 1000) by (replace 1000 with (INR 1000) by (rewrite INR_IZR_INZ; reflexivity); apply le_INR; auto).
  destruct (sum_near _ _ (accumulate_sum terms) A) as (v & V & V0 & Ev); [rewrite map_length; auto|rewrite E; eapply Rle_trans; [exact B|apply bpow_le; lia]|].
  rewrite E, map_length in Ev. exists v. split; auto. split; auto. eapply Rle_trans; [exact Ev|]. apply Rmult_le_compat_r; [auto|].
  destruct terms as [|t0 terms]; [cbn; lra|]. cbn [length Nat.pred] in *. rewrite S_INR in *. pose proof (pos_INR (length terms)).
  destruct (pow_u (length terms)) as [_ Q]; [lra|]. nra.
Qed.
