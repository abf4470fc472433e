(** Single precision: negation, and the accuracy of the smoothed comparison. *)
From Coq Require Import Reals List Bool ZArith Lra Lia Psatz.
From Flocq Require Import Core.Core IEEE754.BinarySingleNaN Sterbenz Relative Plus_error.
From Verif Require Import Base BaseP LogicM FloatM SpecFloat32 FloatP FloatLogicP FloatCmpP.
Import ListNotations.
Open Scope R_scope.
Local Instance p24a : Prec_gt_0 24 := eq_refl.

Lemma rnd_err k r : (-125 <= k)%Z -> Rabs r <= bpow radix2 k -> Rabs (rnd r - r) <= bpow radix2 (k - 25).
Proof.
  intros K H. destruct (Rle_lt_or_eq_dec _ _ H) as [L|E].
  - unfold rnd. eapply Rle_trans; [apply error_le_half_ulp; apply (FLT_exp_valid (-149) 24)|].
    destruct (Req_dec r 0) as [->|N].
    + rewrite ulp_FLT_small by (rewrite ?Rabs_R0; try apply bpow_gt_0; auto with typeclass_instances).
      apply Rle_trans with (bpow radix2 (-1) * bpow radix2 (-149)); [cbn [bpow]; cbn; lra|]. rewrite <- bpow_plus. apply bpow_le. lia.
    + rewrite ulp_neq_0 by auto. unfold cexp, FLT_exp. pose proof (mag_le_bpow radix2 r k N L) as M.
      replace (/ 2) with (bpow radix2 (-1)) by (cbn; lra). rewrite <- bpow_plus. apply bpow_le. lia.
  - assert (F : format r).
    { destruct (Rle_or_lt 0 r) as [P|P]; [rewrite Rabs_pos_eq in E by auto; rewrite E|rewrite Rabs_left in E by auto; replace r with (- bpow radix2 k) by lra].
      - apply generic_format_bpow. unfold FLT_exp. lia.
      - apply generic_format_opp. apply generic_format_bpow. unfold FLT_exp. lia. }
    rewrite (rnd_id r F), Rminus_diag_eq, Rabs_R0 by auto. apply bpow_ge_0.
Qed.
Lemma format_sub_half x : format x -> / 2 <= x <= 1 -> format (1 - x).
Proof.
  intros F H. apply sterbenz; auto with typeclass_instances; [apply format_1|lra].
Qed.
Lemma xround_unit r : format r -> 0 <= r <= 1 -> xround (Fin r) = Fin r.
Proof. intros F H. apply xround_id; auto. apply small_range. rewrite Rabs_pos_eq; lra. Qed.
Lemma not_val x r : fval x = Fin r -> 0 <= r <= 1 -> fval (f_sub f_one x) = Fin (rnd (1 - r)) /\ 0 <= rnd (1 - r) <= 1.
Proof.
  intros X H. rewrite val_sub, val_one, X. cbn [xsub xopp xadd].
  apply xround_between; auto using format_0, format_1; rewrite ?Rabs_R0, ?Rabs_R1; lra.
Qed.
Lemma notnot_exact x r : fval x = Fin r -> / 2 <= r <= 1 -> fval (f_sub f_one (f_sub f_one x)) = Fin r.
Proof.
  intros X H. destruct (val_format _ _ X) as [F _]. destruct (not_val x r X) as [E U]; [lra|].
  rewrite rnd_id in * by (apply format_sub_half; auto).
  destruct (not_val _ _ E) as [E' _]; [lra|]. rewrite E'. f_equal. replace (1 - (1 - r)) with r by ring. apply rnd_id. auto.
Qed.
Lemma not_half x r : fval x = Fin r -> 0 <= r <= / 2 -> exists y, fval (f_sub f_one x) = Fin y /\ / 2 <= y <= 1.
Proof.
  intros X H. destruct (not_val x r X) as [E U]; [lra|]. exists (rnd (1 - r)). split; auto. split; [|lra].
  rewrite <- (rnd_id _ half_format). apply rnd_le. lra.
Qed.
Lemma notnot_err x r : fval x = Fin r -> 0 <= r <= 1 -> exists r', fval (f_sub f_one (f_sub f_one x)) = Fin r' /\ Rabs (r' - r) <= bpow radix2 (-25).
Proof.
  intros X H. destruct (Rle_or_lt (/ 2) r) as [L|L].
  - exists r. split; [apply notnot_exact; auto; lra|]. rewrite Rminus_diag_eq, Rabs_R0 by auto. apply bpow_ge_0.
  - destruct (not_val x r X H) as [E U]. destruct (not_half x r X) as (y & E' & Y); [lra|]. rewrite E in E'. apply Fin_inj in E'. subst y.
    set (y := rnd (1 - r)) in *. destruct (not_val _ _ E) as [E2 _]; [lra|]. exists (1 - y). split.
    + rewrite E2. f_equal. apply rnd_id. apply format_sub_half; auto. apply rnd_format.
    + assert (B : Rabs (y - (1 - r)) <= bpow radix2 (0 - 25)) by (apply rnd_err; [lia|]; cbn; rewrite Rabs_pos_eq; lra).
      change (0 - 25)%Z with (-25)%Z in B. replace (1 - y - r) with (- (y - (1 - r))) by ring. rewrite Rabs_Ropp. auto.
Qed.
Lemma notnotnot x r : fval x = Fin r -> 0 <= r <= 1 -> fval (f_sub f_one (f_sub f_one (f_sub f_one x))) = fval (f_sub f_one x).
Proof.
  intros X H. destruct (Rle_or_lt (/ 2) r) as [L|L].
  - rewrite val_sub, (notnot_exact x r X ltac:(lra)), (val_sub f_one x), X. reflexivity.
  - destruct (not_half x r X) as (y & E & Y); [lra|]. rewrite E. apply notnot_exact; auto.
Qed.
(** De Morgan, through the values. *)
Lemma not_max x y : fval (f_sub f_one (f_max x y)) = fval (f_min (f_sub f_one x) (f_sub f_one y)).
Proof.
  rewrite val_min, !val_sub, val_max, val_one. destruct (fval x) as [a| | |] eqn:X, (fval y) as [b| | |] eqn:Y; try reflexivity.
  - cbn [xmax xsub xopp xadd]. destruct (val_format _ _ X) as [Fa Ba]. destruct (val_format _ _ Y) as [Fb Bb].
    assert (M : forall a b, a <= b -> xround (Fin (1 + - b)) = xmin (xround (Fin (1 + - a))) (xround (Fin (1 + - b)))).
    { intros u v L. assert (K : xle (xround (Fin (1 + - v))) (xround (Fin (1 + - u)))) by (apply xround_le, xle_fin; lra).
      destruct (xround (Fin (1 + - v))) eqn:E1, (xround (Fin (1 + - u))) eqn:E2; try discriminate; try reflexivity.
      apply xle_fin in K. cbn. rewrite Rmin_right; auto. }
    unfold Rmax. destruct (Rle_dec a b).
    + apply M. auto.
    + etransitivity; [apply (M b a); lra|]. destruct (xround (Fin (1 + - b))), (xround (Fin (1 + - a))); cbn; try reflexivity. rewrite Rmin_comm. reflexivity.
  - cbn [xmax xsub xopp xadd]; match goal with |- context [xround (Fin ?e)] =>
    let N := fresh in pose proof (proj1 (xround_nan (Fin e))) as N; destruct (xround (Fin e)); try reflexivity; try discriminate (N eq_refl) end.
  - cbn [xmax xsub xopp xadd]; match goal with |- context [xround (Fin ?e)] =>
    let N := fresh in pose proof (proj1 (xround_nan (Fin e))) as N; destruct (xround (Fin e)); try reflexivity; try discriminate (N eq_refl) end.
  - cbn [xmax xsub xopp xadd]; match goal with |- context [xround (Fin ?e)] =>
    let N := fresh in pose proof (proj1 (xround_nan (Fin e))) as N; destruct (xround (Fin e)); try reflexivity; try discriminate (N eq_refl) end.
  - cbn [xmax xsub xopp xadd]; match goal with |- context [xround (Fin ?e)] =>
    let N := fresh in pose proof (proj1 (xround_nan (Fin e))) as N; destruct (xround (Fin e)); try reflexivity; try discriminate (N eq_refl) end.
  - cbn [xmax xsub xopp xadd]; match goal with |- context [xround (Fin ?e)] =>
    let N := fresh in pose proof (proj1 (xround_nan (Fin e))) as N; destruct (xround (Fin e)); try reflexivity; try discriminate (N eq_refl) end.
Qed.
Lemma not_min x y : fval (f_sub f_one (f_min x y)) = fval (f_max (f_sub f_one x) (f_sub f_one y)).
Proof.
  rewrite val_max, !val_sub, val_min, val_one. destruct (fval x) as [a| | |] eqn:X, (fval y) as [b| | |] eqn:Y; try reflexivity.
  - cbn [xmin xsub xopp xadd]. destruct (val_format _ _ X) as [Fa Ba]. destruct (val_format _ _ Y) as [Fb Bb].
    assert (M : forall a b, a <= b -> xround (Fin (1 + - a)) = xmax (xround (Fin (1 + - a))) (xround (Fin (1 + - b)))).
    { intros u v L. assert (K : xle (xround (Fin (1 + - v))) (xround (Fin (1 + - u)))) by (apply xround_le, xle_fin; lra).
      destruct (xround (Fin (1 + - v))) eqn:E1, (xround (Fin (1 + - u))) eqn:E2; try discriminate; try reflexivity.
      apply xle_fin in K. cbn. rewrite Rmax_left; auto. }
    unfold Rmin. destruct (Rle_dec a b).
    + apply M. auto.
    + etransitivity; [apply (M b a); lra|]. destruct (xround (Fin (1 + - b))), (xround (Fin (1 + - a))); cbn; try reflexivity. rewrite Rmax_comm. reflexivity.
  - cbn [xmin xsub xopp xadd]; match goal with |- context [xround (Fin ?e)] =>
    let N := fresh in pose proof (proj1 (xround_nan (Fin e))) as N; destruct (xround (Fin e)); try reflexivity; try discriminate (N eq_refl) end.
  - cbn [xmin xsub xopp xadd]; match goal with |- context [xround (Fin ?e)] =>
    let N := fresh in pose proof (proj1 (xround_nan (Fin e))) as N; destruct (xround (Fin e)); try reflexivity; try discriminate (N eq_refl) end.
  - cbn [xmin xsub xopp xadd]; match goal with |- context [xround (Fin ?e)] =>
    let N := fresh in pose proof (proj1 (xround_nan (Fin e))) as N; destruct (xround (Fin e)); try reflexivity; try discriminate (N eq_refl) end.
  - cbn [xmin xsub xopp xadd]; match goal with |- context [xround (Fin ?e)] =>
    let N := fresh in pose proof (proj1 (xround_nan (Fin e))) as N; destruct (xround (Fin e)); try reflexivity; try discriminate (N eq_refl) end.
  - cbn [xmin xsub xopp xadd]; match goal with |- context [xround (Fin ?e)] =>
    let N := fresh in pose proof (proj1 (xround_nan (Fin e))) as N; destruct (xround (Fin e)); try reflexivity; try discriminate (N eq_refl) end.
Qed.

(** ** Accuracy *)
Lemma rel_sub (x y : f32) : exists e, Rabs e <= bpow radix2 (-24) /\ rnd (B2R x - B2R y) = (B2R x - B2R y) * (1 + e).
Proof.
  destruct (Rle_or_lt (Rabs (B2R x - B2R y)) (bpow radix2 (24 + -149))) as [S|S].
  - exists 0. rewrite Rabs_R0. split; [apply bpow_ge_0|]. rewrite Rplus_0_r, Rmult_1_r. apply rnd_id. unfold Rminus in *.
    apply (FLT_format_plus_small radix2 (-149) 24); auto; [apply format_val|apply generic_format_opp, format_val].
  - destruct (relative_error_N_FLT_ex radix2 (-149) 24 eq_refl (fun z => negb (Z.even z)) (B2R x - B2R y)) as (e & E & H).
    { apply Rlt_le. eapply Rle_lt_trans; [|exact S]. apply bpow_le. lia. }
    exists e. split; auto. eapply Rle_trans; [exact E|]. cbn. lra.
Qed.
Lemma rel_mul r : exists e h, Rabs e <= bpow radix2 (-24) /\ Rabs h <= bpow radix2 (-150) /\ rnd r = r * (1 + e) + h.
Proof.
  destruct (error_N_FLT radix2 (-149) 24 eq_refl (fun z => negb (Z.even z)) r) as (e & h & E & H & _ & Q).
  exists e, h. split; [eapply Rle_trans; [exact E|]; cbn; lra|]. split; auto.
  eapply Rle_trans; [exact H|]. replace (/ 2) with (bpow radix2 (-1)) by (cbn; lra). rewrite <- bpow_plus. apply bpow_le. lia.
Qed.
Lemma clip_lip a b d : Rabs (a - b) <= d -> Rabs (Rmin (Rmax a 0) 6 - Rmin (Rmax b 0) 6) <= d.
Proof. intro H. apply Rabs_le_inv in H. apply Rabs_le. unfold Rmin, Rmax. repeat destruct (Rle_dec _ _); lra. Qed.
Lemma hs_close inv (m w : R) : Rabs w <= 3 -> Rabs (m - w) <= 4 * bpow radix2 (-23) ->
  exists v, hs_val inv (Fin m) = Fin v /\ Rabs (v - Rmin (Rmax (w + 3) 0) 6 / 6) <= bpow radix2 (-22).
Proof.
  intros W M. unfold hs_val. cbn [xadd].
  assert (S1 : bpow radix2 (-23) = / 8388608) by (cbn; lra). assert (S2 : bpow radix2 (-22) = / 4194304) by (cbn; lra).
  assert (S3 : bpow radix2 (-24) = / 16777216) by (cbn; lra). assert (S4 : bpow radix2 3 = 8) by (cbn; lra). assert (S5 : bpow radix2 1 = 2) by (cbn; lra).
  apply Rabs_le_inv in W. apply Rabs_le_inv in M.
  assert (B : Rabs (m + 3) <= bpow radix2 3) by (apply Rabs_le; lra).
  pose proof (rnd_err 3 (m + 3) ltac:(lia) B) as E. change (3 - 25)%Z with (-22)%Z in E. apply Rabs_le_inv in E. rewrite S4 in B. apply Rabs_le_inv in B.
  assert (X : xround (Fin (m + 3)) = Fin (rnd (m + 3))).
  { cbn [xround]. destruct (Rltb_spec (Rabs (rnd (m + 3))) (bpow radix2 128)) as [Y|Y]; auto. elim Y. apply small_range. apply Rabs_le. lra. }
  rewrite X. unfold clip. cbn [xmax xmin xmul].
  pose proof (clip_lip (rnd (m + 3)) (w + 3) (6 * bpow radix2 (-23))) as L. specialize (L ltac:(apply Rabs_le; lra)).
  set (c := Rmin (Rmax (rnd (m + 3)) 0) 6) in *. set (c' := Rmin (Rmax (w + 3) 0) 6) in *.
  assert (C : 0 <= c <= 6) by (unfold c, Rmin, Rmax; repeat destruct (Rle_dec _ _); lra).
  assert (C' : 0 <= c' <= 6) by (unfold c', Rmin, Rmax; repeat destruct (Rle_dec _ _); lra). clearbody c c'.
  destruct (hs_range inv c C) as (v & V & U). exists v. split; auto.
  assert (Q : exists q, (if inv then rnd (1 * / 6) else / 6) = q /\ / 6 - / 2 * / 8388608 * / 16 <= q <= / 6 + / 8388608 * / 16).
  { destruct inv; [rewrite rnd_sixth_eq|]; eexists; (split; [reflexivity|]); [cbn; lra|lra]. }
  destruct Q as (q & Q0 & Q). rewrite Q0 in V. cbn [xround] in V. destruct (Rltb _ _); [|destruct (Rltb _ _); discriminate]. apply Fin_inj in V. subst v.
  assert (P : c / 6 - 6 * (/ 8388608 * / 16) <= c * q <= c / 6 + 6 * (/ 8388608 * / 16)) by nra.
  assert (E2 : Rabs (rnd (c * q) - c * q) <= bpow radix2 (1 - 25)) by (apply rnd_err; [lia|]; rewrite S5; apply Rabs_le; lra).
  change (1 - 25)%Z with (-24)%Z in E2. apply Rabs_le_inv in E2. apply Rabs_le_inv in L. apply Rabs_le. lra.
Qed.
Lemma hs_top inv : hs_val inv (Fin (12582911 * bpow radix2 (-22))) = Fin 1.
Proof.
  assert (E : fval (hs_fun inv (f_scaled 12582911 (-22)) f_one) = Fin (8388608 * bpow radix2 (-23))).
  { apply (fval_of_SF _ false). destruct inv; vm_compute; reflexivity. }
  rewrite val_hs, val_mul, val_one, val_scaled in E by (cbn; lia). cbn [xmul] in E. rewrite Rmult_1_l in E.
  rewrite xround_id in E; [rewrite E; f_equal; cbn; lra|apply format_scaled; cbn; lia|]. apply small_range. rewrite Rabs_pos_eq; cbn; lra.
Qed.
Lemma hs_bottom inv : exists v, hs_val inv (Fin (-12582911 * bpow radix2 (-22))) = Fin v /\ 0 <= v <= bpow radix2 (-22).
Proof.
  assert (E : fval (hs_fun inv (f_scaled (-12582911) (-22)) f_one) = Fin (11184811 * bpow radix2 (-48))).
  { apply (fval_of_SF _ false). destruct inv; vm_compute; reflexivity. }
  rewrite val_hs, val_mul, val_one, val_scaled in E by (cbn; lia). cbn [xmul] in E. rewrite Rmult_1_l in E.
  exists (11184811 * bpow radix2 (-48)). split; [|cbn; lra].
  rewrite xround_id in E; [exact E|apply format_scaled; cbn; lia|]. apply small_range. apply Rabs_le. cbn. lra.
Qed.
Lemma hs_accuracy inv alpha a x y rx ry : fval alpha = Fin a -> 0 < a -> fval x = Fin rx -> fval y = Fin ry -> finite (f_sub x y) ->
  exists v, fval (hs_fun inv (f_sub x y) alpha) = Fin v /\
    Rabs (v - Rmin (Rmax (a * (rx - ry) + 3) 0) 6 / 6) <= bpow radix2 (-22).
Proof.
  intros A P X Y [d D]. rewrite val_hs, val_mul, A, D. cbn [xmul].
  assert (E : exists e, Rabs e <= bpow radix2 (-24) /\ d = (rx - ry) * (1 + e)).
  { rewrite val_sub, X, Y in D. cbn [xsub xadd xopp xround] in D. destruct (Rltb _ _); [|destruct (Rltb _ _); discriminate]. apply Fin_inj in D.
    apply fval_fin_inv in X. apply fval_fin_inv in Y. destruct X as [_ X], Y as [_ Y]. subst rx ry d. apply rel_sub. }
  destruct E as (e & E & Q). set (w := a * (rx - ry)). assert (W : a * d = w * (1 + e)) by (unfold w; rewrite Q; ring). rewrite W.
  assert (S1 : bpow radix2 (-23) = / 8388608) by (cbn; lra). assert (S2 : bpow radix2 (-22) = / 4194304) by (cbn; lra).
  assert (S3 : bpow radix2 (-24) = / 16777216) by (cbn; lra). rewrite S3 in E. apply Rabs_le_inv in E.
  assert (FT : format (12582911 * bpow radix2 (-22))) by (apply format_scaled; cbn; lia).
  assert (FB : format (-12582911 * bpow radix2 (-22))) by (apply format_scaled; cbn; lia).
  clearbody w. clear W Q D X Y. destruct (Rle_or_lt (Rabs w) 3) as [S|S].
  - destruct (rel_mul (w * (1 + e))) as (e2 & h & E2 & H & R). rewrite S3 in E2. apply Rabs_le_inv in E2. apply Rabs_le_inv in S.
    assert (HH : Rabs h <= / 16777216) by (eapply Rle_trans; [exact H|]; rewrite <- S3; apply bpow_le; lia). apply Rabs_le_inv in HH.
    assert (M : Rabs (rnd (w * (1 + e)) - w) <= 4 * bpow radix2 (-23)).
    { rewrite R, S1. replace (w * (1 + e) * (1 + e2) + h - w) with (w * (e + e2 + e * e2) + h) by ring.
      assert (G : - (2 * / 16777216 + / 1000000000000) <= e + e2 + e * e2 <= 2 * / 16777216 + / 1000000000000) by nra.
      set (g := e + e2 + e * e2) in *. clearbody g. apply Rabs_le. nra. }
    assert (B : xround (Fin (w * (1 + e))) = Fin (rnd (w * (1 + e)))).
    { cbn [xround]. destruct (Rltb_spec (Rabs (rnd (w * (1 + e)))) (bpow radix2 128)) as [Z|Z]; auto. elim Z. apply small_range.
      rewrite S1 in M. apply Rabs_le_inv in M. apply Rabs_le. lra. }
    rewrite B. apply hs_close; auto. apply Rabs_le. lra.
  - destruct (Rle_or_lt 0 w) as [N|N].
    + rewrite Rabs_pos_eq in S by auto.
      assert (L : xle (Fin (12582911 * bpow radix2 (-22))) (xround (Fin (w * (1 + e))))).
      { rewrite <- (xround_id _ FT) by (apply small_range; rewrite Rabs_pos_eq; cbn; lra). apply xround_le, xle_fin. rewrite S2. nra. }
      pose proof (hs_val_le inv _ _ L) as K. rewrite hs_top in K.
      destruct (hs_val_unit inv (xround (Fin (w * (1 + e))))) as (v & V & U); [rewrite xround_nan; discriminate|].
      rewrite V in *. apply xle_fin in K. exists v. split; auto. rewrite Rmax_left, Rmin_right by lra. rewrite S2. apply Rabs_le. lra.
    + rewrite Rabs_left in S by auto.
      assert (L : xle (xround (Fin (w * (1 + e)))) (Fin (-12582911 * bpow radix2 (-22)))).
      { rewrite <- (xround_id _ FB) by (apply small_range; apply Rabs_le; cbn; lra). apply xround_le, xle_fin. rewrite S2. nra. }
      pose proof (hs_val_le inv _ _ L) as K. destruct (hs_bottom inv) as (b & Eb & B). rewrite Eb in K.
      destruct (hs_val_unit inv (xround (Fin (w * (1 + e))))) as (v & V & U); [rewrite xround_nan; discriminate|].
      rewrite V in *. apply xle_fin in K. exists v. split; auto. rewrite Rmax_right, Rmin_left by lra. rewrite S2 in *. apply Rabs_le. lra.
Qed.
