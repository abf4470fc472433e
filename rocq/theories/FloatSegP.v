(** Single precision: the segment test on grid points. *)
From Coq Require Import Reals List Bool ZArith Lra Lia Psatz.
From Flocq Require Import Core.Core IEEE754.BinarySingleNaN.
From Verif Require Import Base BaseP LogicM GeometryM FloatM SpecFloat32 FloatP FloatLogicP FloatCmpP FloatAccP.
Import ListNotations.
Open Scope R_scope.
Local Instance p24s : Prec_gt_0 24 := eq_refl.

Definition gr (e : Z) (x : f32) (n : Z) : Prop := fval x = Fin (IZR n * bpow radix2 e).
Lemma gr_round e n : (Z.abs n <= 2 ^ 24)%Z -> (-149 <= e <= 103)%Z -> xround (Fin (IZR n * bpow radix2 e)) = Fin (IZR n * bpow radix2 e).
Proof. intros N E. rewrite <- (val_scaled n e) by lia. apply xround_val. Qed.
Lemma gr_sub e x y i j : gr e x i -> gr e y j -> (Z.abs (i - j) <= 2 ^ 24)%Z -> (-149 <= e <= 103)%Z -> gr e (f_sub x y) (i - j).
Proof.
  unfold gr. intros X Y N E. rewrite val_sub, X, Y. cbn [xsub xopp xadd].
  replace (IZR i * bpow radix2 e + - (IZR j * bpow radix2 e)) with (IZR (i - j) * bpow radix2 e) by (rewrite minus_IZR; ring).
  apply gr_round; auto.
Qed.
Lemma gr_mul e x y i j : gr e x i -> gr e y j -> (Z.abs (i * j) <= 2 ^ 24)%Z -> (-149 <= e + e <= 103)%Z -> gr (e + e) (f_mul x y) (i * j).
Proof.
  unfold gr. intros X Y N E. rewrite val_mul, X, Y. cbn [xmul].
  replace (IZR i * bpow radix2 e * (IZR j * bpow radix2 e)) with (IZR (i * j) * bpow radix2 (e + e)) by (rewrite mult_IZR, bpow_plus; ring).
  apply gr_round; auto.
Qed.
Lemma rnd_ge_inv r f : -1 <= f <= 0 -> f <= rnd r -> f - bpow radix2 (-24) <= r.
Proof.
  intros F H. destruct (Rle_or_lt 0 r) as [P|P]; [pose proof (bpow_gt_0 radix2 (-24)); lra|].
  assert (B : -2 <= r).
  { destruct (Rle_or_lt (-2) r); auto. pose proof (rnd_le r (-2) ltac:(lra)) as K. rewrite (rnd_id (-2)) in K by (apply (format_int (-2)); cbn; lia). lra. }
  assert (E : Rabs (rnd r - r) <= bpow radix2 (1 - 25)) by (apply rnd_err; [lia|]; cbn; apply Rabs_le; lra).
  change (1 - 25)%Z with (-24)%Z in E. apply Rabs_le_inv in E. lra.
Qed.
Lemma rnd_le_inv r f : 0 <= f <= 3 -> rnd r <= f -> r <= f + bpow radix2 (-23).
Proof.
  intros F H. destruct (Rle_or_lt r 0) as [P|P]; [pose proof (bpow_gt_0 radix2 (-23)); lra|].
  assert (B : r <= 4).
  { destruct (Rle_or_lt r 4); auto. pose proof (rnd_le 4 r ltac:(lra)) as K. rewrite (rnd_id 4) in K by (apply (format_int 4); cbn; lia). lra. }
  assert (E : Rabs (rnd r - r) <= bpow radix2 (2 - 25)) by (apply rnd_err; [lia|]; cbn; apply Rabs_le; lra).
  change (2 - 25)%Z with (-23)%Z in E. apply Rabs_le_inv in E. lra.
Qed.

(** The test of one parameter. *)
Lemma f_seg_test_zero num den tol k t : fval den = Fin 0 -> fval tol = Fin t -> 0 <= t <= 1 -> f_seg_test false num den tol k = FB false.
Proof.
  intros D T H. unfold f_seg_test. apply val_eqb_zero in D. rewrite D. unfold f_and, f_less_equal, f_greater_equal. cbn [f_to_b].
  rewrite (val_leb f_inf), val_add, val_one, T. change (fval f_inf) with PInf. cbn [xadd].
  destruct (xround_between 0 2 (1 + t)) as [E _]; try lra; [apply format_0|apply (format_int 2); cbn; lia|rewrite Rabs_R0; lra|rewrite Rabs_pos_eq; lra|].
  rewrite E. cbn. rewrite andb_false_r. reflexivity.
Qed.
Lemma div_small num den a d : fval num = Fin a -> fval den = Fin d -> d <> 0 -> fval (f_div num den) = xround (Fin (a / d)).
Proof. intros A D N. rewrite (val_div _ _ d D N), A. reflexivity. Qed.
Lemma f_seg_test_true num den tol k t a d : fval num = Fin a -> fval den = Fin d -> d <> 0 -> fval tol = Fin t -> 0 <= t <= 1 ->
  f_seg_test false num den tol k = FB true <-> - t <= rnd (a / d) <= rnd (1 + t).
Proof.
  intros A D N T H. unfold f_seg_test. destruct (f_eqb den f_zero) eqn:Z; [apply val_eqb_zero in Z; rewrite D in Z; apply Fin_inj in Z; contradiction|].
  unfold f_and, f_less_equal, f_greater_equal. cbn [f_to_b].
  rewrite !val_leb, val_opp, val_add, val_one, T, (div_small num den a d) by auto. cbn [xopp xadd].
  destruct (xround_between 0 2 (1 + t)) as [E B]; try lra; [apply format_0|apply (format_int 2); cbn; lia|rewrite Rabs_R0; lra|rewrite Rabs_pos_eq; lra|].
  rewrite E. cbn [xround]. destruct (Rltb_spec (Rabs (rnd (a / d))) (bpow radix2 128)) as [X|X].
  - cbn [xleb]. rewrite <- !Rleb_true. split; [intro K; injection K as K; apply andb_prop in K; auto|intros [K1 K2]; rewrite K1, K2; reflexivity].
  - assert (Big : 2 < Rabs (rnd (a / d))) by (pose proof big_large; lra). clear X.
    assert (S : (0 < a / d -> 2 < rnd (a / d)) /\ (a / d <= 0 -> rnd (a / d) < -2)).
    { split; intro S; [pose proof (rnd_pos (a / d) ltac:(lra))|pose proof (rnd_neg (a / d) S)];
      [rewrite Rabs_pos_eq in Big|rewrite Rabs_left1 in Big]; lra. }
    destruct (Rltb_spec 0 (a / d)) as [Y|Y].
    + cbn. split; [discriminate|]. destruct S as [S _]. apply S in Y. lra.
    + cbn. split; [discriminate|]. destruct S as [_ S]. specialize (S ltac:(lra)). lra.
Qed.
Lemma f_seg_test_bool num den tol k : exists b, f_seg_test false num den tol k = FB b.
Proof. unfold f_seg_test, f_and. eexists. reflexivity. Qed.

Lemma f_seg_parts P1 P2 P3 P4 tol k :
  f_segments_intersect false P1 P2 P3 P4 tol k =
  let A := fv_sub P2 P1 in let B := fv_sub P3 P4 in let C := fv_sub P1 P3 in
  f_and false (f_seg_test false (f_sub (f_mul (snd B) (fst C)) (f_mul (fst B) (snd C))) (f_sub (f_mul (snd A) (fst B)) (f_mul (fst A) (snd B))) tol k)
    (f_seg_test false (f_sub (f_mul (fst A) (snd C)) (f_mul (snd A) (fst C))) (f_sub (f_mul (snd A) (fst B)) (f_mul (fst A) (snd B))) tol k).
Proof. reflexivity. Qed.

Lemma prod_bound a b : (Z.abs a <= 2048)%Z -> (Z.abs b <= 2048)%Z -> (Z.abs (a * b) <= 4194304)%Z.
Proof. intros A B. rewrite Z.abs_mul. nia. Qed.
Lemma grid_num e x y z w i j k l : gr e x i -> gr e y j -> gr e z k -> gr e w l ->
  (Z.abs i <= 2048)%Z -> (Z.abs j <= 2048)%Z -> (Z.abs k <= 2048)%Z -> (Z.abs l <= 2048)%Z -> (-74 <= e <= 51)%Z ->
  gr (e + e) (f_sub (f_mul x y) (f_mul z w)) (i * j - k * l).
Proof.
  intros X Y Z W I J K L E. pose proof (prod_bound _ _ I J). pose proof (prod_bound _ _ K L).
  apply gr_sub; [apply gr_mul; auto; lia|apply gr_mul; auto; lia|lia|lia].
Qed.
Lemma grid_segments e P1 P2 P3 P4 Q1 Q2 Q3 Q4 tol k t :
  (-74 <= e <= 51)%Z -> on_grid e P1 Q1 -> on_grid e P2 Q2 -> on_grid e P3 Q3 -> on_grid e P4 Q4 -> fval tol = Fin t -> 0 <= t <= 1 ->
  (parallel Q1 Q2 Q3 Q4 -> f_segments_intersect false P1 P2 P3 P4 tol k = FB false) /\
  (~ parallel Q1 Q2 Q3 Q4 -> crosses (- t) (1 + t) Q1 Q2 Q3 Q4 -> f_segments_intersect false P1 P2 P3 P4 tol k = FB true) /\
  (f_segments_intersect false P1 P2 P3 P4 tol k = FB true -> crosses (- (t + bpow radix2 (-22))) (1 + t + bpow radix2 (-22)) Q1 Q2 Q3 Q4).
Proof.
  intros E (i1 & j1 & I1 & J1 & -> & X1 & Y1) (i2 & j2 & I2 & J2 & -> & X2 & Y2) (i3 & j3 & I3 & J3 & -> & X3 & Y3) (i4 & j4 & I4 & J4 & -> & X4 & Y4) T Ht.
  cbn [fst snd] in *. set (u := bpow radix2 e) in *. assert (U : 0 < u) by apply bpow_gt_0.
  assert (GA : gr e (fst (fv_sub P2 P1)) (i2 - i1) /\ gr e (snd (fv_sub P2 P1)) (j2 - j1)) by (split; cbn [fst snd fv_sub]; apply gr_sub; auto; lia).
  assert (GB : gr e (fst (fv_sub P3 P4)) (i3 - i4) /\ gr e (snd (fv_sub P3 P4)) (j3 - j4)) by (split; cbn [fst snd fv_sub]; apply gr_sub; auto; lia).
  assert (GC : gr e (fst (fv_sub P1 P3)) (i1 - i3) /\ gr e (snd (fv_sub P1 P3)) (j1 - j3)) by (split; cbn [fst snd fv_sub]; apply gr_sub; auto; lia).
  destruct GA as [Ax Ay], GB as [Bx By], GC as [Cx Cy].
  rewrite f_seg_parts. cbv zeta.
  pose proof (grid_num e _ _ _ _ _ _ _ _ By Cx Bx Cy ltac:(lia) ltac:(lia) ltac:(lia) ltac:(lia) E) as Na.
  pose proof (grid_num e _ _ _ _ _ _ _ _ Ax Cy Ay Cx ltac:(lia) ltac:(lia) ltac:(lia) ltac:(lia) E) as Nb.
  pose proof (grid_num e _ _ _ _ _ _ _ _ Ay Bx Ax By ltac:(lia) ltac:(lia) ltac:(lia) ltac:(lia) E) as Nd.
  set (A := fv_sub P2 P1) in *. set (B := fv_sub P3 P4) in *. set (C := fv_sub P1 P3) in *.
  set (fa := f_sub (f_mul (snd B) (fst C)) (f_mul (fst B) (snd C))) in *.
  set (fb := f_sub (f_mul (fst A) (snd C)) (f_mul (snd A) (fst C))) in *.
  set (fd := f_sub (f_mul (snd A) (fst B)) (f_mul (fst A) (snd B))) in *.
  clearbody fa fb fd. unfold gr in Na, Nb, Nd.
  set (na := ((j3 - j4) * (i1 - i3) - (i3 - i4) * (j1 - j3))%Z) in *.
  set (nb := ((i2 - i1) * (j1 - j3) - (j2 - j1) * (i1 - i3))%Z) in *.
  set (nd := ((j2 - j1) * (i3 - i4) - (i2 - i1) * (j3 - j4))%Z) in *.
  assert (U2 : 0 < bpow radix2 (e + e)) by apply bpow_gt_0.
  assert (ND : parallel (IZR i1 * u, IZR j1 * u) (IZR i2 * u, IZR j2 * u) (IZR i3 * u, IZR j3 * u) (IZR i4 * u, IZR j4 * u) <-> nd = 0%Z).
  { unfold parallel. cbn [fst snd]. split; intro H.
    - apply eq_IZR. unfold nd. rewrite minus_IZR, !mult_IZR, !minus_IZR. apply Rmult_eq_reg_r with (u * u); [|nra]. nra.
    - apply (f_equal IZR) in H. unfold nd in H. rewrite minus_IZR, !mult_IZR, !minus_IZR in H. nra. }
  assert (Hand : forall a b, f_and false (FB a) (FB b) = FB (a && b)) by reflexivity.
  split; [|split].
  - intro P. apply ND in P. rewrite P, Rmult_0_l in Nd. rewrite !(f_seg_test_zero _ fd tol k t) by auto. reflexivity.
  - intros NP (s & v & S & V & E1 & E2). cbn [fst snd] in *.
    assert (Nz : nd <> 0%Z) by tauto. assert (Rz : IZR nd <> 0) by (apply not_0_IZR; auto).
    assert (Dz : IZR nd * bpow radix2 (e + e) <> 0) by nra.
    assert (Hx : IZR i1 - IZR i3 = - s * (IZR i2 - IZR i1) - v * (IZR i3 - IZR i4)) by (apply Rmult_eq_reg_r with u; [|lra]; lra).
    assert (Hy : IZR j1 - IZR j3 = - s * (IZR j2 - IZR j1) - v * (IZR j3 - IZR j4)) by (apply Rmult_eq_reg_r with u; [|lra]; lra).
    assert (Es : IZR na = s * IZR nd).
    { unfold na, nd. rewrite !minus_IZR, !mult_IZR, !minus_IZR. rewrite Hx, Hy. ring. }
    assert (Ev : IZR nb = v * IZR nd).
    { unfold nb, nd. rewrite !minus_IZR, !mult_IZR, !minus_IZR. rewrite Hx, Hy. ring. }
    assert (Ft : rnd (- t) = - t) by (apply rnd_id; apply generic_format_opp; apply (val_format tol); auto).
    assert (K : forall n r, IZR n = r * IZR nd -> - t <= r <= 1 + t ->
      - t <= rnd (IZR n * bpow radix2 (e + e) / (IZR nd * bpow radix2 (e + e))) <= rnd (1 + t)).
    { intros n r Q R. replace (IZR n * bpow radix2 (e + e) / (IZR nd * bpow radix2 (e + e))) with r by (rewrite Q; field; split; lra).
      split; [rewrite <- Ft|]; apply rnd_le; lra. }
    rewrite (proj2 (f_seg_test_true fa fd tol k t _ _ Na Nd Dz T Ht) (K na s Es S)).
    rewrite (proj2 (f_seg_test_true fb fd tol k t _ _ Nb Nd Dz T Ht) (K nb v Ev V)). reflexivity.
  - intro H. destruct (Z.eq_dec nd 0) as [Z|Nz].
    { rewrite Z, Rmult_0_l in Nd. rewrite !(f_seg_test_zero _ fd tol k t) in H by auto. discriminate. }
    assert (Rz : IZR nd <> 0) by (apply not_0_IZR; auto). assert (Dz : IZR nd * bpow radix2 (e + e) <> 0) by nra.
    destruct (f_seg_test_bool fa fd tol k) as [ba Ba], (f_seg_test_bool fb fd tol k) as [bb Bb].
    rewrite Ba, Bb, Hand in H. injection H as H. apply andb_prop in H. destruct H as [-> ->].
    apply (f_seg_test_true fa fd tol k t _ _ Na Nd Dz T Ht) in Ba. apply (f_seg_test_true fb fd tol k t _ _ Nb Nd Dz T Ht) in Bb.
    assert (R1 : Rabs (rnd (1 + t) - (1 + t)) <= bpow radix2 (1 - 25)) by (apply rnd_err; [lia|]; cbn; apply Rabs_le; lra).
    change (1 - 25)%Z with (-24)%Z in R1. apply Rabs_le_inv in R1.
    assert (S1 : bpow radix2 (-23) = / 8388608) by (cbn; lra). assert (S2 : bpow radix2 (-22) = / 4194304) by (cbn; lra).
    assert (S3 : bpow radix2 (-24) = / 16777216) by (cbn; lra). rewrite S3 in R1.
    assert (K : forall n, - t <= rnd (IZR n * bpow radix2 (e + e) / (IZR nd * bpow radix2 (e + e))) <= rnd (1 + t) ->
      - (t + bpow radix2 (-22)) <= IZR n / IZR nd <= 1 + t + bpow radix2 (-22)).
    { intros n [K1 K2]. replace (IZR n * bpow radix2 (e + e) / (IZR nd * bpow radix2 (e + e))) with (IZR n / IZR nd) in * by (field; split; lra).
      apply rnd_ge_inv in K1; [|lra]. apply rnd_le_inv in K2; [|lra]. rewrite S2. rewrite S3 in K1. rewrite S1 in K2. lra. }
    exists (IZR na / IZR nd), (IZR nb / IZR nd). split; [apply K; auto|]. split; [apply K; auto|]. cbn [fst snd].
    assert (Dn : IZR nd = (IZR j2 - IZR j1) * (IZR i3 - IZR i4) - (IZR i2 - IZR i1) * (IZR j3 - IZR j4)) by (unfold nd; rewrite !minus_IZR, !mult_IZR, !minus_IZR; reflexivity).
    assert (An : IZR na = (IZR j3 - IZR j4) * (IZR i1 - IZR i3) - (IZR i3 - IZR i4) * (IZR j1 - IZR j3)) by (unfold na; rewrite !minus_IZR, !mult_IZR, !minus_IZR; reflexivity).
    assert (Bn : IZR nb = (IZR i2 - IZR i1) * (IZR j1 - IZR j3) - (IZR j2 - IZR j1) * (IZR i1 - IZR i3)) by (unfold nb; rewrite !minus_IZR, !mult_IZR, !minus_IZR; reflexivity).
    split; (apply Rmult_eq_reg_r with (IZR nd); [|auto]); unfold Rdiv; rewrite !Rmult_plus_distr_r.
    + replace (IZR na * / IZR nd * (IZR i2 * u - IZR i1 * u) * IZR nd) with (IZR na * (IZR i2 * u - IZR i1 * u)) by (field; auto).
      replace (IZR nb * / IZR nd * (IZR i4 * u - IZR i3 * u) * IZR nd) with (IZR nb * (IZR i4 * u - IZR i3 * u)) by (field; auto).
      rewrite An, Bn, Dn. ring.
    + replace (IZR na * / IZR nd * (IZR j2 * u - IZR j1 * u) * IZR nd) with (IZR na * (IZR j2 * u - IZR j1 * u)) by (field; auto).
      replace (IZR nb * / IZR nd * (IZR j4 * u - IZR j3 * u) * IZR nd) with (IZR nb * (IZR j4 * u - IZR j3 * u)) by (field; auto).
      rewrite An, Bn, Dn. ring.
Qed.
