(** The image method in single precision: is the reflection point on the wall? *)
From Coq Require Import Reals List Bool ZArith Lra Lia Psatz.
From Flocq Require Import Core.Core IEEE754.BinarySingleNaN.
From Verif Require Import Base BaseP LogicM GeometryM PathM PathP FloatM SpecFloat32 FloatP FloatLogicP FloatCmpP FloatAccP FloatGeomP FloatSegP FloatGridP FloatBoundP FloatImageM SpecImage32 FloatImageP FloatImageErrP FloatImageChainP FloatImageLossP FloatImagePathP.
Import ListNotations.
Open Scope R_scope.

(** The test on a wall of length [T] (signed) from a point at [u] from its origin. *)
Lemma format_bp k : (-149 <= k)%Z -> format (bpow radix2 k). Proof. apply bpow_format. Qed.
Lemma rnd_between lo hi r : format lo -> format hi -> lo <= r <= hi -> lo <= rnd r <= hi.
Proof. intros A B [C D]. rewrite <- (rnd_id lo A), <- (rnd_id hi B). split; apply rnd_le; auto. Qed.

Section Contains.
Variables (d : axis) (N e : Z) (w : fwall) (c : R) (p : fvec) (x : R) (a b : R * R) (k : fkw).
Context (HN : (0 <= N <= 1024)%Z) (E : (-60 <= e <= 50)%Z) (W : axis_wall N e w (d, c)).
Context (A : stands_for (fw_origin w) a) (B : stands_for (fw_dest w) b).
Context (X : fval (along d p) = Fin x) (Xb : Rabs x <= 2048 * bpow radix2 e) (Y : fval (across d p) = Fin c).
Let st := bpow radix2 e.
Let T := along d b - along d a.
Let o := rnd (x - along d a).

Lemma c_pos : 0 < st. Proof. apply bpow_gt_0. Qed.
Lemma stands_along v q : stands_for v q -> fval (along d v) = Fin (along d q) /\ fval (across d v) = Fin (across d q).
Proof. intros [H1 H2]. destruct d; cbn [along across]; auto. Qed.
Lemma ends : exists i1 i2, (Z.abs i1 <= N)%Z /\ (Z.abs i2 <= N)%Z /\ i1 <> i2 /\ along d a = IZR i1 * st /\ along d b = IZR i2 * st /\ across d a = c /\ across d b = c /\
  gr e (along d (fw_origin w)) i1 /\ gr e (along d (fw_dest w)) i2 /\ exists m, (Z.abs m <= N)%Z /\ c = IZR m * st.
Proof.
  destruct W as (a' & b' & A' & B' & C1 & C2 & Ne). cbn [fst snd] in C1, C2, Ne.
  apply (within_at d) in A', B'. destruct A' as (i1 & j1 & I1 & J1 & [Gx Gy] & Qa). destruct B' as (i2 & j2 & I2 & J2 & [Hx Hy] & Qb).
  destruct (stands_along _ _ A) as [SA1 SA2]. destruct (stands_along _ _ B) as [SB1 SB2].
  rewrite Qa, Qb in *. rewrite along_pair in *. rewrite across_pair in *. rewrite along_pair in Ne.
  unfold gr in Gx, Gy, Hx, Hy. rewrite Gx in SA1. rewrite Gy in SA2. rewrite Hx in SB1. rewrite Hy in SB2. injection SA1 as SA1. injection SA2 as SA2. injection SB1 as SB1. injection SB2 as SB2.
  exists i1, i2. split; [auto|]. split; [auto|]. split; [intros ->; apply Ne; reflexivity|]. split; [symmetry; exact SA1|]. split; [symmetry; exact SB1|].
  split; [lra|]. split; [lra|]. split; [exact Gx|]. split; [exact Hx|]. exists j1. split; auto.
Qed.
Lemma c2p_val : exists t, fval (f_c2p w p) = xround (Fin t) /\ t = rnd (T * o) / (T * T) /\ st <= Rabs T <= 2048 * st /\ format T /\ format (T * T) /\ Rabs (T * o) <= bpow radix2 126.
Proof.
  destruct ends as (i1 & i2 & I1 & I2 & Ne & A1 & B1 & A2 & B2 & Go & Gd & m & Hm & Cm). pose proof c_pos as S0.
  assert (Tv : T = IZR (i2 - i1) * st) by (unfold T; rewrite A1, B1, minus_IZR; ring).
  assert (GT : gr e (along d (fw_t w)) (i2 - i1)) by (unfold fw_t; rewrite along_sub; apply gr_sub; auto; lia).
  assert (ZT : fval (across d (fw_t w)) = Fin 0).
  { destruct (stands_along _ _ A) as [_ SA2]. destruct (stands_along _ _ B) as [_ SB2]. unfold fw_t. rewrite across_sub, val_sub, SA2, SB2, A2, B2. cbn [xsub xadd xopp].
    replace (c + - c) with 0 by ring. apply xround_zero. }
  assert (ZO : fval (across d (fv_sub p (fw_origin w))) = Fin 0).
  { destruct (stands_along _ _ A) as [_ SA2]. rewrite across_sub, val_sub, SA2, Y, A2. cbn [xsub xadd xopp]. replace (c + - c) with 0 by ring. apply xround_zero. }
  assert (Ar : Rabs (along d a) <= 1024 * st).
  { rewrite A1, Rabs_mult, (Rabs_pos_eq st), <- abs_IZR by lra. assert (IZR (Z.abs i1) <= 1024) by (apply IZR_le; lia). nra. }
  assert (Ob : Rabs (x - along d a) <= st * bpow radix2 12).
  { change (bpow radix2 12) with 4096. eapply Rle_trans; [apply Rabs_triang|]. rewrite Rabs_Ropp. fold st in Xb. lra. }
  assert (VO : fval (along d (fv_sub p (fw_origin w))) = Fin o).
  { destruct (stands_along _ _ A) as [SA1 _]. rewrite along_sub, val_sub, SA1, X. cbn [xsub xadd xopp]. apply fin_round. apply (range_at e 12); [lia|exact Ob]. }
  assert (Or : Rabs o <= 4096 * st).
  { destruct (round_bd (e + 12) (x - along d a) ltac:(lia)) as (q & Q1 & Q2); [rewrite bp; exact Ob|].
    rewrite fin_round in Q1 by (apply (range_at e 12); [lia|exact Ob]). injection Q1 as Q1. fold o in Q1. rewrite Q1. rewrite bp in Q2. change (bpow radix2 12) with 4096 in Q2. fold st in Q2. lra. }
  assert (Tb : st <= Rabs T <= 2048 * st).
  { rewrite Tv, Rabs_mult, (Rabs_pos_eq st), <- abs_IZR by lra. assert (1 <= IZR (Z.abs (i2 - i1)) <= 2048) by (split; apply IZR_le; lia). nra. }
  assert (TOb : Rabs (T * o) <= bpow radix2 (e + e) * bpow radix2 23).
  { rewrite Rabs_mult, bp. fold st. change (bpow radix2 23) with 8388608. pose proof (Rabs_pos o). pose proof (Rabs_pos T). nra. }
  assert (VT : fval (f_mul (along d (fw_t w)) (along d (fv_sub p (fw_origin w)))) = Fin (rnd (T * o))).
  { rewrite val_mul, VO, GT. cbn [xmul]. fold st. rewrite <- Tv. apply fin_round. apply (range_at (e + e) 23); [lia|exact TOb]. }
  assert (VD : fval (f_dot (fw_t w) (fv_sub p (fw_origin w))) = Fin (rnd (T * o))).
  { assert (Z0 : fval (f_mul (across d (fw_t w)) (across d (fv_sub p (fw_origin w)))) = Fin 0) by (apply mul_zero_r; [auto|eexists; eauto]).
    rewrite <- VT. unfold f_dot. destruct d; cbn [along across] in *; [apply add_zero_val|apply zero_add_val]; auto. }
  assert (G2 : gr (e + e) (f_mul (along d (fw_t w)) (along d (fw_t w))) ((i2 - i1) * (i2 - i1))) by (apply gr_mul; auto; [rewrite Z.abs_mul; nia|lia]).
  assert (VS : fval (f_dot (fw_t w) (fw_t w)) = Fin (T * T)).
  { assert (Z0 : fval (f_mul (across d (fw_t w)) (across d (fw_t w))) = Fin 0) by (apply mul_zero_r; [auto|eexists; eauto]).
    transitivity (fval (f_mul (along d (fw_t w)) (along d (fw_t w)))).
    - unfold f_dot. destruct d; cbn [along across] in *; [apply add_zero_val|apply zero_add_val]; auto.
    - rewrite G2. f_equal. rewrite Tv, bp, mult_IZR. unfold st. ring. }
  assert (T0 : T <> 0) by (intro Z; rewrite Z, Rabs_R0 in Tb; lra).
  assert (TT0 : T * T <> 0) by (apply Rmult_integral_contrapositive_currified; auto).
  exists (rnd (T * o) / (T * T)). split; [|split; [reflexivity|split; [exact Tb|split; [|split]]]].
  - unfold f_c2p. cbv zeta. destruct (f_eqb (f_dot (fw_t w) (fw_t w)) f_zero) eqn:Q; [apply val_eqb_zero in Q; rewrite VS in Q; injection Q as Q; lra|].
    rewrite (val_div _ _ _ VS TT0), VD. reflexivity.
  - rewrite Tv. apply format_scaled; lia.
  - replace (T * T) with (IZR ((i2 - i1) * (i2 - i1)) * bpow radix2 (e + e)) by (rewrite Tv, bp, mult_IZR; unfold st; ring). apply format_scaled; [rewrite Z.abs_mul; nia|lia].
  - eapply Rle_trans; [exact TOb|]. rewrite <- bp. apply bpow_le. lia.
Qed.
Lemma contains_inside : Rmin (along d a) (along d b) <= x <= Rmax (along d a) (along d b) -> f_contains false (f_c2p w p) k = FB true.
Proof.
  intro I. destruct c2p_val as (t & V & -> & Tb & FT & FTT & _). apply (contains_true _ _ k (eq_sym V)). pose proof c_pos as S0.
  assert (T0 : T <> 0) by (intro Z; rewrite Z, Rabs_R0 in Tb; lra). assert (TT : 0 < T * T) by (apply Rsqr_pos_lt; auto).
  assert (To : 0 <= T * o <= T * T).
  { destruct (Rle_or_lt 0 T) as [Sg|Sg].
    - assert (Q : 0 <= x - along d a <= T) by (unfold T in *; rewrite Rmin_left, Rmax_right in I by lra; lra).
      pose proof (rnd_between 0 T _ (format_0) FT Q) as R. fold o in R. nra.
    - assert (Q : T <= x - along d a <= 0) by (unfold T in *; rewrite Rmin_right, Rmax_left in I by lra; lra).
      pose proof (rnd_between T 0 _ FT (format_0) Q) as R. fold o in R. nra. }
  pose proof (rnd_between 0 (T * T) _ format_0 FTT To) as R. apply rnd_between; [apply format_0|apply (format_int 1); cbn; lia|].
  split; [apply Rmult_le_pos; [lra|left; apply Rinv_0_lt_compat; lra]|]. apply Rmult_le_reg_r with (T * T); [lra|]. unfold Rdiv. rewrite Rmult_assoc, Rinv_l by lra. lra.
Qed.
Lemma contains_outside : x <= Rmin (along d a) (along d b) - st / 128 \/ Rmax (along d a) (along d b) + st / 128 <= x -> f_contains false (f_c2p w p) k = FB true -> False.
Proof.
  intros O C. destruct c2p_val as (t & V & -> & Tb & FT & FTT & TO). apply (contains_true _ _ k (eq_sym V)) in C. pose proof c_pos as S0.
  assert (T0 : T <> 0) by (intro Z; rewrite Z, Rabs_R0 in Tb; lra). assert (TT : 0 < T * T) by (apply Rsqr_pos_lt; auto).
  assert (Ta : T * T = Rabs T * Rabs T) by (rewrite <- Rabs_mult, Rabs_pos_eq; lra).
  assert (TTs : st * st <= T * T <= 4194304 * (st * st)) by (rewrite Ta; nra).
  assert (TI : 0 < / (T * T)) by (apply Rinv_0_lt_compat; lra).
  assert (F2 : forall j, (-29 <= j)%Z -> format (bpow radix2 (e + e + j)) /\ bpow radix2 (e + e + j) = st * st * bpow radix2 j).
  { intros j J. split; [apply format_bp; lia|]. rewrite !bp. reflexivity. }
  assert (F1 : format (st / 128)).
  { replace (st / 128) with (bpow radix2 (e + -7)) by (rewrite bp; unfold st; change (bpow radix2 (-7)) with (/ 128); lra). apply format_bp. lia. }
  (* on the wrong side of the origin, or beyond the other end *)
  assert (Cases : T * (x - along d a) <= - (Rabs T * (st / 128)) \/ T * T + Rabs T * (st / 128) <= T * (x - along d a)).
  { destruct (Rle_or_lt 0 T) as [Sg|Sg]; [rewrite (Rabs_pos_eq T) by lra|rewrite (Rabs_left T) by lra]; unfold T in *;
      [rewrite Rmin_left, Rmax_right in O by lra|rewrite Rmin_right, Rmax_left in O by lra]; destruct O as [O|O].
    - left. nra.
    - right. nra.
    - right. nra.
    - left. nra. }
  destruct Cases as [H|H].
  - assert (Ho : T * o <= - (st * st / 128)).
    { destruct (Rle_or_lt 0 T) as [Sg|Sg].
      - rewrite (Rabs_pos_eq T) in * by lra. assert (Q : x - along d a <= - (st / 128)) by (apply Rmult_le_reg_l with T; lra).
        assert (R : o <= - (st / 128)). { rewrite <- (rnd_id (- (st / 128))) by (apply generic_format_opp; exact F1). apply rnd_le. lra. } nra.
      - rewrite (Rabs_left T) in * by lra. assert (Q : st / 128 <= x - along d a) by (apply Rmult_le_reg_l with (- T); lra).
        assert (R : st / 128 <= o). { rewrite <- (rnd_id (st / 128)) by exact F1. apply rnd_le. lra. } nra. }
    destruct (F2 (-7)%Z ltac:(lia)) as [F7 E7]. change (bpow radix2 (-7)) with (/ 128) in E7.
    assert (R : rnd (T * o) <= - (st * st / 128)).
    { replace (- (st * st / 128)) with (- bpow radix2 (e + e + -7)) by (rewrite E7; lra). rewrite <- (rnd_id (- bpow radix2 (e + e + -7))) by (apply generic_format_opp; exact F7). apply rnd_le. rewrite E7. lra. }
    assert (Q : rnd (T * o) / (T * T) <= - bpow radix2 (-29)).
    { apply Rmult_le_reg_r with (T * T); [lra|]. unfold Rdiv. rewrite Rmult_assoc, Rinv_l by lra. change (bpow radix2 (-29)) with (/ 536870912). lra. }
    pose proof (rnd_le _ _ Q) as Q'. rewrite rnd_opp, (rnd_id (bpow radix2 (-29))) in Q' by (apply format_bp; lia). pose proof (bpow_gt_0 radix2 (-29)). lra.
  - assert (Tp : T * T * (1 + / 262144) <= T * (x - along d a)).
    { eapply Rle_trans; [|exact H]. rewrite Ta. nra. }
    destruct (eta_small e) as [Et1 Et2]; auto. fold st in Et1, Et2.
    assert (Ro : T * (x - along d a) * (1 - / 8000000) <= T * o).
    { pose proof (rnd_rel (x - along d a)) as Q. fold o in Q.
      assert (Q2 : Rabs (T * (o - (x - along d a))) <= Rabs T * (/ 16777216 * Rabs (x - along d a) + bpow radix2 (-150))) by (rewrite Rabs_mult; apply Rmult_le_compat_l; [apply Rabs_pos|exact Q]).
      assert (Q3 : Rabs T * Rabs (x - along d a) = T * (x - along d a)) by (rewrite <- Rabs_mult, Rabs_pos_eq; nra).
      assert (Q4 : Rabs T * bpow radix2 (-150) <= T * T * / 1000000000) by (rewrite Ta; pose proof (bpow_ge_0 radix2 (-150)); nra).
      apply Rabs_le_inv in Q2. nra. }
    assert (Tq : T * T * (1 + / 300000) <= T * o) by nra.
    assert (Rq : T * T * (1 + / 400000) <= rnd (T * o)).
    { pose proof (rnd_rel (T * o)) as Q. rewrite (Rabs_pos_eq (T * o)) in Q by nra. apply Rabs_le_inv in Q. nra. }
    assert (Q : 1 + / 1048576 <= rnd (T * o) / (T * T)).
    { apply Rmult_le_reg_r with (T * T); [lra|]. unfold Rdiv. rewrite Rmult_assoc, Rinv_l by lra. nra. }
    assert (F3 : format (1 + / 1048576)).
    { replace (1 + / 1048576) with (IZR 1048577 * bpow radix2 (-20)) by (change (bpow radix2 (-20)) with (/ 1048576); field). apply format_scaled; cbn; lia. }
    pose proof (rnd_le _ _ Q) as Q'. rewrite (rnd_id _ F3) in Q'. lra.
Qed.
End Contains.

(** ** The verdict *)
Lemma on_objects_all p objs k : f_to_b (f_on_objects false p objs k) = true <->
  forall i o, nth_error objs i = Some o -> f_to_b (f_obj_contains false o (f_row (f_xys p) (i + 1)) k) = true.
Proof.
  unfold f_on_objects.
  assert (X : forall l acc, fold_left (fun contains '(i, obj) => f_and false contains (f_obj_contains false obj (f_row (f_xys p) (i + 1)) k)) l acc =
    fold_left (fun c x => f_and false c ((fun y => f_obj_contains false (snd y) (f_row (f_xys p) (fst y + 1)) k) x)) l acc).
  { induction l as [|[i o] l IH]; intro acc; cbn [fold_left]; [reflexivity|]. apply IH. }
  rewrite X, fold_and_exact. split.
  - intros [_ H] i o I. apply (H (i, o)). apply PathP.in_enumerate. auto.
  - intro H. split; [reflexivity|]. intros [i o] I. apply H. apply PathP.in_enumerate. auto.
Qed.

Lemma unfolds_on lines is_ b qs : unfolds lines is_ b qs -> forall i l q, nth_error lines i = Some l -> nth_error qs i = Some q -> on_line l q.
Proof.
  induction 1 as [|l lines i0 is_ b q0 qs s U IH Off On S Q]; intros i l' q Hl Hq; [destruct i; discriminate|].
  destruct i as [|i]; cbn in Hl, Hq; [injection Hl as <-; injection Hq as <-; exact On|eauto].
Qed.

Section Verdict.
Variables (d : axis) (N e : Z) (ws : list fwall) (lines : list (axis * R)) (tx rx : fvec) (a b : R * R) (qs : list (R * R)).
Context (HN : (1 <= N <= 1024)%Z) (E : (-60 <= e <= 50)%Z).
Context (W : Forall2 (axis_wall N e) ws lines) (D : Forall (fun l => fst l = d) lines).
Context (TX : within_grid N e tx a) (RX : within_grid N e rx b) (U : reflections lines a b qs).
Context (B : (4 * N * N * (Z.of_nat (length ws) + 1) <= 2 ^ 24)%Z) (Ln : (1 <= length ws <= 4)%nat).
Let n := INR (length ws).
Let st := bpow radix2 e.

Lemma path_is : f_ImagePath_from tx ws rx = mkfpath (f_image_points tx ws rx) (f_path_loss ws (f_image_points tx ws rx)).
Proof. unfold f_ImagePath_from. destruct ws; [cbn in Ln; lia|reflexivity]. Qed.
Lemma point_facts i w q : nth_error ws i = Some w -> nth_error qs i = Some q -> exists c x, axis_wall N e w (d, c) /\
  fval (across d (f_row (f_image_points tx ws rx) (i + 1))) = Fin c /\ fval (along d (f_row (f_image_points tx ws rx) (i + 1))) = Fin x /\
  Rabs (x - along d q) <= n / 1024 * st /\ Rabs x <= 2048 * st.
Proof.
  intros Hi Hq. destruct (computed_path d N e ws lines tx rx a b qs HN E W D TX RX U B ltac:(lia)) as [C T].
  destruct (F2_nth _ _ _ W i w Hi) as ([d' c] & Hl & Wl).
  assert (d' = d) by (rewrite Forall_forall in D; apply (D (d', c)); eapply nth_error_In; eauto). subst d'.
  assert (Li : (i < length qs)%nat) by (apply nth_error_Some; congruence).
  assert (Nq : nth (i + 1) (a :: qs ++ [b]) b = q).
  { replace (i + 1)%nat with (Datatypes.S i) by lia. cbn [nth]. rewrite app_nth1 by auto. apply nth_error_nth. auto. }
  assert (Lf : (i + 1 < length (a :: qs ++ [b]))%nat) by (cbn [length]; rewrite app_length; cbn [length]; lia).
  pose proof (F2_row d e _ _ _ (i + 1) b C Lf) as (C1 & x & C2 & C3). rewrite Nq in C1, C3. fold n st in C3.
  assert (Oq : across d q = c).
  { apply (unfolds_on _ _ _ _ U i (d, c) q Hl Hq). }
  assert (Tq : tame d N e q).
  { rewrite Forall_forall in T. apply T. right. apply in_or_app. left. eapply nth_error_In; eauto. }
  destruct Tq as [_ Tq]. assert (N1 : IZR N <= 1024) by (apply IZR_le; lia). assert (S0 : 0 < st) by apply bpow_gt_0. fold st in Tq.
  assert (n4 : n <= 4) by (unfold n; replace 4 with (INR 4) by (rewrite INR_IZR_INZ; reflexivity); apply le_INR; lia).
  exists c, x. rewrite Oq in C1. repeat split; auto; [lra|].
  replace x with ((x - along d q) + along d q) by ring. eapply Rle_trans; [apply Rabs_triang|]. nra.
Qed.
Lemma verdict objects cand tol patch k tl inter : f_intersects_with_objects false (f_ImagePath_from tx ws rx) objects cand patch k = Ok inter ->
  fval tol = Fin tl -> n * n * n * (5 / 32768) < tl ->
  exists v, f_is_valid false (f_ImagePath_from tx ws rx) objects cand (map FWall ws) tol patch k = Ok (FB v) /\
    ((forall i w q, nth_error ws i = Some w -> nth_error qs i = Some q -> well_inside d (n / 1024 * st) w q) -> v = negb (f_to_b inter)) /\
    ((exists i w q, nth_error ws i = Some w /\ nth_error qs i = Some q /\ well_outside d (st / 64) w q) -> v = false).
Proof.
  intros I T Tl. assert (S0 : 0 < st) by apply bpow_gt_0.
  assert (n4 : n <= 4) by (unfold n; replace 4 with (INR 4) by (rewrite INR_IZR_INZ; reflexivity); apply le_INR; lia).
  destruct (loss_small d N e ws lines tx rx a b qs HN E W D TX RX U B ltac:(lia)) as (r & R & Rb). fold n in Rb.
  assert (Ls : f_to_b (f_less false (f_loss (f_ImagePath_from tx ws rx)) tol k) = true).
  { unfold f_less. cbn [f_to_b]. rewrite path_is. cbn [f_loss]. rewrite val_ltb, R, T. cbn [xltb]. apply Rltb_true. lra. }
  pose proof (unfolds_length _ _ _ _ U) as Lq. assert (Lw : length ws = length lines) by (clear -W; induction W; cbn; auto).
  unfold f_is_valid. rewrite I. cbn [rbind]. rewrite all3_exact, Ls. eexists. split; [reflexivity|]. cbn [f_not f_to_b]. rewrite andb_true_r. split.
  - intro In. assert (O : f_to_b (f_on_objects false (f_ImagePath_from tx ws rx) (map FWall ws) k) = true); [|rewrite O; cbn [andb]; destruct (negb (f_to_b inter)); reflexivity].
    apply on_objects_all. intros i o Ho. rewrite path_is. cbn [f_xys]. rewrite nth_error_map in Ho. destruct (nth_error ws i) as [w|] eqn:Hw; [|discriminate]. injection Ho as <-.
    assert (Li : (i < length ws)%nat) by (apply nth_error_Some; congruence).
    destruct (nth_error qs i) as [q|] eqn:Hq; [|apply nth_error_None in Hq; lia].
    destruct (point_facts i w q Hw Hq) as (c & x & Wc & P1 & P2 & P3 & P4). destruct (In i w q Hw Hq) as (a' & b' & A' & B' & Ins). unfold inside_by in Ins. apply Rabs_le_inv in P3.
    cbn [f_obj_contains]. rewrite (contains_inside d N e w c _ x a' b' k ltac:(lia) E Wc A' B' P2 P4 P1); [reflexivity|]. lra.
  - intros (i & w & q & Hw & Hq & a' & b' & A' & B' & Out). unfold outside_by in Out.
    destruct (f_to_b (f_on_objects false (f_ImagePath_from tx ws rx) (map FWall ws) k)) eqn:O; [exfalso|reflexivity].
    destruct (point_facts i w q Hw Hq) as (c & x & Wc & P1 & P2 & P3 & P4). apply Rabs_le_inv in P3.
    assert (Cn : f_contains false (f_c2p w (f_row (f_image_points tx ws rx) (i + 1))) k = FB true).
    { pose proof (proj1 (on_objects_all _ _ k) O i (FWall w)) as Q. rewrite nth_error_map, Hw in Q. specialize (Q eq_refl). rewrite path_is in Q. cbn [f_xys f_obj_contains] in Q.
      unfold f_contains, f_and in *. cbn [f_to_b] in Q |- *. rewrite Q. reflexivity. }
    apply (contains_outside d N e w c _ x a' b' k ltac:(lia) E Wc A' B' P2 P4 P1); [|exact Cn].
    fold st. assert (n / 1024 * st <= st / 128) by nra. destruct Out; [left|right]; lra.
Qed.
End Verdict.
