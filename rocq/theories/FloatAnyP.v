(** Single precision: the segment and projection tests on any coordinates. *)
From Coq Require Import Reals List Bool ZArith Lra Lia Psatz.
From Flocq Require Import Core.Core Relative IEEE754.BinarySingleNaN.
From Verif Require Import Base BaseP LogicM GeometryM PathM FloatM SpecFloat32 SpecGrid SpecImage32 SpecAnywhere FloatP FloatLogicP FloatCmpP FloatAccP FloatGeomP FloatSegP FloatGridP FloatBoundP FloatImageErrP.
Import ListNotations.
Open Scope R_scope.
Local Instance p24y : Prec_gt_0 24 := eq_refl.

Definition u24 : R := / 16777216.
Section Size.
Variable L : R.
Hypothesis HL : ordinary L.
Let V := L * L.
Lemma Lpos : bpow radix2 (-50) <= L /\ 0 < L. Proof. destruct HL. pose proof (bpow_gt_0 radix2 (-50)). lra. Qed.
Lemma V_low : bpow radix2 (-100) <= V.
Proof.
  destruct Lpos. pose proof (bpow_gt_0 radix2 (-50)). change (-100)%Z with (-50 + -50)%Z. rewrite bpow_plus. unfold V. nra.
Qed.
Lemma V_high : V <= bpow radix2 100.
Proof. destruct HL, Lpos. change 100%Z with (50 + 50)%Z. rewrite bpow_plus. unfold V. nra. Qed.
Lemma tinyL : bpow radix2 (-150) <= u24 * L / 1000.
Proof.
  destruct Lpos as [H _]. apply Rle_trans with (u24 * bpow radix2 (-50) / 1000); [|unfold u24 in *; lra].
  change (-150)%Z with (-50 + -100)%Z. rewrite bpow_plus. pose proof (bpow_gt_0 radix2 (-50)).
  assert (bpow radix2 (-100) <= u24 / 1000) by (unfold u24; apply Rle_trans with (bpow radix2 (-40)); [apply bpow_le; lia|cbn; lra]). nra.
Qed.
Lemma tinyV : bpow radix2 (-150) <= u24 * V / 1000.
Proof.
  pose proof V_low as H. apply Rle_trans with (u24 * bpow radix2 (-100) / 1000); [|unfold u24 in *; lra].
  change (-150)%Z with (-100 + -50)%Z. rewrite bpow_plus. pose proof (bpow_gt_0 radix2 (-100)).
  assert (bpow radix2 (-50) <= u24 / 1000) by (unfold u24; apply Rle_trans with (bpow radix2 (-40)); [apply bpow_le; lia|cbn; lra]). nra.
Qed.
Lemma Vpos : 0 < V. Proof. pose proof V_low. pose proof (bpow_gt_0 radix2 (-100)). lra. Qed.
Lemma big_L c : c <= 1000 -> c * L <= bpow radix2 127.
Proof.
  intro C. destruct Lpos, HL. apply Rle_trans with (1000 * bpow radix2 50); [nra|].
  apply Rle_trans with (bpow radix2 10 * bpow radix2 50); [change (bpow radix2 10) with 1024; pose proof (bpow_gt_0 radix2 50); lra|].
  rewrite <- bpow_plus. apply bpow_le. lia.
Qed.
Lemma big_V c : c <= 1000 -> c * V <= bpow radix2 127.
Proof.
  intro C. pose proof Vpos. pose proof V_high. apply Rle_trans with (1000 * bpow radix2 100); [nra|].
  apply Rle_trans with (bpow radix2 10 * bpow radix2 100); [change (bpow radix2 10) with 1024; pose proof (bpow_gt_0 radix2 100); lra|].
  rewrite <- bpow_plus. apply bpow_le. lia.
Qed.

(** A computed coordinate difference. *)
Definition approx (x : f32) (r : R) : Prop := exists q, fval x = Fin q /\ Rabs (q - r) <= 1001 / 1000 * (u24 * L) /\ Rabs r <= L.
Lemma approx_sub x y a b : fval x = Fin a -> fval y = Fin b -> Rabs (a - b) <= L -> approx (f_sub x y) (a - b).
Proof.
  intros X Y H. pose proof tinyL as T. destruct Lpos as [_ P]. unfold approx. rewrite val_sub, X, Y. cbn [xsub xopp xadd].
  replace (a + - b) with (a - b) by ring. rewrite fin_round by (pose proof (big_L 1 ltac:(lra)); lra).
  eexists. split; [reflexivity|]. split; [|auto]. pose proof (rnd_rel (a - b)) as E. fold u24 in E.
  assert (u24 * Rabs (a - b) <= u24 * L) by (apply Rmult_le_compat_l; [unfold u24; lra|auto]). lra.
Qed.
(** A product of two of them. *)
Definition area (x : f32) (c : R) (r : R) : Prop := exists q, fval x = Fin q /\ Rabs (q - r) <= c * (u24 * V).
Lemma prod_err x y p q l e : Rabs (p - x) <= e -> Rabs (q - y) <= e -> Rabs x <= l -> Rabs y <= l -> 0 <= e ->
  Rabs (p * q - x * y) <= 2 * (e * l) + e * e.
Proof.
  intros A B X Y E. replace (p * q - x * y) with ((p - x) * (q - y) + (p - x) * y + x * (q - y)) by ring.
  pose proof (Rabs_pos (p - x)). pose proof (Rabs_pos (q - y)). pose proof (Rabs_pos x). pose proof (Rabs_pos y).
  eapply Rle_trans; [apply Rabs_triang|]. eapply Rle_trans; [apply Rplus_le_compat_r, Rabs_triang|]. rewrite !Rabs_mult.
  assert (Rabs (p - x) * Rabs (q - y) <= e * e) by (apply Rmult_le_compat; auto).
  assert (Rabs (p - x) * Rabs y <= e * l) by (apply Rmult_le_compat; auto).
  assert (Rabs x * Rabs (q - y) <= l * e) by (apply Rmult_le_compat; auto). lra.
Qed.
Lemma approx_mul x y r s : approx x r -> approx y s -> area (f_mul x y) (301 / 100) (r * s) /\ Rabs (r * s) <= V.
Proof.
  intros (p & P & Pe & Pb) (q & Q & Qe & Qb). destruct Lpos as [_ L0]. pose proof Vpos as V0. pose proof tinyV as T.
  assert (RS : Rabs (r * s) <= V) by (rewrite Rabs_mult; unfold V; apply Rmult_le_compat; auto using Rabs_pos).
  split; [|exact RS].
  pose proof (prod_err r s p q L (1001 / 1000 * (u24 * L)) Pe Qe Pb Qb ltac:(unfold u24; nra)) as E.
  assert (E' : Rabs (p * q - r * s) <= 2003 / 1000 * (u24 * V)).
  { eapply Rle_trans; [exact E|]. replace (2 * (1001 / 1000 * (u24 * L) * L) + 1001 / 1000 * (u24 * L) * (1001 / 1000 * (u24 * L))) with (2002 / 1000 * (u24 * V) + (1001 / 1000 * (1001 / 1000) * u24) * (u24 * V)) by (unfold V; field).
    assert (0 < u24 * V) by (unfold u24; lra). assert (1001 / 1000 * (1001 / 1000) * u24 <= 1 / 1000) by (unfold u24; lra). nra. }
  assert (B : Rabs (p * q) <= 1001 / 1000 * V).
  { replace (p * q) with ((p * q - r * s) + r * s) by ring. eapply Rle_trans; [apply Rabs_triang|]. unfold u24 in E'. lra. }
  unfold area. rewrite val_mul, P, Q. cbn [xmul]. rewrite fin_round by (pose proof (big_V (1001 / 1000) ltac:(lra)); lra).
  eexists. split; [reflexivity|]. pose proof (rnd_rel (p * q)) as R. fold u24 in R.
  assert (u24 * Rabs (p * q) <= u24 * (1001 / 1000 * V)) by (apply Rmult_le_compat_l; [unfold u24; lra|auto]).
  replace (rnd (p * q) - r * s) with ((rnd (p * q) - p * q) + (p * q - r * s)) by ring. eapply Rle_trans; [apply Rabs_triang|]. 
  assert (0 < u24 * V) by (unfold u24; lra). lra.
Qed.
Lemma area_round z w x y r s : z = x + y -> fval w = xround (Fin z) -> Rabs (x - r) <= 301 / 100 * (u24 * V) -> Rabs (y - s) <= 301 / 100 * (u24 * V) ->
  Rabs r <= V -> Rabs s <= V -> area w 9 (r + s).
Proof.
  intros -> W X Y Rb Sb. pose proof Vpos as V0. pose proof tinyV as T. assert (U : 0 < u24 * V) by (unfold u24; lra).
  assert (E : Rabs (x + y - (r + s)) <= 602 / 100 * (u24 * V)).
  { replace (x + y - (r + s)) with ((x - r) + (y - s)) by ring. eapply Rle_trans; [apply Rabs_triang|]. lra. }
  assert (B : Rabs (x + y) <= 201 / 100 * V).
  { replace (x + y) with ((x + y - (r + s)) + (r + s)) by ring. eapply Rle_trans; [apply Rabs_triang|]. pose proof (Rabs_triang r s). unfold u24 in E. lra. }
  unfold area. rewrite W, fin_round by (pose proof (big_V (201 / 100) ltac:(lra)); lra). eexists. split; [reflexivity|].
  pose proof (rnd_rel (x + y)) as R. fold u24 in R.
  assert (u24 * Rabs (x + y) <= u24 * (201 / 100 * V)) by (apply Rmult_le_compat_l; [unfold u24; lra|auto]).
  replace (rnd (x + y) - (r + s)) with ((rnd (x + y) - (x + y)) + (x + y - (r + s))) by ring. eapply Rle_trans; [apply Rabs_triang|]. lra.
Qed.
Lemma approx_cross x y z w a b c d : approx x a -> approx y b -> approx z c -> approx w d ->
  area (f_sub (f_mul x y) (f_mul z w)) 9 (a * b - c * d).
Proof.
  intros X Y Z W. destruct (approx_mul x y a b X Y) as [(p & P & Pe) Pb]. destruct (approx_mul z w c d Z W) as [(q & Q & Qe) Qb].
  replace (a * b - c * d) with (a * b + - (c * d)) by ring. apply area_round with (z := p + - q) (x := p) (y := - q); auto.
  - rewrite val_sub, P, Q. reflexivity.
  - replace (- q - - (c * d)) with (- (q - c * d)) by ring. rewrite Rabs_Ropp. auto.
  - rewrite Rabs_Ropp. auto.
Qed.
Lemma approx_dot x y z w a b c d : approx x a -> approx y b -> approx z c -> approx w d ->
  area (f_add (f_mul x y) (f_mul z w)) 9 (a * b + c * d).
Proof.
  intros X Y Z W. destruct (approx_mul x y a b X Y) as [(p & P & Pe) Pb]. destruct (approx_mul z w c d Z W) as [(q & Q & Qe) Qb].
  apply area_round with (z := p + q) (x := p) (y := q); auto. rewrite val_add, P, Q. reflexivity.
Qed.

(** Quotients of areas. *)
Lemma quot_err (n d n' d' s : R) : / 1024 <= s -> s * V <= Rabs d -> Rabs (n' - n) <= 9 * (u24 * V) -> Rabs (d' - d) <= 9 * (u24 * V) ->
  d <> 0 /\ d' <> 0 /\
  (Rabs (n / d) <= 2 -> Rabs (n' / d' - n / d) <= 28 * u24 / s) /\
  (Rabs (n' / d') <= 2 + / 1000 -> Rabs (n' / d' - n / d) <= 28 * u24 / s).
Proof.
  intros S D En Ed. pose proof Vpos as V0. assert (U : 0 < u24 * V) by (unfold u24; lra). assert (S0 : 0 < s) by lra.
  assert (SV : 0 < s * V) by nra.
  assert (Dn : d <> 0) by (intro K; rewrite K, Rabs_R0 in D; lra).
  assert (SU : 9 * (u24 * V) <= / 1000 * (s * V)) by (unfold u24; nra).
  assert (D' : 999 / 1000 * (s * V) <= Rabs d').
  { pose proof (Rabs_triang_inv d (d - d')). replace (d - (d - d')) with d' in H by ring. rewrite (Rabs_minus_sym d d') in H. lra. }
  assert (Dn' : d' <> 0) by (intro K; rewrite K, Rabs_R0 in D'; lra).
  split; [auto|]. split; [auto|].
  assert (G : forall t e y, 0 < y -> Rabs t <= 2 + / 1000 -> y >= 999 / 1000 * (s * V) -> e = (n' - n) - t * (d' - d) -> Rabs e / y <= 28 * u24 / s).
  { intros t e y Y0 Tb Yb ->.
    assert (Rabs (n' - n - t * (d' - d)) <= 9 * (u24 * V) * (3 + / 1000)).
    { eapply Rle_trans; [apply Rabs_triang|]. rewrite Rabs_Ropp, Rabs_mult. pose proof (Rabs_pos t). pose proof (Rabs_pos (d' - d)).
      assert (Rabs t * Rabs (d' - d) <= (2 + / 1000) * (9 * (u24 * V))) by (apply Rmult_le_compat; auto). lra. }
    apply Rmult_le_reg_r with y; [lra|]. unfold Rdiv at 1. rewrite Rmult_assoc, Rinv_l, Rmult_1_r by lra.
    eapply Rle_trans; [exact H|]. apply Rle_trans with (28 * u24 / s * (999 / 1000 * (s * V))).
    - replace (28 * u24 / s * (999 / 1000 * (s * V))) with (28 * 999 / 1000 * (u24 * V)) by (field; lra). lra.
    - apply Rmult_le_compat_l; [unfold u24, Rdiv; pose proof (Rinv_0_lt_compat s S0); nra|lra]. }
  split; intro T.
  - replace (n' / d' - n / d) with ((n' - n - n / d * (d' - d)) / d') by (field; auto).
    unfold Rdiv at 1. rewrite Rabs_mult, Rabs_inv. apply (G (n / d)); auto; try lra. 
  - replace (n' / d' - n / d) with ((n' - n - n' / d' * (d' - d)) / d) by (field; auto).
    unfold Rdiv at 1. rewrite Rabs_mult, Rabs_inv. apply (G (n' / d')); auto; try lra.
Qed.
End Size.

Definition margin (s : R) : R := bpow radix2 (-18) / s.
Lemma margin_u s : margin s = 64 * u24 / s.
Proof. unfold margin, u24. replace (bpow radix2 (-18)) with (64 * / 16777216) by (cbn; lra). reflexivity. Qed.
Lemma margin_facts s : / 1024 <= s <= 2 -> 32 * u24 <= margin s <= / 200 /\ 0 < margin s.
Proof.
  intros [S1 S2]. rewrite margin_u. assert (I1 : / 2 <= / s) by (apply Rinv_le_contravar; lra).
  assert (I2 : / s <= / / 1024) by (apply Rinv_le_contravar; lra). rewrite Rinv_inv in I2.
  unfold Rdiv, u24. split; [split|]; nra.
Qed.
Lemma b24 : bpow radix2 (-24) = u24. Proof. unfold u24. cbn. lra. Qed.
Lemma b23 : bpow radix2 (-23) = 2 * u24. Proof. unfold u24. cbn. lra. Qed.
Lemma b150 : bpow radix2 (-150) <= u24 / 1000.
Proof. apply Rle_trans with (bpow radix2 (-40)); [apply bpow_le; lia|unfold u24; cbn; lra]. Qed.
Lemma rnd_near z c : Rabs z <= c -> Rabs (rnd z - z) <= u24 * (c + / 1000).
Proof.
  intro H. pose proof (rnd_rel z) as R. fold u24 in R. pose proof b150. assert (u24 * Rabs z <= u24 * c) by (apply Rmult_le_compat_l; [unfold u24; lra|auto]). lra.
Qed.
Lemma rnd_1t t : 0 <= t <= 1 -> 1 + t - 3 * u24 <= rnd (1 + t) <= 1 + t + 3 * u24 /\ 0 <= rnd (1 + t) <= 2.
Proof.
  intro T. pose proof (rnd_near (1 + t) 2 ltac:(rewrite Rabs_pos_eq; lra)) as E. apply Rabs_le_inv in E. unfold u24 in *. split; [lra|]. split; [apply rnd_pos; lra|].
  rewrite <- (rnd_id 2) by (apply (format_int 2); cbn; lia). apply rnd_le. lra.
Qed.

Lemma seg_decide L s num den n d tol k t : ordinary L -> / 1024 <= s <= 2 -> area L num 9 n -> area L den 9 d -> s * (L * L) <= Rabs d ->
  fval tol = Fin t -> 0 <= t <= 1 ->
  (- t + margin s <= n / d <= 1 + t - margin s -> f_seg_test false num den tol k = FB true) /\
  (f_seg_test false num den tol k = FB true -> - (t + margin s) <= n / d <= 1 + t + margin s).
Proof.
  intros HL S (n' & N & En) (d' & D & Ed) B T Ht.
  destruct (quot_err L HL n d n' d' s ltac:(lra) B En Ed) as (D0 & D0' & Q1 & Q2).
  pose proof (margin_facts s S) as [[M1 M2] M0]. rewrite (f_seg_test_true num den tol k t n' d' N D D0' T Ht).
  pose proof (rnd_1t t Ht) as [[R1 R2] [R3 R4]].
  assert (M28 : 28 * u24 / s <= 28 / 64 * margin s) by (rewrite margin_u; unfold Rdiv; lra).
  assert (U : 0 < u24 < / 1000000) by (unfold u24; lra).
  split.
  - intro H. specialize (Q1 ltac:(apply Rabs_le; lra)). apply Rabs_le_inv in Q1.
    pose proof (rnd_near (n' / d') 3 ltac:(apply Rabs_le; lra)) as E. apply Rabs_le_inv in E. lra.
  - intros [H1 H2]. pose proof (rnd_ge_inv (n' / d') (- t) ltac:(lra) H1) as K1. pose proof (rnd_le_inv (n' / d') (rnd (1 + t)) ltac:(lra) H2) as K2. rewrite b24 in K1. rewrite b23 in K2.
    specialize (Q2 ltac:(apply Rabs_le; lra)). apply Rabs_le_inv in Q2. lra.
Qed.
Lemma seg_far L num den n d tol k t : ordinary L -> area L num 9 n -> area L den 9 d -> 3 * Rabs d + bpow radix2 (-18) * (L * L) <= Rabs n ->
  fval tol = Fin t -> 0 <= t <= 1 -> f_seg_test false num den tol k = FB false.
Proof.
  intros HL (n' & N & En) (d' & D & Ed) F T Ht. pose proof (Vpos L HL) as V0.
  destruct (Req_dec d' 0) as [Z|Z]; [apply (f_seg_test_zero num den tol k t); congruence|].
  destruct (f_seg_test_bool num den tol k) as [[] Q]; [exfalso|auto].
  apply (f_seg_test_true num den tol k t n' d' N D Z T Ht) in Q. pose proof (rnd_1t t Ht) as [_ [R3 R4]].
  assert (B18 : bpow radix2 (-18) = 64 * u24) by (unfold u24; cbn; lra). rewrite B18 in F.
  assert (U : 0 < u24 * (L * L)) by (unfold u24; lra).
  assert (X : 3 * Rabs d' < Rabs n').
  { pose proof (Rabs_triang (d' - d) d). replace (d' - d + d) with d' in H by ring.
    pose proof (Rabs_triang_inv n (n - n')). replace (n - (n - n')) with n' in H0 by ring. rewrite (Rabs_minus_sym n n') in H0. lra. }
  assert (Y : 3 <= Rabs (n' / d')).
  { unfold Rdiv. rewrite Rabs_mult, Rabs_inv. pose proof (Rabs_pos_lt d' Z). apply Rmult_le_reg_r with (Rabs d'); auto. rewrite Rmult_assoc, Rinv_l by lra. lra. }
  assert (F3 : rnd 3 = 3) by (apply rnd_id; apply (format_int 3); cbn; lia).
  unfold Rabs in Y. destruct (Rcase_abs (n' / d')).
  - pose proof (rnd_le (n' / d') (-(3)) ltac:(lra)) as K. rewrite rnd_opp, F3 in K. lra.
  - pose proof (rnd_le 3 (n' / d') ltac:(lra)) as K. rewrite F3 in K. lra.
Qed.

Lemma crosses_iff lo hi a b p q : det a b p q <> 0 ->
  (crosses lo hi a b p q <-> lo <= - det p a p q / det a b p q <= hi /\ lo <= det a p a b / det a b p q <= hi).
Proof.
  intro D. split.
  - intros (s & v & S & W & E1 & E2).
    assert (Hx : fst a - fst p = - s * (fst b - fst a) + v * (fst q - fst p)) by lra.
    assert (Hy : snd a - snd p = - s * (snd b - snd a) + v * (snd q - snd p)) by lra.
    replace (- det p a p q / det a b p q) with s; [replace (det a p a b / det a b p q) with v; [auto|]|].
    + apply Rmult_eq_reg_r with (det a b p q); auto. unfold Rdiv. rewrite (Rmult_assoc (det a p a b)), Rinv_l, Rmult_1_r by auto. unfold det.
      replace (fst p - fst a) with (- (fst a - fst p)) by ring. replace (snd p - snd a) with (- (snd a - snd p)) by ring. rewrite Hx, Hy. ring.
    + apply Rmult_eq_reg_r with (det a b p q); auto. unfold Rdiv. rewrite (Rmult_assoc (- det p a p q)), Rinv_l, Rmult_1_r by auto. unfold det. rewrite Hx, Hy. ring.
  - intros [S W]. exists (- det p a p q / det a b p q), (det a p a b / det a b p q). split; [auto|]. split; [auto|].
    split; apply Rmult_eq_reg_r with (det a b p q); auto; unfold Rdiv; rewrite !Rmult_plus_distr_r.
    + replace (- det p a p q * / det a b p q * (fst b - fst a) * det a b p q) with (- det p a p q * (fst b - fst a)) by (field; auto).
      replace (det a p a b * / det a b p q * (fst q - fst p) * det a b p q) with (det a p a b * (fst q - fst p)) by (field; auto). unfold det. ring.
    + replace (- det p a p q * / det a b p q * (snd b - snd a) * det a b p q) with (- det p a p q * (snd b - snd a)) by (field; auto).
      replace (det a p a b * / det a b p q * (snd q - snd p) * det a b p q) with (det a p a b * (snd q - snd p)) by (field; auto). unfold det. ring.
Qed.
Lemma parallel_det a b p q : parallel a b p q <-> det a b p q = 0.
Proof. unfold parallel, det. split; intro; lra. Qed.

Lemma close_sym L p q : close_by L p q -> close_by L q p.
Proof. intros [A B]. split; rewrite Rabs_minus_sym; auto. Qed.
Lemma diff_approx L P Q p q : ordinary L -> stands_for P p -> stands_for Q q -> close_by L p q ->
  approx L (fst (fv_sub P Q)) (fst p - fst q) /\ approx L (snd (fv_sub P Q)) (snd p - snd q).
Proof. intros HL [A B] [C D] [E F]. split; cbn [fst snd fv_sub]; apply approx_sub; auto. Qed.
Lemma det_bound L a b p q : close_by L a b -> close_by L p q -> Rabs (det a b p q) <= 2 * (L * L).
Proof.
  intros A B. apply close_sym in A, B. destruct A as [A1 A2], B as [B1 B2]. unfold det. eapply Rle_trans; [apply Rabs_triang|]. rewrite Rabs_Ropp, !Rabs_mult.
  assert (Rabs (fst b - fst a) * Rabs (snd q - snd p) <= L * L) by (apply Rmult_le_compat; auto using Rabs_pos).
  assert (Rabs (snd b - snd a) * Rabs (fst q - fst p) <= L * L) by (apply Rmult_le_compat; auto using Rabs_pos). lra.
Qed.
Lemma sub_same x y a : fval x = Fin a -> fval y = Fin a -> fval (f_sub x y) = Fin 0.
Proof. intros X Y. rewrite val_sub, X, Y. cbn [xsub xopp xadd]. replace (a + - a) with 0 by ring. apply xround_zero. Qed.
Lemma mul_zero_r x z : finite x -> fval z = Fin 0 -> fval (f_mul x z) = Fin 0.
Proof. intros [r X] Z. rewrite val_mul, Z, X. cbn [xmul]. rewrite Rmult_0_r. apply xround_zero. Qed.
Lemma approx_finite L x r : approx L x r -> finite x. Proof. intros (q & Q & _). exists q. auto. Qed.

Lemma any_segments s P1 P2 P3 P4 a b p q tol k t : / 1024 <= s -> stands_for P1 a -> stands_for P2 b -> stands_for P3 p -> stands_for P4 q ->
  fval tol = Fin t -> 0 <= t <= 1 -> clear_cut s a b p q ->
  (~ parallel a b p q -> crosses (- t + margin s) (1 + t - margin s) a b p q -> f_segments_intersect false P1 P2 P3 P4 tol k = FB true) /\
  (f_segments_intersect false P1 P2 P3 P4 tol k = FB true -> ~ parallel a b p q /\ crosses (- (t + margin s)) (1 + t + margin s) a b p q).
Proof.
  intros S H1 H2 H3 H4 T Ht (L & HL & Cab & Cpq & Cap & C).
  destruct (diff_approx L P2 P1 b a HL H2 H1 (close_sym _ _ _ Cab)) as [Ax Ay].
  destruct (diff_approx L P3 P4 p q HL H3 H4 Cpq) as [Bx By].
  destruct (diff_approx L P1 P3 a p HL H1 H3 Cap) as [Cx Cy].
  pose proof (approx_cross L HL _ _ _ _ _ _ _ _ By Cx Bx Cy) as Na. pose proof (approx_cross L HL _ _ _ _ _ _ _ _ Ax Cy Ay Cx) as Nb.
  pose proof (approx_cross L HL _ _ _ _ _ _ _ _ Ay Bx Ax By) as Nd.
  rewrite f_seg_parts. cbv zeta.
  replace ((snd p - snd q) * (fst a - fst p) - (fst p - fst q) * (snd a - snd p)) with (- det p a p q) in Na by (unfold det; ring).
  replace ((fst b - fst a) * (snd a - snd p) - (snd b - snd a) * (fst a - fst p)) with (det a p a b) in Nb by (unfold det; ring).
  replace ((snd b - snd a) * (fst p - fst q) - (fst b - fst a) * (snd p - snd q)) with (det a b p q) in Nd by (unfold det; ring).
  pose proof (det_bound L a b p q Cab Cpq) as DB. pose proof (Vpos L HL) as V0.
  assert (False_case : forall x y, x = FB false \/ y = FB false -> (exists b, x = FB b) -> (exists b, y = FB b) -> f_and false x y = FB false).
  { intros x y H [bx ->] [by_ ->]. cbn. destruct H as [H|H]; injection H as ->; cbn; auto. rewrite andb_false_r. auto. }
  assert (NoCross : forall lo hi, -2 <= lo -> hi <= 5 / 2 -> far_off L a b p q -> ~ parallel a b p q -> crosses lo hi a b p q -> False).
  { intros lo hi Lo Hi F NP K. rewrite parallel_det in NP. apply crosses_iff in K; auto. pose proof (Rabs_pos_lt _ NP) as D0.
    pose proof (bpow_gt_0 radix2 (-18)). assert (0 < bpow radix2 (-18) * (L * L)) by nra.
    assert (G : forall n, 3 * Rabs (det a b p q) + bpow radix2 (-18) * (L * L) <= Rabs n -> lo <= n / det a b p q <= hi -> False).
    { intros n Hn [K1 K2]. assert (Rabs n <= 5 / 2 * Rabs (det a b p q)).
      { replace n with (n / det a b p q * det a b p q) at 1 by (field; auto). rewrite Rabs_mult. apply Rmult_le_compat_r; [lra|]. apply Rabs_le. lra. }
      lra. }
    destruct F as [F|F], K as [K1 K2]; [apply (G _ ltac:(rewrite Rabs_Ropp; exact F) K1)|apply (G _ F K2)]. }
  destruct C as [C|[C|C]].
  - (* transverse *)
    unfold transverse in C. assert (S2 : / 1024 <= s <= 2) by (split; [auto|]; apply Rmult_le_reg_r with (L * L); lra).
    assert (D0 : det a b p q <> 0) by (intro K; rewrite K, Rabs_R0 in C; nra).
    destruct (seg_decide L s _ _ _ _ tol k t HL S2 Na Nd C T Ht) as [A1 A2].
    destruct (seg_decide L s _ _ _ _ tol k t HL S2 Nb Nd C T Ht) as [B1 B2].
    split.
    + intros _ K. apply crosses_iff in K; auto. destruct K as [K1 K2]. rewrite A1, B1 by auto. reflexivity.
    + intro K. split; [rewrite parallel_det; auto|]. apply crosses_iff; auto.
      destruct (f_seg_test_bool (f_sub (f_mul (snd (fv_sub P3 P4)) (fst (fv_sub P1 P3))) (f_mul (fst (fv_sub P3 P4)) (snd (fv_sub P1 P3)))) (f_sub (f_mul (snd (fv_sub P2 P1)) (fst (fv_sub P3 P4))) (f_mul (fst (fv_sub P2 P1)) (snd (fv_sub P3 P4)))) tol k) as [ba Ba].
      destruct (f_seg_test_bool (f_sub (f_mul (fst (fv_sub P2 P1)) (snd (fv_sub P1 P3))) (f_mul (snd (fv_sub P2 P1)) (fst (fv_sub P1 P3)))) (f_sub (f_mul (snd (fv_sub P2 P1)) (fst (fv_sub P3 P4))) (f_mul (fst (fv_sub P2 P1)) (snd (fv_sub P3 P4)))) tol k) as [bb Bb].
      rewrite Ba, Bb in *. cbn in K. injection K as K. apply andb_prop in K. destruct K as [-> ->]. auto.
  - (* same axis *)
    assert (Z : fval (f_sub (f_mul (snd (fv_sub P2 P1)) (fst (fv_sub P3 P4))) (f_mul (fst (fv_sub P2 P1)) (snd (fv_sub P3 P4)))) = Fin 0).
    { destruct H1 as [X1 Y1], H2 as [X2 Y2], H3 as [X3 Y3], H4 as [X4 Y4].
      destruct C as [[C1 C2]|[C1 C2]].
      - assert (Z1 : fval (snd (fv_sub P2 P1)) = Fin 0) by (cbn [snd fv_sub]; apply (sub_same _ _ (snd a)); congruence).
        assert (Z2 : fval (snd (fv_sub P3 P4)) = Fin 0) by (cbn [snd fv_sub]; apply (sub_same _ _ (snd p)); congruence).
        apply (sub_same _ _ 0); [apply mul_zero_val|apply mul_zero_r]; auto; eapply approx_finite; eauto.
      - assert (Z1 : fval (fst (fv_sub P2 P1)) = Fin 0) by (cbn [fst fv_sub]; apply (sub_same _ _ (fst a)); congruence).
        assert (Z2 : fval (fst (fv_sub P3 P4)) = Fin 0) by (cbn [fst fv_sub]; apply (sub_same _ _ (fst p)); congruence).
        apply (sub_same _ _ 0); [apply mul_zero_r|apply mul_zero_val]; auto; eapply approx_finite; eauto. }
    split.
    + intros NP. elim NP. apply parallel_det. unfold det. destruct C as [[C1 C2]|[C1 C2]]; rewrite C1, C2; ring.
    + rewrite !(f_seg_test_zero _ _ tol k t Z T Ht). discriminate.
  - (* far off *)
    split.
    + intros NP K. exfalso. destruct (Rle_or_lt s 0); [lra|]. pose proof (bpow_gt_0 radix2 (-18)) as B0. pose proof (Rinv_0_lt_compat s ltac:(lra)) as I0.
      assert (0 < margin s) by (unfold margin, Rdiv; nra). apply (NoCross (- t + margin s) (1 + t - margin s) ltac:(lra) ltac:(lra) C NP K).
    + intro K. exfalso. rewrite False_case in K; [discriminate| |apply f_seg_test_bool|apply f_seg_test_bool].
      destruct C as [C|C]; [left|right]; eapply (seg_far L); eauto. rewrite Rabs_Ropp. auto.
Qed.

(** ** The projection test *)
Lemma any_contains s w a b p q k : / 1024 <= s -> stands_for (fw_origin w) a -> stands_for (fw_dest w) b -> stands_for p q -> sizeable s a b q ->
  (projects_with_margin (margin s) q a b -> f_contains false (f_c2p w p) k = FB true) /\
  (f_contains false (f_c2p w p) k = FB true -> projects_with_margin (- margin s) q a b).
Proof.
  intros S A B P (L & HL & Cab & Cqa & Sz).
  destruct (diff_approx L (fw_dest w) (fw_origin w) b a HL B A (close_sym _ _ _ Cab)) as [Tx Ty]. fold (fw_t w) in Tx, Ty.
  destruct (diff_approx L p (fw_origin w) q a HL P A Cqa) as [Ox Oy].
  pose proof (approx_dot L HL _ _ _ _ _ _ _ _ Tx Ox Ty Oy) as (n' & N & En). pose proof (approx_dot L HL _ _ _ _ _ _ _ _ Tx Tx Ty Ty) as (d' & D & Ed).
  unfold f_c2p, f_dot, projects_with_margin. cbv zeta.
  replace ((fst q - fst a) * (fst b - fst a) + (snd q - snd a) * (snd b - snd a)) with ((fst b - fst a) * (fst q - fst a) + (snd b - snd a) * (snd q - snd a)) by ring.
  set (fn := f_add (f_mul (fst (fw_t w)) (fst (fv_sub p _))) _) in *. set (fd := f_add (f_mul (fst (fw_t w)) (fst (fw_t w))) _) in *. clearbody fn fd.
  set (n := (fst b - fst a) * (fst q - fst a) + (snd b - snd a) * (snd q - snd a)) in *.
  set (d := (fst b - fst a) * (fst b - fst a) + (snd b - snd a) * (snd b - snd a)) in *.
  pose proof (Vpos L HL) as V0. assert (D0 : 0 < d) by (cbn beta in V0; nra).
  assert (Dl : d <= 2 * (L * L)).
  { apply close_sym in Cab. destruct Cab as [C1 C2]. unfold d. rewrite <- (Rabs_pos_eq ((fst b - fst a) * _)), <- (Rabs_pos_eq ((snd b - snd a) * _)) by apply Rle_0_sqr. rewrite !Rabs_mult.
    assert (Rabs (fst b - fst a) * Rabs (fst b - fst a) <= L * L) by (apply Rmult_le_compat; auto using Rabs_pos).
    assert (Rabs (snd b - snd a) * Rabs (snd b - snd a) <= L * L) by (apply Rmult_le_compat; auto using Rabs_pos). lra. }
  assert (S2 : / 1024 <= s <= 2) by (split; [auto|]; apply Rmult_le_reg_r with (L * L); lra).
  destruct (quot_err L HL n d n' d' s ltac:(lra) ltac:(rewrite Rabs_pos_eq by lra; exact Sz) En Ed) as (_ & D0' & Q1 & Q2).
  pose proof (margin_facts s S2) as [[M1 M2] M0]. assert (M28 : 28 * u24 / s <= 28 / 64 * margin s) by (rewrite margin_u; unfold Rdiv; lra).
  assert (U : 0 < u24 < / 1000000) by (unfold u24; lra).
  destruct (f_eqb fd f_zero) eqn:Z; [apply val_eqb_zero in Z; rewrite D in Z; apply Fin_inj in Z; contradiction|].
  rewrite (contains_true _ (n' / d')) by (symmetry; apply (div_small fn fd); auto).
  assert (Qn : n = n / d * d) by (field; lra).
  split.
  - intros [H1 H2]. assert (margin s <= n / d <= 1 - margin s) by (split; apply Rmult_le_reg_r with d; lra).
    specialize (Q1 ltac:(apply Rabs_le; lra)). apply Rabs_le_inv in Q1. rewrite <- rnd_0 at 1. split; [apply rnd_le; lra|].
    rewrite <- (rnd_id 1) by (apply (format_int 1); cbn; lia). apply rnd_le. lra.
  - intros [H1 H2]. pose proof (rnd_ge_inv (n' / d') 0 ltac:(lra) H1) as K1. pose proof (rnd_le_inv (n' / d') 1 ltac:(lra) H2) as K2. rewrite b24 in K1. rewrite b23 in K2.
    specialize (Q2 ltac:(apply Rabs_le; lra)). apply Rabs_le_inv in Q2.
    assert (R : - margin s <= n / d <= 1 - - margin s) by lra. rewrite Qn. split; apply Rmult_le_compat_r; lra.
Qed.
Lemma row_stands ps qs i q : Forall2 stands_for ps qs -> nth_error qs i = Some q -> stands_for (f_row ps i) q.
Proof.
  intros F N. assert (L : (i < length qs)%nat) by (apply nth_error_Some; congruence).
  assert (Ln : length ps = length qs) by (clear -F; induction F; cbn; auto).
  unfold f_row. rewrite Nat.min_l by lia. clear L Ln. revert i N. induction F; intros [|i] N; cbn in *; try discriminate; [injection N as <-; auto|auto].
Qed.
Lemma any_on_objects s p qs interacting shapes k : / 1024 <= s -> Forall2 stands_for (f_xys p) qs ->
  Forall2 object_stands_for interacting shapes -> (length interacting < length qs)%nat ->
  (forall i a b q, nth_error shapes i = Some (Segment a b) -> nth_error qs (S i) = Some q -> sizeable s a b q) ->
  (points_face_with_margin (margin s) qs shapes -> f_to_b (f_on_objects false p interacting k) = true) /\
  (f_to_b (f_on_objects false p interacting k) = true -> points_face_with_margin (- margin s) qs shapes).
Proof.
  intros S F G L Sz. unfold f_on_objects, points_face_with_margin.
  assert (X : forall l acc, fold_left (fun contains '(i, obj) => f_and false contains (f_obj_contains false obj (f_row (f_xys p) (i + 1)) k)) l acc =
    fold_left (fun c x => f_and false c ((fun y => f_obj_contains false (snd y) (f_row (f_xys p) (fst y + 1)) k) x)) l acc).
  { induction l as [|[i o] l IH]; intro acc; cbn [fold_left fst snd]; auto. }
  rewrite X, fold_and_exact. clear X.
  assert (Ls : length interacting = length shapes) by (clear -G; induction G; cbn; auto).
  split.
  - intro H. split; [reflexivity|]. intros [i o] I. apply PathP.in_enumerate in I. cbn [fst snd].
    assert (i < length interacting)%nat by (apply nth_error_Some; congruence).
    destruct (F2_nth _ _ _ G _ _ I) as (sh & Sh & N).
    destruct (nth_error qs (Datatypes.S i)) as [q|] eqn:Q; [|apply nth_error_None in Q; lia].
    pose proof (row_stands _ _ _ _ F Q) as R. rewrite Nat.add_1_r.
    destruct o as [w|w phi|v], sh as [a b|z]; cbn [object_stands_for] in N; try contradiction; [| |reflexivity]; destruct N as [N1 N2];
      destruct (any_contains s w a b _ q k S N1 N2 R (Sz i a b q Sh Q)) as [K _]; cbn [f_obj_contains]; rewrite K by (apply (H i); auto); reflexivity.
  - intros [_ H] i a b q Sh Q. destruct (F2_nth' _ _ _ G _ _ Sh) as (o & O & N).
    specialize (H (i, o) (proj2 (PathP.in_enumerate _ _ _) O)). cbn [fst snd] in H. rewrite Nat.add_1_r in H.
    pose proof (row_stands _ _ _ _ F Q) as R.
    destruct o as [w|w phi|v]; cbn [object_stands_for] in N; try contradiction; destruct N as [N1 N2];
      destruct (any_contains s w a b _ q k S N1 N2 R (Sz i a b q Sh Q)) as [_ K]; apply K; rewrite <- H; reflexivity.
Qed.

(** ** The obstruction test *)
Lemma stands_val p p' q : stands_for p q -> fval (fst p') = fval (fst p) -> fval (snd p') = fval (snd p) -> stands_for p' q.
Proof. intros [A B] C D. split; congruence. Qed.
Lemma any_patch L w a b patch : ordinary L -> close_by L a b -> stands_for (fw_origin w) a -> stands_for (fw_dest w) b -> fval patch = Fin 0 ->
  stands_for (fv_sub (fw_origin w) (fv_scale patch (fw_t w))) a /\ stands_for (fv_add (fw_dest w) (fv_scale patch (fw_t w))) b.
Proof.
  intros HL C A B Z. destruct (diff_approx L (fw_dest w) (fw_origin w) b a HL B A (close_sym _ _ _ C)) as [F1 F2]. fold (fw_t w) in F1, F2.
  apply approx_finite in F1, F2. split.
  - eapply stands_val; [exact A| |]; cbn [fst snd fv_sub fv_scale]; apply sub_zero_val, mul_zero_val; auto.
  - eapply stands_val; [exact B| |]; cbn [fst snd fv_add fv_scale]; apply add_zero_val, mul_zero_val; auto.
Qed.
Lemma any_obstruction s p qs objects shapes cand patch k t r : / 1024 <= s -> Forall2 stands_for (f_xys p) qs ->
  Forall2 object_stands_for objects shapes -> (length qs <= length cand + 2)%nat -> fval patch = Fin 0 -> fval F_SEG_TOL = Fin t -> 0 <= t <= 1 ->
  (forall i j a b p q, nth_error shapes j = Some (Segment a b) -> nth_error qs i = Some p -> nth_error qs (S i) = Some q ->
     ~ touches cand i j -> clear_cut s a b p q) ->
  f_intersects_with_objects false p objects cand patch k = Ok r ->
  (obstructed (- t + margin s) (1 + t - margin s) qs shapes cand -> f_to_b r = true) /\
  (f_to_b r = true -> obstructed (- (t + margin s)) (1 + t + margin s) qs shapes cand).
Proof.
  intros S F G L Z T Ht W H.
  assert (Lq : length (f_xys p) = length qs) by (clear -F; induction F; cbn; auto).
  rewrite f_inter_fold in H by lia. apply (f_equal (fun x => match x with Ok y => y | Err _ => FB false end)) in H. cbn beta iota in H. subst r.
  rewrite fold_or_exact. cbn [f_to_b f_false]. split.
  - intros (i & j & a & b & q & q' & O & Q & Q' & N & NP & C). right.
    destruct (F2_nth' _ _ _ G _ _ O) as (o & Oo & Og).
    exists (i, o). split; [apply in_f_tests; [lia|]; split; [rewrite Lq; apply nth_error_Some; congruence|eauto]|]. cbn [fst snd]. rewrite Nat.add_1_r.
    pose proof (row_stands _ _ _ _ F Q) as R. pose proof (row_stands _ _ _ _ F Q') as R'.
    pose proof (W i j a b q q' O Q Q' N) as CC. pose proof CC as (L0 & HL0 & Cab & _).
    destruct o as [w|w phi|v]; cbn [object_stands_for] in Og; try contradiction; destruct Og as [A B]; cbn [f_obj_intersects];
      destruct (any_patch L0 w a b patch HL0 Cab A B Z) as [A' B'];
      destruct (any_segments s _ _ _ _ _ _ _ _ F_SEG_TOL k t S A' B' R R' T Ht CC) as (K & _); rewrite K by auto; reflexivity.
  - intros [D|([i o] & I & K)]; [discriminate|]. apply in_f_tests in I; [|lia]. destruct I as [I (j & O & N)]. cbn [fst snd] in K. rewrite Nat.add_1_r in K.
    destruct (F2_nth _ _ _ G _ _ O) as (sh & Os & Og).
    destruct (nth_error qs i) as [q|] eqn:Q; [|apply nth_error_None in Q; lia]. destruct (nth_error qs (Datatypes.S i)) as [q'|] eqn:Q'; [|apply nth_error_None in Q'; lia].
    pose proof (row_stands _ _ _ _ F Q) as R. pose proof (row_stands _ _ _ _ F Q') as R'.
    destruct o as [w|w phi|v], sh as [a b|z]; cbn [object_stands_for] in Og; try contradiction; [| |cbn in K; discriminate]; destruct Og as [A B]; cbn [f_obj_intersects] in K;
      pose proof (W i j a b q q' Os Q Q' N) as CC; pose proof CC as (L0 & HL0 & Cab & _);
      exists i, j, a, b, q, q'; (do 3 (split; [auto|])); (split; [auto|]);
      destruct (any_patch L0 w a b patch HL0 Cab A B Z) as [A' B'];
      destruct (any_segments s _ _ _ _ _ _ _ _ F_SEG_TOL k t S A' B' R R' T Ht CC) as (_ & K3);
      rewrite seg_bool, K in K3; apply K3; reflexivity.
Qed.
