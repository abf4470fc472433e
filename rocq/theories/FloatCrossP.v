(** Single precision: a wall with the two nodes on opposite sides. The image method then
    finds a point beyond one of them, and a loss close to 4. *)
From Coq Require Import Reals List Bool ZArith Lra Lia Psatz.
From Flocq Require Import Core.Core Relative IEEE754.BinarySingleNaN.
From Verif Require Import Base BaseP LogicM GeometryM PathM FloatM FloatImageM SpecGeometry SpecFloat32 SpecGrid SpecImage32 SpecAnywhere SpecAccuracy SpecScene32 FloatP FloatLogicP FloatCmpP FloatAccP FloatGeomP FloatSegP FloatGridP FloatBoundP FloatImageP FloatImageErrP FloatImageLossP FloatAnyP FloatObliqueP FloatLenP.
Import ListNotations.
Open Scope R_scope.
Local Instance p24x : Prec_gt_0 24 := eq_refl.

(** ** The computed point *)
Lemma cross_point L w tx rx (a r : R * R) n1 n2 h1 h2 i1 i2 :
  ordinary L -> stands_for (fw_origin w) a -> stands_for rx r -> within L a -> close_by L r a ->
  n1 * n1 + n2 * n2 = 1 -> nr 1 (fst (f_normal w)) n1 (13 / 2) -> nr 1 (snd (f_normal w)) n2 (13 / 2) ->
  nr L (fst (f_image_of w tx)) i1 64 -> nr L (snd (f_image_of w tx)) i2 64 ->
  Rabs (fst r - i1) <= 29 / 12 * L -> Rabs (snd r - i2) <= 29 / 12 * L -> (fst r - i1) * n1 + (snd r - i2) * n2 = h1 + h2 ->
  h2 = (fst r - fst a) * n1 + (snd r - snd a) * n2 -> Rabs h1 <= 17 / 12 * L -> Rabs h2 <= 17 / 12 * L -> L / 6 <= Rabs (h1 + h2) ->
  nr L (fst (f_backward rx (w, f_image_of w tx))) (fst r - h2 / (h1 + h2) * (fst r - i1)) 17850 /\
  nr L (snd (f_backward rx (w, f_image_of w tx))) (snd r - h2 / (h1 + h2) * (snd r - i2)) 17850 /\
  Rabs (h2 / (h1 + h2)) <= 17 / 2.
Proof.
  intros HL [Ax Ay] [Rx Ry] [W1 W2] [C1 C2] N N1 N2 J1 J2 U1 U2 Un Eh2 Hh1 Hh2 Hs.
  destruct (szL L HL) as [SL SLL]. pose proof (L_pos L HL) as L0.
  assert (Hnz : h1 + h2 <> 0) by (intro Z; rewrite Z, Rabs_R0 in Hs; lra).
  set (lam := h2 / (h1 + h2)). assert (Lm : Rabs lam <= 17 / 2).
  { unfold lam, Rdiv. rewrite Rabs_mult, Rabs_inv. apply Rmult_le_reg_r with (Rabs (h1 + h2)); [lra|]. rewrite Rmult_assoc, Rinv_l by lra. lra. }
  assert (Lr : forall d, Rabs d <= 29 / 12 * L -> Rabs (lam * d) <= 21 * L).
  { intros d D. rewrite Rabs_mult. apply Rle_trans with (17 / 2 * (29 / 12 * L)); [apply Rmult_le_compat; auto using Rabs_pos|lra]. }
  assert (Ud1 : nr L (fst (fv_sub rx (f_image_of w tx))) (fst r - i1) 67) by (eapply nr_weak; [auto|apply nr_sub with (c := 0) (d := 64) (M := 29 / 12); auto using nr_exact; lra|lra]).
  assert (Ud2 : nr L (snd (fv_sub rx (f_image_of w tx))) (snd r - i2) 67) by (eapply nr_weak; [auto|apply nr_sub with (c := 0) (d := 64) (M := 29 / 12); auto using nr_exact; lra|lra]).
  assert (UN : nr L (f_dot (fv_sub rx (f_image_of w tx)) (f_normal w)) (h1 + h2) 134).
  { rewrite <- Un. eapply nr_weak; [auto|apply (dotn L _ _ _ _ n1 n2 67 (29 / 12) (17 / 6)); auto; try lra|lra].
    rewrite Un. eapply Rle_trans; [apply Rabs_triang|]. lra. }
  assert (VN : nr L (f_dot (fv_sub (fw_origin w) rx) (f_normal w)) (- h2) 18).
  { replace (- h2) with ((fst a - fst r) * n1 + (snd a - snd r) * n2) by (rewrite Eh2; ring).
    eapply nr_weak; [auto|apply (dotn L _ _ _ _ n1 n2 (1 + / 10) 1 (17 / 12)); auto; try lra|lra].
    - apply exact_sub; auto; [rewrite Rabs_minus_sym|]; lra.
    - apply exact_sub; auto; [rewrite Rabs_minus_sym|]; lra.
    - rewrite Rabs_minus_sym. lra.
    - rewrite Rabs_minus_sym. lra.
    - replace ((fst a - fst r) * n1 + (snd a - snd r) * n2) with (- h2) by (rewrite Eh2; ring). rewrite Rabs_Ropp. auto. }
  assert (Pr : forall x d, nr L x d 67 -> Rabs d <= 29 / 12 * L -> nr (L * L) (f_mul (f_dot (fv_sub (fw_origin w) rx) (f_normal w)) x) (- h2 * d) 143).
  { intros x d X D. eapply nr_weak; [auto|apply nr_mul with (c := 18) (d := 67) (A := 17 / 12) (B := 29 / 12) (e := 139) (M := 7 / 2); auto; try lra|lra].
    - rewrite Rabs_Ropp. lra.
    - rewrite Rabs_mult, Rabs_Ropp. apply Rle_trans with (17 / 12 * L * (29 / 12 * L)); [apply Rmult_le_compat; auto using Rabs_pos|nra].
    - unfold u24. lra. }
  assert (Dv : forall x d, nr L x d 67 -> Rabs d <= 29 / 12 * L ->
    (exists u, fval (f_dot (fv_sub rx (f_image_of w tx)) (f_normal w)) = Fin u /\ u <> 0) /\
    nr L (f_div (f_mul (f_dot (fv_sub (fw_origin w) rx) (f_normal w)) x) (f_dot (fv_sub rx (f_image_of w tx)) (f_normal w))) (- (lam * d)) 17790).
  { intros x d X D. pose proof (Lr d D) as B. replace (- (lam * d)) with (- h2 * d / (h1 + h2)) by (unfold lam; field; auto).
    destruct (nr_div L L _ _ (- h2 * d) (h1 + h2) 143 134 (/ 6) 17760 21 SL L0 (Pr x d X D) UN) as (_ & Z & R); auto; try lra.
    - replace (- h2 * d / (h1 + h2)) with (- (lam * d)) by (unfold lam; field; auto). rewrite Rabs_Ropp. auto.
    - unfold u24. lra.
    - unfold u24. lra.
    - split; auto. eapply nr_weak; [auto|exact R|lra]. }
  destruct (Dv _ _ Ud1 U1) as [(u & Uv & Uz) R1]. destruct (Dv _ _ Ud2 U2) as [_ R2].
  assert (NZ : f_eqb (f_dot (fv_sub rx (f_image_of w tx)) (f_normal w)) f_zero = false).
  { destruct (f_eqb _ f_zero) eqn:Q; auto. exfalso. apply val_eqb_zero in Q. rewrite Uv in Q. apply Fin_inj in Q. auto. }
  unfold f_backward. cbv zeta. rewrite NZ. cbn [fst snd fv_add fv_div fv_scale].
  assert (Q : forall x d b, Rabs d <= 29 / 12 * L -> Rabs (x - b) <= L -> Rabs b <= L -> Rabs (x + - (lam * d)) <= 23 * L).
  { intros x d b D X B. pose proof (Lr d D) as Y. replace (x + - (lam * d)) with ((x - b) + b - lam * d) by ring. unfold Rminus at 1.
    eapply Rle_trans; [apply Rabs_triang|]. rewrite Rabs_Ropp. eapply Rle_trans; [apply Rplus_le_compat_r, Rabs_triang|]. lra. }
  split; [|split; [|auto]]; (eapply nr_weak; [auto| |]).
  1: { unfold Rminus at 1. apply nr_add with (c := 0) (d := 17790) (M := 23); auto using nr_exact; try lra. apply (Q _ _ (fst a)); auto. }
  2: { unfold Rminus at 1. apply nr_add with (c := 0) (d := 17790) (M := 23); auto using nr_exact; try lra. apply (Q _ _ (snd a)); auto. }
  - lra.
  - lra.
Qed.

(** ** Directions *)
Lemma direction_long L v x y c : ordinary L -> 64 * L <= bpow radix2 50 -> nr L (fst v) x c -> nr L (snd v) y c -> 0 <= c <= 18000 -> L / 12 <= hyp x y -> hyp x y <= 60 * L ->
  exists f g, fval (fst (fst (f_normalize v))) = Fin f /\ fval (snd (fst (f_normalize v))) = Fin g /\
    Rabs (f - x / hyp x y) <= / 25 /\ Rabs (g - y / hyp x y) <= / 25.
Proof.
  intros [HL1 HL2] HL3 (x' & X & Ex) (y' & Y & Ey) C0 Lo Hi. pose proof (bpow_gt_0 radix2 (-50)) as P. pose proof u24_pos as U.
  assert (L0 : 0 < L) by lra.
  assert (Ce : c * (u24 * L) <= / 75 * (L / 12)).
  { apply Rle_trans with (18000 * (u24 * L)); [apply Rmult_le_compat_r; nra|]. unfold u24. lra. }
  assert (H' : 9 / 10 * (L / 12) <= hyp x' y' <= 64 * L).
  { pose proof (hyp_triang x y (x' - x) (y' - y)) as T1. pose proof (hyp_triang x' y' (x - x') (y - y')) as T2.
    replace (x + (x' - x)) with x' in T1 by ring. replace (y + (y' - y)) with y' in T1 by ring. replace (x' + (x - x')) with x in T2 by ring. replace (y' + (y - y')) with y in T2 by ring.
    pose proof (hyp_small _ _ _ Ex Ey). pose proof Ex as Ex'. pose proof Ey as Ey'. rewrite Rabs_minus_sym in Ex', Ey'. pose proof (hyp_small _ _ _ Ex' Ey'). lra. }
  assert (OK : len_ok (hyp x' y')).
  { split.
    - apply Rle_trans with (/ 64 * bpow radix2 (-50)); [|lra]. replace (/ 64) with (bpow radix2 (-6)) by (cbn; lra). rewrite <- bpow_plus. apply bpow_le. lia.
    - apply Rle_trans with (bpow radix2 50); [lra|]. apply bpow_le. lia. }
  destruct (norm_round v x' y' X Y OK) as [(f & F & E1) (g & G & E2)].
  destruct (unit_stable x y x' y' _ (L / 12) Ex Ey Lo ltac:(lra) ltac:(lra)) as (S1 & S2 & _).
  assert (K : 5 / 2 * (c * (u24 * L) / (L / 12)) <= / 30).
  { apply Rle_trans with (5 / 2 * / 75); [|lra]. apply Rmult_le_compat_l; [lra|]. apply Rmult_le_reg_r with (L / 12); [lra|]. unfold Rdiv at 1. rewrite Rmult_assoc, Rinv_l by lra. lra. }
  assert (K' : 7 / 2 * (u24 * 1) <= / 1000) by (unfold u24; lra).
  exists f, g. split; [exact F|]. split; [exact G|]. split.
  - replace (f - x / hyp x y) with ((f - x' / hyp x' y') + (x' / hyp x' y' - x / hyp x y)) by ring. eapply Rle_trans; [apply Rabs_triang|]. lra.
  - replace (g - y / hyp x y) with ((g - y' / hyp x' y') + (y' / hyp x' y' - y / hyp x y)) by ring. eapply Rle_trans; [apply Rabs_triang|]. lra.
Qed.

(** ** Coarse errors *)
Definition cr (x : f32) (r e : R) : Prop := exists v, fval x = Fin v /\ Rabs (v - r) <= e.
Lemma cr_round x z r e B : fval x = xround (Fin z) -> Rabs (z - r) <= e -> Rabs r <= B -> e <= 10 -> B <= 12 -> cr x r (e + / 100000).
Proof.
  intros X Z Rb E B1. assert (Zb : Rabs z <= 22). { replace z with ((z - r) + r) by ring. eapply Rle_trans; [apply Rabs_triang|]. lra. }
  unfold cr. rewrite X, fin_round by (apply Rle_trans with (bpow radix2 5); [cbn; lra|apply bpow_le; lia]). eexists. split; [reflexivity|].
  pose proof (rnd_rel z) as Er. fold u24 in Er. assert (T : bpow radix2 (-150) <= / 1000000) by (apply Rle_trans with (bpow radix2 (-20)); [apply bpow_le; lia|cbn; lra]).
  assert (u24 * Rabs z <= / 700000) by (pose proof (Rabs_pos z); unfold u24; lra).
  replace (rnd z - r) with ((rnd z - z) + (z - r)) by ring. eapply Rle_trans; [apply Rabs_triang|]. lra.
Qed.
Lemma cr_sub x y r s c d : cr x r c -> cr y s d -> Rabs (r - s) <= 10 -> c + d <= 10 -> cr (f_sub x y) (r - s) (c + d + / 100000).
Proof.
  intros (v & V & Ev) (w & W & Ew) Hm C. apply cr_round with (z := v - w) (B := 10); auto; try lra.
  - rewrite val_sub, V, W. reflexivity.
  - replace (v - w - (r - s)) with ((v - r) + - (w - s)) by ring. eapply Rle_trans; [apply Rabs_triang|]. rewrite Rabs_Ropp. lra.
Qed.
Lemma cr_add x y r s c d : cr x r c -> cr y s d -> Rabs (r + s) <= 10 -> c + d <= 10 -> cr (f_add x y) (r + s) (c + d + / 100000).
Proof.
  intros (v & V & Ev) (w & W & Ew) Hm C. apply cr_round with (z := v + w) (B := 10); auto; try lra.
  - rewrite val_add, V, W. reflexivity.
  - replace (v + w - (r + s)) with ((v - r) + (w - s)) by ring. eapply Rle_trans; [apply Rabs_triang|]. lra.
Qed.
Lemma cr_mul x y r s c d A B e : cr x r c -> cr y s d -> Rabs r <= A -> Rabs s <= B -> Rabs (r * s) <= 10 -> 0 <= c -> 0 <= d ->
  c * B + d * A + c * d <= e -> e <= 10 -> cr (f_mul x y) (r * s) (e + / 100000).
Proof.
  intros (v & V & Ev) (w & W & Ew) Ra Sb Hm C D He E. pose proof (Rabs_pos r). pose proof (Rabs_pos s).
  apply cr_round with (z := v * w) (B := 10); auto; try lra.
  - rewrite val_mul, V, W. reflexivity.
  - replace (v * w - r * s) with ((v - r) * (w - s) + (v - r) * s + r * (w - s)) by ring.
    eapply Rle_trans; [apply Rabs_triang|]. eapply Rle_trans; [apply Rplus_le_compat_r, Rabs_triang|]. rewrite !Rabs_mult.
    assert (Rabs (v - r) * Rabs (w - s) <= c * d) by (apply Rmult_le_compat; auto using Rabs_pos).
    assert (Rabs (v - r) * Rabs s <= c * B) by (apply Rmult_le_compat; auto using Rabs_pos).
    assert (Rabs r * Rabs (w - s) <= A * d) by (apply Rmult_le_compat; auto using Rabs_pos). lra.
Qed.
Lemma cr_weak x r c c' : cr x r c -> c <= c' -> cr x r c'.
Proof. intros (v & V & E) C. exists v. split; auto. lra. Qed.

(** ** The loss when the reflected ray goes the wrong way *)
Lemma wrong_way (fi fr N : fvec) a1 a2 b1 b2 n1 n2 :
  cr (fst fi) a1 (/ 25) -> cr (snd fi) a2 (/ 25) -> cr (fst fr) b1 (/ 25) -> cr (snd fr) b2 (/ 25) ->
  cr (fst N) n1 (/ 100000) -> cr (snd N) n2 (/ 100000) ->
  a1 * a1 + a2 * a2 = 1 -> b1 * b1 + b2 * b2 = 1 -> n1 * n1 + n2 * n2 = 1 ->
  a1 - 2 * (a1 * n1 + a2 * n2) * n1 = - b1 -> a2 - 2 * (a1 * n1 + a2 * n2) * n2 = - b2 ->
  let e := fv_sub fr (fv_sub fi (fv_scale (f_mul (f_int 2) (f_dot fi N)) N)) in
  exists v, fval (f_dot e e) = Fin v /\ 1 < v.
Proof.
  intros I1 I2 R1 R2 N1 N2 Ua Ub Un E1 E2 e.
  destruct (abs_sum _ _ Ua) as (Sa & A1 & A2). destruct (abs_sum _ _ Ub) as (Sb & B1 & B2). destruct (abs_sum _ _ Un) as (Sn & M1 & M2).
  assert (P1 : Rabs (a1 * n1) <= 1) by (rewrite Rabs_mult; replace 1 with (1 * 1) by ring; apply Rmult_le_compat; auto using Rabs_pos).
  assert (P2 : Rabs (a2 * n2) <= 1) by (rewrite Rabs_mult; replace 1 with (1 * 1) by ring; apply Rmult_le_compat; auto using Rabs_pos).
  assert (S : Rabs (a1 * n1 + a2 * n2) <= 1).
  { pose proof (cs_abs a1 a2 n1 n2) as C. unfold hyp in C. rewrite Ua, Un, sqrt_1 in C. lra. }
  assert (D : cr (f_dot fi N) (a1 * n1 + a2 * n2) (81 / 1000)).
  { unfold f_dot. eapply cr_weak; [apply cr_add; [apply cr_mul with (c := / 25) (d := / 100000) (A := 1) (B := 1) (e := 401 / 10000); eauto; lra|apply cr_mul with (c := / 25) (d := / 100000) (A := 1) (B := 1) (e := 401 / 10000); eauto; lra|lra|lra]|lra]. }
  assert (T2 : cr (f_int 2) 2 0) by (exists 2; split; [apply val_int; lia|rewrite Rminus_eq_0, Rabs_R0; lra]).
  set (s := a1 * n1 + a2 * n2) in *. assert (S2 : Rabs (2 * s) <= 2) by (rewrite Rabs_mult, (Rabs_pos_eq 2); lra).
  assert (D2 : cr (f_mul (f_int 2) (f_dot fi N)) (2 * s) (163 / 1000)).
  { eapply cr_weak; [apply cr_mul with (c := 0) (d := 81 / 1000) (A := 2) (B := 1) (e := 162 / 1000); eauto; try lra; rewrite Rabs_pos_eq; lra|lra]. }
  assert (Co : forall f g h a b n, cr f a (/ 25) -> cr g b (/ 25) -> cr h n (/ 100000) -> Rabs b <= 1 -> Rabs n <= 1 -> a - 2 * s * n = - b ->
    cr (f_sub g (f_sub f (f_mul (f_mul (f_int 2) (f_dot fi N)) h))) (2 * b) (/ 4)).
  { intros f g h a b n F G H Bb Nb E. assert (Q : Rabs (2 * s * n) <= 2) by (rewrite Rabs_mult; replace 2 with (2 * 1) by ring; apply Rmult_le_compat; auto using Rabs_pos; replace (2 * 1) with 2 by ring; auto).
    assert (K : cr (f_sub f (f_mul (f_mul (f_int 2) (f_dot fi N)) h)) (- b) (205 / 1000)).
    { rewrite <- E. eapply cr_weak; [apply cr_sub; [exact F|apply cr_mul with (c := 163 / 1000) (d := / 100000) (A := 2) (B := 1) (e := 1631 / 10000); eauto; lra|rewrite E, Rabs_Ropp; lra|lra]|lra]. }
    replace (2 * b) with (b - - b) by ring. eapply cr_weak; [apply cr_sub; [exact G|exact K| |lra]|lra]. replace (b - - b) with (2 * b) by ring. rewrite Rabs_mult, (Rabs_pos_eq 2); lra. }
  destruct (Co _ _ _ a1 b1 n1 I1 R1 N1 B1 M1 E1) as (e1 & V1 & X1). destruct (Co _ _ _ a2 b2 n2 I2 R2 N2 B2 M2 E2) as (e2 & V2 & X2).
  apply Rabs_le_inv in X1, X2, B1, B2.
  assert (Sq : forall x v, fval x = Fin v -> - (9 / 4) <= v <= 9 / 4 -> exists y, fval (f_mul x x) = Fin y /\ v * v - / 1000 <= y <= 6 /\ 0 <= y).
  { intros x v X V. assert (V2' : 0 <= v * v <= 81 / 16) by (split; [apply Rle_0_sqr|nra]).
    destruct (cr_round (f_mul x x) (v * v) (v * v) 0 6) as (y & Y & Ey); try lra; [rewrite val_mul, X; reflexivity|rewrite Rminus_eq_0, Rabs_R0; lra|rewrite Rabs_pos_eq; lra|].
    exists y. split; [auto|]. split; [apply Rabs_le_inv in Ey; lra|]. rewrite val_mul, X in Y. cbn [xmul] in Y. rewrite fin_round in Y by (rewrite Rabs_pos_eq by lra; apply Rle_trans with (bpow radix2 3); [cbn; lra|apply bpow_le; lia]). apply Fin_inj in Y. rewrite <- Y. apply rnd_pos. lra. }
  destruct (Sq _ _ V1 ltac:(lra)) as (y1 & Y1 & Z1 & W1). destruct (Sq _ _ V2 ltac:(lra)) as (y2 & Y2 & Z2 & W2).
  destruct (cr_round (f_dot e e) (y1 + y2) (y1 + y2) 0 12) as (v & V & Ev); try lra.
  - unfold f_dot. rewrite val_add. unfold e. cbn [fst snd fv_sub fv_scale]. rewrite Y1, Y2. reflexivity.
  - rewrite Rminus_eq_0, Rabs_R0. lra.
  - rewrite Rabs_pos_eq; lra.
  - exists v. split; auto. apply Rabs_le_inv in Ev. assert (11 / 10 <= e1 * e1 + e2 * e2); [|lra].
    destruct (Rle_lt_dec (7 / 10) b1) as [G|G]; [nra|]. destruct (Rle_lt_dec b1 (- (7 / 10))) as [G'|G']; [nra|].
    destruct (Rle_lt_dec (7 / 10) b2) as [G2|G2]; [nra|]. destruct (Rle_lt_dec b2 (- (7 / 10))) as [G2'|G2']; [nra|]. exfalso. nra.
Qed.

(** ** The geometry: the reflected ray and the outgoing one are opposite *)
Lemma wrong_law n1 n2 h1 h2 W1 W2 lam : n1 * n1 + n2 * n2 = 1 -> W1 * n1 + W2 * n2 = h1 + h2 -> h1 + h2 <> 0 -> lam = h2 / (h1 + h2) -> h1 * h2 < 0 ->
  let z1 := (1 - lam) * W1 - 2 * h1 * n1 in let z2 := (1 - lam) * W2 - 2 * h1 * n2 in let w1 := lam * W1 in let w2 := lam * W2 in
  z1 * n1 + z2 * n2 = - h1 /\ w1 * n1 + w2 * n2 = h2 /\
  hyp z1 z2 = Rabs (1 - lam) * hyp W1 W2 /\ hyp w1 w2 = Rabs lam * hyp W1 W2 /\
  z1 / hyp z1 z2 - 2 * (z1 / hyp z1 z2 * n1 + z2 / hyp z1 z2 * n2) * n1 = - (w1 / hyp w1 w2) /\
  z2 / hyp z1 z2 - 2 * (z1 / hyp z1 z2 * n1 + z2 / hyp z1 z2 * n2) * n2 = - (w2 / hyp w1 w2).
Proof.
  intros N Un Hnz El Op z1 z2 w1 w2.
  assert (Mu : (1 - lam) * (h1 + h2) = h1) by (rewrite El; field; auto). assert (La : lam * (h1 + h2) = h2) by (rewrite El; field; auto).
  assert (Zn : z1 * n1 + z2 * n2 = - h1).
  { unfold z1, z2. replace (_ + _) with ((1 - lam) * (W1 * n1 + W2 * n2) - 2 * h1 * (n1 * n1 + n2 * n2)) by ring. rewrite Un, N, Mu. ring. }
  assert (Wn : w1 * n1 + w2 * n2 = h2) by (unfold w1, w2; replace (_ + _) with (lam * (W1 * n1 + W2 * n2)) by ring; rewrite Un; auto).
  assert (M0 : 0 < hyp W1 W2).
  { pose proof (cs_abs W1 W2 n1 n2) as C. rewrite Un in C. replace (hyp n1 n2) with 1 in C by (unfold hyp; rewrite N, sqrt_1; auto). pose proof (Rabs_pos_lt _ Hnz). lra. }
  assert (Sc : forall k, hyp (k * W1) (k * W2) = Rabs k * hyp W1 W2).
  { intro k. rewrite <- hyp_scale by apply Rabs_pos. unfold hyp. f_equal. assert (Q : Rabs k * Rabs k = k * k) by (rewrite <- Rabs_mult; apply Rabs_pos_eq, Rle_0_sqr).
    replace (k * W1 * (k * W1) + k * W2 * (k * W2)) with (k * k * (W1 * W1 + W2 * W2)) by ring. rewrite <- Q. ring. }
  assert (Hz : hyp z1 z2 = Rabs (1 - lam) * hyp W1 W2).
  { rewrite <- Sc. unfold hyp. f_equal. unfold z1, z2.
    replace (_ + _) with ((1 - lam) * W1 * ((1 - lam) * W1) + (1 - lam) * W2 * ((1 - lam) * W2) - 4 * h1 * ((1 - lam) * (W1 * n1 + W2 * n2)) + 4 * h1 * h1 * (n1 * n1 + n2 * n2)) by ring.
    rewrite Un, N, Mu. ring. }
  assert (Hw : hyp w1 w2 = Rabs lam * hyp W1 W2) by apply Sc.
  assert (OpL : (1 - lam) * lam < 0).
  { assert (Q : (1 - lam) * lam * ((h1 + h2) * (h1 + h2)) < 0) by (replace ((1 - lam) * lam * ((h1 + h2) * (h1 + h2))) with (((1 - lam) * (h1 + h2)) * (lam * (h1 + h2))) by ring; rewrite Mu, La; auto).
    assert (S : 0 < (h1 + h2) * (h1 + h2)) by (apply Rsqr_pos_lt; auto). nra. }
  assert (S : forall z n W V, z = (1 - lam) * W - 2 * h1 * n -> V = lam * W -> z / hyp z1 z2 - 2 * (z1 / hyp z1 z2 * n1 + z2 / hyp z1 z2 * n2) * n = - (V / hyp w1 w2)).
  { intros z n W V -> ->. replace (z1 / hyp z1 z2 * n1 + z2 / hyp z1 z2 * n2) with ((z1 * n1 + z2 * n2) / hyp z1 z2) by (unfold Rdiv; ring).
    rewrite Zn, Hz, Hw. clear -M0 OpL. destruct (Rle_lt_dec lam 0) as [G|G].
    - assert (lam < 0) by nra. rewrite (Rabs_left lam), (Rabs_right (1 - lam)) by lra. field. repeat split; lra.
    - assert (1 - lam < 0) by nra. rewrite (Rabs_right lam), (Rabs_left (1 - lam)) by lra. field. repeat split; lra. }
  split; [exact Zn|]. split; [exact Wn|]. split; [exact Hz|]. split; [exact Hw|].
  split; [apply (S z1 n1 W1 w1)|apply (S z2 n2 W2 w2)]; reflexivity.
Qed.
Lemma hyp_le_dot n1 n2 x y h : n1 * n1 + n2 * n2 = 1 -> x * n1 + y * n2 = h -> Rabs h <= hyp x y.
Proof. intros N E. pose proof (cs_abs x y n1 n2) as C. replace (hyp n1 n2) with 1 in C by (unfold hyp; rewrite N, sqrt_1; auto). rewrite E in C. lra. Qed.

(** A wall between the nodes: the computed point is a point, and the loss is above 1. *)
Lemma opposite_any L w tx rx a b p r : stands_for (fw_origin w) a -> stands_for (fw_dest w) b -> stands_for tx p -> stands_for rx r ->
  opposite_sides L a b p r ->
  (exists q, stands_for (f_backward rx (w, f_image_of w tx)) q /\ dist p q <= 60 * L /\ dist q r <= 60 * L) /\ exists v, fval (f_evaluate w tx (f_backward rx (w, f_image_of w tx)) rx) = Fin v /\ 1 < v.
Proof.
  intros Oa Ob Op Or (HL & HL2 & Wa & Wp & Wr & Cab & Cpa & Cra & Len & n & Un & On & H1 & H2 & Hd).
  assert (L0 : 0 < L) by (destruct HL; pose proof (bpow_gt_0 radix2 (-50)); lra).
  set (l := hyp (fst b - fst a) (snd b - snd a)). assert (tl : L / 12 <= l) by (apply hyp_lower; [lra|auto]).
  pose proof (ordinary_low L (/ 12) HL ltac:(lra)) as low. assert (Hl : bpow radix2 (-54) <= l) by lra.
  assert (l0 : 0 < l) by lra.
  set (n1 := (snd b - snd a) / l). set (n2 := - (fst b - fst a) / l).
  set (h1 := (fst p - fst a) * n1 + (snd p - snd a) * n2). set (h2 := (fst r - fst a) * n1 + (snd r - snd a) * n2).
  assert (Sides : ((L / 12 <= h1 /\ h2 <= - (L / 12)) \/ (h1 <= - (L / 12) /\ L / 12 <= h2)) /\ L / 6 <= Rabs (h1 + h2)).
  { unfold height in H1, H2, Hd. destruct (normal_pm a b l0 n Un On) as [[E1 E2]|[E1 E2]]; fold l n1 in E1; fold l n2 in E2; rewrite E1, E2 in H1, H2, Hd.
    - split; [left; unfold h1, h2; lra|exact Hd].
    - split; [right; unfold h1, h2; lra|]. replace (h1 + h2) with (- ((fst p - fst a) * - n1 + (snd p - snd a) * - n2 + ((fst r - fst a) * - n1 + (snd r - snd a) * - n2))) by (unfold h1, h2; ring). rewrite Rabs_Ropp. exact Hd. }
  clear H1 H2 Hd Un On n. destruct Sides as [Sides Hs].
  pose proof (n_unit a b Hl) as N. fold l n1 n2 in N.
  assert (Op12 : h1 * h2 < 0) by (destruct Sides as [[A B]|[A B]]; nra). assert (Ab : L / 12 <= Rabs h1 /\ L / 12 <= Rabs h2).
  { destruct Sides as [[A B]|[A B]]; (split; [first [rewrite Rabs_pos_eq by lra; lra|rewrite Rabs_left by lra; lra]|first [rewrite Rabs_pos_eq by lra; lra|rewrite Rabs_left by lra; lra]]). }
  assert (Hh : Rabs h1 <= 17 / 12 * L /\ Rabs h2 <= 17 / 12 * L).
  { destruct Cpa as [P1 P2], Cra as [R1 R2]. pose proof (hyp_small _ _ _ P1 P2). pose proof (hyp_small _ _ _ R1 R2).
    pose proof (hyp_le_dot n1 n2 (fst p - fst a) (snd p - snd a) h1 N eq_refl). pose proof (hyp_le_dot n1 n2 (fst r - fst a) (snd r - snd a) h2 N eq_refl). lra. }
  destruct Hh as [Hh1 Hh2]. assert (Hnz : h1 + h2 <> 0) by (intro Z; rewrite Z, Rabs_R0 in Hs; lra).
  destruct (normal_any L w a b HL Oa Ob Cab Hl) as [N1 N2]. fold l n1 in N1. fold l n2 in N2.
  destruct (image_any L w tx a b p HL Oa Ob Op Wa Cab Cpa Hl) as [J1 J2]. fold l n1 n2 h1 in J1, J2.
  destruct (ray_range L a b p r Cpa Cra Hl) as (U1 & U2 & Un). fold l n1 n2 h1 h2 in U1, U2, Un.
  set (i1 := fst p - 2 * h1 * n1) in *. set (i2 := snd p - 2 * h1 * n2) in *.
  destruct (cross_point L w tx rx a r n1 n2 h1 h2 i1 i2 HL Oa Or Wa Cra N N1 N2 J1 J2 U1 U2 Un eq_refl Hh1 Hh2 Hs) as (Q1 & Q2 & Lm).
  set (lam := h2 / (h1 + h2)) in *. set (pt := f_backward rx (w, f_image_of w tx)) in *. clearbody pt.
  destruct (wrong_law n1 n2 h1 h2 (fst r - i1) (snd r - i2) lam N Un Hnz eq_refl Op12) as (Zn & Wn & Hz & Hw & E1 & E2).
  set (q1 := fst r - lam * (fst r - i1)) in *. set (q2 := snd r - lam * (snd r - i2)) in *.
  set (z1 := (1 - lam) * (fst r - i1) - 2 * h1 * n1) in *. set (z2 := (1 - lam) * (snd r - i2) - 2 * h1 * n2) in *.
  set (w1 := lam * (fst r - i1)) in *. set (w2 := lam * (snd r - i2)) in *.
  assert (Z1 : q1 - fst p = z1) by (unfold q1, z1, w1, i1; ring). assert (Z2 : q2 - snd p = z2) by (unfold q2, z2, w2, i2; ring).
  assert (V1 : fst r - q1 = w1) by (unfold q1, w1; ring). assert (V2 : snd r - q2 = w2) by (unfold q2, w2; ring).
  pose proof (hyp_small _ _ _ U1 U2) as HW. pose proof (hyp_pos (fst r - i1) (snd r - i2)) as HW0.
  assert (Zl : L / 12 <= hyp z1 z2) by (pose proof (hyp_le_dot _ _ _ _ _ N Zn) as X; rewrite Rabs_Ropp in X; lra).
  assert (Wl : L / 12 <= hyp w1 w2) by (pose proof (hyp_le_dot _ _ _ _ _ N Wn) as X; lra).
  assert (Lm1 : Rabs (1 - lam) <= 19 / 2) by (apply Rabs_le_inv in Lm; apply Rabs_le; lra).
  assert (Zh : hyp z1 z2 <= 33 * L) by (rewrite Hz; apply Rle_trans with (19 / 2 * (17 / 12 * (29 / 12 * L))); [apply Rmult_le_compat; auto using Rabs_pos|lra]).
  assert (Wh : hyp w1 w2 <= 33 * L) by (rewrite Hw; apply Rle_trans with (17 / 2 * (17 / 12 * (29 / 12 * L))); [apply Rmult_le_compat; auto using Rabs_pos|lra]).
  destruct (hyp_ge z1 z2) as [Zg1 Zg2]. destruct (hyp_ge w1 w2) as [Wg1 Wg2].
  destruct (szL L HL) as [SL _]. destruct Op as [Px Py], Or as [Rx Ry]. pose proof u24_pos as U.
  split.
  { destruct Q1 as (x & X & Ex), Q2 as (y & Y & Ey). exists (x, y). split; [split; auto|].
    assert (Ee : 17850 * (u24 * L) <= L) by (unfold u24; lra).
    rewrite !dist_hyp. cbn [fst snd].
    assert (D : Rabs (x - q1) <= L /\ Rabs (y - q2) <= L) by lra. destruct D as [D1 D2].
    pose proof (hyp_small _ _ _ D1 D2) as D. rewrite Rabs_minus_sym in D1, D2. pose proof (hyp_small _ _ _ D1 D2) as D'.
    pose proof (hyp_triang z1 z2 (x - q1) (y - q2)) as T1. pose proof (hyp_triang w1 w2 (q1 - x) (q2 - y)) as T2.
    replace (z1 + (x - q1)) with (x - fst p) in T1 by lra. replace (z2 + (y - q2)) with (y - snd p) in T1 by lra.
    replace (w1 + (q1 - x)) with (fst r - x) in T2 by lra. replace (w2 + (q2 - y)) with (snd r - y) in T2 by lra. lra. }
  assert (Dz1 : nr L (fst (fv_sub pt tx)) z1 18000) by (rewrite <- Z1; eapply nr_weak; [auto|apply nr_sub with (c := 17850) (d := 0) (M := 33); auto using nr_exact; rewrite ?Z1; lra|lra]).
  assert (Dz2 : nr L (snd (fv_sub pt tx)) z2 18000) by (rewrite <- Z2; eapply nr_weak; [auto|apply nr_sub with (c := 17850) (d := 0) (M := 33); auto using nr_exact; rewrite ?Z2; lra|lra]).
  assert (Dw1 : nr L (fst (fv_sub rx pt)) w1 18000) by (rewrite <- V1; eapply nr_weak; [auto|apply nr_sub with (c := 0) (d := 17850) (M := 33); auto using nr_exact; rewrite ?V1; lra|lra]).
  assert (Dw2 : nr L (snd (fv_sub rx pt)) w2 18000) by (rewrite <- V2; eapply nr_weak; [auto|apply nr_sub with (c := 0) (d := 17850) (M := 33); auto using nr_exact; rewrite ?V2; lra|lra]).
  assert (HB : 64 * L <= bpow radix2 50) by (destruct HL2; lra).
  destruct (direction_long L (fv_sub pt tx) z1 z2 18000 HL HB Dz1 Dz2 ltac:(lra) Zl ltac:(lra)) as (f1 & f2 & F1 & F2 & G1 & G2).
  destruct (direction_long L (fv_sub rx pt) w1 w2 18000 HL HB Dw1 Dw2 ltac:(lra) Wl ltac:(lra)) as (f3 & f4 & F3 & F4 & G3 & G4).
  destruct (unit_bounds z1 z2 ltac:(lra)) as (_ & _ & Uz). destruct (unit_bounds w1 w2 ltac:(lra)) as (_ & _ & Uw).
  assert (Nc : forall x v, nr 1 x v (13 / 2) -> cr x v (/ 100000)) by (intros x v (y & Y & Ey); exists y; split; auto; unfold u24 in Ey; lra).
  unfold f_evaluate. cbv zeta.
  apply (wrong_way (fst (f_normalize (fv_sub pt tx))) (fst (f_normalize (fv_sub rx pt))) (f_normal w) (z1 / hyp z1 z2) (z2 / hyp z1 z2) (w1 / hyp w1 w2) (w2 / hyp w1 w2) n1 n2);
    auto; [exists f1|exists f2|exists f3|exists f4]; auto.
Qed.
