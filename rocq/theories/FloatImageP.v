(** The image method in single precision: exactness on a grid. *)
From Coq Require Import Reals List Bool ZArith Lra Lia Psatz.
From Flocq Require Import Core.Core IEEE754.BinarySingleNaN.
From Verif Require Import Base BaseP LogicM GeometryM PathM FloatM SpecFloat32 FloatP FloatLogicP FloatCmpP FloatAccP FloatGeomP FloatSegP FloatGridP FloatImageM SpecImage32.
Import ListNotations.
Open Scope R_scope.
Local Instance p24i : Prec_gt_0 24 := eq_refl.

Lemma along_sub d u v : along d (fv_sub u v) = f_sub (along d u) (along d v). Proof. destruct d; reflexivity. Qed.
Lemma across_sub d u v : across d (fv_sub u v) = f_sub (across d u) (across d v). Proof. destruct d; reflexivity. Qed.
Lemma along_add d u v : along d (fv_add u v) = f_add (along d u) (along d v). Proof. destruct d; reflexivity. Qed.
Lemma across_add d u v : across d (fv_add u v) = f_add (across d u) (across d v). Proof. destruct d; reflexivity. Qed.
Lemma along_scale d k v : along d (fv_scale k v) = f_mul k (along d v). Proof. destruct d; reflexivity. Qed.
Lemma across_scale d k v : across d (fv_scale k v) = f_mul k (across d v). Proof. destruct d; reflexivity. Qed.
Lemma along_div d v k : along d (fv_div v k) = f_div (along d v) k. Proof. destruct d; reflexivity. Qed.
Lemma across_div d v k : across d (fv_div v k) = f_div (across d v) k. Proof. destruct d; reflexivity. Qed.

Definition sign1 (s : R) : Prop := s = 1 \/ s = -1.
(** A unit vector across the direction [d]. *)
Definition unit_across (d : axis) (n : fvec) (s : R) : Prop := fval (along d n) = Fin 0 /\ fval (across d n) = Fin s /\ sign1 s.

Lemma sign_round x r s : fval x = Fin r -> sign1 s -> xround (Fin (r * s)) = Fin (r * s).
Proof.
  intros X [->| ->]; destruct (val_format x r X) as [F B]; apply xround_id.
  - rewrite Rmult_1_r. auto.
  - rewrite Rmult_1_r. auto.
  - replace (r * -1) with (- r) by ring. apply generic_format_opp. auto.
  - replace (r * -1) with (- r) by ring. rewrite Rabs_Ropp. auto.
Qed.
Lemma mul_sign x y r s : fval x = Fin r -> fval y = Fin s -> sign1 s -> fval (f_mul x y) = Fin (r * s).
Proof. intros X Y S. rewrite val_mul, X, Y. cbn [xmul]. eapply sign_round; eauto. Qed.
Lemma mul_zero_r x z : fval z = Fin 0 -> finite x -> fval (f_mul x z) = Fin 0.
Proof. intros Z [r X]. rewrite val_mul, Z, X. cbn [xmul]. rewrite Rmult_0_r. apply xround_zero. Qed.
Lemma zero_add_val z x : fval z = Fin 0 -> fval (f_add z x) = fval x.
Proof.
  intro Z. rewrite val_add, Z. transitivity (xround (fval x)); [|apply xround_val]. f_equal. destruct (fval x) eqn:E; cbn; auto. f_equal. lra.
Qed.
Lemma dot_across d u n s a : unit_across d n s -> finite (along d u) -> fval (across d u) = Fin a -> fval (f_dot u n) = Fin (a * s).
Proof.
  intros (N0 & N1 & S) F A. unfold f_dot. destruct d; cbn [along across] in *.
  - rewrite zero_add_val by (apply mul_zero_r; auto). eapply mul_sign; eauto.
  - rewrite add_zero_val by (apply mul_zero_r; auto). eapply mul_sign; eauto.
Qed.
Lemma fin_zero x : fval x = Fin 0 -> finite x. Proof. intro. exists 0. auto. Qed.

Lemma gr_norm_axis e x z n : gr e x n -> fval z = Fin 0 -> (Z.abs n <= 2048)%Z -> (-74 <= e <= 51)%Z ->
  fval (f_norm (z, x)) = Fin (IZR (Z.abs n) * bpow radix2 e) /\ fval (f_norm (x, z)) = Fin (IZR (Z.abs n) * bpow radix2 e).
Proof.
  intros X Z N E. assert (Q : gr (e + e) (f_mul x x) (n * n)) by (apply gr_mul; auto; [pose proof (prod_bound _ _ N N); lia|lia]).
  assert (S : fval (f_sqrt (f_mul x x)) = Fin (IZR (Z.abs n) * bpow radix2 e)).
  { rewrite val_sqrt, Q. assert (P : IZR (n * n) * bpow radix2 (e + e) = (IZR (Z.abs n) * bpow radix2 e) * (IZR (Z.abs n) * bpow radix2 e)).
    { rewrite bpow_plus, <- Z.abs_square, mult_IZR. ring. }
    rewrite P. assert (K : 0 <= IZR (Z.abs n) * bpow radix2 e) by (apply Rmult_le_pos; [apply IZR_le; lia|apply bpow_ge_0]).
    destruct (Rltb_spec (IZR (Z.abs n) * bpow radix2 e * (IZR (Z.abs n) * bpow radix2 e)) 0) as [L|L]; [nra|].
    rewrite sqrt_square by auto. f_equal. apply rnd_id, format_scaled; lia. }
  split; rewrite <- S; unfold f_norm, f_dot; cbn [fst snd]; rewrite !val_sqrt; [rewrite zero_add_val|rewrite add_zero_val]; auto; apply mul_zero_r; auto; apply fin_zero; auto.
Qed.

Lemma normal_axis d c N e w : axis_wall N e w (d, c) -> (N <= 1024)%Z -> (-74 <= e <= 51)%Z -> exists s, unit_across d (f_normal w) s.
Proof.
  intros (a & b & [[Ax Ay] (i1 & j1 & I1 & J1 & ->)] & [[Bx By] (i2 & j2 & I2 & J2 & ->)] & C1 & C2 & D) HN E.
  cbn [fst snd] in *. pose proof (bpow_gt_0 radix2 e) as P.
  assert (Tx : gr e (fst (fw_t w)) (i2 - i1)) by (unfold fw_t; cbn [fst fv_sub]; apply gr_sub; auto; lia).
  assert (Ty : gr e (snd (fw_t w)) (j2 - j1)) by (unfold fw_t; cbn [snd fv_sub]; apply gr_sub; auto; lia).
  assert (main : forall z x n, fval z = Fin 0 -> gr e x n -> (Z.abs n <= 2048)%Z -> n <> 0%Z ->
    forall len, fval len = Fin (IZR (Z.abs n) * bpow radix2 e) ->
    let l := if f_eqb len f_zero then f_one else len in
    fval (f_div z l) = Fin 0 /\ exists s, fval (f_div x l) = Fin s /\ sign1 s).
  { intros z x n Z X Nn N0 len L. assert (L0 : IZR (Z.abs n) * bpow radix2 e <> 0).
    { apply Rmult_integral_contrapositive_currified; [apply not_0_IZR; lia|lra]. }
    destruct (f_eqb len f_zero) eqn:Q; [apply val_eqb_zero in Q; rewrite L in Q; injection Q as Q; lra|]. cbv zeta.
    split; [rewrite (val_div z len _ L L0), Z; cbn [xmul]; rewrite Rmult_0_l; apply xround_zero|].
    rewrite (val_div x len _ L L0), X. cbn [xmul].
    assert (K : IZR n * bpow radix2 e * / (IZR (Z.abs n) * bpow radix2 e) = if Z.ltb n 0 then -1 else 1).
    { assert (IZR n <> 0) by (apply not_0_IZR; auto). destruct (Z.ltb_spec n 0); [rewrite Z.abs_neq, opp_IZR by lia|rewrite Z.abs_eq by lia]; field; split; lra. }
    rewrite K. destruct (Z.ltb n 0); eexists; (split; [apply xround_id; [|]|]); try (left; reflexivity); try (right; reflexivity).
    - apply (format_int (-1)); cbn; lia.
    - apply small_range, Rabs_le. lra.
    - apply (format_int 1); cbn; lia.
    - apply small_range, Rabs_le. lra. }
  unfold f_normal, f_normalize. cbv zeta. cbn [fst]. destruct d; cbn [along across fst snd] in *.
  - assert (Y0 : fval (snd (fw_t w)) = Fin 0).
    { rewrite Ty. f_equal. rewrite minus_IZR. rewrite Rmult_minus_distr_r. lra. }
    assert (X0 : gr e (f_opp (fst (fw_t w))) (i1 - i2)).
    { unfold gr. rewrite val_opp, Tx. cbn. f_equal. rewrite !minus_IZR. ring. }
    assert (M0 : (i1 - i2)%Z <> 0%Z) by (intro K; apply D; replace i2 with i1 by lia; reflexivity).
    destruct (gr_norm_axis e _ _ _ X0 Y0 ltac:(lia) E) as [L _].
    destruct (main _ _ _ Y0 X0 ltac:(lia) M0 _ L) as (R0 & s & R1 & S). exists s. split; [exact R0|]. split; auto.
  - assert (X0 : fval (f_opp (fst (fw_t w))) = Fin 0).
    { rewrite val_opp, Tx. cbn. f_equal. rewrite minus_IZR. rewrite Rmult_minus_distr_r. lra. }
    assert (M0 : (j2 - j1)%Z <> 0%Z) by (intro K; apply D; replace j2 with j1 by lia; reflexivity).
    destruct (gr_norm_axis e _ _ _ Ty X0 ltac:(lia) E) as [_ L].
    destruct (main _ _ _ X0 Ty ltac:(lia) M0 _ L) as (R0 & s & R1 & S). exists s. split; [exact R0|]. split; auto.
Qed.

(** [p] has the integer coordinates [i] along the direction and [j] across it. *)
Definition at_ (d : axis) (e : Z) (p : fvec) (i j : Z) : Prop := gr e (along d p) i /\ gr e (across d p) j.
Definition pair_of {A} (d : axis) (x y : A) : A * A := match d with Horizontal => (x, y) | Vertical => (y, x) end.
Lemma along_pair {A} d (x y : A) : along d (pair_of d x y) = x. Proof. destruct d; reflexivity. Qed.
Lemma across_pair {A} d (x y : A) : across d (pair_of d x y) = y. Proof. destruct d; reflexivity. Qed.
Lemma within_at d N e p q : within_grid N e p q <->
  exists i j, (Z.abs i <= N)%Z /\ (Z.abs j <= N)%Z /\ at_ d e p i j /\ q = pair_of d (IZR i * bpow radix2 e) (IZR j * bpow radix2 e).
Proof.
  unfold within_grid, stands_for, at_, gr. destruct d; cbn [along across pair_of]; split.
  - intros ((A & B) & i & j & I & J & ->). exists i, j. auto.
  - intros (i & j & I & J & [A B] & ->). split; [auto|]. exists i, j. auto.
  - intros ((A & B) & i & j & I & J & ->). exists j, i. auto.
  - intros (i & j & I & J & [A B] & ->). split; [auto|]. exists j, i. auto.
Qed.
Lemma at_finite d e p i j : at_ d e p i j -> finite (along d p) /\ finite (across d p).
Proof. intros [A B]. split; eexists; eauto. Qed.

(** What is used of a wall: its normal, and the position of its origin. *)
Definition wall_facts (d : axis) (N e : Z) (w : fwall) (c : R) (o m : Z) (s : R) : Prop :=
  unit_across d (f_normal w) s /\ at_ d e (fw_origin w) o m /\ (Z.abs o <= N)%Z /\ (Z.abs m <= N)%Z /\ c = IZR m * bpow radix2 e.
Lemma axis_facts d c N e w : axis_wall N e w (d, c) -> (N <= 1024)%Z -> (-74 <= e <= 51)%Z -> exists o m s, wall_facts d N e w c o m s.
Proof.
  intros W HN E. destruct (normal_axis d c N e w W HN E) as [s S]. destruct W as (a & b & A & _ & C & _). cbn [fst snd] in C.
  apply (within_at d) in A. destruct A as (i & j & I & J & A & ->). rewrite across_pair in C. exists i, j, s. repeat split; auto; apply S || apply A.
Qed.

Lemma gr_double e x n s : sign1 s -> fval x = Fin (IZR n * bpow radix2 e * s) -> (Z.abs n <= 2 ^ 24)%Z -> (-149 <= e <= 100)%Z ->
  fval (f_mul (f_int 2) x) = Fin (2 * (IZR n * bpow radix2 e * s)).
Proof.
  intros S X N E. rewrite val_mul, X, (val_int 2) by (cbn; lia). cbn [xmul].
  assert (K : exists m, (Z.abs m <= 2 ^ 24)%Z /\ 2 * (IZR n * bpow radix2 e * s) = IZR m * bpow radix2 (e + 1)).
  { rewrite bpow_plus. change (bpow radix2 1) with 2. destruct S as [-> | ->]; [exists n|exists (- n)%Z]; (split; [lia|]); rewrite ?opp_IZR; ring. }
  destruct K as (m & M & ->). apply gr_round; lia.
Qed.

Lemma image_at d N e w c o m s p i j K : wall_facts d N e w c o m s -> at_ d e p i j -> (Z.abs i <= 2 ^ 23)%Z -> (Z.abs j <= K)%Z ->
  (0 <= N)%Z -> (4 * N + 2 * K <= 2 ^ 24)%Z -> (-74 <= e <= 51)%Z ->
  at_ d e (f_image_of w p) i (2 * m - j).
Proof.
  intros (U & [O1 O2] & Ho & Hm & ->) P I J HN HK E. pose proof P as [P1 P2]. unfold f_image_of. cbv zeta. set (n := f_normal w) in *.
  assert (Hy : gr e (across d (fv_sub p (fw_origin w))) (j - m)) by (rewrite across_sub; apply gr_sub; auto; lia).
  assert (Hx : gr e (along d (fv_sub p (fw_origin w))) (i - o)) by (rewrite along_sub; apply gr_sub; auto; lia).
  pose proof (dot_across d _ n s _ U ltac:(eexists; exact Hx) Hy) as D.
  destruct U as (N0 & N1 & S).
  pose proof (gr_double e _ _ s S D ltac:(lia) ltac:(lia)) as D2.
  split; [rewrite along_sub|rewrite across_sub].
  - rewrite along_scale. unfold gr. rewrite sub_zero_val by (apply mul_zero_r; [auto|eexists; eauto]). exact P1.
  - rewrite across_scale. pose proof (mul_sign _ _ _ _ D2 N1 S) as D3.
    assert (G : gr e (f_mul (f_mul (f_int 2) (f_dot (fv_sub p (fw_origin w)) n)) (across d n)) (2 * (j - m))).
    { unfold gr. rewrite D3. f_equal. rewrite mult_IZR. destruct S as [-> | ->]; ring. }
    replace (2 * m - j)%Z with (j - 2 * (j - m))%Z by ring. apply gr_sub; auto; lia.
Qed.

(** ** Images *)
Lemma mirror_pair d x y m b : mirror (d, IZR m * b) (pair_of d (IZR x * b) (IZR y * b)) = pair_of d (IZR x * b) (IZR (2 * m - y) * b).
Proof. destruct d; unfold mirror; cbn [fst snd pair_of]; f_equal; rewrite minus_IZR, mult_IZR; ring. Qed.
Lemma within_le N M e p q : within_grid N e p q -> (N <= M)%Z -> within_grid M e p q.
Proof. intros (A & i & j & I & J & Q) L. split; auto. exists i, j. repeat split; auto; lia. Qed.
Lemma image_exact N K e w d c p q : axis_wall N e w (d, c) -> (0 <= N <= 1024)%Z -> (-74 <= e <= 51)%Z -> within_grid K e p q ->
  (4 * N + 2 * K <= 2 ^ 24)%Z -> within_grid (K + 2 * N) e (f_image_of w p) (mirror (d, c) q).
Proof.
  intros W HN E P HK. destruct (axis_facts d c N e w W ltac:(lia) E) as (o & m & s & F). apply (within_at d) in P. destruct P as (i & j & I & J & P & ->).
  pose proof (image_at d N e w c o m s p i j K F P ltac:(lia) J ltac:(lia) HK E) as R. destruct F as (_ & _ & Ho & Hm & ->).
  apply (within_at d). exists i, (2 * m - j)%Z. split; [lia|]. split; [lia|]. split; [exact R|]. apply mirror_pair.
Qed.
Lemma F2_weaken {A B} (P Q : A -> B -> Prop) l l' : (forall x y, P x y -> Q x y) -> Forall2 P l l' -> Forall2 Q l l'.
Proof. intros H F. induction F; constructor; auto. Qed.
Lemma images_exact N e ws lines : (0 <= N <= 1024)%Z -> (-74 <= e <= 51)%Z -> Forall2 (axis_wall N e) ws lines ->
  forall K p q, within_grid K e p q -> (2 * K + 4 * N * Z.of_nat (length ws) <= 2 ^ 24)%Z ->
  Forall2 (within_grid (K + 2 * N * Z.of_nat (length ws)) e) (f_images p ws) (mirrors q lines).
Proof.
  intros HN E F. induction F as [|w [d c] ws lines W F IH]; intros K p q P B; cbn [f_images mirrors length] in *; [constructor|].
  rewrite Nat2Z.inj_succ in *. pose proof (image_exact N K e w d c p q W HN E P ltac:(lia)) as R. constructor.
  - eapply within_le; [exact R|]. nia.
  - eapply F2_weaken; [|apply (IH (K + 2 * N)%Z); [exact R|lia]]. intros x y X. eapply within_le; [exact X|]. lia.
Qed.
