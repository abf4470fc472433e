(** Single precision: comparisons, negation, accuracy. *)
From Coq Require Import Reals List Bool ZArith Lra Lia Psatz.
From Flocq Require Import Core.Core IEEE754.BinarySingleNaN Sterbenz Relative.
From Verif Require Import Base BaseP LogicM FloatM SpecFloat32 FloatP FloatLogicP.
Import ListNotations.
Open Scope R_scope.
Local Instance p24'' : Prec_gt_0 24 := eq_refl.

Lemma Fin_inj a b : Fin a = Fin b -> a = b. Proof. congruence. Qed.
(** Values of concrete floats, by computation. *)
Lemma fval_of_SF (x : f32) s m e : B2SF x = SpecFloat.S754_finite s m e ->
  fval x = Fin (IZR (if s then Z.neg m else Z.pos m) * bpow radix2 e).
Proof. destruct x as [s'|s'| |s' m' e' B]; cbn; try discriminate. intro H. injection H as -> -> ->. destruct s; reflexivity. Qed.
Lemma sixth_val : fval (f_lit 1 6) = Fin (11184811 * bpow radix2 (-26)).
Proof. apply (fval_of_SF _ false). vm_compute. reflexivity. Qed.
Lemma rnd_sixth_eq : rnd (1 * / 6) = 11184811 * bpow radix2 (-26).
Proof. pose proof sixth_val as H. rewrite val_lit in H by (cbn; lia). apply Fin_inj in H. exact H. Qed.

Lemma hs_at (inv : bool) (r v : R) : xround (Fin (r + 3)) = Fin (r + 3) -> 0 <= r + 3 <= 6 ->
  xround (Fin ((r + 3) * (if inv then rnd (1 * / 6) else / 6))) = Fin v -> hs_val inv (Fin r) = Fin v.
Proof.
  intros A B C. unfold hs_val. cbn [xadd]. rewrite A. unfold clip. cbn [xmax xmin]. rewrite Rmax_left, Rmin_left by lra. exact C.
Qed.
Lemma hs_three inv : hs_val inv (Fin 3) = Fin 1.
Proof.
  assert (F6 : xround (Fin 6) = Fin 6) by (apply xround_id; [apply (format_int 6); cbn; lia|apply small_range; rewrite Rabs_pos_eq; lra]).
  assert (F1 : xround (Fin 1) = Fin 1) by (apply xround_id; [apply format_1|apply small_range; rewrite Rabs_pos_eq; lra]).
  apply hs_at; replace (3 + 3) with 6 by ring; auto; [lra|]. destruct inv.
  - rewrite rnd_sixth_eq. set (v := 6 * (11184811 * bpow radix2 (-26))).
    assert (V : 1 <= v <= 1 + bpow radix2 (-25)) by (unfold v; cbn; lra). destruct V as [V1 V2].
    apply rnd_one_up in V2. pose proof (rnd_le _ _ V1) as V3. rewrite (rnd_id 1) in V3 by apply format_1.
    assert (rnd v = 1) as E by lra. cbn [xround]. rewrite E. destruct (Rltb_spec (Rabs 1) (bpow radix2 128)) as [X|X]; auto.
    elim X. apply small_range. rewrite Rabs_pos_eq; lra.
  - replace (6 * / 6) with 1 by lra. exact F1.
Qed.
Lemma half_format : format (/ 2).
Proof. replace (/ 2) with (1 * bpow radix2 (-1)) by (cbn; lra). apply format_scaled; cbn; lia. Qed.
Lemma rnd_half_inv : rnd (3 * (11184811 * bpow radix2 (-26))) = / 2.
Proof.
  assert (E : fval (f_mul (f_int 3) (f_lit 1 6)) = Fin (8388608 * bpow radix2 (-24))).
  { apply (fval_of_SF _ false). vm_compute. reflexivity. }
  rewrite val_mul, val_int, sixth_val in E by (cbn; lia). cbn [xmul xround] in E.
  destruct (Rltb _ _); [|destruct (Rltb _ _); discriminate]. apply Fin_inj in E. rewrite E. cbn. lra.
Qed.
Lemma hs_zero inv : hs_val inv (Fin 0) = Fin (/ 2).
Proof.
  assert (F3 : xround (Fin 3) = Fin 3) by (apply xround_id; [apply (format_int 3); cbn; lia|apply small_range; rewrite Rabs_pos_eq; lra]).
  assert (F1 : xround (Fin (/ 2)) = Fin (/ 2)) by (apply xround_id; [apply half_format|apply small_range; rewrite Rabs_pos_eq; lra]).
  apply hs_at; replace (0 + 3) with 3 by ring; auto; [lra|]. destruct inv.
  - rewrite rnd_sixth_eq. cbn [xround]. rewrite rnd_half_inv.
    destruct (Rltb_spec (Rabs (/ 2)) (bpow radix2 128)) as [X|X]; auto. elim X. apply small_range. rewrite Rabs_pos_eq; lra.
  - replace (3 * / 6) with (/ 2) by lra. exact F1.
Qed.
Lemma hs_mthree inv : hs_val inv (Fin (-3)) = Fin 0.
Proof.
  assert (F0 : xround (Fin 0) = Fin 0) by (apply xround_id; [apply format_0|apply small_range; rewrite Rabs_pos_eq; lra]).
  apply hs_at; replace (-3 + 3) with 0 by ring; rewrite ?Rmult_0_l; auto. lra.
Qed.
(** Exact saturation. *)
Lemma hs_sat inv z : xle (Fin 3) z -> hs_val inv z = Fin 1.
Proof.
  intro H. pose proof (hs_val_le inv _ _ H) as L. rewrite hs_three in L.
  destruct (hs_val_unit inv z) as (u & E & U); [intros ->; discriminate|]. rewrite E in *. apply xle_fin in L. f_equal. lra.
Qed.
Lemma hs_msat inv z : xle z (Fin (-3)) -> hs_val inv z = Fin 0.
Proof.
  intro H. pose proof (hs_val_le inv _ _ H) as L. rewrite hs_mthree in L.
  destruct (hs_val_unit inv z) as (u & E & U); [intros ->; discriminate|]. rewrite E in *. apply xle_fin in L. f_equal. lra.
Qed.
(** The dead zone around equality. *)
Lemma rnd_three r : Rabs r <= bpow radix2 (-23) -> rnd (r + 3) = 3.
Proof.
  intro H. apply Rabs_le_inv in H.
  assert (U : rnd (bpow radix2 (-23) + 3) = 3).
  { assert (E : fval (f_add (F_EPS) (f_int 3)) = Fin (12582912 * bpow radix2 (-22))) by (apply (fval_of_SF _ false); vm_compute; reflexivity).
    rewrite val_add, val_int in E by (cbn; lia). unfold F_EPS in E. rewrite val_scaled in E by (cbn; lia).
    rewrite Rmult_1_l in E. cbn [xadd xround] in E. destruct (Rltb _ _); [|destruct (Rltb _ _); discriminate]. apply Fin_inj in E. rewrite E. cbn. lra. }
  assert (D : rnd (- bpow radix2 (-23) + 3) = 3).
  { assert (E : fval (f_add (f_scaled (-1) (-23)) (f_int 3)) = Fin (12582912 * bpow radix2 (-22))) by (apply (fval_of_SF _ false); vm_compute; reflexivity).
    rewrite val_add, val_int in E by (cbn; lia). rewrite val_scaled in E by (cbn; lia).
    replace (-1 * bpow radix2 (-23)) with (- bpow radix2 (-23)) in E by ring.
    cbn [xadd xround] in E. destruct (Rltb _ _); [|destruct (Rltb _ _); discriminate]. apply Fin_inj in E. rewrite E. cbn. lra. }
  apply Rle_antisym; [rewrite <- U|rewrite <- D]; apply rnd_le; lra.
Qed.
Lemma hs_dead inv r : Rabs r <= bpow radix2 (-23) -> hs_val inv (Fin r) = Fin (/ 2).
Proof.
  intro H. rewrite <- (hs_zero inv). unfold hs_val. cbn [xadd].
  assert (Z : Rabs 0 <= bpow radix2 (-23)) by (rewrite Rabs_R0; apply bpow_ge_0).
  assert (E : xround (Fin (r + 3)) = xround (Fin (0 + 3))); [|rewrite E; reflexivity].
  cbn [xround]. rewrite (rnd_three r H), (rnd_three 0 Z).
  destruct (Rltb_spec (Rabs 3) (bpow radix2 128)) as [X|X]; auto. elim X. apply small_range. rewrite Rabs_pos_eq; lra.
Qed.

(** ** Monotonicity of the comparison *)
Lemma xmul_le_r a x y : 0 < a -> xle x y -> xle (xmul (Fin a) x) (xmul (Fin a) y).
Proof.
  intros A. destruct x as [x| | |], y as [y| | |]; unfold xle; cbn; unfold inf_times; auto; try discriminate;
  destruct (Reqb_spec a 0); try lra; destruct (Rltb_spec 0 a); try contradiction; auto. rewrite !Rleb_true. nra.
  all: rewrite !Rleb_true; nra.
Qed.
Lemma xsub_le_r x y c : xle x y -> xle (xsub (Fin c) y) (xsub (Fin c) x).
Proof. destruct x, y; unfold xle; cbn; auto. rewrite !Rleb_true. lra. Qed.
Lemma hs_mono inv alpha a x x' : fval alpha = Fin a -> 0 < a -> xle (fval x) (fval x') ->
  xle (fval (hs_fun inv x alpha)) (fval (hs_fun inv x' alpha)).
Proof. intros A P H. rewrite !val_hs. apply hs_val_le. rewrite !val_mul, A. apply xround_le, xmul_le_r; auto. Qed.
Lemma sub_mono_l x x' y c : fval y = Fin c -> xle (fval x) (fval x') -> xle (fval (f_sub x y)) (fval (f_sub x' y)).
Proof. intros Y H. rewrite !val_sub, Y. apply xround_le. apply (xadd_le_l _ _ (- c)); auto. Qed.
Lemma sub_mono_r x x' y c : fval y = Fin c -> xle (fval x) (fval x') -> xle (fval (f_sub y x')) (fval (f_sub y x)).
Proof. intros Y H. rewrite !val_sub, Y. apply xround_le, xsub_le_r; auto. Qed.
(** The sign of the difference is right. *)
Lemma sub_nonpos x y : xle (fval x) (fval y) -> xle (fval (f_sub x y)) (Fin 0) \/ fval (f_sub x y) = NaN.
Proof.
  intro H. rewrite val_sub. destruct (fval x) as [a| | |] eqn:X, (fval y) as [b| | |] eqn:Y; try discriminate;
  cbn [xsub xopp xadd]; auto; try (left; reflexivity).
  apply xle_fin in H. left. apply xle_trans with (xround (Fin 0)); [apply xround_le, xle_fin; lra|].
  rewrite xround_id; [apply xle_fin; lra|apply format_0|apply small_range; rewrite Rabs_R0; lra].
Qed.
Lemma sub_nonneg x y : xle (fval y) (fval x) -> xle (Fin 0) (fval (f_sub x y)) \/ fval (f_sub x y) = NaN.
Proof.
  intro H. rewrite val_sub. destruct (fval x) as [a| | |] eqn:X, (fval y) as [b| | |] eqn:Y; try discriminate;
  cbn [xsub xopp xadd]; auto; try (left; reflexivity).
  apply xle_fin in H. left. apply xle_trans with (xround (Fin 0)); [|apply xround_le, xle_fin; lra].
  rewrite xround_id; [apply xle_fin; lra|apply format_0|apply small_range; rewrite Rabs_R0; lra].
Qed.
Lemma xround_zero : xround (Fin 0) = Fin 0.
Proof. apply xround_id; [apply format_0|apply small_range; rewrite Rabs_R0; lra]. Qed.
Lemma mul_nonpos alpha a x : fval alpha = Fin a -> 0 < a -> xle (fval x) (Fin 0) -> xle (fval (f_mul alpha x)) (Fin 0).
Proof.
  intros A P H. rewrite val_mul, A. apply (xmul_le_r a _ _ P) in H. apply xround_le in H. cbn [xmul] in H. rewrite Rmult_0_r, xround_zero in H. exact H.
Qed.
Lemma mul_nonneg alpha a x : fval alpha = Fin a -> 0 < a -> xle (Fin 0) (fval x) -> xle (Fin 0) (fval (f_mul alpha x)).
Proof.
  intros A P H. rewrite val_mul, A. apply (xmul_le_r a _ _ P) in H. apply xround_le in H. cbn [xmul] in H. rewrite Rmult_0_r, xround_zero in H. exact H.
Qed.
(** Above 1/2 only if above, below 1/2 only if below. *)
Lemma hs_above inv alpha a x y v : fval alpha = Fin a -> 0 < a -> not_nan x -> not_nan y ->
  fval (hs_fun inv (f_sub x y) alpha) = Fin v -> / 2 < v -> xltb (fval y) (fval x) = true.
Proof.
  intros A P Nx Ny V L. destruct (xltb (fval y) (fval x)) eqn:E; auto. exfalso.
  assert (H : xle (fval x) (fval y)).
  { unfold not_nan, xle in *. destruct (fval x), (fval y); cbn in *; auto; try congruence.
    rewrite Rleb_true. destruct (Rltb_spec r0 r); [discriminate|lra]. }
  rewrite val_hs in V. destruct (sub_nonpos _ _ H) as [S|S].
  - apply (mul_nonpos alpha a _ A P) in S. apply (hs_val_le inv) in S. rewrite V, hs_zero in S. apply xle_fin in S. lra.
  - rewrite val_mul, S, A in V. cbn in V. discriminate.
Qed.
Lemma hs_below inv alpha a x y v : fval alpha = Fin a -> 0 < a -> not_nan x -> not_nan y ->
  fval (hs_fun inv (f_sub x y) alpha) = Fin v -> v < / 2 -> xltb (fval x) (fval y) = true.
Proof.
  intros A P Nx Ny V L. destruct (xltb (fval x) (fval y)) eqn:E; auto. exfalso.
  assert (H : xle (fval y) (fval x)).
  { unfold not_nan, xle in *. destruct (fval x), (fval y); cbn in *; auto; try congruence.
    rewrite Rleb_true. destruct (Rltb_spec r r0); [discriminate|lra]. }
  rewrite val_hs in V. destruct (sub_nonneg _ _ H) as [S|S].
  - apply (mul_nonneg alpha a _ A P) in S. apply (hs_val_le inv) in S. rewrite V, hs_zero in S. apply xle_fin in S. lra.
  - rewrite val_mul, S, A in V. cbn in V. discriminate.
Qed.
