(** Single-precision arithmetic seen through the values of the numbers. *)
From Coq Require Import Reals List Bool ZArith Lra Lia Psatz.
From Flocq Require Import Core.Core IEEE754.BinarySingleNaN.
From Verif Require Import Base BaseP LogicM FloatM SpecFloat32.
Import ListNotations.
Open Scope R_scope.

Lemma fexp_eq : SpecFloat.fexp 24 128 = FLT_exp (-149) 24.
Proof. reflexivity. Qed.
Local Instance p24 : Prec_gt_0 24 := eq_refl.
Lemma rnd_le x y : x <= y -> rnd x <= rnd y.
Proof. intro H. apply round_le; auto with typeclass_instances. Qed.
Lemma rnd_0 : rnd 0 = 0. Proof. apply round_0. auto with typeclass_instances. Qed.
Lemma rnd_opp x : rnd (- x) = - rnd x. Proof. apply round_NE_opp. Qed.
Lemma rnd_pos x : 0 <= x -> 0 <= rnd x. Proof. intro H. rewrite <- rnd_0. apply rnd_le. auto. Qed.
Lemma rnd_neg x : x <= 0 -> rnd x <= 0. Proof. intro H. rewrite <- rnd_0. apply rnd_le. auto. Qed.
Definition format (x : R) : Prop := generic_format radix2 (FLT_exp (-149) 24) x.
Lemma rnd_id x : format x -> rnd x = x. Proof. intro H. apply round_generic; auto with typeclass_instances. Qed.
Lemma rnd_format x : format (rnd x). Proof. apply generic_format_round; auto with typeclass_instances. Qed.
Lemma format_val (x : f32) : format (B2R x).
Proof. apply (generic_format_B2R 24 128). Qed.
Lemma format_scaled m e : (Z.abs m <= 2 ^ 24)%Z -> (-149 <= e)%Z -> format (IZR m * bpow radix2 e).
Proof.
  intros M E. destruct (Z.eq_dec (Z.abs m) (2 ^ 24)) as [Q|Q].
  - assert (X : exists s, (s = 1 \/ s = -1)%Z /\ IZR m * bpow radix2 e = F2R (Float radix2 s (e + 24))).
    { exists (Z.sgn m). split; [assert (m <> 0)%Z by lia; destruct m; cbn; lia|].
      unfold F2R. cbn [Fnum Fexp]. rewrite bpow_plus. change (bpow radix2 24) with (IZR (2 ^ 24)).
      rewrite (Rmult_comm (bpow radix2 e)). rewrite <- Rmult_assoc, <- mult_IZR. f_equal. f_equal. lia. }
    destruct X as (s & S1 & ->). apply generic_format_FLT. exists (Float radix2 s (e + 24)); [reflexivity| |cbn; lia].
    cbn. destruct S1; subst; cbn; lia.
  - apply generic_format_FLT. exists (Float radix2 m e); [reflexivity| |cbn; lia]. cbn [Fnum]. change (Z.pow radix2 24) with (2 ^ 24)%Z. lia.
Qed.
Lemma format_int m : (Z.abs m <= 2 ^ 24)%Z -> format (IZR m).
Proof. intro M. replace (IZR m) with (IZR m * bpow radix2 0) by (cbn; ring). apply format_scaled; lia. Qed.

(** Comparison of extended numbers. *)
Definition xle (x y : xreal) : Prop := xleb x y = true.
Lemma xle_fin a b : xle (Fin a) (Fin b) <-> a <= b.
Proof. apply Rleb_true. Qed.
Lemma xle_trans x y z : xle x y -> xle y z -> xle x z.
Proof.
  unfold xle. destruct x, y, z; cbn; auto; try discriminate. rewrite !Rleb_true. lra.
Qed.
Lemma xle_refl x : x <> NaN -> xle x x.
Proof. unfold xle. destruct x; cbn; auto. rewrite Rleb_true. lra. Qed.

Lemma Rlt_bool_Rltb a b : Rlt_bool a b = Rltb a b.
Proof. destruct (Rltb_spec a b); [apply Rlt_bool_true|apply Rlt_bool_false]; lra. Qed.

Lemma xround_le x y : xle x y -> xle (xround x) (xround y).
Proof.
  destruct x as [a| | |], y as [b| | |]; try (unfold xle; cbn; auto; try discriminate; fail).
  - rewrite xle_fin. intro H. pose proof (rnd_le _ _ H) as L. cbn [xround]. set (M := bpow radix2 128).
    assert (MP : 0 < M) by apply bpow_gt_0.
    destruct (Rltb_spec (Rabs (rnd a)) M) as [A|A], (Rltb_spec (Rabs (rnd b)) M) as [B|B].
    + apply xle_fin. auto.
    + destruct (Rltb_spec 0 b); [reflexivity|]. exfalso. pose proof (rnd_neg b ltac:(lra)).
      apply Rabs_def2 in A. apply B. apply Rabs_def1; lra.
    + destruct (Rltb_spec 0 a); [|reflexivity]. exfalso. pose proof (rnd_pos a ltac:(lra)).
      apply Rabs_def2 in B. apply A. apply Rabs_def1; lra.
    + destruct (Rltb_spec 0 a), (Rltb_spec 0 b); try reflexivity. lra.
  - intros _. cbn [xround]. destruct (Rltb _ _); [reflexivity|]. destruct (Rltb 0 a); reflexivity.
  - intros _. cbn [xround]. destruct (Rltb _ _); [reflexivity|]. destruct (Rltb 0 b); reflexivity.
Qed.
Lemma xround_id r : format r -> Rabs r < bpow radix2 128 -> xround (Fin r) = Fin r.
Proof. intros F B. cbn [xround]. rewrite (rnd_id r F). destruct (Rltb_spec (Rabs r) (bpow radix2 128)); [auto|contradiction]. Qed.
Lemma xround_nan x : xround x = NaN <-> x = NaN.
Proof. destruct x; cbn [xround]; split; intro H; auto; try discriminate. destruct (Rltb (Rabs _) _); [discriminate|]. destruct (Rltb 0 r); discriminate. Qed.

(** ** Values of the results of the operations *)
Lemma fval_fin (x : f32) : is_finite x = true -> fval x = Fin (B2R x).
Proof. destruct x; cbn; auto; discriminate. Qed.
Lemma fval_fin_inv (x : f32) r : fval x = Fin r -> is_finite x = true /\ B2R x = r.
Proof. destruct x as [s|[|]| |s m e B]; cbn [fval]; intro H; try discriminate; injection H as <-; auto. Qed.
Lemma fval_nan (x : f32) : fval x = NaN <-> is_nan x = true.
Proof. destruct x as [s|[|]| |s m e B]; cbn; split; intro; auto; discriminate. Qed.
Lemma fval_SF (x y : f32) : B2SF x = B2SF y -> fval x = fval y.
Proof. intro H. apply B2SF_inj in H. subst. reflexivity. Qed.
Lemma fval_over (x : f32) s : B2SF x = binary_overflow 24 128 mode_NE s -> fval x = if s then NInf else PInf.
Proof. intro H. destruct x as [s'|s'| |s' m e B]; cbn in H; try discriminate. injection H as ->. destruct s; reflexivity. Qed.
Lemma Bsign_true (x : f32) : Bsign x = true -> B2R x <= 0.
Proof. destruct x as [s|s| |s m e B]; cbn [Bsign B2R]; intro H; try lra. subst s. apply F2R_le_0. cbn. lia. Qed.
Lemma Bsign_false (x : f32) : Bsign x = false -> 0 <= B2R x.
Proof. destruct x as [s|s| |s m e B]; cbn [Bsign B2R]; intro H; try lra. subst s. apply F2R_ge_0. cbn. lia. Qed.
Lemma Bfinite_nz s m e B : B2R (B754_finite s m e B : f32) <> 0.
Proof. cbn. intro H. apply eq_0_F2R in H. destruct s; discriminate. Qed.
Lemma over_nz r : ~ Rabs (rnd r) < bpow radix2 128 -> r <> 0.
Proof. intros H ->. apply H. rewrite rnd_0, Rabs_R0. apply bpow_gt_0. Qed.

Lemma val_add (x y : f32) : fval (f_add x y) = xround (xadd (fval x) (fval y)).
Proof.
  destruct (is_finite x) eqn:Fx; [destruct (is_finite y) eqn:Fy|].
  - rewrite (fval_fin x), (fval_fin y) by auto. pose proof (Bplus_correct 24 128 prec_pos prec_emax mode_NE x y Fx Fy) as H.
    rewrite Rlt_bool_Rltb in H. change (round radix2 (SpecFloat.fexp 24 128) (round_mode mode_NE) (B2R x + B2R y)) with (rnd (B2R x + B2R y)) in H.
    cbn [xadd xround]. destruct (Rltb_spec (Rabs (rnd (B2R x + B2R y))) (bpow radix2 128)) as [L|L].
    + destruct H as (H1 & H2 & _). rewrite fval_fin by exact H2. f_equal. exact H1.
    + destruct H as [H1 H2]. apply over_nz in L. change (f_add x y) with (Bplus (prec_gt_0_ := prec_pos) (prec_lt_emax_ := prec_emax) mode_NE x y).
      rewrite (fval_over _ _ H1). destruct (Bsign x) eqn:Sx; symmetry in H2.
      * apply Bsign_true in Sx. apply Bsign_true in H2. destruct (Rltb_spec 0 (B2R x + B2R y)); [lra|auto].
      * apply Bsign_false in Sx. apply Bsign_false in H2. destruct (Rltb_spec 0 (B2R x + B2R y)); [auto|lra].
  - destruct x as [|[|]| |], y as [|[|]| |]; try discriminate; reflexivity.
  - destruct x as [|[|]| |], y as [|[|]| |]; try discriminate; reflexivity.
Qed.
Lemma val_opp x : fval (f_opp x) = xopp (fval x).
Proof.
  destruct (is_finite x) eqn:F.
  - rewrite (fval_fin x), (fval_fin (f_opp x)) by (auto || (unfold f_opp; rewrite is_finite_Bopp; auto)). cbn. f_equal. apply B2R_Bopp.
  - destruct x as [|[|]| |]; try discriminate; reflexivity.
Qed.
Lemma sub_add x y : fval (f_sub x y) = fval (f_add x (f_opp y)).
Proof.
  unfold f_sub, f_add, f_opp. destruct x as [sx|sx| |sx mx ex Hx], y as [sy|sy| |sy my ey Hy]; try reflexivity.
Qed.
Lemma val_sub x y : fval (f_sub x y) = xround (xsub (fval x) (fval y)).
Proof. rewrite sub_add, val_add, val_opp. reflexivity. Qed.
Lemma sign_prod (x y : f32) : xorb (Bsign x) (Bsign y) = (if Rltb 0 (B2R x * B2R y) then false else true) \/ B2R x * B2R y = 0 .
Proof.
  destruct (Req_dec (B2R x * B2R y) 0) as [E|E]; [auto|left].
  destruct (Bsign x) eqn:Sx, (Bsign y) eqn:Sy; cbn [xorb];
  repeat match goal with H : Bsign _ = true |- _ => apply Bsign_true in H | H : Bsign _ = false |- _ => apply Bsign_false in H end;
  destruct (Rltb_spec 0 (B2R x * B2R y)); auto; exfalso; nra.
Qed.
Lemma inf_times_sign (p : bool) s m e B : inf_times p (B2R (B754_finite s m e B : f32)) = if xorb (negb p) s then NInf else PInf.
Proof.
  unfold inf_times. pose proof (Bfinite_nz s m e B) as N. destruct (Reqb_spec (B2R (B754_finite s m e B : f32)) 0); [contradiction|].
  destruct s; cbn [xorb].
  - pose proof (Bsign_true (B754_finite true m e B) eq_refl). destruct (Rltb_spec 0 (B2R (B754_finite true m e B : f32))); [lra|]. destruct p; auto.
  - pose proof (Bsign_false (B754_finite false m e B) eq_refl). destruct (Rltb_spec 0 (B2R (B754_finite false m e B : f32))); [|lra]. destruct p; auto.
Qed.
Lemma val_mul (x y : f32) : fval (f_mul x y) = xround (xmul (fval x) (fval y)).
Proof.
  destruct (is_finite x) eqn:Fx; [destruct (is_finite y) eqn:Fy|].
  - rewrite (fval_fin x), (fval_fin y) by auto. pose proof (Bmult_correct 24 128 prec_pos prec_emax mode_NE x y) as H.
    rewrite Rlt_bool_Rltb in H. change (round radix2 (SpecFloat.fexp 24 128) (round_mode mode_NE) (B2R x * B2R y)) with (rnd (B2R x * B2R y)) in H.
    cbn [xmul xround]. destruct (Rltb_spec (Rabs (rnd (B2R x * B2R y))) (bpow radix2 128)) as [L|L].
    + destruct H as (H1 & H2 & _). rewrite Fx, Fy in H2. rewrite fval_fin by exact H2. f_equal. exact H1.
    + apply over_nz in L. change (f_mul x y) with (Bmult (prec_gt_0_ := prec_pos) (prec_lt_emax_ := prec_emax) mode_NE x y).
      rewrite (fval_over _ _ H). destruct (sign_prod x y) as [->|]; [|contradiction]. destruct (Rltb 0 (B2R x * B2R y)); auto.
  - destruct x as [sx|[|]| |sx mx ex Bx], y as [sy|[|]| |sy my ey By]; try discriminate; try reflexivity;
    unfold f_mul; cbn [fval xmul Bmult]; try (unfold inf_times; destruct (Reqb_spec (B2R (B754_zero sx : f32)) 0); [reflexivity|cbn in *; lra]);
    rewrite inf_times_sign; destruct sx; reflexivity.
  - destruct x as [sx|[|]| |sx mx ex Bx], y as [sy|[|]| |sy my ey By]; try discriminate; try reflexivity;
    unfold f_mul; cbn [fval xmul Bmult]; try (unfold inf_times; destruct (Reqb_spec (B2R (B754_zero sy : f32)) 0); [reflexivity|cbn in *; lra]);
    rewrite inf_times_sign; destruct sy; reflexivity.
Qed.
(** Division by a finite non-zero number. *)
Lemma val_div (x y : f32) d : fval y = Fin d -> d <> 0 -> fval (f_div x y) = xround (xmul (fval x) (Fin (/ d))).
Proof.
  intros Vy N. apply fval_fin_inv in Vy. destruct Vy as [Fy <-].
  destruct (is_finite x) eqn:Fx.
  - rewrite (fval_fin x) by auto. pose proof (Bdiv_correct 24 128 prec_pos prec_emax mode_NE x y N) as H.
    rewrite Rlt_bool_Rltb in H. change (round radix2 (SpecFloat.fexp 24 128) (round_mode mode_NE) (B2R x / B2R y)) with (rnd (B2R x * / B2R y)) in H.
    cbn [xmul xround]. destruct (Rltb_spec (Rabs (rnd (B2R x * / B2R y))) (bpow radix2 128)) as [L|L].
    + destruct H as (H1 & H2 & _). rewrite Fx in H2. rewrite fval_fin by exact H2. f_equal. exact H1.
    + apply over_nz in L. change (f_div x y) with (Bdiv (prec_gt_0_ := prec_pos) (prec_lt_emax_ := prec_emax) mode_NE x y).
      rewrite (fval_over _ _ H).
      assert (X : xorb (Bsign x) (Bsign y) = (if Rltb 0 (B2R x * / B2R y) then false else true)).
      { destruct (Bsign x) eqn:Sx, (Bsign y) eqn:Sy; cbn [xorb];
        repeat match goal with H : Bsign _ = true |- _ => apply Bsign_true in H | H : Bsign _ = false |- _ => apply Bsign_false in H end;
        destruct (Rltb_spec 0 (B2R x * / B2R y)) as [P|P]; auto; exfalso.
        - apply P. assert (/ B2R y < 0) by (apply Rinv_lt_0_compat; lra). assert (B2R x * / B2R y <> 0) by auto. nra.
        - assert (0 < / B2R y) by (apply Rinv_0_lt_compat; lra). nra.
        - assert (/ B2R y < 0) by (apply Rinv_lt_0_compat; lra). nra.
        - apply P. assert (0 < / B2R y) by (apply Rinv_0_lt_compat; lra). assert (B2R x * / B2R y <> 0) by auto. nra. }
      rewrite X. destruct (Rltb 0 (B2R x * / B2R y)); auto.
  - destruct y as [sy|sy| |sy my ey By]; try discriminate; [elim N; reflexivity|].
    assert (I : / B2R (B754_finite sy my ey By : f32) <> 0) by (apply Rinv_neq_0_compat; auto).
    assert (S1 : (0 < / B2R (B754_finite sy my ey By : f32)) <-> sy = false).
    { destruct sy; split; intro K; try discriminate; auto.
      - pose proof (Bsign_true (B754_finite true my ey By) eq_refl). assert (/ B2R (B754_finite true my ey By : f32) < 0) by (apply Rinv_lt_0_compat; lra). lra.
      - pose proof (Bsign_false (B754_finite false my ey By) eq_refl). apply Rinv_0_lt_compat. lra. }
    destruct x as [sx|sx| |sx mx ex Bx]; try discriminate; [|reflexivity].
    unfold f_div. cbn [Bdiv fval]. destruct sx; cbn [xmul]; unfold inf_times;
    (destruct (Reqb_spec (/ B2R (B754_finite sy my ey By : f32)) 0); [contradiction|]);
    destruct (Rltb_spec 0 (/ B2R (B754_finite sy my ey By : f32))) as [P|P]; rewrite S1 in P; destruct sy; try reflexivity; try discriminate; elim P; reflexivity.
Qed.
Lemma val_div_inf x y a : fval y = PInf -> fval x = Fin a -> fval (f_div x y) = Fin 0.
Proof.
  intros Y X. destruct y as [sy|[|]| |sy my ey By]; try discriminate.
  destruct x as [sx|[|]| |sx mx ex Bx]; try discriminate; reflexivity.
Qed.
Lemma val_ltb x y : f_ltb x y = xltb (fval x) (fval y).
Proof.
  destruct (is_finite x) eqn:Fx; [destruct (is_finite y) eqn:Fy|].
  - rewrite (fval_fin x), (fval_fin y) by auto. unfold f_ltb. rewrite Bltb_correct by auto. apply Rlt_bool_Rltb.
  - destruct x as [s|[|]| |[|] m e B], y as [s'|[|]| |[|] m' e' B']; try discriminate; reflexivity.
  - destruct x as [s|[|]| |[|] m e B], y as [s'|[|]| |[|] m' e' B']; try discriminate; reflexivity.
Qed.
Lemma val_leb x y : f_leb x y = xleb (fval x) (fval y).
Proof.
  destruct (is_finite x) eqn:Fx; [destruct (is_finite y) eqn:Fy|].
  - rewrite (fval_fin x), (fval_fin y) by auto. unfold f_leb. rewrite Bleb_correct by auto. cbn. destruct (Rleb_spec (B2R x) (B2R y)); [apply Rle_bool_true|apply Rle_bool_false]; lra.
  - destruct x as [s|[|]| |[|] m e B], y as [s'|[|]| |[|] m' e' B']; try discriminate; reflexivity.
  - destruct x as [s|[|]| |[|] m e B], y as [s'|[|]| |[|] m' e' B']; try discriminate; reflexivity.
Qed.
Lemma val_eqb_zero x : f_eqb x f_zero = true <-> fval x = Fin 0.
Proof.
  destruct x as [s|s| |s m e B].
  - split; reflexivity.
  - split; intro H; [destruct s; discriminate|]. destruct s; discriminate.
  - split; intro H; discriminate.
  - split; intro H; [destruct s; discriminate|]. apply fval_fin_inv in H. destruct H as [_ H]. apply Bfinite_nz in H. contradiction.
Qed.
Lemma val_max x y : fval (f_max x y) = xmax (fval x) (fval y).
Proof.
  unfold f_max. destruct (is_nan x) eqn:Nx.
  { apply fval_nan in Nx. rewrite Nx. reflexivity. }
  destruct (is_nan y) eqn:Ny.
  { apply fval_nan in Ny. rewrite Ny. cbn. destruct (fval x); reflexivity. }
  cbn [orb]. rewrite val_ltb. destruct (fval x) eqn:Ex, (fval y) eqn:Ey; cbn; try rewrite Ex; try rewrite Ey; auto;
  try (apply fval_nan in Ex; congruence); try (apply fval_nan in Ey; congruence).
  destruct (Rltb_spec r r0); rewrite ?Ex, ?Ey; f_equal; [rewrite Rmax_right|rewrite Rmax_left]; lra.
Qed.
Lemma val_min x y : fval (f_min x y) = xmin (fval x) (fval y).
Proof.
  unfold f_min. destruct (is_nan x) eqn:Nx.
  { apply fval_nan in Nx. rewrite Nx. reflexivity. }
  destruct (is_nan y) eqn:Ny.
  { apply fval_nan in Ny. rewrite Ny. cbn. destruct (fval x); reflexivity. }
  cbn [orb]. rewrite val_ltb. destruct (fval x) eqn:Ex, (fval y) eqn:Ey; cbn; try rewrite Ex; try rewrite Ey; auto;
  try (apply fval_nan in Ex; congruence); try (apply fval_nan in Ey; congruence).
  destruct (Rltb_spec r0 r); rewrite ?Ex, ?Ey; f_equal; [rewrite Rmin_right|rewrite Rmin_left]; lra.
Qed.
Lemma val_scaled m e : (Z.abs m <= 2 ^ 24)%Z -> (-149 <= e)%Z -> (e <= 103)%Z -> fval (f_scaled m e) = Fin (IZR m * bpow radix2 e).
Proof.
  intros M E E'. pose proof (binary_normalize_correct 24 128 prec_pos prec_emax mode_NE m e false) as H.
  cbv zeta in H. rewrite Rlt_bool_Rltb in H. change (round radix2 (SpecFloat.fexp 24 128) (round_mode mode_NE)) with rnd in H.
  change (F2R (Float radix2 m e)) with (IZR m * bpow radix2 e) in H. cbv zeta in H. rewrite rnd_id in H by (apply format_scaled; auto).
  destruct (Rltb_spec (Rabs (IZR m * bpow radix2 e)) (bpow radix2 128)) as [L|L].
  - destruct H as (H1 & H2 & _). rewrite fval_fin by exact H2. f_equal. exact H1.
  - elim L. rewrite Rabs_mult, <- abs_IZR, (Rabs_pos_eq (bpow radix2 e)) by apply bpow_ge_0.
    apply Rle_lt_trans with (bpow radix2 24 * bpow radix2 e).
    + apply Rmult_le_compat_r; [apply bpow_ge_0|]. change (bpow radix2 24) with (IZR (2 ^ 24)). apply IZR_le. auto.
    + rewrite <- bpow_plus. apply bpow_lt. lia.
Qed.
Lemma val_int m : (Z.abs m <= 2 ^ 24)%Z -> fval (f_int m) = Fin (IZR m).
Proof. intro M. unfold f_int. rewrite val_scaled by lia. f_equal. cbn. ring. Qed.
Lemma val_one : fval f_one = Fin 1. Proof. apply val_int. cbn. lia. Qed.
Lemma val_zero : fval f_zero = Fin 0. Proof. reflexivity. Qed.
Lemma val_sqrt x : fval (f_sqrt x) = match fval x with
  | Fin r => if Rltb r 0 then NaN else Fin (rnd (sqrt r)) | PInf => PInf | _ => NaN end.
Proof.
  pose proof (Bsqrt_correct 24 128 prec_pos prec_emax mode_NE x) as (H1 & H2 & _).
  change (f_sqrt x) with (Bsqrt (prec_gt_0_ := prec_pos) (prec_lt_emax_ := prec_emax) mode_NE x).
  destruct x as [s|[|]| |[|] m e B]; try reflexivity.
  - cbn [fval]. destruct (Rltb_spec (B2R (B754_zero s : f32)) 0) as [L|L]; [cbn in L; lra|]. cbn. rewrite sqrt_0, rnd_0. reflexivity.
  - cbn [fval]. destruct (Rltb_spec (B2R (B754_finite true m e B : f32)) 0) as [L|L].
    + cbn [Bsqrt fval]. reflexivity.
    + pose proof (Bsign_true (B754_finite true m e B) eq_refl). pose proof (Bfinite_nz true m e B). lra.
  - rewrite fval_fin by exact H2. rewrite H1. cbn [fval].
    pose proof (Bsign_false (B754_finite false m e B) eq_refl) as P. destruct (Rltb_spec (B2R (B754_finite false m e B : f32)) 0); [lra|].
    reflexivity.
Qed.
(** A finite value is a representable number in the range. *)
Lemma val_format x r : fval x = Fin r -> format r /\ Rabs r < bpow radix2 128.
Proof. intro H. apply fval_fin_inv in H. destruct H as [F <-]. split; [apply format_val|apply abs_B2R_lt_emax]. Qed.
Lemma xround_val x : xround (fval x) = fval x.
Proof. destruct (fval x) eqn:E; auto. apply val_format in E. apply xround_id; tauto. Qed.
