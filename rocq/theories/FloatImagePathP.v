(** The image method in single precision: whole paths on parallel walls. *)
From Coq Require Import Reals List Bool ZArith Lra Lia Psatz.
From Flocq Require Import Core.Core IEEE754.BinarySingleNaN.
From Verif Require Import Base BaseP LogicM GeometryM PathM PathP FloatM SpecFloat32 FloatP FloatLogicP FloatCmpP FloatAccP FloatGeomP FloatSegP FloatGridP FloatBoundP FloatImageM SpecImage32 FloatImageP FloatImageErrP FloatImageChainP FloatImageLossP.
Import ListNotations.
Open Scope R_scope.

(** ** The points *)
Section Path.
Variables (d : axis) (N e : Z) (ws : list fwall) (lines : list (axis * R)) (tx rx : fvec) (a b : R * R) (qs : list (R * R)).
Context (HN : (1 <= N <= 1024)%Z) (E : (-60 <= e <= 50)%Z).
Context (W : Forall2 (axis_wall N e) ws lines) (D : Forall (fun l => fst l = d) lines).
Context (TX : within_grid N e tx a) (RX : within_grid N e rx b) (U : reflections lines a b qs).
Context (B : (4 * N * N * (Z.of_nat (length ws) + 1) <= 2 ^ 24)%Z) (Ln : (length ws <= 1024)%nat).
Let K := (N + 2 * N * Z.of_nat (length ws))%Z.

Lemma along_mirrors : forall lines' q, Forall (fun l => fst l = d) lines' -> Forall (fun i => along d i = along d q) (mirrors q lines').
Proof.
  induction lines' as [|[d' c] tl IH]; intros q F; cbn [mirrors]; [constructor|]. pose proof (Forall_inv F) as F1. pose proof (Forall_inv_tail F) as F2. cbn [fst] in F1.
  assert (A : along d (mirror (d', c) q) = along d q) by (rewrite F1; unfold mirror; destruct d; reflexivity).
  constructor; auto. eapply Forall_impl; [|apply IH; auto]. intros i Hi. cbn beta in Hi. rewrite Hi. auto.
Qed.
Lemma along_grid p q : within_grid N e p q -> Rabs (along d q) <= IZR N * bpow radix2 e.
Proof.
  intro G. apply (within_at d) in G. destruct G as (i & j & I & J & _ & ->). rewrite along_pair, Rabs_mult, (Rabs_pos_eq (bpow radix2 e)) by apply bpow_ge_0.
  apply Rmult_le_compat_r; [apply bpow_ge_0|]. rewrite <- abs_IZR. apply IZR_le. auto.
Qed.
Lemma exact_close n p q : 0 <= n -> within_grid N e p q -> close d e n p q /\ tame d N e q.
Proof.
  intros Hn G. pose proof (along_grid p q G) as A. apply (within_at d) in G. destruct G as (i & j & I & J & [G1 G2] & Q). rewrite Q in *. split; split.
  - rewrite across_pair. exact G2.
  - rewrite along_pair. eexists. split; [exact G1|]. rewrite Rminus_diag_eq, Rabs_R0 by reflexivity. pose proof (bpow_gt_0 radix2 e). nra.
  - rewrite across_pair. exists j. auto.
  - exact A.
Qed.
Lemma K_bounds : (2 * N * (N + K) <= 2 ^ 24)%Z /\ (0 <= K <= 2 ^ 23)%Z.
Proof. unfold K. split; [nia|]. split; [nia|]. assert (N * (Z.of_nat (length ws) + 1) <= 2 ^ 22)%Z by nia. nia. Qed.

Lemma computed_path : Forall2 (close d e (INR (length ws))) (f_image_points tx ws rx) (a :: qs ++ [b]) /\ Forall (tame d N e) (a :: qs ++ [b]).
Proof.
  destruct K_bounds as [K1 K2].
  assert (G : Forall2 (good_image d N K e) (f_images tx ws) (mirrors a lines)).
  { assert (G1 := images_exact N e ws lines ltac:(lia) ltac:(lia) W N tx a TX ltac:(nia)). fold K in G1.
    pose proof (along_mirrors lines a D) as G2. clear -G1 G2 TX. pose proof (along_grid _ _ TX) as A. revert G2. induction G1 as [|x y l l' G GG IH]; intro G2; [constructor|].
    pose proof (Forall_inv G2) as F1. pose proof (Forall_inv_tail G2) as F2. cbn beta in F1. constructor; [split; [exact G|rewrite F1; exact A]|auto]. }
  destruct (chain_close d N K e ltac:(lia) E K1 K2 ws lines _ _ b rx qs W D G U RX Ln) as (_ & C & T).
  destruct (exact_close (INR (length ws)) tx a (pos_INR _) TX) as [C1 T1]. destruct (exact_close (INR (length ws)) rx b (pos_INR _) RX) as [C2 T2].
  unfold f_image_points. split.
  - constructor; [auto|]. apply Forall2_app; [exact C|]. constructor; auto.
  - constructor; [auto|]. apply Forall_app. auto.
Qed.
End Path.

(** ** The law of reflection along the exact path *)
Lemma specular_path d lines : forall a a0 b qs, unfolds lines (mirrors a lines) b qs -> Forall (fun l => fst l = d) lines ->
  (forall q, hd_error qs = Some q -> exists t, 0 < t /\ along d q - along d a0 = t * (along d q - along d a) /\ across d q - across d a0 = t * (across d q - across d a)) ->
  forall i, (i < length lines)%nat -> specular d (nth i (a0 :: qs ++ [b]) b) (nth (i + 1) (a0 :: qs ++ [b]) b) (nth (i + 2) (a0 :: qs ++ [b]) b).
Proof.
  induction lines as [|[d' c] lines IH]; intros a a0 b qs U D H i I; [cbn in I; lia|].
  cbn [mirrors] in U. inversion U as [|? ? ? ? ? q qs' s U' Off On S Q]; subst. pose proof (Forall_inv D) as D1. pose proof (Forall_inv_tail D) as D2. cbn [fst] in D1. subst d'.
  unfold on_line in Off, On. cbn [fst snd] in Off, On.
  set (im := mirror (d, c) a) in *.
  assert (Mx : along d im = along d a) by (unfold im, mirror; destruct d; reflexivity).
  assert (My : across d im = 2 * c - across d a) by (unfold im, mirror; destruct d; reflexivity).
  set (q := between im (hd b qs') s) in *.
  assert (Qx : along d q = along d im + s * (along d (hd b qs') - along d im)) by apply along_between.
  assert (Qy : c = across d im + s * (across d (hd b qs') - across d im)) by (rewrite <- On; apply across_between).
  destruct i as [|i].
  - destruct (H q eq_refl) as (t' & T' & H1 & H2).
    assert (Nx : nth (0 + 2) (a0 :: (q :: qs') ++ [b]) b = hd b qs') by (destruct qs'; reflexivity). rewrite Nx. clear Nx.
    change (nth 0 (a0 :: (q :: qs') ++ [b]) b) with a0. change (nth (0 + 1) (a0 :: (q :: qs') ++ [b]) b) with q.
    exists (along d q - along d a), (c - across d a), ((1 - s) / s), t'.
    split; [apply Rdiv_lt_0_compat; lra|]. split; [auto|]. split; [intro Z; apply Off; rewrite My; lra|]. split; [exact H1|]. split; [rewrite <- On; exact H2|].
    split.
    + assert (Hx : along d (hd b qs') = along d a + (along d q - along d a) / s) by (rewrite Qx, Mx; field; lra). rewrite Hx. field. lra.
    + assert (Hy : across d (hd b qs') = 2 * c - across d a + (c - (2 * c - across d a)) / s) by (rewrite <- My; rewrite Qy at 1; field; lra). rewrite Hy, On. field. lra.
  - cbn [length] in I. specialize (IH im q b qs' U' D2).
    cbn [Nat.add nth app]. change (nth (i + 1) ((q :: qs') ++ [b]) b) with (nth (i + 1) (q :: qs' ++ [b]) b).
    apply IH; [|lia]. intros q2 Q2. destruct qs' as [|z qs'']; cbn in Q2; [discriminate|]. injection Q2 as <-. cbn [hd] in *.
    exists (1 - s). split; [lra|]. rewrite Qx. split; [ring|]. rewrite On, Qy. ring.
Qed.

(** ** The loss *)
Lemma F2_row d e n pts full i b : Forall2 (close d e n) pts full -> (i < length full)%nat -> close d e n (f_row pts i) (nth i full b).
Proof.
  intros F L. assert (Ln : length pts = length full) by (clear -F; induction F; cbn; auto).
  unfold f_row. rewrite Nat.min_l by lia. clear Ln. revert i L. induction F as [|x y l l' C F IH]; intros i L; [cbn in L; lia|].
  destruct i as [|i]; cbn [nth]; [exact C|]. cbn [length] in L. apply IH. lia.
Qed.
Lemma unfolds_length lines is_ b qs : unfolds lines is_ b qs -> length qs = length lines.
Proof. induction 1; cbn; auto. Qed.
Lemma in_enum {A} (l : list A) : forall i x, In (i, x) (enumerate l) -> nth_error l i = Some x.
Proof. intros i x H. apply PathP.in_enumerate in H. auto. Qed.

Section Loss.
Variables (d : axis) (N e : Z) (ws : list fwall) (lines : list (axis * R)) (tx rx : fvec) (a b : R * R) (qs : list (R * R)).
Context (HN : (1 <= N <= 1024)%Z) (E : (-60 <= e <= 50)%Z).
Context (W : Forall2 (axis_wall N e) ws lines) (D : Forall (fun l => fst l = d) lines).
Context (TX : within_grid N e tx a) (RX : within_grid N e rx b) (U : reflections lines a b qs).
Context (B : (4 * N * N * (Z.of_nat (length ws) + 1) <= 2 ^ 24)%Z) (Ln : (1 <= length ws <= 64)%nat).
Let n := INR (length ws).
Lemma n_bounds : 1 <= n <= 64.
Proof. unfold n. split; [replace 1 with (INR 1) by reflexivity|replace 64 with (INR 64) by (rewrite INR_IZR_INZ; reflexivity)]; apply le_INR; lia. Qed.
Lemma wall_residual i w : nth_error ws i = Some w ->
  exists l, fval (f_evaluate w (f_row (f_image_points tx ws rx) i) (f_row (f_image_points tx ws rx) (i + 1)) (f_row (f_image_points tx ws rx) (i + 2))) = Fin l /\ 0 <= l <= n * n * (5 / 32768).
Proof.
  intro Hi. destruct (computed_path d N e ws lines tx rx a b qs HN E W D TX RX U B ltac:(lia)) as [C T].
  pose proof (unfolds_length _ _ _ _ U) as Lq. assert (Lw : length ws = length lines) by (clear -W; induction W; cbn; auto).
  assert (Li : (i < length ws)%nat) by (apply nth_error_Some; congruence).
  assert (Lf : length (a :: qs ++ [b]) = (length ws + 2)%nat) by (cbn; rewrite app_length; cbn; lia).
  destruct (F2_nth _ _ _ W i w Hi) as ([d' c] & Hl & Wl).
  assert (d' = d) by (rewrite Forall_forall in D; apply (D (d', c)); eapply nth_error_In; eauto). subst d'.
  pose proof n_bounds as Nb. fold n in C.
  assert (Sp : specular d (nth i (a :: qs ++ [b]) b) (nth (i + 1) (a :: qs ++ [b]) b) (nth (i + 2) (a :: qs ++ [b]) b)).
  { apply (specular_path d lines a a b qs U D); [|lia]. intros q Q. exists 1. split; [lra|]. split; ring. }
  assert (Tm : forall j, (j < length (a :: qs ++ [b]))%nat -> tame d N e (nth j (a :: qs ++ [b]) b)).
  { intros j J. rewrite Forall_forall in T. apply T. apply nth_In. auto. }
  eapply (evaluate_small d N e c w n _ _ _ _ _ _ Wl ltac:(lia) E Nb (F2_row d e n _ _ i b C ltac:(lia)) (F2_row d e n _ _ (i + 1) b C ltac:(lia)) (F2_row d e n _ _ (i + 2) b C ltac:(lia))); auto; apply Tm; lia.
Qed.
Lemma loss_fold l k : (forall i w, In (i, w) l -> nth_error ws i = Some w) -> forall acc r, fval acc = Fin r -> 0 <= r <= IZR (Z.of_nat k) * (n * n * (5 / 32768)) -> (k + length l <= 64)%nat ->
  exists r', fval (fold_left (fun l '(i, w) => f_add l (f_evaluate w (f_row (f_image_points tx ws rx) i) (f_row (f_image_points tx ws rx) (i + 1)) (f_row (f_image_points tx ws rx) (i + 2)))) l acc) = Fin r' /\
    0 <= r' <= IZR (Z.of_nat (k + length l)) * (n * n * (5 / 32768)).
Proof.
  revert k. induction l as [|[i w] l IH]; intros k H acc r A Rb L; cbn [fold_left].
  - exists r. split; auto. cbn [length]. rewrite Nat.add_0_r. auto.
  - destruct (wall_residual i w (H i w (or_introl eq_refl))) as (x & X & Xb). cbn [length] in L.
    set (T := n * n * (5 / 32768)) in *.
    assert (FT : IZR (Z.of_nat (Datatypes.S k)) * T = IZR (Z.of_nat (Datatypes.S k) * (Z.of_nat (length ws) * Z.of_nat (length ws) * 5)) * bpow radix2 (-15)).
    { unfold T, n. rewrite INR_IZR_INZ, !mult_IZR. change (bpow radix2 (-15)) with (/ 32768). field. }
    assert (Sz : (Z.abs (Z.of_nat (Datatypes.S k) * (Z.of_nat (length ws) * Z.of_nat (length ws) * 5)) <= 2 ^ 24)%Z) by nia.
    assert (Fm : format (IZR (Z.of_nat (Datatypes.S k)) * T)) by (rewrite FT; apply format_scaled; [exact Sz|lia]).
    assert (Ub : IZR (Z.of_nat (Datatypes.S k)) * T <= 2 ^ 30).
    { rewrite FT. apply Rle_trans with (IZR (2 ^ 24) * 1); [|cbn; lra]. apply Rmult_le_compat; [apply IZR_le; lia|apply bpow_ge_0|apply IZR_le; lia|change (bpow radix2 (-15)) with (/ 32768); lra]. }
    assert (Sm : 0 <= r + x <= IZR (Z.of_nat (Datatypes.S k)) * T).
    { rewrite Nat2Z.inj_succ, succ_IZR. lra. }
    destruct (xround_between 0 (IZR (Z.of_nat (Datatypes.S k)) * T) (r + x)) as [V Vb]; auto; [apply format_0|rewrite Rabs_R0; lra|rewrite Rabs_pos_eq; lra|].
    destruct (IH (Datatypes.S k)) with (acc := f_add acc (f_evaluate w (f_row (f_image_points tx ws rx) i) (f_row (f_image_points tx ws rx) (i + 1)) (f_row (f_image_points tx ws rx) (i + 2)))) (r := rnd (r + x)) as (r' & R' & Rb'); auto.
    + intros i' w' I'. apply H. right. auto.
    + rewrite val_add, A, X. cbn [xadd]. exact V.
    + lia.
    + exists r'. split; auto. cbn [length]. replace (k + Datatypes.S (length l))%nat with (Datatypes.S k + length l)%nat by lia. auto.
Qed.
Lemma loss_small : exists r, fval (f_path_loss ws (f_image_points tx ws rx)) = Fin r /\ 0 <= r <= n * n * n * (5 / 32768).
Proof.
  unfold f_path_loss. assert (Le : length (enumerate ws) = length ws) by (unfold enumerate; rewrite combine_length, seq_length; lia).
  destruct (loss_fold (enumerate ws) 0 (in_enum ws) f_zero 0 val_zero) as (r & R & Rb); [cbn; lra|rewrite Le; lia|].
  exists r. split; [exact R|]. rewrite Le in Rb. cbn [Nat.add] in Rb. rewrite <- INR_IZR_INZ in Rb. fold n in Rb. lra.
Qed.
End Loss.
