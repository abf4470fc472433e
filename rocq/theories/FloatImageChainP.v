(** The image method in single precision: reflections on parallel walls. *)
From Coq Require Import Reals List Bool ZArith Lra Lia Psatz.
From Flocq Require Import Core.Core IEEE754.BinarySingleNaN.
From Verif Require Import Base BaseP LogicM GeometryM PathM FloatM SpecFloat32 FloatP FloatLogicP FloatCmpP FloatAccP FloatGeomP FloatSegP FloatGridP FloatBoundP FloatImageM SpecImage32 FloatImageP FloatImageErrP.
Import ListNotations.
Open Scope R_scope.

Lemma along_between d a b s : along d (between a b s) = along d a + s * (along d b - along d a). Proof. destruct d; reflexivity. Qed.
Lemma across_between d a b s : across d (between a b s) = across d a + s * (across d b - across d a). Proof. destruct d; reflexivity. Qed.

(** A computed point: exact across the walls, and within [n/1024] of a step along them. *)
Definition close (d : axis) (e : Z) (n : R) (p : fvec) (q : R * R) : Prop :=
  fval (across d p) = Fin (across d q) /\ exists x, fval (along d p) = Fin x /\ Rabs (x - along d q) <= n * (bpow radix2 e / 1024).
(** An exact point of the path. *)
Definition tame (d : axis) (N e : Z) (q : R * R) : Prop :=
  (exists j, (Z.abs j <= N)%Z /\ across d q = IZR j * bpow radix2 e) /\ Rabs (along d q) <= IZR N * bpow radix2 e.

Lemma close_weaken d e n m p q : close d e n p q -> n <= m -> close d e m p q.
Proof. intros (A & x & X & B) L. split; auto. exists x. split; auto. pose proof (bpow_gt_0 radix2 e). nra. Qed.

Section Chain.
Variables (d : axis) (N K e : Z).
Context (HN : (0 <= N <= 1024)%Z) (E : (-60 <= e <= 50)%Z) (HK : (2 * N * (N + K) <= 2 ^ 24)%Z) (K0 : (0 <= K <= 2 ^ 23)%Z).
Let b := bpow radix2 e.

Definition good_image (fi : fvec) (i : R * R) : Prop := within_grid K e fi i /\ Rabs (along d i) <= IZR N * b.

Lemma step_close w c p q next fi i s n : axis_wall N e w (d, c) -> close d e n p next -> tame d N e next -> good_image fi i -> 0 <= n <= 1024 ->
  ~ on_line (d, c) i -> on_line (d, c) q -> 0 < s < 1 -> q = between i next s ->
  close d e (n + 1) (f_backward p (w, fi)) q /\ tame d N e q.
Proof.
  intros W (A & x & X & Xe) ((j & Jb & Jn) & Al) (I & Ia) Hn Off On S Q. unfold on_line in Off, On. cbn [fst snd] in Off, On.
  assert (B0 : 0 < b) by apply bpow_gt_0.
  destruct (axis_facts d c N e w W ltac:(lia) ltac:(lia)) as (o & m & sg & F).
  apply (within_at d) in I. destruct I as (ii & ji & Hi & Hj & At & Qi). rewrite Qi in Off, Q, Ia. rewrite across_pair in Off. rewrite along_pair in Ia.
  pose proof F as (_ & _ & Ho & Hm & Cm). fold b in Jn, Cm, Xe, Al, Qi, Off, Q, Ia.
  assert (Qx : along d q = IZR ii * b + s * (along d next - IZR ii * b)) by (rewrite Q, along_between, along_pair; reflexivity).
  assert (Qy : c = IZR ji * b + s * (IZR j * b - IZR ji * b)).
  { transitivity (across d q); [auto|]. rewrite Q, across_between, across_pair, Jn. reflexivity. }
  assert (Ms : IZR m = IZR ji + s * (IZR j - IZR ji)).
  { apply (Rmult_eq_reg_r b); [|lra]. rewrite <- Cm, Qy. ring. }
  assert (NE : j <> ji).
  { intros ->. apply Off. rewrite Qy. ring. }
  assert (Nr : IZR (ji - j) <> 0) by (apply not_0_IZR; lia).
  assert (Lam : IZR (m - j) / IZR (ji - j) = 1 - s).
  { rewrite !minus_IZR in *. rewrite Ms. field. auto. }
  assert (L : 0 <= IZR (m - j) / IZR (ji - j) <= 1) by (rewrite Lam; lra).
  assert (N1 : IZR N <= 1024) by (apply IZR_le; lia).
  assert (Xb : Rabs x <= 2048 * b).
  { replace x with ((x - along d next) + along d next) by ring. eapply Rle_trans; [apply Rabs_triang|]. nra. }
  assert (Ib : (Z.abs ii <= N)%Z).
  { apply le_IZR. rewrite abs_IZR. rewrite Rabs_mult, (Rabs_pos_eq b) in Ia by lra. nra. }
  assert (P : gr e (across d p) j) by (unfold gr; rewrite A, Jn; reflexivity).
  pose proof (back_across d N K e w c o m sg p fi x j ii ji F HN E X Xb P Jb At Ib Hj NE HK K0) as R1.
  destruct (back_along d N K e w c o m sg p fi x j ii ji F HN E X Xb P Jb At Ib Hj NE K0 L) as (x' & R2 & R3).
  rewrite Lam in R3. fold b in R3. split; [split|split].
  - rewrite R1. f_equal. rewrite On. auto.
  - exists x'. split; auto. fold b.
    replace (x' - along d q) with ((x' - (x + (1 - s) * (IZR ii * b - x))) + s * (x - along d next)) by (rewrite Qx; ring).
    eapply Rle_trans; [apply Rabs_triang|]. rewrite Rabs_mult, (Rabs_pos_eq s) by lra. pose proof (Rabs_pos (x - along d next)). nra.
  - exists m. split; [auto|]. rewrite On. auto.
  - rewrite Qx. fold b. apply Rabs_le_inv in Ia. apply Rabs_le_inv in Al. apply Rabs_le. split; nra.
Qed.

Lemma chain_close ws lines fis is_ b0 rx qs : Forall2 (axis_wall N e) ws lines -> Forall (fun l => fst l = d) lines -> Forall2 good_image fis is_ ->
  unfolds lines is_ b0 qs -> within_grid N e rx b0 -> (length ws <= 1024)%nat ->
  fst (f_backward_scan rx (combine ws fis)) = hd rx (snd (f_backward_scan rx (combine ws fis))) /\
  Forall2 (close d e (INR (length ws))) (snd (f_backward_scan rx (combine ws fis))) qs /\ Forall (tame d N e) qs.
Proof.
  intros F D G U R Ln. revert ws fis F D G Ln. induction U as [b0|l lines i is_ b0 q qs s U IH Off On S Q]; intros ws fis F D G Ln.
  - inversion F; subst. cbn. auto.
  - inversion F as [|w ? ws' ? W F' E1 E2]; subst. inversion G as [|fi ? fis' ? G1 G' E1 E2]; subst. inversion D as [|? ? D1 D']; subst.
    destruct l as [d' c]. cbn [fst] in D1. subst d'. cbn [length] in Ln.
    destruct (IH R ws' fis' F' D' G' ltac:(lia)) as (I1 & I2 & I3). cbn [combine f_backward_scan].
    destruct (f_backward_scan rx (combine ws' fis')) as [cc ys] eqn:EQ. cbn [fst snd] in I1, I2. cbn [fst snd hd].
    assert (NX : close d e (INR (length ws')) cc (hd b0 qs) /\ tame d N e (hd b0 qs)).
    { rewrite I1. inversion I2; subst; cbn [hd].
      - apply (within_at d) in R. destruct R as (ri & rj & Ri & Rj & [R1 R2] & ->). split.
        + split; rewrite ?across_pair; [auto|]. rewrite along_pair. eexists. split; [exact R1|]. rewrite Rminus_diag_eq, Rabs_R0 by reflexivity.
          pose proof (bpow_gt_0 radix2 e). pose proof (pos_INR (length ws')). nra.
        + split; [exists rj; rewrite across_pair; auto|]. rewrite along_pair, Rabs_mult, (Rabs_pos_eq (bpow radix2 e)) by apply bpow_ge_0.
          apply Rmult_le_compat_r; [apply bpow_ge_0|]. rewrite <- abs_IZR. apply IZR_le. auto.
      - inversion I3; subst. auto. }
    destruct NX as [NX1 NX2].
    destruct (step_close w c cc (between i (hd b0 qs) s) (hd b0 qs) fi i s (INR (length ws')) W NX1 NX2 G1) as [C1 C2]; auto.
    { split; [apply pos_INR|]. replace 1024 with (INR 1024) by (rewrite INR_IZR_INZ; reflexivity). apply le_INR. lia. }
    split; [reflexivity|]. change (length (w :: ws')) with (Datatypes.S (length ws')). split.
    + constructor; [rewrite S_INR; exact C1|]. eapply F2_weaken; [|exact I2]. intros p0 q0 C0. eapply close_weaken; [exact C0|]. rewrite S_INR. lra.
    + constructor; auto.
Qed.
End Chain.
