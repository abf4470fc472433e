(** C96: the image method in single precision, on walls along the axes. *)
From Coq Require Import Reals List Bool ZArith Lra Lia Psatz.
From Flocq Require Import Core.Core IEEE754.BinarySingleNaN.
From Verif Require Import Base BaseP LogicM GeometryM PathM FloatM SpecFloat32 FloatP FloatLogicP FloatCmpP FloatAccP FloatGeomP FloatSegP FloatGridP FloatBoundP FloatImageM SpecImage32 FloatImageP FloatImageErrP FloatImageChainP FloatImageLossP FloatImagePathP FloatImageValidP.
Import ListNotations.
Open Scope R_scope.

(** The images of a grid point in any sequence of horizontal and vertical grid walls are
    exact: no rounding error, at any scale (4095 walls on a grid of 2049 x 2049 positions). *)
Theorem C96_images_are_exact :
  forall N e ws lines tx a, (0 <= N <= 1024)%Z -> (-74 <= e <= 51)%Z -> Forall2 (axis_wall N e) ws lines -> within_grid N e tx a ->
  (2 * N + 4 * N * Z.of_nat (length ws) <= 2 ^ 24)%Z ->
  Forall2 stands_for (f_images tx ws) (mirrors a lines).
Proof.
  intros N e ws lines tx a HN E W T B. eapply F2_weaken; [|exact (images_exact N e ws lines HN E W N tx a T B)]. intros p q [H _]. exact H.
Qed.
Print Assumptions C96_images_are_exact.

(** With parallel walls, every computed reflection point is exactly on the line of its wall,
    and within [n/1024] of a grid step of the exact point along it ([n] reflections). *)
Theorem C96_reflection_points :
  forall d N e ws lines tx rx a b qs, (1 <= N <= 1024)%Z -> (-60 <= e <= 50)%Z ->
  Forall2 (axis_wall N e) ws lines -> Forall (fun l => fst l = d) lines -> ws <> [] ->
  within_grid N e tx a -> within_grid N e rx b -> reflections lines a b qs ->
  (4 * N * N * (Z.of_nat (length ws) + 1) <= 2 ^ 24)%Z -> (length ws <= 1024)%nat ->
  exists ps, f_xys (f_ImagePath_from tx ws rx) = tx :: ps ++ [rx] /\ Forall2 (near d (INR (length ws) / 1024 * bpow radix2 e)) ps qs.
Proof.
  intros d N e ws lines tx rx a b qs HN E W D N0 TX RX U B Ln.
  destruct (computed_path d N e ws lines tx rx a b qs HN E W D TX RX U B Ln) as [C _].
  exists (snd (f_backward_scan rx (combine ws (f_images tx ws)))). split; [unfold f_ImagePath_from; destruct ws; [congruence|reflexivity]|].
  unfold f_image_points in C. inversion C as [|? ? ? ? _ C' E1 E2]; subst. apply Forall2_app_inv_r in C'. destruct C' as (l1 & l2 & C1 & C2 & Q).
  inversion C2 as [|y ? l2' ? _ C3]; subst. inversion C3; subst. apply app_inj_tail in Q. destruct Q as [<- _].
  eapply F2_weaken; [|exact C1]. intros p q (H1 & x & H2 & H3). split; auto. exists x. split; auto. lra.
Qed.
Print Assumptions C96_reflection_points.

(** Their loss is positive but small: below the default tolerance for up to 4 reflections. *)
Theorem C96_loss_is_small :
  forall d N e ws lines tx rx a b qs, (1 <= N <= 1024)%Z -> (-60 <= e <= 50)%Z ->
  Forall2 (axis_wall N e) ws lines -> Forall (fun l => fst l = d) lines ->
  within_grid N e tx a -> within_grid N e rx b -> reflections lines a b qs ->
  (4 * N * N * (Z.of_nat (length ws) + 1) <= 2 ^ 24)%Z -> (1 <= length ws <= 64)%nat ->
  exists r, fval (f_loss (f_ImagePath_from tx ws rx)) = Fin r /\ 0 <= r <= INR (length ws) ^ 3 * (5 / 32768).
Proof.
  intros d N e ws lines tx rx a b qs HN E W D TX RX U B Ln.
  destruct (loss_small d N e ws lines tx rx a b qs HN E W D TX RX U B Ln) as (r & R & Rb). exists r. split; [|cbn [pow]; lra].
  unfold f_ImagePath_from. destruct ws; [cbn in Ln; lia|exact R].
Qed.
Print Assumptions C96_loss_is_small.

(** The exact validity test of up to 4 reflections: rejected for its loss never, for its
    points never if they are inside their walls by [n/1024] of a step, always if one is
    outside by 1/64 of a step. *)
Theorem C96_verdict :
  forall d N e ws lines tx rx a b qs objects cand tol patch k tl obstructed, (1 <= N <= 1024)%Z -> (-60 <= e <= 50)%Z ->
  Forall2 (axis_wall N e) ws lines -> Forall (fun l => fst l = d) lines ->
  within_grid N e tx a -> within_grid N e rx b -> reflections lines a b qs ->
  (4 * N * N * (Z.of_nat (length ws) + 1) <= 2 ^ 24)%Z -> (1 <= length ws <= 4)%nat ->
  f_intersects_with_objects false (f_ImagePath_from tx ws rx) objects cand patch k = Ok obstructed ->
  fval tol = Fin tl -> INR (length ws) ^ 3 * (5 / 32768) < tl ->
  exists v, f_is_valid false (f_ImagePath_from tx ws rx) objects cand (map FWall ws) tol patch k = Ok (FB v) /\
    ((forall i w q, nth_error ws i = Some w -> nth_error qs i = Some q -> well_inside d (INR (length ws) / 1024 * bpow radix2 e) w q) -> v = negb (f_to_b obstructed)) /\
    ((exists i w q, nth_error ws i = Some w /\ nth_error qs i = Some q /\ well_outside d (bpow radix2 e / 64) w q) -> v = false).
Proof.
  intros d N e ws lines tx rx a b qs objects cand tol patch k tl obstructed HN E W D TX RX U B Ln I T Tl.
  apply (verdict d N e ws lines tx rx a b qs HN E W D TX RX U B Ln objects cand tol patch k tl obstructed I T). cbn [pow] in Tl. lra.
Qed.
Print Assumptions C96_verdict.

(** The default tolerance allows 4 reflections. *)
Theorem C96_default_tolerance : forall n, (n <= 4)%nat -> exists tl, fval (f_lit 1 100) = Fin tl /\ INR n ^ 3 * (5 / 32768) < tl.
Proof.
  intros n Hn. rewrite val_lit by (cbn; lia). exists (rnd (1 * / 100)). split; [reflexivity|].
  assert (K : Rabs (rnd (1 * / 100) - 1 * / 100) <= bpow radix2 (-6 - 25)) by (apply rnd_err; [lia|]; rewrite Rabs_pos_eq by lra; cbn; lra).
  assert (K2 : bpow radix2 (-6 - 25) <= / 1000000) by (cbn; lra). apply Rabs_le_inv in K.
  assert (INR n <= 4) by (replace 4 with (INR 4) by (rewrite INR_IZR_INZ; reflexivity); apply le_INR; lia). pose proof (pos_INR n) as P.
  assert (INR n ^ 3 <= 4 ^ 3) by (apply pow_incr; lra). lra.
Qed.
Print Assumptions C96_default_tolerance.

(** Oblique walls: the image of a grid point need not be exact. *)
Theorem C96_oblique_images_are_not_exact :
  exists w p, stands_for (fw_origin w) (0, 0) /\ stands_for (fw_dest w) (1, 1) /\ stands_for p (0, 1) /\ ~ stands_for (f_image_of w p) (1, 0).
Proof.
  exists (mkfwall (f_int 0, f_int 0) (f_int 1, f_int 1)), (f_int 0, f_int 1). cbn [fw_origin fw_dest].
  split; [split; apply val_int; cbn; lia|]. split; [split; apply val_int; cbn; lia|]. split; [split; apply val_int; cbn; lia|].
  intros [_ H]. cbn [snd] in H. assert (Q : f_eqb (snd (f_image_of (mkfwall (f_int 0, f_int 0) (f_int 1, f_int 1)) (f_int 0, f_int 1))) f_zero = true) by (apply val_eqb_zero; exact H).
  vm_compute in Q. discriminate.
Qed.
Print Assumptions C96_oblique_images_are_not_exact.

(** Perpendicular walls: a reflection point need not be on the line of its wall. *)
Theorem C96_corner_points_are_not_exact :
  exists ws tx rx p q, Forall2 (axis_wall 16 0) ws [(Horizontal, 1); (Vertical, 16)] /\ within_grid 16 0 tx (2, 2) /\ within_grid 16 0 rx (7, 8) /\
    f_xys (f_ImagePath_from tx ws rx) = [tx; p; q; rx] /\ fval (across Horizontal p) <> Fin 1.
Proof.
  exists [mkfwall (f_int 0, f_int 1) (f_int 16, f_int 1); mkfwall (f_int 16, f_int 0) (f_int 16, f_int 16)], (f_int 2, f_int 2), (f_int 7, f_int 8).
  do 2 eexists.
  assert (G : forall i j, (Z.abs i <= 16)%Z -> (Z.abs j <= 16)%Z -> within_grid 16 0 (f_int i, f_int j) (IZR i, IZR j)).
  { intros i j I J. split; [split; cbn [fst snd]; apply val_int; cbn; lia|]. exists i, j. repeat split; auto. cbn. f_equal; ring. }
  split.
  { constructor; [|constructor; [|constructor]].
    - exists (0, 1), (16, 1). split; [apply (G 0%Z 1%Z); lia|]. split; [apply (G 16%Z 1%Z); lia|]. cbn. repeat split; lra.
    - exists (16, 0), (16, 16). split; [apply (G 16%Z 0%Z); lia|]. split; [apply (G 16%Z 16%Z); lia|]. cbn. repeat split; lra. }
  split; [apply (G 2%Z 2%Z); lia|]. split; [apply (G 7%Z 8%Z); lia|]. split; [reflexivity|]. cbn [across].
  intro H. assert (Q : f_leb (snd (f_backward (f_backward (f_int 7, f_int 8) (mkfwall (f_int 16, f_int 0) (f_int 16, f_int 16),
      f_image_of (mkfwall (f_int 16, f_int 0) (f_int 16, f_int 16)) (f_image_of (mkfwall (f_int 0, f_int 1) (f_int 16, f_int 1)) (f_int 2, f_int 2))))
      (mkfwall (f_int 0, f_int 1) (f_int 16, f_int 1), f_image_of (mkfwall (f_int 0, f_int 1) (f_int 16, f_int 1)) (f_int 2, f_int 2)))) f_one = true).
  { rewrite val_leb, val_one. etransitivity; [apply (f_equal (fun z => xleb z (Fin 1))); exact H|]. cbn. apply Rleb_true. lra. }
  vm_compute in Q. discriminate.
Qed.
Print Assumptions C96_corner_points_are_not_exact.

(** Two reflections in a corridor: from (0,1) off y = 0 and y = 4 to (8,3). *)
Example C96_ex :
  let ws := [mkfwall (f_int 0, f_int 0) (f_int 8, f_int 0); mkfwall (f_int 8, f_int 4) (f_int 0, f_int 4)] in
  let lines := [(Horizontal, 0); (Horizontal, 4)] in
  let qs := [(4 / 3, 0); (20 / 3, 4)] in
  Forall2 (axis_wall 8 0) ws lines /\ Forall (fun l => fst l = Horizontal) lines /\
  within_grid 8 0 (f_int 0, f_int 1) (0, 1) /\ within_grid 8 0 (f_int 8, f_int 3) (8, 3) /\ reflections lines (0, 1) (8, 3) qs /\
  (forall i w q, nth_error ws i = Some w -> nth_error qs i = Some q -> well_inside Horizontal (INR (length ws) / 1024 * bpow radix2 0) w q) /\
  f_is_valid false (f_ImagePath_from (f_int 0, f_int 1) ws (f_int 8, f_int 3)) (map FWall ws) [0%Z; 1%Z] (map FWall ws) (f_lit 1 100) f_zero default_fkw = Ok (FB true).
Proof.
  assert (G : forall i j, (Z.abs i <= 8)%Z -> (Z.abs j <= 8)%Z -> within_grid 8 0 (f_int i, f_int j) (IZR i, IZR j)).
  { intros i j I J. split; [split; cbn [fst snd]; apply val_int; cbn; lia|]. exists i, j. repeat split; auto. cbn. f_equal; ring. }
  intros ws lines qs. split.
  { constructor; [|constructor; [|constructor]].
    - exists (0, 0), (8, 0). split; [apply (G 0%Z 0%Z); lia|]. split; [apply (G 8%Z 0%Z); lia|]. cbn. repeat split; lra.
    - exists (8, 4), (0, 4). split; [apply (G 8%Z 4%Z); lia|]. split; [apply (G 0%Z 4%Z); lia|]. cbn. repeat split; lra. }
  split; [repeat constructor|]. split; [apply (G 0%Z 1%Z); lia|]. split; [apply (G 8%Z 3%Z); lia|]. split; [|split].
  - unfold reflections, lines, qs. cbn [mirrors mirror fst snd].
    apply unfolds_cons with (s := 1 / 5); [apply unfolds_cons with (s := 5 / 6); [constructor| | | |]| | | |]; unfold on_line, between; cbn [across fst snd hd]; try lra.
    + f_equal; lra.
    + f_equal; lra.
  - intros i w q Hw Hq. assert (I2 : INR (length ws) / 1024 * bpow radix2 0 = 1 / 512) by (cbn; lra). rewrite I2.
    destruct i as [|[|i]]; [| |destruct i; discriminate]; injection Hw as <-; injection Hq as <-.
    + exists (0, 0), (8, 0). split; [apply (G 0%Z 0%Z); lia|]. split; [apply (G 8%Z 0%Z); lia|]. unfold inside_by. cbn [along fst]. rewrite Rmin_left, Rmax_right by lra. lra.
    + exists (8, 4), (0, 4). split; [apply (G 8%Z 4%Z); lia|]. split; [apply (G 0%Z 4%Z); lia|]. unfold inside_by. cbn [along fst]. rewrite Rmin_right, Rmax_left by lra. lra.
  - vm_compute. reflexivity.
Qed.
