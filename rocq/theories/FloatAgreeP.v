(** Single precision: the smoothed validity against the exact one. *)
From Coq Require Import Reals List Bool ZArith Lra Lia Psatz.
From Flocq Require Import Core.Core IEEE754.BinarySingleNaN.
From Verif Require Import Base BaseP LogicM GeometryM PathM FloatM SpecFloat32 FloatP FloatLogicP FloatCmpP FloatAccP FloatGeomP FloatSegP.
Import ListNotations.
Open Scope R_scope.
Local Instance p24a : Prec_gt_0 24 := eq_refl.

(** The smoothed truth value [s] never contradicts the exact one [e]. *)
Definition agree (s e : ftruthy) : Prop :=
  (forall r, fval (f_to_f s) = Fin r -> / 2 < r -> f_to_b e = true) /\
  (forall r, fval (f_to_f s) = Fin r -> r < / 2 -> f_to_b e = false).
(** A smoothed truth value that is not NaN. *)
Definition sound (s : ftruthy) : Prop := not_nan (f_to_f s).
Definition smooth (s : ftruthy) : Prop := unit_or_nan s.

Lemma smooth_cases s : smooth s -> fval (f_to_f s) = NaN \/ exists r, fval (f_to_f s) = Fin r /\ 0 <= r <= 1.
Proof.
  intro H. destruct (unf_to_f s H) as [N|(r & R & B)]; eauto.
Qed.
Lemma and_to_f x y : fval (f_to_f (f_and true x y)) = fval (f_min (f_to_f x) (f_to_f y)).
Proof.
  unfold f_and. destruct x as [[|]|x], y as [[|]|y]; cbn [f_to_f andb]; try reflexivity.
Qed.
Lemma or_to_f x y : fval (f_to_f (f_or true x y)) = fval (f_max (f_to_f x) (f_to_f y)).
Proof.
  unfold f_or. destruct x as [[|]|x], y as [[|]|y]; cbn [f_to_f orb]; try reflexivity.
Qed.
Lemma xmin_fin a b : xmin (Fin a) (Fin b) = Fin (Rmin a b).
Proof.
  cbn. unfold Rmin. destruct (Rle_dec a b); destruct (Rltb_spec b a); try lra; reflexivity.
Qed.
Lemma xmax_fin a b : xmax (Fin a) (Fin b) = Fin (Rmax a b).
Proof.
  cbn. unfold Rmax. destruct (Rle_dec a b); destruct (Rltb_spec a b); try lra; reflexivity.
Qed.
Lemma agree_and x y x' y' : smooth x -> smooth y -> agree x x' -> agree y y' -> agree (f_and true x y) (f_and false x' y').
Proof.
  intros X Y [A1 A2] [B1 B2]. destruct (smooth_cases x X) as [N|(r & R & _)].
  { split; intros v V; exfalso; rewrite and_to_f, val_min, N in V; discriminate. }
  destruct (smooth_cases y Y) as [N|(q & Q & _)].
  { split; intros v V; exfalso; rewrite and_to_f, val_min, N, R in V; discriminate. }
  split; intros v V L; rewrite and_to_f, val_min, R, Q, xmin_fin in V; apply Fin_inj in V; subst v; cbn [f_and f_to_b].
  - assert (/ 2 < r /\ / 2 < q) as [Lr Lq] by (split; unfold Rmin in L; destruct (Rle_dec r q); lra). rewrite (A1 r R Lr), (B1 q Q Lq). reflexivity.
  - assert (r < / 2 \/ q < / 2) as [Lr|Lq] by (unfold Rmin in L; destruct (Rle_dec r q); auto); [rewrite (A2 r R Lr); reflexivity|rewrite (B2 q Q Lq); apply andb_false_r].
Qed.
Lemma agree_or x y x' y' : smooth x -> smooth y -> agree x x' -> agree y y' -> agree (f_or true x y) (f_or false x' y').
Proof.
  intros X Y [A1 A2] [B1 B2]. destruct (smooth_cases x X) as [N|(r & R & _)].
  { split; intros v V; exfalso; rewrite or_to_f, val_max, N in V; discriminate. }
  destruct (smooth_cases y Y) as [N|(q & Q & _)].
  { split; intros v V; exfalso; rewrite or_to_f, val_max, N, R in V; discriminate. }
  split; intros v V L; rewrite or_to_f, val_max, R, Q, xmax_fin in V; apply Fin_inj in V; subst v; cbn [f_or f_to_b].
  - assert (/ 2 < r \/ / 2 < q) as [Lr|Lq] by (unfold Rmax in L; destruct (Rle_dec r q); auto); [rewrite (A1 r R Lr); reflexivity|rewrite (B1 q Q Lq); apply orb_true_r].
  - assert (r < / 2 /\ q < / 2) as [Lr Lq] by (split; unfold Rmax in L; destruct (Rle_dec r q); lra). rewrite (A2 r R Lr), (B2 q Q Lq). reflexivity.
Qed.
Lemma rnd_half : rnd (/ 2) = / 2. Proof. apply rnd_id, half_format. Qed.
Lemma agree_not x x' : smooth x -> agree x x' -> agree (f_not true x) (f_not false x').
Proof.
  intros X [A1 A2]. destruct (smooth_cases x X) as [N|(r & R & B)].
  { split; intros v V; exfalso; cbn [f_not f_to_f] in V; rewrite val_sub, N, val_one in V; discriminate. }
  destruct (not_val _ r R B) as [E _].
  split; intros v V L; cbn [f_not f_to_f] in V; rewrite E in V; apply Fin_inj in V; subst v; cbn [f_not f_to_b].
  - destruct (Rlt_or_le r (/ 2)) as [K|K]; [rewrite (A2 r R K); reflexivity|]. exfalso. pose proof (rnd_le (1 - r) (/ 2) ltac:(lra)). rewrite rnd_half in *. lra.
  - destruct (Rlt_or_le (/ 2) r) as [K|K]; [rewrite (A1 r R K); reflexivity|]. exfalso. pose proof (rnd_le (/ 2) (1 - r) ltac:(lra)). rewrite rnd_half in *. lra.
Qed.

Section Slope.
Variables (inv : bool) (alpha : f32) (a : R).
Hypothesis A : fval alpha = Fin a.
Hypothesis P : 0 < a.
Local Notation k := (mkfkw alpha (hs_fun inv)).
Let U : unit_function (fk_function k) := hard_sigmoid_unit inv.

Lemma hs_sub_not_nan x y r : fval (hs_fun inv (f_sub x y) alpha) = Fin r -> not_nan x /\ not_nan y.
Proof.
  intro H. unfold not_nan. split; intro N; assert (K : fval (f_sub x y) = NaN) by (rewrite val_sub, N; destruct (fval x); reflexivity);
  pose proof (hs_nan_function inv _ alpha K); congruence.
Qed.
Lemma agree_ge x y : agree (f_greater_equal true x y k) (f_greater_equal false x y k).
Proof.
  split; intros r R L; cbn [f_greater_equal f_to_f f_to_b] in *; unfold f_activation in R; cbn [fk_function fk_alpha] in R; destruct (hs_sub_not_nan _ _ _ R) as [Nx Ny].
  - pose proof (hs_above inv alpha a x y r A P Nx Ny R L) as K. rewrite val_leb. destruct (fval x), (fval y); cbn in *; try discriminate; auto.
    destruct (Rltb_spec r1 r0); [apply Rleb_true; lra|discriminate].
  - pose proof (hs_below inv alpha a x y r A P Nx Ny R L) as K. rewrite val_leb. destruct (fval x), (fval y); cbn in *; try discriminate; auto.
    destruct (Rltb_spec r0 r1); [|discriminate]. destruct (Rleb_spec r1 r0); [lra|auto].
Qed.
Lemma agree_le x y : agree (f_less_equal true x y k) (f_less_equal false x y k).
Proof. exact (agree_ge y x). Qed.
Lemma agree_lt x y : agree (f_less true x y k) (f_less false x y k).
Proof.
  split; intros r R L; cbn [f_less f_to_f f_to_b] in *; unfold f_activation in R; cbn [fk_function fk_alpha] in R; destruct (hs_sub_not_nan _ _ _ R) as [Nx Ny].
  - pose proof (hs_above inv alpha a _ _ r A P Nx Ny R L) as K. rewrite val_ltb. exact K.
  - pose proof (hs_below inv alpha a _ _ r A P Nx Ny R L) as K. rewrite val_ltb. destruct (fval x), (fval y); cbn in *; try discriminate; auto.
    destruct (Rltb_spec r1 r0); [|discriminate]. destruct (Rltb_spec r0 r1); [lra|auto].
Qed.
Lemma smooth_ge x y : smooth (f_greater_equal true x y k). Proof. apply (compare_unit true x y k U). Qed.
Lemma smooth_le x y : smooth (f_less_equal true x y k). Proof. apply (compare_unit true x y k U). Qed.
Lemma smooth_lt x y : smooth (f_less true x y k). Proof. apply (compare_unit true x y k U). Qed.

Lemma agree_seg_test num den tol : agree (f_seg_test true num den tol k) (f_seg_test false num den tol k).
Proof. unfold f_seg_test. apply agree_and; auto using smooth_ge, smooth_le, agree_ge, agree_le. Qed.
Lemma agree_seg P1 P2 P3 P4 tol : agree (f_segments_intersect true P1 P2 P3 P4 tol k) (f_segments_intersect false P1 P2 P3 P4 tol k).
Proof. unfold f_segments_intersect. apply agree_and; try apply agree_seg_test; apply (seg_test_unit true _ _ _ k U). Qed.
Lemma agree_true : agree (f_true true) (f_true false).
Proof. split; intros r R L; [reflexivity|]. change (f_to_f (f_true true)) with f_one in R. rewrite val_one in R. apply Fin_inj in R. lra. Qed.
Lemma agree_false : agree (f_false true) (f_false false).
Proof. split; intros r R L; [|reflexivity]. change (f_to_f (f_false true)) with f_zero in R. rewrite val_zero in R. apply Fin_inj in R. lra. Qed.
Lemma agree_contains o p : agree (f_obj_contains true o p k) (f_obj_contains false o p k).
Proof.
  destruct o; cbn [f_obj_contains]; try apply agree_true; unfold f_contains; apply agree_and; auto using smooth_ge, smooth_le, agree_ge, agree_le.
Qed.
Lemma agree_intersects o r0 r1 patch : agree (f_obj_intersects true o r0 r1 patch k) (f_obj_intersects false o r0 r1 patch k).
Proof. destruct o; cbn [f_obj_intersects]; try apply agree_false; apply agree_seg. Qed.
Lemma fold_agree {B} (hs he : ftruthy -> B -> ftruthy) l :
  (forall s e b, smooth s -> agree s e -> smooth (hs s b) /\ agree (hs s b) (he e b)) ->
  forall s e, smooth s -> agree s e -> smooth (fold_left hs l s) /\ agree (fold_left hs l s) (fold_left he l e).
Proof.
  intro H. induction l as [|b l IH]; intros s e S E; cbn [fold_left]; auto. destruct (H s e b S E). apply IH; auto.
Qed.
Lemma agree_on_objects p objects : agree (f_on_objects true p objects k) (f_on_objects false p objects k).
Proof.
  unfold f_on_objects. apply fold_agree; [|apply true_unit|apply agree_true]. intros s e [i o] S E.
  pose proof (contains_unit true o (f_row (f_xys p) (i + 1)) k U) as C. split; [apply and_unit; auto|apply agree_and; auto; apply agree_contains].
Qed.
Lemma agree_inter p objects cand patch r : f_intersects_with_objects true p objects cand patch k = Ok r ->
  exists r', f_intersects_with_objects false p objects cand patch k = Ok r' /\ smooth r /\ agree r r'.
Proof.
  unfold f_intersects_with_objects. destruct (_ && _); [discriminate|]. intro H. eexists. split; [reflexivity|].
  apply (f_equal (fun x => match x with Ok y => y | Err _ => f_false true end)) in H. cbn beta iota in H. subst r.
  apply fold_agree; [|apply false_unit|apply agree_false]. intros s e i S E. apply fold_agree; auto. clear s e S E. intros s e [j o] S E. destruct (_ || _); auto.
  pose proof (intersects_unit true o (f_row (f_xys p) i) (f_row (f_xys p) (i + 1)) patch k U) as C. split; [apply or_unit; auto|apply agree_or; auto; apply agree_intersects].
Qed.
Lemma on_float p objects : exists x, f_on_objects true p objects k = FF x.
Proof.
  unfold f_on_objects. apply (fold_left_inv (fun t => exists x, t = FF x)); [|exists f_one; reflexivity].
  intros t [i o] [x ->]. unfold f_and. eexists. reflexivity.
Qed.
Lemma all3_to_f x y z : f_all true (FF x) [y; z] = FF (f_min (f_min x (f_to_f y)) (f_to_f z)).
Proof. reflexivity. Qed.
Lemma agree_valid p objects cand inter tol patch v : f_is_valid true p objects cand inter tol patch k = Ok v ->
  exists r s e, f_intersects_with_objects true p objects cand patch k = Ok r /\
    s = f_and true (f_and true (f_on_objects true p inter k) (f_not true r)) (f_less true (f_loss p) tol k) /\
    v = FF (f_nan_to_num (f_to_f s)) /\ f_is_valid false p objects cand inter tol patch k = Ok (FB e) /\ agree s (FB e) /\ smooth s.
Proof.
  unfold f_is_valid. destruct (f_intersects_with_objects true p objects cand patch k) as [r|] eqn:R; cbn [rbind]; [|discriminate].
  destruct (agree_inter _ _ _ _ _ R) as (r' & R' & Sr & Ar). rewrite R'. cbn [rbind]. intro H.
  apply (f_equal (fun x => match x with Ok y => y | Err _ => f_false true end)) in H. cbn beta iota in H. subst v.
  pose proof (agree_on_objects p inter) as Ao. pose proof (on_objects_unit true p inter k U) as So.
  pose proof (agree_and _ _ _ _ So (not_unit true r Sr) Ao (agree_not _ _ Sr Ar)) as A1.
  pose proof (agree_and _ _ _ _ (and_unit true _ _ So (not_unit true r Sr)) (smooth_lt (f_loss p) tol) A1 (agree_lt (f_loss p) tol)) as [B1 B2].
  pose proof (and_unit true _ _ (and_unit true _ _ So (not_unit true r Sr)) (smooth_lt (f_loss p) tol)) as Sm.
  destruct (on_float p inter) as [x0 X0]. rewrite X0 in *. rewrite all3_to_f. cbn [f_tnan_to_num].
  exists r. eexists _, _. split; [reflexivity|]. split; [reflexivity|]. split; [reflexivity|]. split; [reflexivity|]. split; [|exact Sm].
  split; intros v V L; [specialize (B1 v V L)|specialize (B2 v V L)]; cbn [f_to_b forallb f_and] in *; rewrite ?andb_true_r, ?andb_assoc in *; assumption.
Qed.
End Slope.
