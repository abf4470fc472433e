(** The smoothed logic in single precision. *)
From Coq Require Import Reals List Bool ZArith Lra Lia Psatz.
From Flocq Require Import Core.Core IEEE754.BinarySingleNaN.
From Verif Require Import Base BaseP LogicM FloatM SpecFloat32 FloatP.
Import ListNotations.
Open Scope R_scope.
Local Instance p24' : Prec_gt_0 24 := eq_refl.

Lemma big_pos : 0 < bpow radix2 128. Proof. apply bpow_gt_0. Qed.
Lemma big_large : 2 ^ 30 < bpow radix2 128.
Proof. replace (2 ^ 30) with (bpow radix2 30) by (cbn; lra). apply bpow_lt. lia. Qed.
Lemma small_range r : Rabs r <= 2 ^ 30 -> Rabs r < bpow radix2 128.
Proof. intro H. pose proof big_large. lra. Qed.

(** A bounded real number rounds within the same representable bounds. *)
Lemma xround_between lo hi r : format lo -> format hi -> lo <= r <= hi -> Rabs lo <= 2 ^ 30 -> Rabs hi <= 2 ^ 30 ->
  xround (Fin r) = Fin (rnd r) /\ lo <= rnd r <= hi.
Proof.
  intros Fl Fh [A B] L H. pose proof (rnd_le _ _ A) as A'. pose proof (rnd_le _ _ B) as B'.
  rewrite (rnd_id lo) in A' by auto. rewrite (rnd_id hi) in B' by auto. split; [|split; auto].
  cbn [xround]. destruct (Rltb_spec (Rabs (rnd r)) (bpow radix2 128)) as [X|X]; auto. elim X.
  apply small_range. apply Rabs_le. apply Rabs_le_inv in L. apply Rabs_le_inv in H. lra.
Qed.
Lemma format_0 : format 0. Proof. apply (format_int 0). cbn. lia. Qed.
Lemma format_1 : format 1. Proof. apply (format_int 1). cbn. lia. Qed.
Lemma unit_round r : 0 <= r <= 1 -> exists u, xround (Fin r) = Fin u /\ 0 <= u <= 1.
Proof.
  intro H. exists (rnd r). apply xround_between; auto using format_0, format_1; rewrite ?Rabs_R0, ?Rabs_R1; lra.
Qed.

(** ** The hard sigmoid *)
Definition clip (x : xreal) : xreal := xmin (xmax x (Fin 0)) (Fin 6).
Lemma clip_cases x : x <> NaN -> exists r, clip x = Fin r /\ 0 <= r <= 6.
Proof.
  destruct x as [a| | |]; intro H; try contradiction; unfold clip; cbn.
  - exists (Rmin (Rmax a 0) 6). split; auto. unfold Rmin, Rmax. repeat destruct (Rle_dec _ _); lra.
  - exists 6. split; auto. lra.
  - exists 0. split; [f_equal; apply Rmin_left; lra|lra].
Qed.
Lemma clip_le x y : xle x y -> xle (clip x) (clip y).
Proof.
  destruct x as [a| | |], y as [b| | |]; try (unfold xle; cbn; discriminate); unfold clip; cbn [xmin xmax].
  - rewrite !xle_fin. intro H. unfold Rmin, Rmax. repeat destruct (Rle_dec _ _); lra.
  - intros _. apply xle_fin. apply Rmin_r.
  - intros _. apply xle_fin. lra.
  - intros _. apply xle_fin. unfold Rmin, Rmax. repeat destruct (Rle_dec _ _); lra.
  - intros _. apply xle_fin. apply Rmin_r.
  - intros _. apply xle_fin. lra.
Qed.

Lemma sixth_up : format (11184811 * bpow radix2 (-26)).
Proof. apply format_scaled; cbn; lia. Qed.
Lemma rnd_sixth : 0 <= rnd (1 * / 6) <= 11184811 * bpow radix2 (-26).
Proof.
  split; [apply rnd_pos; lra|]. rewrite <- (rnd_id _ sixth_up). apply rnd_le. cbn. lra.
Qed.
Lemma succ_one : succ radix2 (FLT_exp (-149) 24) 1 = 1 + bpow radix2 (-23).
Proof.
  rewrite succ_eq_pos by lra. f_equal. rewrite ulp_neq_0 by lra. unfold cexp.
  replace 1 with (bpow radix2 0) by reflexivity. rewrite mag_bpow. reflexivity.
Qed.
Lemma rnd_one_up r : r <= 1 + bpow radix2 (-25) -> rnd r <= 1.
Proof.
  intro H. unfold rnd. apply round_N_le_midp; [apply (FLT_exp_valid (-149) 24)|apply format_1|]. rewrite succ_one.
  assert (bpow radix2 (-23) = 4 * bpow radix2 (-25)) by (cbn; lra). pose proof (bpow_gt_0 radix2 (-25)). lra.
Qed.
Lemma val_lit n d : (Z.abs n <= 2 ^ 24)%Z -> (Z.abs d <= 2 ^ 24)%Z -> (1 <= d)%Z -> fval (f_lit n d) = Fin (rnd (IZR n * / IZR d)).
Proof.
  intros N D P. unfold f_lit. assert (Pd : 1 <= IZR d) by (apply IZR_le; auto).
  rewrite (val_div (f_int n) (f_int d) (IZR d)) by (rewrite ?val_int; auto; lra). rewrite val_int by auto. cbn [xmul xround].
  destruct (Rltb_spec (Rabs (rnd (IZR n * / IZR d))) (bpow radix2 128)) as [X|X]; auto. elim X. apply small_range.
  assert (B : Rabs (IZR n * / IZR d) <= 2 ^ 24).
  { rewrite Rabs_mult, <- abs_IZR. assert (IZR (Z.abs n) <= 2 ^ 24) by (replace (2 ^ 24) with (IZR (2 ^ 24)) by (cbn; lra); apply IZR_le; auto).
    assert (0 <= IZR (Z.abs n)) by (apply IZR_le; lia). assert (0 < / IZR d <= 1) by (split; [apply Rinv_0_lt_compat; lra|rewrite <- Rinv_1; apply Rinv_le_contravar; lra]).
    rewrite (Rabs_pos_eq (/ IZR d)) by lra. nra. }
  assert (F : format (2 ^ 24)) by (replace (2 ^ 24) with (IZR (2 ^ 24)) by (cbn; lra); apply format_int; cbn; lia).
  apply Rabs_le_inv in B. destruct B as [B1 B2]. pose proof (rnd_le _ _ B1) as C1. pose proof (rnd_le _ _ B2) as C2.
  rewrite rnd_opp, (rnd_id _ F) in C1. rewrite (rnd_id _ F) in C2. apply Rabs_le. lra.
Qed.

(** The two variants, as functions of the rounded [alpha * x]. *)
Definition hs_val (inv : bool) (z : xreal) : xreal :=
  xround (xmul (clip (xround (xadd z (Fin 3)))) (Fin (if inv then rnd (1 * / 6) else / 6))).
Definition hs_fun (inv : bool) : f32 -> f32 -> f32 := if inv then f_hard_sigmoid_inv else f_hard_sigmoid.
Lemma val_hs inv x alpha : fval (hs_fun inv x alpha) = hs_val inv (fval (f_mul alpha x)).
Proof.
  assert (R6 : fval (f_relu6 (f_add (f_mul alpha x) (f_int 3))) = clip (xround (xadd (fval (f_mul alpha x)) (Fin 3)))).
  { unfold f_relu6. rewrite val_min, val_max, val_add, !val_int by (cbn; lia). reflexivity. }
  destruct inv; cbn [hs_fun]; unfold hs_val.
  - unfold f_hard_sigmoid_inv. rewrite val_mul, R6, val_lit by (cbn; lia). reflexivity.
  - unfold f_hard_sigmoid. rewrite (val_div _ _ 6) by (try lra; apply val_int; cbn; lia). rewrite R6. reflexivity.
Qed.
Lemma hs_const (inv : bool) : 0 <= (if inv then rnd (1 * / 6) else / 6).
Proof. destruct inv; [apply rnd_sixth|lra]. Qed.
Lemma hs_range (inv : bool) c : 0 <= c <= 6 -> exists u, xround (Fin (c * (if inv then rnd (1 * / 6) else / 6))) = Fin u /\ 0 <= u <= 1.
Proof.
  intro H. destruct inv.
  - pose proof rnd_sixth as [A B]. set (q := rnd (1 * / 6)) in *.
    assert (C : c * q <= 1 + bpow radix2 (-25)).
    { apply Rle_trans with (6 * (11184811 * bpow radix2 (-26))); [nra|]. cbn. lra. }
    pose proof (rnd_one_up _ C) as D. assert (E : 0 <= rnd (c * q)) by (apply rnd_pos; nra).
    exists (rnd (c * q)). split; [|lra]. cbn [xround]. destruct (Rltb_spec (Rabs (rnd (c * q))) (bpow radix2 128)) as [X|X]; auto.
    elim X. apply small_range. rewrite Rabs_pos_eq by auto. lra.
  - apply unit_round. lra.
Qed.
Lemma hs_val_unit inv z : z <> NaN -> exists u, hs_val inv z = Fin u /\ 0 <= u <= 1.
Proof.
  intro H. unfold hs_val. destruct (clip_cases (xround (xadd z (Fin 3)))) as (c & -> & C).
  - intro E. rewrite xround_nan in E. destruct z; cbn in E; congruence.
  - cbn [xmul]. apply hs_range. auto.
Qed.
Lemma hs_val_nan inv z : hs_val inv z = NaN <-> z = NaN.
Proof.
  split; intro H; [|subst; reflexivity]. destruct z; auto; exfalso;
  match goal with H : hs_val ?i ?z = NaN |- _ => destruct (hs_val_unit i z) as (u & E & _); [discriminate|congruence] end.
Qed.
Lemma xadd_le_l x y c : xle x y -> xle (xadd x (Fin c)) (xadd y (Fin c)).
Proof. destruct x, y; unfold xle; cbn; auto. rewrite !Rleb_true. lra. Qed.
Lemma hs_val_le inv z z' : xle z z' -> xle (hs_val inv z) (hs_val inv z').
Proof.
  intro H. unfold hs_val. apply xround_le.
  assert (K : xle (clip (xround (xadd z (Fin 3)))) (clip (xround (xadd z' (Fin 3))))) by (apply clip_le, xround_le, xadd_le_l; auto).
  assert (N : z <> NaN /\ z' <> NaN) by (destruct z, z'; split; intro; discriminate). destruct N as [N N'].
  destruct (clip_cases (xround (xadd z (Fin 3)))) as (c & E & C); [intro X; rewrite xround_nan in X; destruct z; cbn in X; congruence|].
  destruct (clip_cases (xround (xadd z' (Fin 3)))) as (c' & E' & C'); [intro X; rewrite xround_nan in X; destruct z'; cbn in X; congruence|].
  rewrite E, E' in *. apply xle_fin in K. cbn [xmul]. apply xle_fin. apply Rmult_le_compat_r; auto. apply hs_const.
Qed.
Lemma hard_sigmoid_unit inv : unit_function (hs_fun inv).
Proof.
  intros x alpha. unfold unit_float. rewrite val_hs. destruct (fval (f_mul alpha x)) eqn:E;
  try (right; apply hs_val_unit; discriminate). left. reflexivity.
Qed.

(** ** Connectives *)
Lemma unit_of_b t b : t = FB b -> unit_float (f_to_f t).
Proof. intros ->. destruct b; cbn [f_to_f]; [exists 1; split; [apply val_one|lra]|exists 0; split; [reflexivity|lra]]. Qed.
Definition unf (x : f32) : Prop := fval x = NaN \/ unit_float x.
Lemma unf_to_f t : unit_or_nan t -> unf (f_to_f t).
Proof. destruct t as [b|x]; intro H; [right; eapply unit_of_b; reflexivity|exact H]. Qed.
Lemma unf_min x y : unf x -> unf y -> unf (f_min x y).
Proof.
  intros [X|(a & X & A)] [Y|(b & Y & B)]; unfold unf, unit_float; rewrite val_min, X, Y; cbn; auto.
  right. exists (Rmin a b). split; auto. unfold Rmin. destruct (Rle_dec a b); lra.
Qed.
Lemma unf_max x y : unf x -> unf y -> unf (f_max x y).
Proof.
  intros [X|(a & X & A)] [Y|(b & Y & B)]; unfold unf, unit_float; rewrite val_max, X, Y; cbn; auto.
  right. exists (Rmax a b). split; auto. unfold Rmax. destruct (Rle_dec a b); lra.
Qed.
Lemma unf_not x : unf x -> unf (f_sub f_one x).
Proof.
  intros [X|(a & X & A)]; unfold unf, unit_float; rewrite val_sub, val_one, X; cbn [xsub xadd xopp]; auto.
  right. apply unit_round. lra.
Qed.
Lemma and_unit approx x y : unit_or_nan x -> unit_or_nan y -> unit_or_nan (f_and approx x y).
Proof.
  intros X Y. unfold f_and. destruct approx; [|exact I]. pose proof (unf_min _ _ (unf_to_f _ X) (unf_to_f _ Y)) as H.
  destruct x, y; auto.
Qed.
Lemma or_unit approx x y : unit_or_nan x -> unit_or_nan y -> unit_or_nan (f_or approx x y).
Proof.
  intros X Y. unfold f_or. destruct approx; [|exact I]. pose proof (unf_max _ _ (unf_to_f _ X) (unf_to_f _ Y)) as H.
  destruct x, y; auto.
Qed.
Lemma not_unit approx x : unit_or_nan x -> unit_or_nan (f_not approx x).
Proof. intro X. unfold f_not. destruct approx; [|exact I]. apply unf_not, unf_to_f. auto. Qed.
Lemma fold_unit (h : f32 -> f32 -> f32) ts : (forall x y, unf x -> unf y -> unf (h x y)) -> Forall unit_or_nan ts ->
  forall m, unf m -> unf (fold_left (fun m u => h m (f_to_f u)) ts m).
Proof. intros H F. induction F as [|t ts T F IH]; intros m M; cbn; auto. apply IH. apply H; auto. apply unf_to_f. auto. Qed.
Lemma all_unit approx t ts : unit_or_nan t -> Forall unit_or_nan ts -> unit_or_nan (f_all approx t ts).
Proof.
  intros T F. unfold f_all. destruct approx; [|exact I]. destruct (forallb _ _); [exact I|].
  apply (fold_unit f_min ts unf_min F). apply unf_to_f. auto.
Qed.
Lemma any_unit approx t ts : unit_or_nan t -> Forall unit_or_nan ts -> unit_or_nan (f_any approx t ts).
Proof.
  intros T F. unfold f_any. destruct approx; [|exact I]. destruct (forallb _ _); [exact I|].
  apply (fold_unit f_max ts unf_max F). apply unf_to_f. auto.
Qed.
Lemma compare_unit approx x y k : unit_function (fk_function k) ->
  unit_or_nan (f_greater approx x y k) /\ unit_or_nan (f_greater_equal approx x y k) /\
  unit_or_nan (f_less approx x y k) /\ unit_or_nan (f_less_equal approx x y k).
Proof. intro U. unfold f_greater, f_greater_equal, f_less, f_less_equal, f_activation. destruct approx; repeat split; cbn; auto; apply U. Qed.
Lemma nan_to_num_unit t : unit_or_nan t -> unit_truth (f_tnan_to_num t).
Proof.
  destruct t as [b|x]; cbn; [auto|]. intros [N|(r & E & H)].
  - apply fval_nan in N. destruct x; try discriminate. exists 0. split; [reflexivity|lra].
  - exists r. split; auto. destruct x as [s|[|]| |s m e B]; try discriminate; exact E.
Qed.
Lemma true_unit approx : unit_or_nan (f_true approx).
Proof. destruct approx; [right; exists 1; split; [apply val_one|lra]|exact I]. Qed.
Lemma false_unit approx : unit_or_nan (f_false approx).
Proof. destruct approx; [right; exists 0; split; [reflexivity|lra]|exact I]. Qed.
