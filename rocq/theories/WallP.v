(** Proofs about walls, RIS, vertices. *)
From Coq Require Import Reals List Bool Lra Psatz ZArith.
From Verif Require Import Base BaseP LogicM SpecLogic LogicP GeometryM SpecGeometry SegP VecP.
Import ListNotations.
Open Scope R_scope.

(** Signed area: which side of the wall a point is on. *)
Definition side (w : wall) (p : vec) : R := cross (wall_t w) (vsub p (origin w)).
Definition len2 (w : wall) : R := dot (wall_t w) (wall_t w).
Definition tvx (w : wall) : R := fst (w_dest w) - fst (w_origin w).
Definition tvy (w : wall) : R := snd (w_dest w) - snd (w_origin w).

Lemma wall_t_eq w : wall_t w = (tvx w, tvy w).
Proof. reflexivity. Qed.
Lemma len2_eq w : len2 w = tvx w * tvx w + tvy w * tvy w.
Proof. reflexivity. Qed.
Lemma proper_t w : proper w <-> wall_t w <> (0, 0).
Proof.
  unfold proper. rewrite wall_t_eq. unfold tvx, tvy. split; intros H E; apply H.
  - inversion E. apply vec_eq; lra.
  - rewrite E. f_equal; ring.
Qed.
Lemma proper_len w : proper w -> 0 < len2 w.
Proof.
  intro H. apply proper_t in H. unfold len2. pose proof (dot_nonneg (wall_t w)).
  destruct (Req_dec (dot (wall_t w) (wall_t w)) 0) as [E|E]; [|lra].
  apply dot_zero in E. contradiction.
Qed.
Lemma improper_t w : ~ proper w -> wall_t w = (0, 0).
Proof.
  intro H. destruct (Req_dec (dot (wall_t w) (wall_t w)) 0) as [E|E]; [apply dot_zero; auto|].
  exfalso. apply H. apply proper_t. intro X. apply E, dot_zero, X.
Qed.
Lemma proper_dec w : proper w \/ ~ proper w.
Proof.
  destruct (Req_dec (len2 w) 0) as [E|E].
  - right. intro H. apply proper_len in H. lra.
  - left. apply proper_t. intro X. apply E. apply dot_zero. auto.
Qed.
Lemma normal_eq w : proper w ->
  0 < norm (wall_t w) /\ norm (wall_t w) * norm (wall_t w) = len2 w /\
  normal w = (tvy w / norm (wall_t w), - tvx w / norm (wall_t w)).
Proof.
  intro H. pose proof (proj1 (proper_t w) H) as N. split; [apply norm_pos; auto|].
  split; [apply norm_sq|]. unfold normal.
  assert (E : norm (snd (wall_t w), - fst (wall_t w)) = norm (wall_t w)).
  { unfold norm, dot. cbn [fst snd]. f_equal. ring. }
  rewrite normalize_nonzero.
  - cbn [fst snd]. rewrite E. reflexivity.
  - intro X. apply N. inversion X. apply vec_eq; cbn; lra.
Qed.
Lemma normal_improper w : ~ proper w -> normal w = (0, 0).
Proof.
  intro H. unfold normal. rewrite improper_t by auto. cbn [fst snd].
  replace (0, - 0) with (0, 0) by (f_equal; ring). rewrite normalize_zero. reflexivity.
Qed.
Lemma normal_unit w : proper w -> dot (normal w) (normal w) = 1.
Proof.
  intro H. destruct (normal_eq w H) as (P & Q & ->). unfold dot. cbn [fst snd].
  rewrite len2_eq in Q.
  replace (tvy w / norm (wall_t w) * (tvy w / norm (wall_t w)) + - tvx w / norm (wall_t w) * (- tvx w / norm (wall_t w)))
    with ((tvx w * tvx w + tvy w * tvy w) / (norm (wall_t w) * norm (wall_t w))) by (field; lra).
  rewrite <- Q. field. lra.
Qed.
Lemma normal_ortho w : dot (normal w) (wall_t w) = 0.
Proof.
  destruct (proper_dec w) as [H|H].
  - destruct (normal_eq w H) as (P & Q & ->). set (n := norm (wall_t w)) in *. rewrite wall_t_eq. unfold dot. cbn [fst snd]. field. lra.
  - rewrite normal_improper by auto. unfold dot. cbn. ring.
Qed.
Lemma dot_normal w v : proper w ->
  dot v (normal w) = (fst v * tvy w - snd v * tvx w) / norm (wall_t w).
Proof.
  intro H. destruct (normal_eq w H) as (P & Q & ->). unfold dot. cbn. field. lra.
Qed.

Lemma image_eq w p : proper w -> image_of w p =
  (fst p + 2 * (side w p / len2 w) * tvy w, snd p - 2 * (side w p / len2 w) * tvx w).
Proof.
  intro H. unfold image_of. rewrite dot_normal by auto. pose proof (proper_len w H) as L.
  destruct (normal_eq w H) as (P & Q & ->). rewrite <- Q.
  set (n := norm (wall_t w)) in *. unfold side, cross. rewrite wall_t_eq. unfold vsub, vscale, origin, tvx, tvy, dest. cbn [fst snd].
  apply vec_eq; cbn; field; lra.
Qed.
Lemma image_improper w p : ~ proper w -> image_of w p = p.
Proof.
  intro H. unfold image_of. rewrite normal_improper by auto. unfold vsub, vscale.
  apply vec_eq; cbn; ring.
Qed.
Lemma side_image w p : proper w -> side w (image_of w p) = - side w p.
Proof.
  intro H. pose proof (proper_len w H) as L. rewrite image_eq by auto.
  set (s := side w p). unfold side, cross. rewrite wall_t_eq. unfold vsub. cbn [fst snd].
  rewrite len2_eq in *.
  replace (tvx w * (snd p - 2 * (s / (tvx w * tvx w + tvy w * tvy w)) * tvx w - snd (origin w)) -
    tvy w * (fst p + 2 * (s / (tvx w * tvx w + tvy w * tvy w)) * tvy w - fst (origin w)))
    with (tvx w * (snd p - snd (origin w)) - tvy w * (fst p - fst (origin w)) - 2 * s) by (field; lra).
  unfold s, side, cross. rewrite wall_t_eq. unfold vsub. cbn. ring.
Qed.
Lemma image_involutive w p : image_of w (image_of w p) = p.
Proof.
  destruct (proper_dec w) as [H|H]; [|rewrite !image_improper; auto].
  rewrite (image_eq w (image_of w p)), side_image by auto. rewrite image_eq by auto.
  pose proof (proper_len w H). apply vec_eq; cbn; field; lra.
Qed.
Lemma side_diff w p q : side w p - side w q = tvx w * (snd p - snd q) - tvy w * (fst p - fst q).
Proof. unfold side, cross. rewrite wall_t_eq. unfold vsub. cbn. ring. Qed.
Lemma image_isometry w p q : dist (image_of w p) (image_of w q) = dist p q.
Proof.
  destruct (proper_dec w) as [H|H]; [|rewrite !image_improper; auto].
  apply dist_eq. rewrite !image_eq by auto. pose proof (proper_len w H) as L. cbn [fst snd].
  set (d := side w p - side w q). 
  replace (fst p + 2 * (side w p / len2 w) * tvy w - (fst q + 2 * (side w q / len2 w) * tvy w))
    with ((fst p - fst q) + 2 * (d / len2 w) * tvy w) by (unfold d; field; lra).
  replace (snd p - 2 * (side w p / len2 w) * tvx w - (snd q - 2 * (side w q / len2 w) * tvx w))
    with ((snd p - snd q) - 2 * (d / len2 w) * tvx w) by (unfold d; field; lra).
  assert (E : d = tvx w * (snd p - snd q) - tvy w * (fst p - fst q)) by apply side_diff.
  set (e := d / len2 w). assert (D : d = e * len2 w) by (unfold e; field; lra).
  rewrite len2_eq in D. rewrite E in D. clearbody e.
  transitivity ((fst p - fst q) ^ 2 + (snd p - snd q) ^ 2 + 4 * e *
    (e * (tvx w * tvx w + tvy w * tvy w) - (tvx w * (snd p - snd q) - tvy w * (fst p - fst q)))); [ring|].
  rewrite D. ring.
Qed.
Lemma on_line_side w p : proper w -> (on_line (w_origin w) (w_dest w) p <-> side w p = 0).
Proof.
  intro H. pose proof (proper_len w H) as L. rewrite len2_eq in L. unfold on_line, at_. split.
  - intros [t ->]. unfold side, cross. rewrite wall_t_eq. unfold vsub, tvx, tvy, origin. cbn. ring.
  - unfold side, cross. rewrite wall_t_eq. unfold vsub, origin. cbn [fst snd]. intro E.
    pose proof (f_equal (Rmult (tvx w)) E) as E1. pose proof (f_equal (Rmult (tvy w)) E) as E2.
    exists ((tvx w * (fst p - fst (w_origin w)) + tvy w * (snd p - snd (w_origin w))) / (tvx w * tvx w + tvy w * tvy w)).
    fold (tvx w) (tvy w).
    apply vec_eq; cbn [fst snd]; apply (Rmult_eq_reg_r (tvx w * tvx w + tvy w * tvy w)); try lra;
      rewrite Rmult_plus_distr_r.
    + replace ((tvx w * (fst p - fst (w_origin w)) + tvy w * (snd p - snd (w_origin w))) /
        (tvx w * tvx w + tvy w * tvy w) * tvx w * (tvx w * tvx w + tvy w * tvy w))
        with ((tvx w * (fst p - fst (w_origin w)) + tvy w * (snd p - snd (w_origin w))) * tvx w) by (field; lra).
      lra.
    + replace ((tvx w * (fst p - fst (w_origin w)) + tvy w * (snd p - snd (w_origin w))) /
        (tvx w * tvx w + tvy w * tvy w) * tvy w * (tvx w * tvx w + tvy w * tvy w))
        with ((tvx w * (fst p - fst (w_origin w)) + tvy w * (snd p - snd (w_origin w))) * tvy w) by (field; lra).
      lra.
Qed.
Lemma image_fixed w p : proper w -> (image_of w p = p <-> on_line (w_origin w) (w_dest w) p).
Proof.
  intro H. rewrite on_line_side by auto. pose proof (proper_len w H) as L.
  rewrite image_eq by auto. set (e := side w p / len2 w).
  assert (D : side w p = e * len2 w) by (unfold e; field; lra). rewrite D. rewrite len2_eq in *. split.
  - intro E. assert (E1 := f_equal fst E). assert (E2 := f_equal snd E). cbn in E1, E2.
    assert (X : e * tvy w = 0) by lra. assert (Y : e * tvx w = 0) by lra.
    transitivity (e * tvx w * tvx w + e * tvy w * tvy w); [ring|rewrite X, Y; ring].
  - intro E. assert (Z : e = 0) by (apply Rmult_integral in E; lra). rewrite Z. apply vec_eq; cbn; ring.
Qed.
Lemma flip_proper w : proper (flip w) <-> proper w.
Proof. unfold proper, flip. cbn. split; intros H E; apply H; auto. Qed.
Lemma image_flip w p : image_of (flip w) p = image_of w p.
Proof.
  destruct (proper_dec w) as [H|H].
  - rewrite !image_eq by (auto; apply flip_proper; auto). pose proof (proper_len w H) as L.
    assert (E : len2 (flip w) = len2 w).
    { rewrite !len2_eq. unfold tvx, tvy, flip. cbn. ring. }
    assert (S : side (flip w) p = - side w p).
    { unfold side, cross. rewrite !wall_t_eq. unfold tvx, tvy, flip, vsub, origin. cbn. ring. }
    rewrite E, S. unfold flip at 1 2, tvx, tvy. cbn [w_origin w_dest].
    apply vec_eq; cbn; field; lra.
  - rewrite !image_improper; auto. rewrite flip_proper. auto.
Qed.
Lemma image_midpoint w p : proper w ->
  on_line (w_origin w) (w_dest w)
    ((fst p + fst (image_of w p)) / 2, (snd p + snd (image_of w p)) / 2) /\
  (fst p - fst (image_of w p)) * (fst (w_dest w) - fst (w_origin w)) +
  (snd p - snd (image_of w p)) * (snd (w_dest w) - snd (w_origin w)) = 0.
Proof.
  intro H. split.
  - apply on_line_side; auto. pose proof (side_image w p H) as S.
    revert S. unfold side, cross. rewrite !wall_t_eq. unfold vsub. cbn [fst snd]. nra.
  - rewrite image_eq by auto. cbn [fst snd]. fold (tvx w) (tvy w). ring.
Qed.
Lemma C19_lemma w : proper w ->
  (forall p, image_of w (image_of w p) = p) /\
  (forall p q, dist (image_of w p) (image_of w q) = dist p q) /\
  (forall p, image_of w p = p <-> on_line (w_origin w) (w_dest w) p) /\
  (forall p, image_of (flip w) p = image_of w p) /\
  (forall p, on_line (w_origin w) (w_dest w)
     ((fst p + fst (image_of w p)) / 2, (snd p + snd (image_of w p)) / 2) /\
   (fst p - fst (image_of w p)) * (fst (w_dest w) - fst (w_origin w)) +
   (snd p - snd (image_of w p)) * (snd (w_dest w) - snd (w_origin w)) = 0) /\
  fst (normal w) ^ 2 + snd (normal w) ^ 2 = 1 /\
  fst (normal w) * (fst (w_dest w) - fst (w_origin w)) +
  snd (normal w) * (snd (w_dest w) - snd (w_origin w)) = 0.
Proof.
  intro H. split; [intro; apply image_involutive|]. split; [intros; apply image_isometry|].
  split; [intro; apply image_fixed; auto|]. split; [intro; apply image_flip|].
  split; [intro; apply image_midpoint; auto|]. split.
  - rewrite <- dot_self. apply normal_unit; auto.
  - apply (normal_ortho w).
Qed.

(** C20 *)
Lemma p2c_at w t : wall_p2c w t = at_ (w_origin w) (w_dest w) t.
Proof. reflexivity. Qed.
Lemma c2p_eq w p : proper w -> wall_c2p w p =
  (tvx w * (fst p - fst (w_origin w)) + tvy w * (snd p - snd (w_origin w))) / len2 w.
Proof.
  intro H. pose proof (proper_len w H) as L. unfold wall_c2p. fold (len2 w).
  destruct (Reqb_spec (len2 w) 0); [lra|]. reflexivity.
Qed.
Lemma c2p_p2c w t : proper w -> wall_c2p w (wall_p2c w t) = t.
Proof.
  intro H. pose proof (proper_len w H) as L. rewrite c2p_eq, p2c_at by auto. unfold at_. cbn [fst snd].
  fold (tvx w) (tvy w). rewrite len2_eq in *. field. lra.
Qed.
Lemma c2p_improper w p : ~ proper w -> wall_c2p w p = 0.
Proof.
  intro H. unfold wall_c2p. rewrite improper_t by auto. unfold dot. cbn.
  rewrite !Rmult_0_l, Rplus_0_l. unfold Rdiv. ring.
Qed.
Lemma pythagoras w p t : proper w ->
  (fst p - fst (wall_p2c w t)) ^ 2 + (snd p - snd (wall_p2c w t)) ^ 2 =
  (fst p - fst (wall_p2c w (wall_c2p w p))) ^ 2 + (snd p - snd (wall_p2c w (wall_c2p w p))) ^ 2
  + (t - wall_c2p w p) ^ 2 * len2 w.
Proof.
  intro H. pose proof (proper_len w H) as L. rewrite (c2p_eq w p H). rewrite !p2c_at. unfold at_. cbn [fst snd].
  fold (tvx w) (tvy w).
  set (c := (tvx w * (fst p - fst (w_origin w)) + tvy w * (snd p - snd (w_origin w))) / len2 w).
  assert (E : tvx w * (fst p - fst (w_origin w)) + tvy w * (snd p - snd (w_origin w)) = c * len2 w)
    by (unfold c; field; lra).
  rewrite len2_eq in *. clearbody c. apply Rminus_diag_uniq.
  match goal with |- ?l = 0 => replace l with (- 2 * (t - c) *
    (tvx w * (fst p - fst (w_origin w)) + tvy w * (snd p - snd (w_origin w)) -
     c * (tvx w * tvx w + tvy w * tvy w))) by ring end.
  rewrite E. ring.
Qed.
Lemma C20_lemma w : proper w ->
  (forall t, wall_c2p w (wall_p2c w t) = t) /\
  (forall p, let q := wall_p2c w (wall_c2p w p) in
     on_line (w_origin w) (w_dest w) q /\
     (forall q', on_line (w_origin w) (w_dest w) q' -> q' <> q -> dist p q < dist p q') /\
     (q = p <-> on_line (w_origin w) (w_dest w) p)).
Proof.
  intro H. pose proof (proper_len w H) as L. split; [intro; apply c2p_p2c; auto|]. intro p. cbn zeta. split; [|split].
  - exists (wall_c2p w p). reflexivity.
  - intros q' [t ->] N. rewrite <- p2c_at in *. apply sq_lt; [apply dist_nonneg|]. rewrite !dist_sq.
    rewrite (pythagoras w p t H).
    assert (0 < (t - wall_c2p w p) ^ 2 * len2 w); [|lra].
    apply Rmult_lt_0_compat; auto. destruct (Req_dec t (wall_c2p w p)) as [E|E]; [rewrite E in N; contradiction|nra].
  - split.
    + intro E. exists (wall_c2p w p). rewrite <- p2c_at. auto.
    + intros [t ->]. rewrite <- p2c_at, c2p_p2c; auto.
Qed.
Lemma p2c_ends w : wall_p2c w 0 = w_origin w /\ wall_p2c w 1 = w_dest w.
Proof. rewrite !p2c_at. unfold at_. split; apply vec_eq; cbn; ring. Qed.

(** C21 *)
Lemma contains_exact g s k : exists b, wall_contains g s (Some false) k = TB b /\ (b = true <-> 0 <= s <= 1).
Proof.
  unfold wall_contains. cbn. eexists; split; [reflexivity|]. rewrite andb_true_iff, !Rleb_true. tauto.
Qed.
Lemma C21_sample g o draw k :
  length (draw (parameters_count o)) = parameters_count o ->
  Forall (fun x => 0 <= x < 1) (draw (parameters_count o)) ->
  on_object o (sample o draw) /\
  obj_contains g o (obj_c2p o (sample o draw)) (Some false) k = TB true.
Proof.
  intros Hl Hd. unfold sample.
  assert (W : forall w x, 0 <= x < 1 ->
    on_segment (w_origin w) (w_dest w) (wall_p2c w x) /\
    wall_contains g (wall_c2p w (wall_p2c w x)) (Some false) k = TB true).
  { intros w x X. split; [exists x; split; [lra|reflexivity]|].
    destruct (contains_exact g (wall_c2p w (wall_p2c w x)) k) as (b & -> & B). f_equal. apply B.
    destruct (proper_dec w) as [H|H]; [rewrite c2p_p2c by auto; lra|rewrite c2p_improper by auto; lra]. }
  destruct o as [w|w phi|v]; cbn [parameters_count] in *.
  - destruct (draw 1%nat) as [|x [|]]; try discriminate. inversion Hd; subst. apply W; auto.
  - destruct (draw 1%nat) as [|x [|]]; try discriminate. inversion Hd; subst. apply W; auto.
  - split; reflexivity.
Qed.

Lemma vsub_zero u v : vsub u v = (0, 0) <-> u = v.
Proof.
  split.
  - intro E. assert (E1 := f_equal fst E). assert (E2 := f_equal snd E). unfold vsub in E1, E2.
    cbn [fst snd] in E1, E2. apply vec_eq; lra.
  - intros ->. unfold vsub. apply vec_eq; cbn; ring.
Qed.
(** C22 *)
Definition mir (w : wall) (d : vec) : vec := vsub d (vscale (2 * dot d (normal w)) (normal w)).
Lemma mir_eq w d : proper w -> mir w d =
  let c := (fst d * tvy w - snd d * tvx w) / len2 w in
  (fst d - 2 * c * tvy w, snd d + 2 * c * tvx w).
Proof.
  intro H. unfold mir. rewrite dot_normal by auto. destruct (normal_eq w H) as (P & Q & ->).
  rewrite <- Q. cbn zeta. unfold vsub, vscale. apply vec_eq; cbn; field; lra.
Qed.
Lemma mir_dot w d e : dot (mir w d) (mir w e) = dot d e.
Proof.
  destruct (proper_dec w) as [H|H].
  - pose proof (normal_unit w H) as U. unfold mir. revert U. generalize (normal w) as n. intros n U.
    assert (X : forall a b, dot (vsub d (vscale a n)) (vsub e (vscale b n)) = dot d e - b * dot d n - a * dot e n + a * b * dot n n).
    { intros. unfold dot, vsub, vscale. cbn. ring. }
    rewrite X, U. ring.
  - unfold mir. rewrite normal_improper by auto. unfold dot, vsub, vscale. cbn. ring.
Qed.
Lemma mir_norm w d : dot (mir w d) (mir w d) = dot d d.
Proof. apply mir_dot. Qed.
Lemma mir_mir w d : mir w (mir w d) = d.
Proof.
  destruct (proper_dec w) as [H|H].
  - pose proof (normal_unit w H) as U. unfold mir. revert U. generalize (normal w) as n. intros n U.
    assert (X : dot (vsub d (vscale (2 * dot d n) n)) n = - dot d n).
    { transitivity (dot d n - 2 * dot d n * dot n n); [unfold dot, vsub, vscale; cbn; ring|rewrite U; ring]. }
    rewrite X. unfold vsub, vscale. apply vec_eq; cbn; ring.
  - unfold mir. rewrite normal_improper by auto. unfold dot, vsub, vscale. apply vec_eq; cbn; ring.
Qed.
Lemma mir_specular w i r : proper w -> (r = mir w i <-> specular w i r).
Proof.
  intro H. pose proof (proper_len w H) as L. rewrite mir_eq by auto. unfold specular. cbn zeta.
  fold (tvx w) (tvy w).
  set (c := (fst i * tvy w - snd i * tvx w) / len2 w).
  assert (E : fst i * tvy w - snd i * tvx w = c * len2 w) by (unfold c; field; lra).
  rewrite len2_eq in *. split.
  - intros ->. cbn [fst snd]. split; [ring|].
    match goal with |- ?l = ?r => replace l with (r - 2 * ((fst i * tvy w - snd i * tvx w) -
      c * (tvx w * tvx w + tvy w * tvy w))) by ring end. rewrite E. ring.
  - intros [A B].
    assert (X : (fst r - fst i + 2 * c * tvy w) * tvx w + (snd r - snd i - 2 * c * tvx w) * tvy w = 0) by lra.
    assert (Y : tvx w * (snd r - snd i - 2 * c * tvx w) - tvy w * (fst r - fst i + 2 * c * tvy w) = 0) by lra.
    clear A B E.
    apply vec_eq; cbn [fst snd].
    + assert (Z : (fst r - fst i + 2 * c * tvy w) * (tvx w * tvx w + tvy w * tvy w) = 0).
      { transitivity (tvx w * 0 - tvy w * 0); [rewrite <- X at 1; rewrite <- Y; ring|ring]. }
      apply Rmult_integral in Z. lra.
    + assert (Z : (snd r - snd i - 2 * c * tvx w) * (tvx w * tvx w + tvy w * tvy w) = 0).
      { transitivity (tvy w * 0 + tvx w * 0); [rewrite <- X at 1; rewrite <- Y; ring|ring]. }
      apply Rmult_integral in Z. lra.
Qed.
Lemma evaluate_eq w a b c : wall_evaluate w a b c =
  let e := vsub (fst (normalize (vsub c b))) (mir w (fst (normalize (vsub b a)))) in dot e e.
Proof. reflexivity. Qed.
Lemma dist2_range u v : dot u u <= 1 -> dot v v <= 1 -> 0 <= dot (vsub u v) (vsub u v) <= 4.
Proof.
  intros U V. split; [apply dot_nonneg|].
  assert (0 <= dot (vadd u v) (vadd u v)) by apply dot_nonneg.
  assert (dot (vsub u v) (vsub u v) + dot (vadd u v) (vadd u v) = 2 * dot u u + 2 * dot v v)
    by (unfold dot, vsub, vadd; cbn; ring). lra.
Qed.
Lemma evaluate_range w a b c : 0 <= wall_evaluate w a b c <= 4.
Proof.
  rewrite evaluate_eq. cbn zeta. apply dist2_range.
  - apply normalize_dot_le.
  - rewrite mir_norm. apply normalize_dot_le.
Qed.
Lemma evaluate_zero w a b c i r : proper w ->
  is_direction (vsub b a) i -> is_direction (vsub c b) r ->
  (wall_evaluate w a b c = 0 <-> specular w i r).
Proof.
  intros H I J. rewrite evaluate_eq. cbn zeta.
  rewrite (direction_normalize _ _ I), (direction_normalize _ _ J).
  rewrite dot_zero, <- (mir_specular w i r H). apply vsub_zero.
Qed.
Lemma vopp_spec w i r : specular w i (vopp r) <-> specular w (vopp i) r.
Proof. unfold specular, vopp. cbn. split; intros [A B]; split; lra. Qed.
Lemma direction_cases a b u : is_direction (vsub b a) u ->
  dot u u = 0 /\ a = b \/ dot u u = 1 /\ a <> b.
Proof.
  intros [[E ->]|[U (l & L & E)]].
  - left. split; [unfold dot; cbn; ring|]. inversion E. apply vec_eq; lra.
  - right. rewrite dot_self. split; auto. intros ->.
    assert (E1 := f_equal fst E). assert (E2 := f_equal snd E). unfold vsub in E1, E2. cbn [fst snd] in E1, E2.
    assert (X : l * fst u = 0) by lra. assert (Y : l * snd u = 0) by lra.
    apply Rmult_integral in X. apply Rmult_integral in Y.
    assert (fst u = 0 /\ snd u = 0) as [U1 U2] by lra. rewrite U1, U2 in U. lra.
Qed.
Lemma evaluate_four w a b c i r : proper w ->
  is_direction (vsub b a) i -> is_direction (vsub c b) r ->
  (wall_evaluate w a b c = 4 <-> (a <> b /\ b <> c /\ specular w i (vopp r))).
Proof.
  intros H I J. rewrite evaluate_eq. cbn zeta.
  rewrite (direction_normalize _ _ I), (direction_normalize _ _ J).
  rewrite <- (mir_specular w i (vopp r) H).
  pose proof (mir_norm w i) as M. set (m := mir w i) in *.
  assert (Z : dot (vsub r m) (vsub r m) + dot (vadd r m) (vadd r m) = 2 * dot r r + 2 * dot m m)
    by (unfold dot, vsub, vadd; cbn; ring).
  pose proof (direction_cases a b i I) as Ri. pose proof (direction_cases b c r J) as Rr.
  assert (P : 0 <= dot (vadd r m) (vadd r m)) by apply dot_nonneg.
  split.
  - intro E. assert (dot (vadd r m) (vadd r m) = 0 /\ dot r r = 1 /\ dot i i = 1) by lra.
    destruct H0 as (A & B & C). split; [destruct Ri as [[]|[]]; auto; lra|].
    split; [destruct Rr as [[]|[]]; auto; lra|].
    apply dot_zero in A. clear - A. apply vec_eq; unfold vopp; cbn [fst snd].
    + assert (X := f_equal fst A). unfold vadd in X. cbn [fst] in X. lra.
    + assert (X := f_equal snd A). unfold vadd in X. cbn [snd] in X. lra.
  - intros (A & B & C). destruct Ri as [[]|[Hi _]]; [contradiction|]. destruct Rr as [[]|[Hr _]]; [contradiction|].
    assert (vadd r m = (0, 0)) as V. { rewrite <- C. unfold vadd, vopp. apply vec_eq; cbn; ring. }
    assert (dot (vadd r m) (vadd r m) = 0) by (apply dot_zero; auto). lra.
Qed.
Lemma mir_opp w d : mir w (vopp d) = vopp (mir w d).
Proof. unfold mir, vopp, vsub, vscale, dot. apply vec_eq; cbn; ring. Qed.
Lemma vsub_opp u v : vsub u v = vopp (vsub v u).
Proof. unfold vsub, vopp. apply vec_eq; cbn; ring. Qed.
Lemma evaluate_reverse w a b c : wall_evaluate w c b a = wall_evaluate w a b c.
Proof.
  rewrite !evaluate_eq. cbn zeta.
  rewrite (vsub_opp a b), (vsub_opp b c), !normalize_opp, mir_opp.
  set (i := fst (normalize (vsub b a))). set (r := fst (normalize (vsub c b))).
  assert (E : forall u v, dot (vsub (vopp u) (vopp (mir w v))) (vsub (vopp u) (vopp (mir w v))) =
    dot u u + dot v v - 2 * dot u (mir w v)).
  { intros. rewrite <- (mir_norm w v). unfold dot, vsub, vopp. cbn. ring. }
  assert (F : forall u v, dot (vsub u (mir w v)) (vsub u (mir w v)) = dot u u + dot v v - 2 * dot u (mir w v)).
  { intros. rewrite <- (mir_norm w v). unfold dot, vsub. cbn. ring. }
  rewrite E, F. rewrite <- (mir_dot w r (mir w i)), mir_mir.
  assert (dot i (mir w r) = dot (mir w r) i) by (unfold dot; ring). lra.
Qed.
Lemma normal_flip w : normal (flip w) = vopp (normal w).
Proof.
  unfold normal. rewrite <- normalize_opp. f_equal. f_equal.
  rewrite !wall_t_eq. unfold tvx, tvy, flip, vopp. cbn. f_equal; ring.
Qed.
Lemma evaluate_flip w a b c : wall_evaluate (flip w) a b c = wall_evaluate w a b c.
Proof.
  rewrite !evaluate_eq. assert (E : forall d, mir (flip w) d = mir w d).
  { intro d. unfold mir. rewrite normal_flip. unfold vsub, vscale, vopp, dot. apply vec_eq; cbn; ring. }
  rewrite E. reflexivity.
Qed.

(** C23 *)
Lemma ris_ignores w phi a a' b c : ris_evaluate w phi a b c = ris_evaluate w phi a' b c.
Proof. reflexivity. Qed.
Lemma ris_unit w b c : proper w -> b <> c ->
  let r := fst (normalize (vsub c b)) in
  cross (vopp r) (normal w) ^ 2 + dot (vopp r) (normal w) ^ 2 = 1.
Proof.
  intros H N. cbn zeta.
  assert (U : dot (fst (normalize (vsub c b))) (fst (normalize (vsub c b))) = 1).
  { apply normalize_unit. intro E. apply N. inversion E. apply vec_eq; lra. }
  pose proof (normal_unit w H) as V. revert U V.
  generalize (fst (normalize (vsub c b))) as r. generalize (normal w) as n. intros n r U V.
  transitivity (dot r r * dot n n); [unfold cross, dot, vopp; cbn; ring|rewrite U, V; ring].
Qed.
Lemma ris_formula w phi a b c th : proper w -> b <> c ->
  let r := fst (normalize (vsub c b)) in
  sin th = cross (vopp r) (normal w) -> cos th = dot (vopp r) (normal w) ->
  ris_evaluate w phi a b c = 2 - 2 * cos (th - phi).
Proof.
  cbn zeta. intros H N S C. unfold ris_evaluate. rewrite <- S, <- C, cos_minus.
  pose proof (sin2_cos2 th) as A. pose proof (sin2_cos2 phi) as B. unfold Rsqr in *. nra.
Qed.
Lemma cos_one x : cos x = 1 <-> exists n : Z, x = 2 * IZR n * PI.
Proof.
  split.
  - intro E. assert (S : sin (x / 2) = 0).
    { assert (X : cos x = 1 - 2 * sin (x / 2) * sin (x / 2)).
      { replace x with (2 * (x / 2)) at 1 by lra. apply cos_2a_sin. }
      nra. }
    apply sin_eq_0_0 in S. destruct S as [n N]. exists n. lra.
  - intros [n ->]. replace (2 * IZR n * PI) with (2 * (IZR n * PI)) by ring.
    rewrite cos_2a_sin.
    assert (S : sin (IZR n * PI) = 0) by (apply sin_eq_0_1; exists n; reflexivity). rewrite S. ring.
Qed.
Lemma ris_angle_exists w b c : proper w -> b <> c ->
  let r := fst (normalize (vsub c b)) in
  exists th, sin th = cross (vopp r) (normal w) /\ cos th = dot (vopp r) (normal w).
Proof.
  intros H N. cbn zeta. pose proof (ris_unit w b c H N) as U. cbn zeta in U. revert U.
  generalize (cross (vopp (fst (normalize (vsub c b)))) (normal w)) as s.
  generalize (dot (vopp (fst (normalize (vsub c b)))) (normal w)) as d. intros d s U.
  assert (D : -1 <= d <= 1) by nra.
  destruct (Rle_dec 0 s) as [P|P].
  - exists (acos d). rewrite sin_acos, cos_acos by lra. split; auto.
    replace (1 - Rsqr d) with (s * s) by (unfold Rsqr; nra). apply sqrt_square; auto.
  - exists (- acos d). rewrite sin_neg, cos_neg, sin_acos, cos_acos by lra. split; auto.
    replace (1 - Rsqr d) with ((- s) * (- s)) by (unfold Rsqr; nra). rewrite sqrt_square by lra. ring.
Qed.
Lemma ris_zero w phi a b c th : proper w -> b <> c ->
  let r := fst (normalize (vsub c b)) in
  sin th = cross (vopp r) (normal w) -> cos th = dot (vopp r) (normal w) ->
  (ris_evaluate w phi a b c = 0 <-> exists n : Z, th = phi + 2 * IZR n * PI).
Proof.
  cbn zeta. intros H N S C. rewrite (ris_formula w phi a b c th H N S C). split.
  - intro E. destruct (proj1 (cos_one (th - phi))) as [n X]; [lra|]. exists n. lra.
  - intros [n ->]. replace (cos (phi + 2 * IZR n * PI - phi)) with 1; [lra|].
    symmetry. apply cos_one. exists n. ring.
Qed.
Lemma ris_range w phi a b c : proper w -> b <> c -> 0 <= ris_evaluate w phi a b c <= 4.
Proof.
  intros H N. destruct (ris_angle_exists w b c H N) as (th & S & C).
  rewrite (ris_formula w phi a b c th H N S C). pose proof (COS_bound (th - phi)). lra.
Qed.
Lemma ris_periodic w phi a b c : ris_evaluate w (phi + 2 * PI) a b c = ris_evaluate w phi a b c.
Proof. unfold ris_evaluate. rewrite sin_plus, cos_plus, sin_2PI, cos_2PI. ring. Qed.
