(** Elementary facts about vectors, norms and distances. *)
From Coq Require Import Reals List Bool Lra Psatz.
From Verif Require Import Base BaseP LogicM GeometryM SpecGeometry.
Import ListNotations.
Open Scope R_scope.

Ltac vsimp := unfold vadd, vsub, vscale, vopp, dot, cross, at_ in *; cbn [fst snd] in *.
Lemma vec_eq (u v : vec) : fst u = fst v -> snd u = snd v -> u = v.
Proof. destruct u, v; cbn; intros -> ->; reflexivity. Qed.
Lemma vec_neq (u v : vec) : u <> v <-> fst u <> fst v \/ snd u <> snd v.
Proof.
  split.
  - intro H. destruct (Req_dec (fst u) (fst v)); auto. destruct (Req_dec (snd u) (snd v)); auto.
    exfalso. apply H. apply vec_eq; auto.
  - intros [H|H] ->; apply H; reflexivity.
Qed.

Lemma dot_self u : dot u u = fst u ^ 2 + snd u ^ 2.
Proof. unfold dot. ring. Qed.
Lemma dot_nonneg u : 0 <= dot u u.
Proof. unfold dot. nra. Qed.
Lemma dot_zero u : dot u u = 0 <-> u = (0, 0).
Proof.
  split.
  - unfold dot. intro H. apply vec_eq; cbn; nra.
  - intros ->. unfold dot. cbn. ring.
Qed.
Lemma norm_nonneg u : 0 <= norm u.
Proof. apply sqrt_pos. Qed.
Lemma norm_sq u : norm u * norm u = dot u u.
Proof. apply sqrt_sqrt, dot_nonneg. Qed.
Lemma norm_zero u : norm u = 0 <-> u = (0, 0).
Proof.
  rewrite <- dot_zero. split.
  - intro H. rewrite <- norm_sq, H. ring.
  - intro H. unfold norm. rewrite H. apply sqrt_0.
Qed.
Lemma norm_pos u : u <> (0, 0) -> 0 < norm u.
Proof. intro H. pose proof (norm_nonneg u). destruct (Req_dec (norm u) 0) as [E|E]; [|lra].
  apply norm_zero in E. contradiction. Qed.
Lemma dist_norm p q : dist p q = norm (vsub p q).
Proof. unfold dist, norm, dot, vsub. cbn. f_equal. ring. Qed.
Lemma dist_sq p q : dist p q * dist p q = (fst p - fst q) ^ 2 + (snd p - snd q) ^ 2.
Proof. rewrite dist_norm, norm_sq. unfold dot, vsub. cbn. ring. Qed.
Lemma dist_nonneg p q : 0 <= dist p q.
Proof. apply sqrt_pos. Qed.
Lemma dist_sym p q : dist p q = dist q p.
Proof. unfold dist. f_equal. ring. Qed.
Lemma dist_zero p q : dist p q = 0 <-> p = q.
Proof.
  rewrite dist_norm, norm_zero. split.
  - intro H. inversion H. apply vec_eq; lra.
  - intros ->. unfold vsub. f_equal; ring.
Qed.
Lemma dist_refl p : dist p p = 0.
Proof. apply dist_zero. reflexivity. Qed.
Lemma sq_le x y : 0 <= y -> x * x <= y * y -> x <= y.
Proof. intros. nra. Qed.
Lemma sq_eq x y : 0 <= x -> 0 <= y -> x * x = y * y -> x = y.
Proof. intros. nra. Qed.
Lemma sq_lt x y : 0 <= y -> x * x < y * y -> x < y.
Proof. intros. nra. Qed.
Lemma dist_le p q r s : (fst p - fst q) ^ 2 + (snd p - snd q) ^ 2 <= (fst r - fst s) ^ 2 + (snd r - snd s) ^ 2 ->
  dist p q <= dist r s.
Proof. intro H. apply sqrt_le_1_alt. exact H. Qed.
Lemma dist_eq p q r s : (fst p - fst q) ^ 2 + (snd p - snd q) ^ 2 = (fst r - fst s) ^ 2 + (snd r - snd s) ^ 2 ->
  dist p q = dist r s.
Proof. intro H. unfold dist. rewrite H. reflexivity. Qed.

Lemma cauchy u v : dot u v <= norm u * norm v.
Proof.
  apply sq_le; [apply Rmult_le_pos; apply norm_nonneg|].
  replace (norm u * norm v * (norm u * norm v)) with ((norm u * norm u) * (norm v * norm v)) by ring.
  rewrite !norm_sq. unfold dot.
  pose proof (pow2_ge_0 (fst u * snd v - snd u * fst v)). nra.
Qed.
Lemma norm_triangle u v : norm (vadd u v) <= norm u + norm v.
Proof.
  pose proof (norm_nonneg u). pose proof (norm_nonneg v). pose proof (cauchy u v).
  apply sq_le; [lra|]. rewrite norm_sq.
  replace ((norm u + norm v) * (norm u + norm v))
    with (norm u * norm u + norm v * norm v + 2 * (norm u * norm v)) by ring.
  rewrite !norm_sq. revert H1. unfold dot, vadd. cbn. nra.
Qed.
Lemma dist_triangle p q r : dist p r <= dist p q + dist q r.
Proof.
  rewrite !dist_norm. replace (vsub p r) with (vadd (vsub p q) (vsub q r)).
  - apply norm_triangle.
  - unfold vadd, vsub. cbn. f_equal; ring.
Qed.
Lemma norm_opp u : norm (vopp u) = norm u.
Proof. unfold norm, dot, vopp. cbn. f_equal. ring. Qed.
Lemma norm_scale k u : 0 <= k -> norm (vscale k u) = k * norm u.
Proof.
  intro H. apply sq_eq; [apply norm_nonneg|apply Rmult_le_pos; [auto|apply norm_nonneg]|].
  replace (k * norm u * (k * norm u)) with (k * k * (norm u * norm u)) by ring.
  rewrite !norm_sq. unfold dot, vscale. cbn. ring.
Qed.

(** [normalize]. *)
Lemma normalize_zero : normalize (0, 0) = ((0, 0), 1).
Proof.
  unfold normalize. assert (norm (0, 0) = 0) as -> by (apply norm_zero; reflexivity).
  destruct (Reqb_spec 0 0); [|lra]. cbn. f_equal. f_equal; field.
Qed.
Lemma normalize_nonzero v : v <> (0, 0) ->
  normalize v = ((fst v / norm v, snd v / norm v), norm v).
Proof.
  intro H. pose proof (norm_pos v H). unfold normalize.
  destruct (Reqb_spec (norm v) 0); [lra|]. reflexivity.
Qed.
Lemma normalize_unit v : v <> (0, 0) -> dot (fst (normalize v)) (fst (normalize v)) = 1.
Proof.
  intro H. rewrite normalize_nonzero by auto. pose proof (norm_pos v H) as P. cbn [fst snd].
  unfold dot. cbn [fst snd].
  replace (fst v / norm v * (fst v / norm v) + snd v / norm v * (snd v / norm v))
    with ((fst v * fst v + snd v * snd v) / (norm v * norm v)) by (field; lra).
  rewrite norm_sq. unfold dot. field.
  assert (X : fst v * fst v + snd v * snd v = norm v * norm v) by (rewrite norm_sq; reflexivity).
  rewrite X. nra.
Qed.
Lemma normalize_dot_le v : 0 <= dot (fst (normalize v)) (fst (normalize v)) <= 1.
Proof.
  split; [apply dot_nonneg|]. destruct (Req_dec (norm v) 0) as [E|E].
  - apply norm_zero in E. subst v. rewrite normalize_zero. unfold dot. cbn. lra.
  - right. apply normalize_unit. intro. apply E, norm_zero. auto.
Qed.
Lemma normalize_direction v : is_direction v (fst (normalize v)).
Proof.
  destruct (Req_dec (norm v) 0) as [E|E].
  - apply norm_zero in E. subst. rewrite normalize_zero. left. auto.
  - assert (N : v <> (0, 0)) by (intro; apply E, norm_zero; auto).
    right. rewrite <- dot_self. split; [apply normalize_unit; auto|].
    exists (norm v). split; [apply norm_pos; auto|]. rewrite normalize_nonzero by auto.
    cbn. apply vec_eq; cbn; field; auto.
Qed.
Lemma direction_unique v u u' : is_direction v u -> is_direction v u' -> u = u'.
Proof.
  intros [[-> ->]|[U (l & L & ->)]] [[E ->]|[U' (l' & L' & E)]]; auto.
  - inversion E. exfalso. nra.
  - inversion E. exfalso. nra.
  - inversion E as [[E1 E2]].
    assert (l = l').
    { assert (l * l = l' * l').
      { replace (l * l) with (l * l * (fst u ^ 2 + snd u ^ 2)) by (rewrite U; ring).
        replace (l' * l') with (l' * l' * (fst u' ^ 2 + snd u' ^ 2)) by (rewrite U'; ring).
        replace (l * l * (fst u ^ 2 + snd u ^ 2)) with ((l * fst u) ^ 2 + (l * snd u) ^ 2) by ring.
        rewrite E1, E2. ring. }
      apply sq_eq; lra. }
    subst l'. apply vec_eq; nra.
Qed.
Lemma direction_normalize v u : is_direction v u -> fst (normalize v) = u.
Proof. intro H. eapply direction_unique; [apply normalize_direction|exact H]. Qed.
Lemma normalize_opp v : fst (normalize (vopp v)) = vopp (fst (normalize v)).
Proof.
  apply direction_normalize. destruct (normalize_direction v) as [[-> ->]|[U (l & L & E)]].
  - left. unfold vopp. cbn. split; f_equal; ring.
  - right. set (u := fst (normalize v)) in *. split; [rewrite <- U; unfold vopp; cbn; ring|].
    exists l. split; auto. rewrite E. unfold vopp. cbn. f_equal; ring.
Qed.
Lemma C17_lemma v :
  (v <> (0, 0) -> let '(u, l) := normalize v in
     dist u (0, 0) = 1 /\ 0 < l /\ l = dist v (0, 0) /\ vscale l u = v) /\
  (v = (0, 0) -> normalize v = ((0, 0), 1)).
Proof.
  split.
  - intro H. pose proof (normalize_unit v H) as U. pose proof (norm_pos v H) as P.
    rewrite normalize_nonzero in * by auto. cbn [fst] in U. repeat split; auto.
    + apply sq_eq; [apply dist_nonneg|lra|]. rewrite dist_sq. cbn [fst snd]. rewrite !Rminus_0_r.
      rewrite dot_self in U. cbn [fst snd] in U. lra.
    + rewrite dist_norm. f_equal. unfold vsub. apply vec_eq; cbn; ring.
    + unfold vscale. apply vec_eq; cbn; field; lra.
  - intros ->. apply normalize_zero.
Qed.
