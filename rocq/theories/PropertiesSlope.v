(** C98: the smoothed validity measures by how much a path meets its requirements, and
    tends to the exact validity when [alpha] grows. *)
From Coq Require Import Reals List Bool ZArith Lra Psatz.
From Verif Require Import Base LogicM SpecLogic GeometryM SpecGeometry OptimizeM PathM SpecPath UtilsM SceneM SpecSlope SlopeP.
Import ListNotations.
Open Scope R_scope.
Local Notation length := List.length.

(** With the default activation and any positive [alpha], the score of a path is at
    least [1/2 + alpha m / 6] exactly when the path meets each requirement by at least
    [m]: loss, position of every interaction on its wall, and clearance to every wall. *)
Theorem C98_hard_score_is_the_margin :
  forall g p objects cand interacting tol patch alpha m,
  0 < alpha -> (length (xys p) <= length cand + 2)%nat -> (length interacting < length (xys p))%nat ->
  -3 < alpha * m <= 3 ->
  exists v, is_valid g p objects cand interacting tol patch (Some true) (mkakw alpha hard_sigmoid) = Ok (TF (Fin v)) /\
    (1 / 2 + alpha * m / 6 <= v <-> satisfied_by m p objects cand interacting tol patch).
Proof. exact hard_score. Qed.
Print Assumptions C98_hard_score_is_the_margin.

(** The same for the sigmoid, for every [m]. *)
Theorem C98_sigmoid_score_is_the_margin :
  forall g p objects cand interacting tol patch alpha m,
  0 < alpha -> (length (xys p) <= length cand + 2)%nat -> (length interacting < length (xys p))%nat ->
  exists v, is_valid g p objects cand interacting tol patch (Some true) (mkakw alpha sigmoid) = Ok (TF (Fin v)) /\
    (1 / (1 + exp (- (alpha * m))) <= v <-> satisfied_by m p objects cand interacting tol patch).
Proof. exact sigmoid_score. Qed.
Print Assumptions C98_sigmoid_score_is_the_margin.

(** A path settled by [m > 0] scores within [1 / (alpha m)] of its exact validity, and
    with the default activation it scores exactly that as soon as [alpha m >= 3]. *)
Theorem C98_settled_paths_score_close_to_exact :
  forall g k k' p objects cand interacting tol patch m v b,
  shipped k -> 0 < ak_alpha k -> 0 < m ->
  (length (xys p) <= length cand + 2)%nat -> (length interacting < length (xys p))%nat ->
  settled_by m p objects cand interacting tol patch ->
  is_valid g p objects cand interacting tol patch (Some true) k = Ok (TF (Fin v)) ->
  is_valid g p objects cand interacting tol patch (Some false) k' = Ok b ->
  exists e, b = TB e /\
    (e = true <-> satisfied_by m p objects cand interacting tol patch) /\
    Rabs (v - (if e then 1 else 0)) <= 1 / (ak_alpha k * m) /\
    (ak_function k = hard_sigmoid -> 3 <= ak_alpha k * m -> v = if e then 1 else 0).
Proof.
  intros g k k' p objects cand inter tol patch m v b H A M L1 L2 S Ev Eb.
  destruct (exact_slope g k k' p objects cand inter tol patch m v b H A M L1 L2 S Ev Eb) as (e & -> & B1 & B2).
  exists e. split; [reflexivity|]. split; [|split; [exact B1|exact B2]]. destruct S as [S|S].
  - pose proof (exact_sat g p objects cand inter tol patch L1 L2 m k' M S) as X.
    assert (e = true) by congruence. tauto.
  - pose proof (exact_unsat g p objects cand inter tol patch L1 L2 m k' M S) as X.
    assert (e = false) by congruence. subst e. split; [discriminate|]. intro Q. exfalso. apply S.
    apply (satisfied_mono m); auto. lra.
Qed.
Print Assumptions C98_settled_paths_score_close_to_exact.

(** A path that meets its requirements with no room at all scores one half whatever
    [alpha]: no slope settles it. *)
Theorem C98_borderline_paths_score_one_half :
  forall g k p objects cand interacting tol patch v,
  shipped k -> 0 < ak_alpha k ->
  (length (xys p) <= length cand + 2)%nat -> (length interacting < length (xys p))%nat ->
  is_valid g p objects cand interacting tol patch (Some true) k = Ok (TF (Fin v)) ->
  satisfied_by 0 p objects cand interacting tol patch ->
  (forall m, 0 < m -> ~ satisfied_by m p objects cand interacting tol patch) ->
  v = 1 / 2.
Proof.
  intros g k p objects cand inter tol patch v H A L1 L2 E.
  exact (borderline_half g k p objects cand inter tol patch v H A L1 L2 E).
Qed.
Print Assumptions C98_borderline_paths_score_one_half.

(** A larger [alpha] never moves a score back: scores of at least one half can only
    grow, the others can only shrink. *)
Theorem C98_larger_alpha_is_sharper :
  forall g k k' p objects cand interacting tol patch v v',
  shipped k -> ak_function k' = ak_function k -> 0 < ak_alpha k <= ak_alpha k' ->
  (length (xys p) <= length cand + 2)%nat -> (length interacting < length (xys p))%nat ->
  is_valid g p objects cand interacting tol patch (Some true) k = Ok (TF (Fin v)) ->
  is_valid g p objects cand interacting tol patch (Some true) k' = Ok (TF (Fin v')) ->
  (1 / 2 <= v -> v <= v') /\ (v < 1 / 2 -> v' <= v).
Proof. exact steeper_is_sharper. Qed.
Print Assumptions C98_larger_alpha_is_sharper.

(** Accumulated values, for any path class, candidates, keys and function: when every
    path is settled by [m], the smoothed total is within [sum |f| / (alpha m)] of the
    exact total, and equal to it with the default activation when [alpha m >= 3]. *)
Theorem C98_accumulated_values_approach_the_exact_ones :
  forall (P : prng) g s cls k k' tol patch m f tx rx (work : list (list Z * option (key_t P))) exact_total,
  shipped k -> 0 < ak_alpha k -> 0 < m ->
  (forall p inter, exists v, f tx rx p inter = Fin v) ->
  Forall (fun ck => forall inter p, get_interacting_objects s (fst ck) = Ok inter ->
    from_tx_objects_rx P cls (snd ck) tx inter rx = Ok p ->
    settled_by m p (objects s) (fst ck) inter tol patch) work ->
  facc P g s cls (mkvalidargs tol patch (Some false) k') f work tx rx = Ok exact_total ->
  exists a b vals,
    facc P g s cls (mkvalidargs tol patch (Some true) k) f work tx rx = Ok (Fin a) /\ exact_total = Fin b /\
    Forall2 (fun ck v => exists inter p, get_interacting_objects s (fst ck) = Ok inter /\
      from_tx_objects_rx P cls (snd ck) tx inter rx = Ok p /\ f tx rx p inter = Fin v) work vals /\
    Rabs (a - b) <= fold_right Rplus 0 (map Rabs vals) / (ak_alpha k * m) /\
    (ak_function k = hard_sigmoid -> 3 <= ak_alpha k * m -> a = b).
Proof. intros P g s cls k k' tol patch m f tx rx work z H A M F. exact (acc_slope P g s cls k k' tol patch m f tx rx H A M F work z). Qed.
Print Assumptions C98_accumulated_values_approach_the_exact_ones.

(** Hence the smoothed total tends to the exact one. *)
Theorem C98_accumulated_values_converge :
  forall (P : prng) g s cls k' tol patch m f tx rx (work : list (list Z * option (key_t P))) exact_total,
  0 < m -> (forall p inter, exists v, f tx rx p inter = Fin v) ->
  Forall (fun ck => forall inter p, get_interacting_objects s (fst ck) = Ok inter ->
    from_tx_objects_rx P cls (snd ck) tx inter rx = Ok p ->
    settled_by m p (objects s) (fst ck) inter tol patch) work ->
  facc P g s cls (mkvalidargs tol patch (Some false) k') f work tx rx = Ok exact_total ->
  forall eps, 0 < eps -> exists alpha0, 0 < alpha0 /\ forall k, shipped k -> alpha0 <= ak_alpha k ->
  exists a b, facc P g s cls (mkvalidargs tol patch (Some true) k) f work tx rx = Ok (Fin a) /\
    exact_total = Fin b /\ Rabs (a - b) <= eps.
Proof. intros P g s cls k' tol patch m f tx rx work z M F W E. exact (acc_converges P g s cls k' tol patch m f tx rx work z M F W E). Qed.
Print Assumptions C98_accumulated_values_converge.

(** ** Concrete cases *)

(** A reflection on a floor under a ceiling meets its requirements by a tenth ... *)
Definition floor_ := OWall (mkwall (0, 0) (4, 0)).
Definition ceiling := OWall (mkwall (0, 3) (4, 3)).
Definition bounce := mkpath [(1, 1); (2, 0); (3, 1)] (Fin 0).
Lemma two_segments (pts : list vec) a b c i A B : pts = [a; b; c] -> segment_at pts i A B ->
  (i = 0%nat /\ A = a /\ B = b) \/ (i = 1%nat /\ A = b /\ B = c).
Proof.
  intros -> [X Y]. destruct i as [|[|[|i]]]; cbn in X, Y.
  - left. repeat split; congruence.
  - right. repeat split; congruence.
  - discriminate.
  - destruct i; discriminate.
Qed.
Lemma bounce_satisfied : satisfied_by (1 / 10) bounce [floor_; ceiling] [0%Z] [floor_] (1 / 10) 0.
Proof.
  split; [cbn; lra|]. split.
  - intros i o w q O W Q. destruct i as [|[|i]]; cbn in O; try discriminate. injection O as <-. cbn in W. injection W as <-.
    cbn in Q. injection Q as <-. split.
    + intros _ E. cbn in E. assert (0 = 4) by congruence. lra.
    + exists (1 / 2). split; [lra|]. unfold projects_at, at_. cbn. lra.
  - intros i j A B o w Sg O W T. destruct j as [|[|j]]; cbn in O; try (destruct j; discriminate).
    + (* the floor is touched by both segments *)
      exfalso. apply T. destruct (two_segments _ (1, 1) (2, 0) (3, 1) i A B eq_refl Sg) as [[-> _]|[-> _]]; [left; reflexivity|].
      right. exists 0%nat. split; reflexivity.
    + injection O as <-. cbn in W. injection W as <-. right.
      destruct (two_segments _ (1, 1) (2, 0) (3, 1) i A B eq_refl Sg) as [(-> & -> & ->)|(-> & -> & ->)];
        intros s t Me; unfold meet_at, at_ in Me; cbn in Me; injection Me as E1 E2; lra.
Qed.
Example C98_bounce_is_settled : settled_by (1 / 10) bounce [floor_; ceiling] [0%Z] [floor_] (1 / 10) 0.
Proof. left. exact bounce_satisfied. Qed.
(** ... so the default activation gives 1 from [alpha = 30] on. *)
Example C98_bounce_scores_one : forall g alpha, 30 <= alpha ->
  is_valid g bounce [floor_; ceiling] [0%Z] [floor_] (1 / 10) 0 (Some true) (mkakw alpha hard_sigmoid) = Ok (TF (Fin 1)).
Proof.
  intros g alpha L. assert (H : shipped (mkakw alpha hard_sigmoid)) by (right; reflexivity).
  destruct (shape_valid g bounce [floor_; ceiling] [0%Z] [floor_] (1 / 10) 0 _ H ltac:(cbn; repeat constructor)) as (v & E & V).
  pose proof (sat_ge g _ bounce [floor_; ceiling] [0%Z] [floor_] (1 / 10) 0 v H ltac:(cbn; lra) ltac:(cbn; repeat constructor)
    ltac:(cbn; repeat constructor) E (1 / 10) bounce_satisfied) as G.
  destruct (act_neg_bound (mkakw alpha hard_sigmoid) (1 / 10) H ltac:(cbn; lra)) as [_ N]. cbn [ak_alpha ak_function] in N.
  specialize (N eq_refl ltac:(lra)). rewrite (SegP.act_opp _ _ H) in N. unfold fl in E. rewrite E. do 3 f_equal. lra.
Qed.
(** A path blocked in its middle by a wall misses its requirements by more than a tenth. *)
Definition screen := OWall (mkwall (1, -1) (1, 1)).
Example C98_blocked_is_settled :
  settled_by (1 / 10) (mkpath [(0, 0); (2, 0)] (Fin 0)) [screen] [] [] (1 / 10) 0.
Proof.
  right. intros (_ & _ & C). destruct (C 0%nat 0%nat (0, 0) (2, 0) screen (mkwall (1, -1) (1, 1))) as [X|X]; auto.
  - split; reflexivity.
  - intros [T|(i & T & _)]; discriminate.
  - unfold parallel, at_ in X. cbn in X. lra.
  - specialize (X (1 / 2) (1 / 2)). cut (meet_at (at_ (1, -1) (1, 1) (- 0)) (at_ (1, -1) (1, 1) (1 + 0)) (0, 0) (2, 0) (1 / 2) (1 / 2)).
    + intro Me. specialize (X Me). lra.
    + unfold meet_at, at_. cbn. f_equal; field.
Qed.
(** A direct path whose loss equals the tolerance is borderline. *)
Example C98_borderline_exists :
  satisfied_by 0 (mkpath [(0, 0); (2, 0)] (Fin (1 / 100))) [] [] [] (1 / 100) 0 /\
  forall m, 0 < m -> ~ satisfied_by m (mkpath [(0, 0); (2, 0)] (Fin (1 / 100))) [] [] [] (1 / 100) 0.
Proof.
  split.
  - split; [cbn; lra|]. split; [intros [|i] o w q O; discriminate|]. intros i [|j] A B o w _ O; discriminate.
  - intros m M (L & _). cbn in L. lra.
Qed.
(** The accumulated value behind the screen: the hypotheses hold for the direct path. *)
Example C98_scene_is_settled : forall (P : prng) (s : scene), objects s = [screen] ->
  Forall (fun ck => forall inter p, get_interacting_objects s (fst ck) = Ok inter ->
    from_tx_objects_rx P ClsImage (snd ck) (0, 0) inter (2, 0) = Ok p ->
    settled_by (1 / 10) p (objects s) (fst ck) inter (1 / 10) 0) [(@nil Z, @None (key_t P))].
Proof.
  intros P s O. constructor; [|constructor]. intros inter p I E. cbn [fst snd] in *.
  apply interacting_len in I. destruct inter; [|discriminate]. cbn in E. injection E as <-. rewrite O.
  exact C98_blocked_is_settled.
Qed.
