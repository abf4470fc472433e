(** The smoothed validity measures by how much a path meets its requirements. *)
From Coq Require Import Reals List Bool ZArith Arith Lia Lra Psatz.
From Verif Require Import Base BaseP LogicM SpecLogic LogicP GeometryM SpecGeometry OptimizeM PathM SpecPath SegP VecP WallP ShapeP PathP PathShapeP PathSmoothP UtilsM SceneM SpecSlope.
Import ListNotations.
Open Scope R_scope.
Local Notation length := List.length.

Lemma satisfied_mono m m' p objects cand inter tol patch : m' <= m ->
  satisfied_by m p objects cand inter tol patch -> satisfied_by m' p objects cand inter tol patch.
Proof.
  intros L (A & B & C). split; [|split].
  - unfold loss_below_by in *. destruct (loss p); auto. lra.
  - intros i o w q H1 H2 H3. destruct (B i o w q H1 H2 H3) as (X & t & T & Y). split; [intros; apply X; lra|].
    exists t. split; [lra|auto].
  - intros i j U V o w H1 H2 H3 H4. destruct (C i j U V o w H1 H2 H3 H4) as [X|X]; [left; auto|right].
    intros s t M. specialize (X s t M). lra.
Qed.

(** The wall-end rewriting used by the intersection test. *)
Lemma ends_eq w patch : vsub (origin w) (vscale patch (wall_t w)) = at_ (w_origin w) (w_dest w) (- patch) /\
  vadd (dest w) (vscale patch (wall_t w)) = at_ (w_origin w) (w_dest w) (1 + patch).
Proof. split; apply vec_eq; cbn; unfold origin, dest; ring. Qed.

Section Slope.
  Variables (g : bool) (k : akw) (m : R).
  Hypotheses (Hs : shipped k) (Ha : 0 < ak_alpha k).
  (** [act k m] separates the arguments at least [m] from the others. *)
  Hypothesis Thr : forall x, act k m <= act k x <-> m <= x.
  Hypothesis Pos : 0 < act k m.

  Lemma thr_opp x : 1 - act k m < act k x <-> - m < x.
  Proof.
    pose proof (act_opp k x Hs) as E. pose proof (Thr (- x)) as H. rewrite E in H. split; intro L.
    - apply Rnot_le_lt. intro C. assert (m <= - x) by lra. apply H in H0. lra.
    - apply Rnot_le_lt. intro C. assert (act k m <= 1 - act k x) by lra. apply H in H0. lra.
  Qed.
  Lemma smin4_thr s t tol : act k m <= 1 - smin4 k s t tol <->
    s + (tol + m) <= 0 \/ 1 + tol + m <= s \/ t + (tol + m) <= 0 \/ 1 + tol + m <= t.
  Proof.
    unfold smin4.
    pose proof (thr_opp (s + tol)). pose proof (thr_opp (1 + tol - s)).
    pose proof (thr_opp (t + tol)). pose proof (thr_opp (1 + tol - t)).
    set (a := act k (s + tol)) in *. set (b := act k (1 + tol - s)) in *.
    set (c := act k (t + tol)) in *. set (d := act k (1 + tol - t)) in *. set (z := act k m) in *.
    assert (Q : z <= 1 - Rmin (Rmin a b) (Rmin c d) <-> ~ (1 - z < a /\ 1 - z < b /\ 1 - z < c /\ 1 - z < d)).
    { split.
      - intros L X. revert L. repeat mmcase; lra.
      - intro X. apply Rnot_lt_le. intro C. apply X. revert C. repeat mmcase; lra. }
    rewrite Q, H, H0, H1, H2. split; [|lra]. intro X.
    destruct (Rle_dec (s + (tol + m)) 0); auto. destruct (Rle_dec (1 + tol + m) s); auto.
    destruct (Rle_dec (t + (tol + m)) 0); auto. destruct (Rle_dec (1 + tol + m) t); auto.
    exfalso. apply X. lra.
  Qed.
  Lemma wall_slope w A B patch : exists r, wall_intersects g w A B patch (Some true) k = fl r /\
    (act k m <= 1 - r <-> misses_by m w patch A B).
  Proof.
    unfold wall_intersects, misses_by. destruct (ends_eq w patch) as [-> ->]. cbv zeta.
    set (P := at_ _ _ (- patch)). set (Q := at_ _ _ (1 + patch)).
    destruct (Req_dec (seg_d P Q A B) 0) as [D|D].
    - exists 0. destruct (C13_lemma g P Q A B SEG_TOL k) as [_ E]; [apply parallel_d; auto|].
      rewrite E by (auto; lra). split; auto. pose proof (act_range k m Hs). split; [|lra].
      intros _. left. apply parallel_d; auto.
    - rewrite seg_approx by auto. eexists. split; [reflexivity|]. rewrite smin4_thr. unfold SEG_TOL. split.
      + intro H. right. intros s t M. destruct (meet_unique _ _ _ _ _ _ D M) as [-> ->]. exact H.
      + intros [N|H]; [apply parallel_d in N; contradiction|]. apply H. apply meet_exists. auto.
  Qed.
  Lemma obj_slope o A B patch : exists r, obj_intersects g o A B patch (Some true) k = fl r /\
    (act k m <= 1 - r <-> forall w, wall_of o = Some w -> misses_by m w patch A B).
  Proof.
    destruct o as [w|w phi|v]; cbn [obj_intersects wall_of].
    - destruct (wall_slope w A B patch) as (r & E & H). exists r. split; auto. rewrite H.
      split; [intros X w' Y; inversion Y; subst; auto|auto].
    - destruct (wall_slope w A B patch) as (r & E & H). exists r. split; auto. rewrite H.
      split; [intros X w' Y; inversion Y; subst; auto|auto].
    - exists 0. split; [reflexivity|]. pose proof (act_range k m Hs). split; [discriminate|lra].
  Qed.
  Lemma or_fold_slope c ts : (forall t, In t ts -> exists r, t = fl r) -> forall a,
    exists v, fold_left (fun x y => logical_or g x y (Some true)) ts (fl a) = fl v /\
    (c <= 1 - v <-> c <= 1 - a /\ forall r, In (fl r) ts -> c <= 1 - r).
  Proof.
    induction ts as [|t ts IH]; intros H a; cbn [fold_left In].
    - exists a. intuition.
    - destruct (H t (or_introl eq_refl)) as [d ->].
      change (logical_or g (fl a) (fl d) (Some true)) with (fl (Rmax a d)).
      destruct (IH (fun t T => H t (or_intror T)) (Rmax a d)) as (v & E & Q). exists v. split; auto.
      rewrite Q. split.
      + intros [X Y]. assert (c <= 1 - a /\ c <= 1 - d) by (revert X; mmcase; lra). split; [tauto|].
        intros r [Z|Z]; [inversion Z; subst; tauto|auto].
      + intros [X Y]. split; [|intros; auto]. specialize (Y d (or_introl eq_refl)). mmcase; lra.
  Qed.
  Lemma and_fold_slope c ts : (forall t, In t ts -> exists r, t = fl r) -> forall a,
    exists v, fold_left (fun x y => logical_and g x y (Some true)) ts (fl a) = fl v /\
    (c <= v <-> c <= a /\ forall r, In (fl r) ts -> c <= r).
  Proof.
    induction ts as [|t ts IH]; intros H a; cbn [fold_left In].
    - exists a. intuition.
    - destruct (H t (or_introl eq_refl)) as [d ->].
      change (logical_and g (fl a) (fl d) (Some true)) with (fl (Rmin a d)).
      destruct (IH (fun t T => H t (or_intror T)) (Rmin a d)) as (v & E & Q). exists v. split; auto.
      rewrite Q. split.
      + intros [X Y]. assert (c <= a /\ c <= d) by (revert X; mmcase; lra). split; [tauto|].
        intros r [Z|Z]; [inversion Z; subst; tauto|auto].
      + intros [X Y]. split; [|intros; auto]. specialize (Y d (or_introl eq_refl)). mmcase; lra.
  Qed.
  Lemma inter_slope p objects cand patch : (length (xys p) <= length cand + 2)%nat ->
    exists v, intersects_with_objects g p objects cand patch (Some true) k = Ok (fl v) /\
    (act k m <= 1 - v <-> forall i j A B o w, segment_at (xys p) i A B -> nth_error objects j = Some o ->
       wall_of o = Some w -> ~ touches cand i j -> misses_by m w patch A B).
  Proof.
    intro L. rewrite inter_ok by auto.
    destruct (or_fold_slope (act k m) (inter_tests g (xys p) objects cand patch (Some true) k)) with (a := 0) as (v & E & H).
    { intros t T. apply in_inter_tests in T; auto. destruct T as (i & j & A & B & o & _ & _ & _ & ->).
      destruct (obj_slope o A B patch) as (r & E & _). eauto. }
    exists v. split; [rewrite <- E; reflexivity|]. rewrite H. split.
    - intros [_ Q] i j A B o w S O W T.
      destruct (obj_slope o A B patch) as (r & Er & R). apply R; auto. apply Q. rewrite <- Er.
      apply in_inter_tests; auto. exists i, j, A, B, o. auto.
    - intro N. pose proof (act_range k m Hs). split; [lra|]. intros r T. apply in_inter_tests in T; auto.
      destruct T as (i & j & A & B & o & S & O & T & Er).
      destruct (obj_slope o A B patch) as (r' & Er' & R). rewrite Er' in Er. inversion Er; subst r'.
      apply R. intros w W. eapply N; eauto.
  Qed.
  Lemma contains_slope s : exists r, wall_contains g s (Some true) k = fl r /\ (act k m <= r <-> m <= s <= 1 - m).
  Proof.
    unfold wall_contains, greater_equal, less_equal. cbn [resolve xsub xadd xopp].
    rewrite !act_eq by auto. unfold logical_and. cbn [resolve]. cbn [to_f xmin]. eexists. split; [reflexivity|].
    pose proof (Thr (s + - 0)) as X. pose proof (Thr (1 + - s)) as Y.
    set (u := act k (s + - 0)) in *. set (v := act k (1 + - s)) in *. split.
    - intro H. assert (act k m <= u /\ act k m <= v) as [Z1 Z2] by (revert H; mmcase; lra). apply X in Z1. apply Y in Z2. lra.
    - intro H. assert (act k m <= u) by (apply X; lra). assert (act k m <= v) by (apply Y; lra). mmcase; lra.
  Qed.
  Lemma c2p_by w q : (m <= wall_c2p w q <= 1 - m) <->
    ((0 < m -> proper w) /\ exists t, m <= t <= 1 - m /\ projects_at w q t).
  Proof.
    destruct (proper_dec w) as [P|P].
    - split.
      + intro H. split; auto. exists (wall_c2p w q). split; auto. apply c2p_projects; auto.
      + intros (_ & t & T & H). apply c2p_projects in H; auto. subst. auto.
    - rewrite c2p_improper by auto. split.
      + intro H. split; [lra|]. exists 0. split; [lra|].
        assert (E : w_origin w = w_dest w) by (destruct w as [o d]; unfold proper in P; cbn in *;
          destruct o as [a b], d as [c e]; destruct (Req_dec a c), (Req_dec b e); subst; auto; exfalso; apply P; congruence).
        unfold projects_at. rewrite E. ring.
      + intros (H & _). assert (~ 0 < m) by tauto. lra.
  Qed.
  Lemma obj_contains_slope o q : exists r, obj_contains g o (obj_c2p o q) (Some true) k = fl r /\
    (act k m <= r <-> forall w, wall_of o = Some w -> (0 < m -> proper w) /\ exists t, m <= t <= 1 - m /\ projects_at w q t).
  Proof.
    destruct o as [w|w phi|v]; cbn [obj_contains obj_c2p wall_of nth].
    - destruct (contains_slope (wall_c2p w q)) as (r & E & H). exists r. split; auto. rewrite H, c2p_by.
      split; [intros X w' Y; inversion Y; subst; auto|auto].
    - destruct (contains_slope (wall_c2p w q)) as (r & E & H). exists r. split; auto. rewrite H, c2p_by.
      split; [intros X w' Y; inversion Y; subst; auto|auto].
    - exists 1. split; [reflexivity|]. pose proof (act_range k m Hs). split; [discriminate|lra].
  Qed.
  Lemma on_slope p os : (length os < length (xys p))%nat ->
    exists r, on_objects g p os (Some true) k = fl r /\ (act k m <= r <-> inside_by m (xys p) os).
  Proof.
    intro L. rewrite on_objects_fold.
    destruct (and_fold_slope (act k m) (on_tests g (xys p) os (Some true) k)) with (a := 1) as (v & E & H).
    { intros t T. apply in_on_tests in T; auto. destruct T as (i & o & q & _ & _ & ->).
      destruct (obj_contains_slope o q) as (r & E & _). eauto. }
    exists v. split; [rewrite <- E; reflexivity|]. rewrite H. unfold inside_by. split.
    - intros [_ N] i o w q O W Q. destruct (obj_contains_slope o q) as (r & Er & Hr).
      apply Hr; auto. apply N. rewrite <- Er. apply in_on_tests; auto. exists i, o, q. auto.
    - intro X. pose proof (act_range k m Hs). split; [lra|]. intros r T. apply in_on_tests in T; auto. destruct T as (i & o & q & O & Q & N).
      destruct (obj_contains_slope o q) as (r' & Er & Hr). rewrite Er in N. inversion N; subst r'.
      apply Hr. intros w W. eapply X; eauto.
  Qed.
  Lemma less_slope l tol :
    (activation (xsub (Fin tol) l) k = NaN /\ ~ loss_below_by m l tol) \/
    exists r, activation (xsub (Fin tol) l) k = Fin r /\ (act k m <= r <-> loss_below_by m l tol).
  Proof.
    destruct l as [l| | |]; cbn [xsub xopp xadd loss_below_by].
    - right. rewrite act_eq by auto. eexists. split; [reflexivity|]. rewrite Thr. lra.
    - right. rewrite activation_ninf by auto. exists 0. split; auto. split; [lra|tauto].
    - right. rewrite activation_pinf by auto. exists 1. split; auto. pose proof (act_range k m Hs). split; [auto|intros; lra].
    - left. split; auto. destruct Hs as [E|E]; unfold activation; rewrite E; reflexivity.
  Qed.
  Lemma slope_lemma p objects cand interacting tol patch v :
    (length (xys p) <= length cand + 2)%nat -> (length interacting < length (xys p))%nat ->
    is_valid g p objects cand interacting tol patch (Some true) k = Ok (fl v) ->
    (act k m <= v <-> satisfied_by m p objects cand interacting tol patch).
  Proof.
    intros L1 L2 E. destruct (inter_slope p objects cand patch L1) as (i & Ei & Hi).
    destruct (on_slope p interacting L2) as (o & Eo & Ho).
    rewrite (valid_smooth_eq _ _ _ _ _ _ _ _ (fl i) Hs Ei) in E. rewrite Eo in E.
    unfold satisfied_by. rewrite <- Ho, <- Hi. clear Ho Hi.
    destruct (less_slope (loss p) tol) as [[Ex N]|(r & Ex & Hr)]; rewrite Ex in E;
      unfold logical_not in E; cbn [resolve to_f fl xsub xadd xopp xmin xnan_to_num] in E.
    - assert (v = 0) by (unfold fl in E; congruence). subst v. split; [lra|tauto].
    - assert (v = Rmin (Rmin o (1 + - i)) r) by (unfold fl in E; congruence). subst v. rewrite <- Hr. clear.
      split.
      + intro H. revert H. repeat mmcase; lra.
      + intros (A & B & C). repeat mmcase; lra.
  Qed.
End Slope.

(** ** The two shipped functions *)
Lemma act_hard alpha x : act (mkakw alpha hard_sigmoid) x = hs (alpha * x).
Proof. reflexivity. Qed.
Lemma act_sig alpha x : act (mkakw alpha sigmoid) x = sg (alpha * x).
Proof. reflexivity. Qed.
Lemma hard_thr alpha m x : 0 < alpha -> -3 < alpha * m <= 3 ->
  act (mkakw alpha hard_sigmoid) m <= act (mkakw alpha hard_sigmoid) x <-> m <= x.
Proof.
  intros A M. rewrite !act_hard. split; intro H.
  - apply Rnot_lt_le. intro C. assert (alpha * x < alpha * m) by nra. revert H. unfold hs. repeat mmcase; lra.
  - apply hs_mono. nra.
Qed.
Lemma hard_val alpha m : -3 <= alpha * m <= 3 -> act (mkakw alpha hard_sigmoid) m = 1 / 2 + alpha * m / 6.
Proof. intro M. rewrite act_hard. unfold hs. repeat mmcase; lra. Qed.
Lemma sig_thr alpha m x : 0 < alpha -> act (mkakw alpha sigmoid) m <= act (mkakw alpha sigmoid) x <-> m <= x.
Proof.
  intros A. rewrite !act_sig. split; intro H.
  - apply Rnot_lt_le. intro C. assert (L : alpha * x < alpha * m) by nra. apply sg_mono in L. lra.
  - destruct H as [H| ->]; [|lra]. left. apply sg_mono. nra.
Qed.
Lemma sig_val alpha m : act (mkakw alpha sigmoid) m = 1 / (1 + exp (- (alpha * m))).
Proof. reflexivity. Qed.
Lemma sg_pos x : 0 < sg x < 1.
Proof.
  unfold sg. pose proof (exp_pos (- x)). split; [apply Rdiv_lt_0_compat; lra|].
  apply (Rmult_lt_reg_r (1 + exp (- x))); [lra|]. unfold Rdiv. rewrite Rmult_assoc, Rinv_l by lra. lra.
Qed.
Lemma shape_valid g p objects cand interacting tol patch k : shipped k ->
  (length (xys p) <= length cand + 2)%nat ->
  exists v, is_valid g p objects cand interacting tol patch (Some true) k = Ok (fl v) /\ 0 <= v <= 1.
Proof.
  intros H L. destruct (valid_total g p objects cand interacting tol patch (Some true) k (or_introl L)) as (t & E).
  destruct (C39_lemma _ _ _ _ _ _ _ _ _ H E) as (v & -> & V). eauto.
Qed.
Lemma hard_score g p objects cand interacting tol patch alpha m : 0 < alpha ->
  (length (xys p) <= length cand + 2)%nat -> (length interacting < length (xys p))%nat ->
  -3 < alpha * m <= 3 ->
  exists v, is_valid g p objects cand interacting tol patch (Some true) (mkakw alpha hard_sigmoid) = Ok (TF (Fin v)) /\
    (1 / 2 + alpha * m / 6 <= v <-> satisfied_by m p objects cand interacting tol patch).
Proof.
  intros A L1 L2 M. assert (H : shipped (mkakw alpha hard_sigmoid)) by (right; reflexivity).
  destruct (shape_valid g p objects cand interacting tol patch _ H L1) as (v & E & V). exists v. split; auto.
  rewrite <- (hard_val alpha m) by lra. eapply slope_lemma; eauto.
  - intro x. apply hard_thr; auto.
  - rewrite hard_val by lra. lra.
Qed.
Lemma sigmoid_score g p objects cand interacting tol patch alpha m : 0 < alpha ->
  (length (xys p) <= length cand + 2)%nat -> (length interacting < length (xys p))%nat ->
  exists v, is_valid g p objects cand interacting tol patch (Some true) (mkakw alpha sigmoid) = Ok (TF (Fin v)) /\
    (1 / (1 + exp (- (alpha * m))) <= v <-> satisfied_by m p objects cand interacting tol patch).
Proof.
  intros A L1 L2. assert (H : shipped (mkakw alpha sigmoid)) by (left; reflexivity).
  destruct (shape_valid g p objects cand interacting tol patch _ H L1) as (v & E & V). exists v. split; auto.
  rewrite <- (sig_val alpha m). eapply slope_lemma; eauto.
  - intro x. apply sig_thr; auto.
  - rewrite act_sig. apply sg_pos.
Qed.

(** ** Consequences for any margin *)
Lemma act_surj k w : shipped k -> 0 < ak_alpha k -> 0 < w < 1 ->
  exists m, act k m = w /\ forall x, act k m <= act k x <-> m <= x.
Proof.
  intros H A W. destruct k as [alpha f]. cbn [ak_alpha] in *. destruct H as [H|H]; cbn [ak_function] in H; subst f.
  - exists (- ln (1 / w - 1) / alpha). split; [|intro; apply sig_thr; auto].
    rewrite act_sig. replace (alpha * (- ln (1 / w - 1) / alpha)) with (- ln (1 / w - 1)) by (field; lra).
    unfold sg. rewrite Ropp_involutive, exp_ln; [field; lra|].
    assert (1 < 1 / w); [|lra]. apply (Rmult_lt_reg_r w); [lra|]. unfold Rdiv. rewrite Rmult_assoc, Rinv_l by lra. lra.
  - assert (E : alpha * ((6 * w - 3) / alpha) = 6 * w - 3) by (field; lra).
    exists ((6 * w - 3) / alpha). split; [|intro; apply hard_thr; [auto|rewrite E; lra]].
    rewrite hard_val; rewrite E; lra.
Qed.
Section Any.
  Variables (g : bool) (k : akw) (p : path) (objects : list object) (cand : list Z) (inter : list object) (tol patch v : R).
  Hypotheses (Hs : shipped k) (Ha : 0 < ak_alpha k)
    (L1 : (length (xys p) <= length cand + 2)%nat) (L2 : (length inter < length (xys p))%nat)
    (E : is_valid g p objects cand inter tol patch (Some true) k = Ok (fl v)).
  Notation sat m := (satisfied_by m p objects cand inter tol patch).
  Lemma score_range : 0 <= v <= 1.
  Proof. destruct (C39_lemma _ _ _ _ _ _ _ _ _ Hs E) as (r & X & R). unfold fl in X. assert (v = r) by congruence. subst; auto. Qed.
  Lemma sat_ge m : sat m -> act k m <= v.
  Proof.
    intro S. apply Rnot_lt_le. intro C. pose proof score_range. pose proof (act_range k m Hs).
    destruct (act_surj k ((v + act k m) / 2) Hs Ha) as (m' & Em & T); [lra|].
    assert (X : m' <= m) by (apply T; lra). apply (satisfied_mono m m' p objects cand inter tol patch X) in S.
    apply (slope_lemma g k m' Hs Ha T) in E; auto; [|lra]. apply E in S. lra.
  Qed.
  Lemma unsat_le m : ~ sat m -> v <= act k m.
  Proof.
    intro S. apply Rnot_lt_le. intro C. pose proof score_range. pose proof (act_range k m Hs).
    destruct (act_surj k ((v + act k m) / 2) Hs Ha) as (m' & Em & T); [lra|].
    assert (X : m < m'). { apply Rnot_le_lt. intro L. apply (act_mono k) in L; auto; lra. }
    apply S. apply (satisfied_mono m' m); [lra|]. apply (slope_lemma g k m' Hs Ha T) in E; auto; [|lra]. apply E. lra.
  Qed.
  Lemma above_sat m : act k m < v -> sat m.
  Proof.
    intro C. pose proof score_range. pose proof (act_range k m Hs).
    destruct (act_surj k ((v + act k m) / 2) Hs Ha) as (m' & Em & T); [lra|].
    assert (X : m < m'). { apply Rnot_le_lt. intro L. apply (act_mono k) in L; auto; lra. }
    apply (satisfied_mono m' m); [lra|]. apply (slope_lemma g k m' Hs Ha T) in E; auto; [|lra]. apply E. lra.
  Qed.
  Lemma below_unsat m : v < act k m -> ~ sat m.
  Proof. intros C S. apply sat_ge in S. lra. Qed.
  Lemma act_zero : act k 0 = 1 / 2.
  Proof. pose proof (act_opp k 0 Hs) as X. rewrite Ropp_0 in X. lra. Qed.
  Lemma zero_iff : 1 / 2 <= v <-> sat 0.
  Proof.
    pose proof act_zero as Z. rewrite <- Z. apply (slope_lemma g k 0 Hs Ha); auto; [|lra].
    intro x. rewrite Z. pose proof (act_lt k x Hs Ha). destruct (Rlt_dec (act k x) (1 / 2)) as [l|n].
    - split; [lra|]. apply H in l. lra.
    - split; [|lra]. intros _. apply Rnot_lt_le. intro C. apply n, H. auto.
  Qed.
  Lemma borderline_half : sat 0 -> (forall m, 0 < m -> ~ sat m) -> v = 1 / 2.
  Proof.
    intros S N. apply zero_iff in S. apply Rle_antisym; [|lra]. apply Rnot_lt_le. intro C. pose proof score_range.
    destruct (act_surj k ((v + 1 / 2) / 2) Hs Ha) as (m & Em & T); [lra|].
    assert (X : 0 < m). { apply (act_gt k m Hs Ha). lra. }
    apply (N m X). apply above_sat. lra.
  Qed.
  Lemma exact_sat m k' : 0 < m -> sat m -> is_valid g p objects cand inter tol patch (Some false) k' = Ok (TB true).
  Proof.
    intros M (A & B & C). destruct (C38_lemma g p objects cand inter tol patch k' L1 L2) as (b & Eb & Hb).
    rewrite Eb. do 2 f_equal. apply Hb. split; [|split].
    - unfold loss_below_by, loss_below in *. destruct (loss p); auto. lra.
    - intros i o w q H1 H2 H3. destruct (B i o w q H1 H2 H3) as (_ & t & T & X). exists t. split; [lra|auto].
    - intros (i & j & U & W & o & w & H1 & H2 & H3 & H4 & N & s & t & Me & S & T).
      destruct (C i j U W o w H1 H2 H3 H4) as [X|X]; [contradiction|]. specialize (X s t Me). unfold SEG_TOL in *. lra.
  Qed.
  Lemma exact_unsat m k' : 0 < m -> ~ sat (- m) -> is_valid g p objects cand inter tol patch (Some false) k' = Ok (TB false).
  Proof.
    intros M N. destruct (C38_lemma g p objects cand inter tol patch k' L1 L2) as (b & Eb & Hb).
    rewrite Eb. do 2 f_equal. destruct b; auto. exfalso. apply N. destruct (proj1 Hb eq_refl) as (A & B & C).
    split; [|split].
    - unfold loss_below_by, loss_below in *. destruct (loss p); auto. lra.
    - intros i o w q H1 H2 H3. destruct (B i o w q H1 H2 H3) as (t & T & X). split; [lra|]. exists t. split; [lra|auto].
    - intros i j U W o w H1 H2 H3 H4. unfold misses_by. cbv zeta.
      set (P := at_ _ _ (- patch)). set (Q := at_ _ _ (1 + patch)).
      destruct (Req_dec (seg_d P Q U W) 0) as [D|D]; [left; apply parallel_d; auto|right]. intros s t Me.
      assert (X : ~ (- SEG_TOL <= s <= 1 + SEG_TOL /\ - SEG_TOL <= t <= 1 + SEG_TOL)).
      { intros [S T]. apply C. exists i, j, U, W, o, w. split; [auto|]. split; [auto|]. split; [auto|]. split; [auto|].
        split; [rewrite parallel_d; auto|]. exists s, t. auto. }
      unfold SEG_TOL in X. lra.
  Qed.
End Any.
Lemma act_neg_bound k m : shipped k -> 0 < ak_alpha k * m ->
  act k (- m) <= 1 / (ak_alpha k * m) /\
  (ak_function k = hard_sigmoid -> 3 <= ak_alpha k * m -> act k (- m) = 0).
Proof.
  destruct k as [alpha f]. cbn [ak_alpha ak_function]. intros H A. set (z := alpha * m) in *.
  assert (Z : alpha * - m = - z) by (unfold z; ring). split.
  - destruct H as [H|H]; cbn [ak_function] in H; subst f.
    + rewrite act_sig, Z. unfold sg. rewrite Ropp_involutive. pose proof (exp_ineq1 z ltac:(lra)).
      unfold Rdiv. rewrite !Rmult_1_l. apply Rinv_le_contravar; lra.
    + rewrite act_hard, Z. assert (0 < 1 / z) by (apply Rdiv_lt_0_compat; lra).
      unfold hs. repeat mmcase; try lra.
      apply (Rmult_le_reg_r z); auto. unfold Rdiv. rewrite Rmult_1_l, (Rinv_l z) by lra. nra.
  - intros -> L. rewrite act_hard, Z. unfold hs. repeat mmcase; lra.
Qed.
Lemma exact_slope g k k' p objects cand inter tol patch m v b : shipped k -> 0 < ak_alpha k -> 0 < m ->
  (length (xys p) <= length cand + 2)%nat -> (length inter < length (xys p))%nat ->
  settled_by m p objects cand inter tol patch ->
  is_valid g p objects cand inter tol patch (Some true) k = Ok (fl v) ->
  is_valid g p objects cand inter tol patch (Some false) k' = Ok b ->
  exists e, b = TB e /\ Rabs (v - (if e then 1 else 0)) <= 1 / (ak_alpha k * m) /\
   (ak_function k = hard_sigmoid -> 3 <= ak_alpha k * m -> v = if e then 1 else 0).
Proof.
  intros H A M L1 L2 S Ev Eb. pose proof (score_range _ _ _ _ _ _ _ _ _ H Ev) as V.
  assert (AM : 0 < ak_alpha k * m) by nra. destruct (act_neg_bound k m H AM) as [B1 B2].
  pose proof (act_opp k m H) as O. destruct S as [S|S].
  - rewrite (exact_sat g p objects cand inter tol patch L1 L2 m k' M S) in Eb. exists true. split; [congruence|].
    apply (sat_ge g k p objects cand inter tol patch v H A L1 L2 Ev) in S. split.
    + rewrite Rabs_left1; lra.
    + intros F L. specialize (B2 F L). lra.
  - rewrite (exact_unsat g p objects cand inter tol patch L1 L2 m k' M S) in Eb. exists false. split; [congruence|].
    apply (unsat_le g k p objects cand inter tol patch v H A L1 L2 Ev) in S. split.
    + rewrite Rabs_right; lra.
    + intros F L. specialize (B2 F L). lra.
Qed.
Lemma act_steeper k k' m : shipped k -> ak_function k' = ak_function k -> 0 < ak_alpha k <= ak_alpha k' ->
  (0 <= m -> act k m <= act k' m) /\ (m <= 0 -> act k' m <= act k m).
Proof.
  destruct k as [a f], k' as [b f']. cbn [ak_function ak_alpha]. intros H -> A.
  destruct H as [H|H]; cbn [ak_function] in H; subst f; rewrite ?act_sig, ?act_hard.
  - split; intro M.
    + assert (L : a * m <= b * m) by nra. destruct L as [L| ->]; [|lra]. left. apply sg_mono; auto.
    + assert (L : b * m <= a * m) by nra. destruct L as [L| ->]; [|lra]. left. apply sg_mono; auto.
  - split; intro M; apply hs_mono; nra.
Qed.
Lemma steeper_is_sharper g k k' p objects cand inter tol patch v v' : shipped k -> ak_function k' = ak_function k ->
  0 < ak_alpha k <= ak_alpha k' ->
  (length (xys p) <= length cand + 2)%nat -> (length inter < length (xys p))%nat ->
  is_valid g p objects cand inter tol patch (Some true) k = Ok (fl v) ->
  is_valid g p objects cand inter tol patch (Some true) k' = Ok (fl v') ->
  (1 / 2 <= v -> v <= v') /\ (v < 1 / 2 -> v' <= v).
Proof.
  intros H F A L1 L2 Ev Ev'. assert (H' : shipped k') by (unfold shipped; rewrite F; exact H).
  pose proof (score_range _ _ _ _ _ _ _ _ _ H Ev) as V. pose proof (score_range _ _ _ _ _ _ _ _ _ H' Ev') as V'.
  pose proof (zero_iff g k p objects cand inter tol patch v H ltac:(lra) L1 L2 Ev) as Z.
  pose proof (zero_iff g k' p objects cand inter tol patch v' H' ltac:(lra) L1 L2 Ev') as Z'.
  split; intro S.
  - apply Rnot_lt_le. intro C. assert (X : 1 / 2 <= v') by (apply Z', Z; auto).
    destruct (act_surj k ((v + v') / 2) H ltac:(lra)) as (m & Em & _); [lra|].
    assert (0 < m) by (apply (act_gt k m H); lra).
    assert (Q : satisfied_by m p objects cand inter tol patch) by (refine (above_sat g k p objects cand inter tol patch v H _ L1 L2 Ev m _); lra).
    apply (sat_ge g k' p objects cand inter tol patch v' H') in Q; auto; [|lra].
    destruct (act_steeper k k' m H F A) as [X1 _]. specialize (X1 ltac:(lra)). lra.
  - assert (X : ~ 1 / 2 <= v') by (rewrite Z', <- Z; lra).
    apply Rnot_lt_le. intro C.
    destruct (act_surj k ((v + v') / 2) H ltac:(lra)) as (m & Em & _); [lra|].
    assert (m < 0) by (apply (act_lt k m H); lra).
    assert (Q : ~ satisfied_by m p objects cand inter tol patch) by (refine (below_unsat g k p objects cand inter tol patch v H _ L1 L2 Ev m _); lra).
    apply (unsat_le g k' p objects cand inter tol patch v' H') in Q; auto; [|lra].
    destruct (act_steeper k k' m H F A) as [_ X1]. specialize (X1 ltac:(lra)). lra.
Qed.

(** ** Accumulated values *)
Lemma interacting_len s cand inter : get_interacting_objects s cand = Ok inter -> length inter = length cand.
Proof.
  assert (R : forall h : Z -> res object, forall l inter, rseq (map h l) = Ok inter -> length inter = length l).
  { intros h l. induction l as [|a l IH]; intros it; cbn.
    - intro E. injection E as <-. reflexivity.
    - destruct (h a) as [x|] eqn:E; cbn; [|discriminate]. destruct (rseq (map h l)) eqn:E'; cbn; [|discriminate].
      intro E2. injection E2 as <-. cbn. f_equal. auto. }
  unfold get_interacting_objects. destruct (_ || _)%bool; apply R.
Qed.
Section Acc.
  Variables (P : prng) (g : bool) (s : scene) (cls : path_cls) (k k' : akw) (tol patch m : R) (f : pathfun) (tx rx : vec).
  Hypotheses (Hs : shipped k) (Ha : 0 < ak_alpha k) (Hm : 0 < m)
    (Hf : forall p inter, exists v, f tx rx p inter = Fin v).
  Definition settled_work (ck : list Z * option (key_t P)) : Prop := forall inter p,
    get_interacting_objects s (fst ck) = Ok inter -> from_tx_objects_rx P cls (snd ck) tx inter rx = Ok p ->
    settled_by m p (objects s) (fst ck) inter tol patch.
  Definition value_of (ck : list Z * option (key_t P)) (v : R) : Prop := exists inter p,
    get_interacting_objects s (fst ck) = Ok inter /\ from_tx_objects_rx P cls (snd ck) tx inter rx = Ok p /\
    f tx rx p inter = Fin v.
  Lemma acc_slope work ze : Forall settled_work work ->
    facc P g s cls (mkvalidargs tol patch (Some false) k') f work tx rx = Ok ze ->
    exists a b vals, facc P g s cls (mkvalidargs tol patch (Some true) k) f work tx rx = Ok (Fin a) /\
      ze = Fin b /\ Forall2 value_of work vals /\
      Rabs (a - b) <= fold_right Rplus 0 (map Rabs vals) / (ak_alpha k * m) /\
      (ak_function k = hard_sigmoid -> 3 <= ak_alpha k * m -> a = b).
  Proof.
    unfold facc. cbn [va_tol va_patch va_approx va_kw].
    match goal with |- _ -> fold_left ?h _ _ = _ -> _ => set (se := h) end.
    match goal with |- context [fold_left ?h _ _ = Ok (Fin _)] => set (ss := h) end.
    assert (NE : forall w e, fold_left se w (Err e) = Err e) by (clear; induction w as [|[c q] w IH]; intros e; cbn; auto).
    assert (AM : 0 < ak_alpha k * m) by nra.
    assert (G : forall w a0 b0, Forall settled_work w -> fold_left se w (Ok (Fin b0)) = Ok ze ->
      exists a b vals, fold_left ss w (Ok (Fin a0)) = Ok (Fin a) /\ ze = Fin b /\ Forall2 value_of w vals /\
        Rabs ((a - a0) - (b - b0)) <= fold_right Rplus 0 (map Rabs vals) / (ak_alpha k * m) /\
        (ak_function k = hard_sigmoid -> 3 <= ak_alpha k * m -> a - a0 = b - b0)).
    { induction w as [|[cand key] w IH]; intros a0 b0 S E; cbn [fold_left] in E |- *.
      - exists a0, b0, []. split; [reflexivity|]. split; [congruence|]. split; [constructor|]. cbn.
        replace (a0 - a0 - (b0 - b0)) with 0 by ring. rewrite Rabs_R0. split; [unfold Rdiv; lra|intros; ring].
      - pose proof (Forall_inv S) as S1. apply Forall_inv_tail in S. unfold settled_work in S1. cbn [fst snd] in S1.
        unfold se at 2 in E. unfold ss at 2. cbn [rbind] in E |- *.
        destruct (get_interacting_objects s cand) as [inter|e] eqn:Eg; cbn [rbind] in E |- *; [|rewrite NE in E; discriminate].
        destruct (from_tx_objects_rx P cls key tx inter rx) as [p|e] eqn:Ep; cbn [rbind] in E |- *; [|rewrite NE in E; discriminate].
        specialize (S1 inter p eq_refl Ep).
        destruct (C29_lemma _ _ _ _ _ _ _ Ep) as [(mid & Xy & Lm) _]. pose proof (interacting_len _ _ _ Eg) as Li.
        assert (Ll : length (xys p) = (length cand + 2)%nat) by (rewrite Xy; cbn; rewrite app_length; cbn; lia).
        destruct (is_valid g p (objects s) cand inter tol patch (Some false) k') as [t|e] eqn:Ev; cbn [rbind] in E |- *; [|rewrite NE in E; discriminate].
        destruct (shape_valid g p (objects s) cand inter tol patch k Hs ltac:(lia)) as (v & Es & V).
        destruct (exact_slope g k k' p (objects s) cand inter tol patch m v t Hs Ha Hm ltac:(lia) ltac:(lia) S1 Es Ev)
          as (eb & -> & B1 & B2).
        rewrite Es. cbn [rbind]. destruct (Hf p inter) as (y & Fy). rewrite Fy in E |- *.
        set (ev := if eb then 1 else 0) in *. assert (Te : to_f (TB eb) = Fin ev) by (unfold ev; destruct eb; reflexivity).
        rewrite Te in E. cbn [to_f fl xmul xadd] in E |- *.
        destruct (IH (a0 + v * y) (b0 + ev * y) S E) as (a & b & vals & Ea & -> & Fo & D1 & D2).
        exists a, b, (y :: vals). split; [exact Ea|]. split; [reflexivity|].
        split; [constructor; auto; exists inter, p; auto|]. split.
        + cbn [map fold_right]. replace (a - a0 - (b - b0)) with (y * (v - ev) + (a - (a0 + v * y) - (b - (b0 + ev * y)))) by ring.
          eapply Rle_trans; [apply Rabs_triang|]. rewrite Rabs_mult.
          unfold Rdiv in *. rewrite Rmult_plus_distr_r. apply Rplus_le_compat; [|exact D1].
          apply Rmult_le_compat_l; [apply Rabs_pos|]. lra.
        + intros F L. specialize (B2 F L). specialize (D2 F L). rewrite B2 in D2. lra. }
    intros S E. destruct (G work 0 0 S E) as (a & b & vals & E1 & E2 & E3 & E4 & E5). exists a, b, vals.
    rewrite !Rminus_0_r in E4. split; auto. split; auto. split; auto. split; auto. intros F L. specialize (E5 F L). lra.
  Qed.
End Acc.
Lemma values_fun P s cls f tx rx work v : Forall2 (value_of P s cls f tx rx) work v ->
  forall w, Forall2 (value_of P s cls f tx rx) work w -> v = w.
Proof.
  intro Hv. induction Hv as [|ck y work v Y Hv IH]; intros w Hw.
  - inversion Hw. reflexivity.
  - inversion Hw as [|? y' ? w' Y' Hw']; subst. destruct Y as (i & p & E1 & E2 & E3), Y' as (i' & p' & E1' & E2' & E3').
    assert (i' = i) by congruence. subst i'. assert (p' = p) by congruence. subst p'.
    f_equal; [congruence|]. apply IH; auto.
Qed.
Lemma sum_abs_nonneg l : 0 <= fold_right Rplus 0 (map Rabs l).
Proof. induction l as [|x l IH]; cbn; [lra|]. pose proof (Rabs_pos x). lra. Qed.
Lemma acc_converges P g s cls k' tol patch m f tx rx (work : list (list Z * option (key_t P))) z :
  0 < m -> (forall p inter, exists v, f tx rx p inter = Fin v) ->
  Forall (settled_work P s cls tol patch m tx rx) work ->
  facc P g s cls (mkvalidargs tol patch (Some false) k') f work tx rx = Ok z ->
  forall eps, 0 < eps -> exists alpha0, 0 < alpha0 /\ forall k, shipped k -> alpha0 <= ak_alpha k ->
  exists a b, facc P g s cls (mkvalidargs tol patch (Some true) k) f work tx rx = Ok (Fin a) /\
    z = Fin b /\ Rabs (a - b) <= eps.
Proof.
  intros M F W E eps Ep.
  destruct (acc_slope P g s cls (mkakw 1 hard_sigmoid) k' tol patch m f tx rx) with (work := work) (ze := z)
    as (_ & _ & vals & _ & _ & Fo & _); auto; [right; reflexivity|cbn; lra|].
  set (S0 := fold_right Rplus 0 (map Rabs vals)). pose proof (sum_abs_nonneg vals) as N. fold S0 in N.
  assert (EM : 0 < eps * m) by nra.
  exists ((1 + S0) / (eps * m)). split; [apply Rdiv_lt_0_compat; lra|]. intros k H L.
  assert (PL : 0 < (1 + S0) / (eps * m)) by (apply Rdiv_lt_0_compat; lra).
  destruct (acc_slope P g s cls k k' tol patch m f tx rx H ltac:(lra) M F work z W E) as (a & b & vals' & Ea & Eb & Fo' & B & _).
  exists a, b. split; auto. split; auto. rewrite <- (values_fun _ _ _ _ _ _ _ _ Fo _ Fo') in B. fold S0 in B.
  eapply Rle_trans; [exact B|]. assert (AM : 0 < ak_alpha k * m) by nra.
  apply (Rmult_le_reg_r (ak_alpha k * m)); auto. unfold Rdiv. rewrite Rmult_assoc, Rinv_l, Rmult_1_r by lra.
  apply (Rmult_le_compat_r (eps * m)) in L; [|lra]. unfold Rdiv in L. rewrite Rmult_assoc, Rinv_l, Rmult_1_r in L by lra. lra.
Qed.
