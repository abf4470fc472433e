(** Proofs about [segments_intersect]. *)
From Coq Require Import Reals List Bool Lra Psatz.
From Verif Require Import Base BaseP LogicM SpecLogic LogicP GeometryM SpecGeometry.
Import ListNotations.
Open Scope R_scope.

(** The activation as a real function. *)
Definition act (k : akw) (r : R) : R :=
  match activation (Fin r) k with Fin v => v | _ => 0 end.
Lemma act_eq k r : shipped k -> activation (Fin r) k = Fin (act k r).
Proof. intro H. unfold act. destruct (activation_fin k r H) as (v & -> & _). reflexivity. Qed.
Lemma act_range k r : shipped k -> 0 <= act k r <= 1.
Proof. intro H. unfold act. destruct (activation_fin k r H) as (v & -> & X & _). exact X. Qed.
Lemma act_gt k r : shipped k -> 0 < ak_alpha k -> (1 / 2 < act k r <-> 0 < r).
Proof. intros H A. unfold act. destruct (activation_fin k r H) as (v & -> & _ & X & _). apply X. lra. Qed.
Lemma act_lt k r : shipped k -> 0 < ak_alpha k -> (act k r < 1 / 2 <-> r < 0).
Proof. intros H A. unfold act. destruct (activation_fin k r H) as (v & -> & _ & X & _). apply X. lra. Qed.
Lemma act_opp k r : shipped k -> act k (- r) = 1 - act k r.
Proof.
  intro H. unfold act. destruct (activation_fin k r H) as (v & -> & _ & _ & _ & ->). reflexivity.
Qed.
Lemma act_mono k r s : shipped k -> 0 <= ak_alpha k -> r <= s -> act k r <= act k s.
Proof.
  intros H A L.
  assert (M : ak_alpha k * r <= ak_alpha k * s) by nra.
  unfold act, activation. destruct H as [-> | ->].
  - rewrite !sigmoid_fin. destruct M as [M| ->]; [left; apply sg_mono; auto|right; auto].
  - rewrite !hard_sigmoid_fin. apply hs_mono; auto.
Qed.

Lemma xmin_comm x y : xmin x y = xmin y x.
Proof. destruct x, y; cbn; auto. rewrite Rmin_comm. reflexivity. Qed.
Lemma xmax_comm x y : xmax x y = xmax y x.
Proof. destruct x, y; cbn; auto. rewrite Rmax_comm. reflexivity. Qed.
Lemma and_comm_t g x y a : logical_and g x y a = logical_and g y x a.
Proof.
  unfold logical_and. destruct (resolve g a).
  - destruct x as [b|x], y as [c|y]; try (f_equal; apply xmin_comm). rewrite andb_comm. auto.
  - rewrite andb_comm. reflexivity.
Qed.

(** The test on one relative position. *)
Definition ttest (g : bool) (t : xreal) (tol : R) (approx : option bool) (k : akw) : truthy :=
  logical_and g (greater_equal g t (Fin (- tol)) approx k)
                (less_equal g t (Fin (1 + tol)) approx k) approx.

Lemma ttest_flip g t tol a k : ttest g (Fin (1 - t)) tol a k = ttest g (Fin t) tol a k.
Proof.
  unfold ttest. rewrite and_comm_t. unfold logical_and, greater_equal, less_equal.
  destruct (resolve g a); cbn.
  - replace (1 + tol + - (1 - t)) with (t + - - tol) by lra.
    replace (1 - t + - - tol) with (1 + tol + - t) by lra. reflexivity.
  - f_equal. f_equal; apply eq_true_iff_eq; rewrite !Rleb_true; lra.
Qed.

Section Params.
  Variables P1 P2 P3 P4 : vec.
  Definition seg_a := let B := vsub P3 P4 in let C := vsub P1 P3 in snd B * fst C - fst B * snd C.
  Definition seg_b := let A := vsub P2 P1 in let C := vsub P1 P3 in fst A * snd C - snd A * fst C.
  Definition seg_d := let A := vsub P2 P1 in let B := vsub P3 P4 in snd A * fst B - fst A * snd B.
  Definition ratio (n d : R) : xreal := if Reqb d 0 then PInf else Fin (n / d).

  Lemma seg_unfold g tol a k : segments_intersect g P1 P2 P3 P4 tol a k =
    logical_and g (ttest g (ratio seg_a seg_d) tol a k) (ttest g (ratio seg_b seg_d) tol a k) a.
  Proof.
    unfold segments_intersect, seg_test, ttest, ratio. fold seg_a seg_b seg_d.
    change (snd (vsub P2 P1) * fst (vsub P3 P4) - fst (vsub P2 P1) * snd (vsub P3 P4)) with seg_d.
    destruct (Reqb_spec seg_d 0); reflexivity.
  Qed.
  Lemma parallel_d : parallel P1 P2 P3 P4 <-> seg_d = 0.
  Proof. unfold parallel, seg_d, vsub. cbn. split; intro; nra. Qed.

  Lemma meet_unique a b : seg_d <> 0 -> meet_at P1 P2 P3 P4 a b ->
    a = seg_a / seg_d /\ b = seg_b / seg_d.
  Proof.
    unfold meet_at, at_, seg_a, seg_b, seg_d, vsub. cbn [fst snd]. intros D E. inversion E as [[E1 E2]].
    pose proof (f_equal (fun z => z * (snd P4 - snd P3)) E1) as F1.
    pose proof (f_equal (fun z => z * (fst P4 - fst P3)) E2) as F2.
    pose proof (f_equal (fun z => z * (snd P2 - snd P1)) E1) as G1.
    pose proof (f_equal (fun z => z * (fst P2 - fst P1)) E2) as G2.
    cbn beta in *.
    set (d := (snd P2 - snd P1) * (fst P3 - fst P4) - (fst P2 - fst P1) * (snd P3 - snd P4)) in *.
    split; apply (Rmult_eq_reg_r d); auto; unfold Rdiv; rewrite Rmult_assoc, Rinv_l, Rmult_1_r by auto;
      unfold d; lra.
  Qed.
  Lemma meet_exists : seg_d <> 0 -> meet_at P1 P2 P3 P4 (seg_a / seg_d) (seg_b / seg_d).
  Proof.
    intro D. unfold meet_at, at_. f_equal; apply (Rmult_eq_reg_r seg_d); auto;
      rewrite !Rmult_plus_distr_r; unfold Rdiv;
      [replace (seg_a * / seg_d * (fst P2 - fst P1) * seg_d) with (seg_a * (fst P2 - fst P1)) by (field; auto);
       replace (seg_b * / seg_d * (fst P4 - fst P3) * seg_d) with (seg_b * (fst P4 - fst P3)) by (field; auto)
      |replace (seg_a * / seg_d * (snd P2 - snd P1) * seg_d) with (seg_a * (snd P2 - snd P1)) by (field; auto);
       replace (seg_b * / seg_d * (snd P4 - snd P3) * seg_d) with (seg_b * (snd P4 - snd P3)) by (field; auto)];
      unfold seg_a, seg_b, seg_d, vsub; cbn; ring.
  Qed.
End Params.

Lemma seg_exact g P1 P2 P3 P4 tol k :
  exists b, segments_intersect g P1 P2 P3 P4 tol (Some false) k = TB b /\
  (b = true <-> seg_d P1 P2 P3 P4 <> 0 /\
     - tol <= seg_a P1 P3 P4 / seg_d P1 P2 P3 P4 <= 1 + tol /\
     - tol <= seg_b P1 P2 P3 / seg_d P1 P2 P3 P4 <= 1 + tol).
Proof.
  rewrite seg_unfold. unfold ratio. destruct (Reqb_spec (seg_d P1 P2 P3 P4) 0) as [E|E]; cbn.
  - exists false. split; auto. split; [discriminate|tauto].
  - eexists; split; [reflexivity|]. rewrite !andb_true_iff, !Rleb_true. tauto.
Qed.

(** C12. *)
Lemma C12_lemma g P1 P2 P3 P4 tol k :
  exists b, segments_intersect g P1 P2 P3 P4 tol (Some false) k = TB b /\
  (b = true <-> ~ parallel P1 P2 P3 P4 /\
     exists s t, meet_at P1 P2 P3 P4 s t /\ - tol <= s <= 1 + tol /\ - tol <= t <= 1 + tol).
Proof.
  destruct (seg_exact g P1 P2 P3 P4 tol k) as (b & E & H). exists b. split; auto.
  rewrite H, parallel_d. split.
  - intros (D & A & B). split; auto. do 2 eexists. split; [apply meet_exists|]; auto.
  - intros (D & s & t & M & S & T). destruct (meet_unique _ _ _ _ _ _ D M) as [-> ->]. auto.
Qed.
Lemma C12_zero_lemma g P1 P2 P3 P4 k : ~ parallel P1 P2 P3 P4 ->
  (segments_intersect g P1 P2 P3 P4 0 (Some false) k = TB true <->
   exists X, on_segment P1 P2 X /\ on_segment P3 P4 X).
Proof.
  intro N. destruct (C12_lemma g P1 P2 P3 P4 0 k) as (b & E & H). rewrite E. split.
  - intro X. inversion X; subst. destruct (proj1 H eq_refl) as (_ & s & t & M & S & T).
    exists (at_ P1 P2 s). split; [exists s|exists t]; split; auto; lra.
  - intros (X & (s & S & ->) & t & T & M). f_equal. apply H. split; auto.
    exists s, t. split; auto. lra.
Qed.

(** Smoothed value, not parallel. *)
Lemma ttest_approx g t tol k : shipped k ->
  ttest g (Fin t) tol (Some true) k = fl (Rmin (act k (t + tol)) (act k (1 + tol - t))).
Proof.
  intro H. unfold ttest, logical_and, greater_equal, less_equal. cbn [resolve to_f xsub xadd xopp].
  replace (t + - - tol) with (t + tol) by lra. replace (1 + tol + - t) with (1 + tol - t) by lra.
  rewrite !act_eq by auto. reflexivity.
Qed.
Lemma ttest_inf g tol k : shipped k -> 0 < ak_alpha k -> ttest g PInf tol (Some true) k = fl 0.
Proof.
  intros H A. unfold ttest, logical_and, greater_equal, less_equal. cbn [resolve to_f xsub xadd xopp].
  rewrite activation_pinf, activation_ninf by auto. cbn. unfold fl. do 2 f_equal. mmcase; lra.
Qed.
Lemma activation_pinf_neg k : shipped k -> ak_alpha k < 0 ->
  activation PInf k = Fin 0 /\ activation NInf k = Fin 1.
Proof.
  intros [H|H] A; unfold activation; rewrite H; cbv [sigmoid hard_sigmoid xmul inf_times];
  repeat rcase; try lra; split; cbn; f_equal; repeat mmcase; lra.
Qed.
Lemma ttest_inf' g tol k : shipped k -> ak_alpha k <> 0 -> ttest g PInf tol (Some true) k = fl 0.
Proof.
  intros H A. destruct (Rlt_dec 0 (ak_alpha k)); [apply ttest_inf; auto|].
  destruct (activation_pinf_neg k H) as [X Y]; [lra|].
  unfold ttest, logical_and, greater_equal, less_equal. cbn [resolve to_f xsub xadd xopp].
  rewrite X, Y. cbn. unfold fl. do 2 f_equal. mmcase; lra.
Qed.

Definition smin4 (k : akw) (s t tol : R) : R :=
  Rmin (Rmin (act k (s + tol)) (act k (1 + tol - s))) (Rmin (act k (t + tol)) (act k (1 + tol - t))).
Lemma seg_approx g P1 P2 P3 P4 tol k : shipped k -> seg_d P1 P2 P3 P4 <> 0 ->
  segments_intersect g P1 P2 P3 P4 tol (Some true) k =
  fl (smin4 k (seg_a P1 P3 P4 / seg_d P1 P2 P3 P4) (seg_b P1 P2 P3 / seg_d P1 P2 P3 P4) tol).
Proof.
  intros H D. rewrite seg_unfold. unfold ratio. destruct (Reqb_spec (seg_d P1 P2 P3 P4) 0); [contradiction|].
  rewrite !ttest_approx by auto. reflexivity.
Qed.

(** C13. *)
Lemma C13_lemma g P1 P2 P3 P4 tol k : parallel P1 P2 P3 P4 ->
  segments_intersect g P1 P2 P3 P4 tol (Some false) k = TB false /\
  (shipped k -> ak_alpha k <> 0 -> segments_intersect g P1 P2 P3 P4 tol (Some true) k = fl 0).
Proof.
  intro H. apply parallel_d in H. split; [|intros S A]; rewrite seg_unfold; unfold ratio;
    (destruct (Reqb_spec (seg_d P1 P2 P3 P4) 0); [|contradiction]).
  - reflexivity.
  - rewrite ttest_inf' by auto. cbn. unfold fl. do 2 f_equal. mmcase; lra.
Qed.
Lemma zero_length_parallel P P3 P4 : parallel P P P3 P4 /\ parallel P3 P4 P P.
Proof. unfold parallel. split; ring. Qed.

(** Slope 0: NaN. *)
Lemma C13_zero_slope_lemma g P1 P2 P3 P4 tol k : parallel P1 P2 P3 P4 -> shipped k -> ak_alpha k = 0 ->
  segments_intersect g P1 P2 P3 P4 tol (Some true) k = TF NaN.
Proof.
  intros H S A. apply parallel_d in H. rewrite seg_unfold. unfold ratio.
  destruct (Reqb_spec (seg_d P1 P2 P3 P4) 0); [|contradiction].
  unfold ttest, logical_and, greater_equal, less_equal. cbn [resolve to_f xsub xadd xopp].
  assert (X : activation PInf k = NaN).
  { unfold activation. destruct S as [-> | ->]; cbv [sigmoid hard_sigmoid xmul inf_times];
    rcase; try lra; reflexivity. }
  rewrite X. reflexivity.
Qed.

(** C14. *)
Lemma div_flip n m d : d <> 0 -> m = d - n -> m / d = 1 - n / d.
Proof. intros D ->. field. auto. Qed.
Lemma ratio_flip g n d n' d' tol a k : d <> 0 ->
  (d' = d /\ n' = d - n) \/ (d' = - d /\ n' = - (d - n)) ->
  ttest g (ratio n' d') tol a k = ttest g (ratio n d) tol a k.
Proof.
  intros D X. unfold ratio. destruct (Reqb_spec d 0); [contradiction|].
  assert (E : d' <> 0 /\ n' / d' = 1 - n / d).
  { destruct X as [[-> ->]|[-> ->]]; (split; [lra|field; lra]). }
  destruct E as [E ->]. destruct (Reqb_spec d' 0); [contradiction|]. apply ttest_flip.
Qed.
Lemma ratio_same n d n' d' : (d' = d /\ n' = n) \/ (d' = - d /\ n' = - n) -> ratio n' d' = ratio n d.
Proof.
  unfold ratio. intros [[-> ->]|[-> ->]]; auto.
  destruct (Reqb_spec (- d) 0), (Reqb_spec d 0); try lra; auto. f_equal. field. auto.
Qed.

Lemma seg_swap_first g P1 P2 P3 P4 tol a k :
  segments_intersect g P2 P1 P3 P4 tol a k = segments_intersect g P1 P2 P3 P4 tol a k.
Proof.
  rewrite !seg_unfold.
  rewrite (ratio_same (seg_b P1 P2 P3) (seg_d P1 P2 P3 P4) (seg_b P2 P1 P3) (seg_d P2 P1 P3 P4))
    by (right; unfold seg_b, seg_d, vsub; cbn; split; ring).
  destruct (Req_dec (seg_d P1 P2 P3 P4) 0) as [E|E].
  - unfold ratio. assert (seg_d P2 P1 P3 P4 = 0) as ->
      by (unfold seg_d, vsub in *; cbn in *; lra). rewrite E.
    destruct (Reqb_spec 0 0); [reflexivity|contradiction].
  - rewrite (ratio_flip g (seg_a P1 P3 P4) (seg_d P1 P2 P3 P4)); auto.
    right. unfold seg_a, seg_d, vsub; cbn; split; ring.
Qed.
Lemma seg_exchange g P1 P2 P3 P4 tol a k :
  segments_intersect g P3 P4 P1 P2 tol a k = segments_intersect g P1 P2 P3 P4 tol a k.
Proof.
  rewrite !seg_unfold.
  rewrite (ratio_same (seg_b P1 P2 P3) (seg_d P1 P2 P3 P4) (seg_a P3 P1 P2) (seg_d P3 P4 P1 P2)).
  2:{ right. unfold seg_a, seg_b, seg_d, vsub; cbn; split; ring. }
  rewrite (ratio_same (seg_a P1 P3 P4) (seg_d P1 P2 P3 P4) (seg_b P3 P4 P1) (seg_d P3 P4 P1 P2)).
  2:{ right. unfold seg_a, seg_b, seg_d, vsub; cbn; split; ring. }
  apply and_comm_t.
Qed.
Lemma seg_swap_second g P1 P2 P3 P4 tol a k :
  segments_intersect g P1 P2 P4 P3 tol a k = segments_intersect g P1 P2 P3 P4 tol a k.
Proof. rewrite <- seg_exchange, seg_swap_first. apply seg_exchange. Qed.

(** C15. *)
Lemma C15_lemma g P1 P2 P3 P4 tol k : shipped k -> 0 < ak_alpha k ->
  let smooth := segments_intersect g P1 P2 P3 P4 tol (Some true) k in
  let exact := segments_intersect g P1 P2 P3 P4 tol (Some false) k in
  (is_true g smooth DEFAULT_TRUTH_TOL (Some true) = Ok true -> exact = TB true) /\
  (exact = TB false -> is_false g smooth DEFAULT_TRUTH_TOL (Some true) = Ok true) /\
  (exact = TB true ->
   (forall s t, meet_at P1 P2 P3 P4 s t ->
      s <> - tol /\ s <> 1 + tol /\ t <> - tol /\ t <> 1 + tol) ->
   is_true g smooth DEFAULT_TRUTH_TOL (Some true) = Ok true).
Proof.
  intros H A. cbn zeta.
  destruct (seg_exact g P1 P2 P3 P4 tol k) as (b & Eb & Hb). rewrite Eb.
  destruct (Req_dec (seg_d P1 P2 P3 P4) 0) as [E|E].
  - destruct (C13_lemma g P1 P2 P3 P4 tol k) as [_ X]; [apply parallel_d; auto|].
    rewrite X by (auto; lra). rewrite is_true_approx, is_false_approx. unfold DEFAULT_TRUTH_TOL.
    split; [lra|]. split; [lra|]. intro Y. inversion Y; subst. destruct (proj1 Hb eq_refl); contradiction.
  - rewrite (seg_approx g P1 P2 P3 P4 tol k H E), is_true_approx, is_false_approx.
    unfold DEFAULT_TRUTH_TOL.
    pose proof (meet_exists _ _ _ _ E) as M.
    set (s := seg_a P1 P3 P4 / seg_d P1 P2 P3 P4) in *.
    set (t := seg_b P1 P2 P3 / seg_d P1 P2 P3 P4) in *.
    pose proof (act_gt k (s + tol) H A). pose proof (act_gt k (1 + tol - s) H A).
    pose proof (act_gt k (t + tol) H A). pose proof (act_gt k (1 + tol - t) H A).
    pose proof (act_lt k (s + tol) H A). pose proof (act_lt k (1 + tol - s) H A).
    pose proof (act_lt k (t + tol) H A). pose proof (act_lt k (1 + tol - t) H A).
    unfold smin4.
    split; [|split].
    + intro X. f_equal. apply Hb. split; auto.
      assert (1/2 < act k (s + tol) /\ 1/2 < act k (1 + tol - s) /\
              1/2 < act k (t + tol) /\ 1/2 < act k (1 + tol - t)).
      { revert X. repeat mmcase; lra. }
      lra.
    + intro X. inversion X; subst b.
      assert (N : ~ (- tol <= s <= 1 + tol /\ - tol <= t <= 1 + tol)).
      { intro Y. assert (false = true) by (apply Hb; tauto). discriminate. }
      assert (s + tol < 0 \/ 1 + tol - s < 0 \/ t + tol < 0 \/ 1 + tol - t < 0) by lra.
      repeat mmcase; lra.
    + intros X B. inversion X; subst b. destruct (proj1 Hb eq_refl) as (_ & S & T).
      specialize (B s t M).
      assert (1/2 < act k (s + tol)) by (apply H0; lra).
      assert (1/2 < act k (1 + tol - s)) by (apply H1; lra).
      assert (1/2 < act k (t + tol)) by (apply H2; lra).
      assert (1/2 < act k (1 + tol - t)) by (apply H3; lra).
      repeat mmcase; lra.
Qed.

Lemma seg_in01 g P1 P2 P3 P4 tol k : shipped k -> ak_alpha k <> 0 ->
  exists r, segments_intersect g P1 P2 P3 P4 tol (Some true) k = fl r /\ 0 <= r <= 1.
Proof.
  intros H A. destruct (Req_dec (seg_d P1 P2 P3 P4) 0) as [E|E].
  - exists 0. split; [|lra]. apply C13_lemma; auto. apply parallel_d; auto.
  - rewrite seg_approx by auto. eexists; split; [reflexivity|].
    set (s := seg_a _ _ _ / _). set (t := seg_b _ _ _ / _).
    pose proof (act_range k (s + tol) H). pose proof (act_range k (1 + tol - s) H).
    pose proof (act_range k (t + tol) H). pose proof (act_range k (1 + tol - t) H).
    unfold smin4. repeat mmcase; lra.
Qed.
