(** Continuity of the smoothed tests on segments and comparisons. *)
From Coq Require Import Reals List Bool ZArith Lra Lia Psatz.
From Verif Require Import Base BaseP LogicM SpecLogic LogicP GeometryM SpecGeometry VecP SegP SpecPath PathM SpecCont.
Import ListNotations.
Open Scope R_scope.

(** ** Sequences *)
Lemma cv_ext u v l : (forall n, u n = v n) -> Un_cv u l -> Un_cv v l.
Proof. intros E H e He. destruct (H e He) as [N HN]. exists N. intros n Hn. rewrite <- E. auto. Qed.
Lemma cv_eventually u v l N0 : (forall n, (N0 <= n)%nat -> u n = v n) -> Un_cv u l -> Un_cv v l.
Proof.
  intros E H e He. destruct (H e He) as [N HN]. exists (Nat.max N N0). intros n Hn. rewrite <- E by lia. apply HN. lia.
Qed.
Lemma cv_const c : Un_cv (fun _ => c) c.
Proof. intros e He. exists O. intros n _. unfold R_dist. replace (c - c) with 0 by ring. rewrite Rabs_R0. lra. Qed.
Lemma cv_plus u v a b : Un_cv u a -> Un_cv v b -> Un_cv (fun n => u n + v n) (a + b).
Proof. apply CV_plus. Qed.
Lemma cv_minus u v a b : Un_cv u a -> Un_cv v b -> Un_cv (fun n => u n - v n) (a - b).
Proof. apply CV_minus. Qed.
Lemma cv_mult u v a b : Un_cv u a -> Un_cv v b -> Un_cv (fun n => u n * v n) (a * b).
Proof. apply CV_mult. Qed.
Lemma cv_opp u a : Un_cv u a -> Un_cv (fun n => - u n) (- a).
Proof. apply CV_opp. Qed.
(** Lipschitz functions preserve convergence. *)
Lemma cv_lip (f : R -> R) L u a : (forall x y, Rabs (f x - f y) <= L * Rabs (x - y)) ->
  Un_cv u a -> Un_cv (fun n => f (u n)) (f a).
Proof.
  intros H U e He. destruct (U (e / (Rabs L + 1))) as [N HN].
  { apply Rdiv_lt_0_compat; auto. pose proof (Rabs_pos L). lra. }
  exists N. intros n Hn. specialize (HN n Hn). unfold R_dist in *. specialize (H (u n) a).
  pose proof (Rabs_pos L). pose proof (Rabs_pos (u n - a)). pose proof (Rle_abs L).
  assert (X : Rabs (u n - a) * (Rabs L + 1) < e).
  { apply (Rmult_lt_compat_r (Rabs L + 1)) in HN; [|lra]. unfold Rdiv in HN.
    rewrite Rmult_assoc, Rinv_l in HN by lra. lra. }
  nra.
Qed.
Lemma rmin_abs x y : Rmin x y = (x + y - Rabs (x - y)) / 2.
Proof. unfold Rmin, Rabs. destruct (Rle_dec x y), (Rcase_abs (x - y)); lra. Qed.
Lemma rmax_abs x y : Rmax x y = (x + y + Rabs (x - y)) / 2.
Proof. unfold Rmax, Rabs. destruct (Rle_dec x y), (Rcase_abs (x - y)); lra. Qed.
Lemma cv_min u v a b : Un_cv u a -> Un_cv v b -> Un_cv (fun n => Rmin (u n) (v n)) (Rmin a b).
Proof.
  intros U V. rewrite rmin_abs. apply (cv_ext (fun n => (u n + v n - Rabs (u n - v n)) * / 2)).
  - intro n. rewrite rmin_abs. reflexivity.
  - apply cv_mult; [|apply cv_const]. apply cv_minus; [apply cv_plus; auto|].
    apply cv_cvabs. apply cv_minus; auto.
Qed.
Lemma cv_max u v a b : Un_cv u a -> Un_cv v b -> Un_cv (fun n => Rmax (u n) (v n)) (Rmax a b).
Proof.
  intros U V. rewrite rmax_abs. apply (cv_ext (fun n => (u n + v n + Rabs (u n - v n)) * / 2)).
  - intro n. rewrite rmax_abs. reflexivity.
  - apply cv_mult; [|apply cv_const]. apply cv_plus; [apply cv_plus; auto|].
    apply cv_cvabs. apply cv_minus; auto.
Qed.
Lemma cv_away u a : Un_cv u a -> a <> 0 -> exists N, forall n, (N <= n)%nat -> Rabs a / 2 < Rabs (u n).
Proof.
  intros U A. destruct (U (Rabs a / 2)) as [N HN].
  { pose proof (Rabs_pos_lt a A). lra. }
  exists N. intros n Hn. specialize (HN n Hn). unfold R_dist in HN.
  pose proof (Rabs_triang_inv a (a - u n)). replace (a - (a - u n)) with (u n) in H by ring.
  rewrite Rabs_minus_sym in HN. lra.
Qed.
Lemma cv_away0 u a : Un_cv u a -> a <> 0 -> exists N, forall n, (N <= n)%nat -> u n <> 0.
Proof.
  intros U A. destruct (cv_away u a U A) as [N HN]. exists N. intros n Hn E. specialize (HN n Hn).
  rewrite E, Rabs_R0 in HN. pose proof (Rabs_pos_lt a A). lra.
Qed.
Lemma cv_inv u a : Un_cv u a -> a <> 0 -> Un_cv (fun n => / u n) (/ a).
Proof.
  intros U A. apply (continuity_seq (fun x => / x) u a); auto.
  apply (continuity_pt_inv (fun x => x) a); auto. apply derivable_continuous_pt. apply derivable_pt_id.
Qed.
Lemma cv_div u v a b : Un_cv u a -> Un_cv v b -> b <> 0 -> Un_cv (fun n => u n / v n) (a / b).
Proof. intros. apply cv_mult; auto. apply cv_inv; auto. Qed.
Lemma cv_sqrt u a : Un_cv u a -> 0 <= a -> Un_cv (fun n => sqrt (u n)) (sqrt a).
Proof. intros U A. apply (continuity_seq sqrt u a); [|exact U]. apply continuity_pt_sqrt. exact A. Qed.
Lemma cv_pow u a m : Un_cv u a -> Un_cv (fun n => u n ^ m) (a ^ m).
Proof. intro U. induction m; cbn [pow]; [apply cv_const|apply cv_mult; auto]. Qed.

(** ** Activation functions *)
Lemma hs_lip x y : Rabs (hs x - hs y) <= / 6 * Rabs (x - y).
Proof. unfold hs. unfold Rabs. repeat mmcase; destruct (Rcase_abs _), (Rcase_abs (x - y)); lra. Qed.
Lemma sg_lip x y : Rabs (sg x - sg y) <= / 4 * Rabs (x - y).
Proof.
  assert (D : forall c, derivable_pt_lim sg c (exp (- c) / (1 + exp (- c)) ^ 2)).
  { intro c. unfold sg. pose proof (exp_pos (- c)).
    assert (D1 : derivable_pt_lim (fun r => exp (- r)) c (- exp (- c))).
    { apply (derivable_pt_lim_ext (comp exp (fun r => - r))); [intro; reflexivity|].
      replace (- exp (- c)) with (exp (- c) * -1) by ring.
      apply derivable_pt_lim_comp; [|apply derivable_pt_lim_exp].
      apply (derivable_pt_lim_ext (opp_fct id)); [intro; reflexivity|]. apply derivable_pt_lim_opp. apply derivable_pt_lim_id. }
    assert (D2 : derivable_pt_lim (fun r => 1 + exp (- r)) c (0 + - exp (- c))).
    { apply (derivable_pt_lim_plus (fct_cte 1) (fun r => exp (- r))); auto. apply derivable_pt_lim_const. }
    replace (exp (- c) / (1 + exp (- c)) ^ 2) with ((0 * (1 + exp (- c)) - (0 + - exp (- c)) * 1) / Rsqr (1 + exp (- c)))
      by (unfold Rsqr; field; lra).
    apply (derivable_pt_lim_div (fct_cte 1) (fun r => 1 + exp (- r))); auto; [apply derivable_pt_lim_const|lra]. }
  assert (B : forall c, 0 <= exp (- c) / (1 + exp (- c)) ^ 2 <= / 4).
  { intro c. pose proof (exp_pos (- c)) as E. set (e := exp (- c)) in *.
    assert (P : 0 < (1 + e) ^ 2) by (apply pow_lt; lra). split.
    - apply Rmult_le_pos; [lra|]. left. apply Rinv_0_lt_compat; auto.
    - apply (Rmult_le_reg_r ((1 + e) ^ 2)); auto. unfold Rdiv. rewrite Rmult_assoc, Rinv_l by (apply Rgt_not_eq; exact P). pose proof (Rle_0_sqr (1 - e)) as SQ. unfold Rsqr in SQ. cbn [pow]. lra. }
  assert (L : forall x y, x < y -> 0 <= sg y - sg x <= / 4 * (y - x)).
  { clear x y. intros x y L. destruct (MVT_cor2 sg (fun c => exp (- c) / (1 + exp (- c)) ^ 2) x y L) as (c & E & _); [auto|].
    rewrite E. specialize (B c). nra. }
  destruct (Rtotal_order x y) as [H|[H|H]].
  - specialize (L x y H). unfold Rabs. destruct (Rcase_abs _), (Rcase_abs (x - y)); lra.
  - subst. replace (sg y - sg y) with 0 by ring. replace (y - y) with 0 by ring. rewrite Rabs_R0. lra.
  - specialize (L y x H). unfold Rabs. destruct (Rcase_abs _), (Rcase_abs (x - y)); lra.
Qed.
(** Lipschitz constant of a shipped activation: a sixth of the slope for
    [hard_sigmoid], a quarter for [sigmoid]. *)
Lemma act_hard k r : ak_function k = hard_sigmoid -> act k r = hs (ak_alpha k * r).
Proof. intro H. unfold act, activation. rewrite H, hard_sigmoid_fin. reflexivity. Qed.
Lemma act_soft k r : ak_function k = sigmoid -> act k r = sg (ak_alpha k * r).
Proof. intro H. unfold act, activation. rewrite H, sigmoid_fin. reflexivity. Qed.
Lemma act_lip_hard k r s : ak_function k = hard_sigmoid -> Rabs (act k r - act k s) <= Rabs (ak_alpha k) / 6 * Rabs (r - s).
Proof.
  intro H. rewrite !act_hard by auto. eapply Rle_trans; [apply hs_lip|]. right.
  rewrite <- Rmult_minus_distr_l, Rabs_mult. unfold Rdiv. ring.
Qed.
Lemma act_lip_soft k r s : ak_function k = sigmoid -> Rabs (act k r - act k s) <= Rabs (ak_alpha k) / 4 * Rabs (r - s).
Proof.
  intro H. rewrite !act_soft by auto. eapply Rle_trans; [apply sg_lip|]. right.
  rewrite <- Rmult_minus_distr_l, Rabs_mult. unfold Rdiv. ring.
Qed.
Lemma act_lip k r s : shipped k -> Rabs (act k r - act k s) <= Rabs (ak_alpha k) / 4 * Rabs (r - s).
Proof.
  intros [H|H]; [apply act_lip_soft; auto|]. eapply Rle_trans; [apply act_lip_hard; auto|].
  pose proof (Rabs_pos (ak_alpha k)). pose proof (Rabs_pos (r - s)). apply Rmult_le_compat_r; lra.
Qed.
Lemma cv_act k u a : shipped k -> Un_cv u a -> Un_cv (fun n => act k (u n)) (act k a).
Proof. intros H U. eapply cv_lip; eauto. intros. apply act_lip; auto. Qed.
(** Far below zero the activation vanishes. *)
Lemma act_small k e : shipped k -> 0 < ak_alpha k -> 0 < e -> exists M, 0 < M /\ forall x, x <= - M -> act k x < e.
Proof.
  intros H A E. destruct H as [H|H].
  - exists (Rmax 1 (/ e / ak_alpha k)). split; [mmcase; lra|]. intros x X. rewrite act_soft by auto. unfold sg.
    set (M := Rmax 1 (/ e / ak_alpha k)) in *.
    assert (HM : / e <= ak_alpha k * M).
    { assert (/ e / ak_alpha k <= M) by (unfold M; apply Rmax_r).
      apply (Rmult_le_compat_l (ak_alpha k)) in H0; [|lra].
      replace (ak_alpha k * (/ e / ak_alpha k)) with (/ e) in H0 by (field; lra). lra. }
    assert (HX : / e <= - (ak_alpha k * x)) by nra.
    pose proof (exp_ineq1_le (- (ak_alpha k * x))). pose proof (Rinv_0_lt_compat e E).
    unfold Rdiv. rewrite Rmult_1_l. rewrite <- (Rinv_inv e). apply Rinv_lt_contravar; [|lra].
    apply Rmult_lt_0_compat; lra.
  - exists (3 / ak_alpha k). split; [apply Rdiv_lt_0_compat; lra|]. intros x X. rewrite act_hard by auto.
    rewrite hs_sat_lo; auto. apply (Rmult_le_compat_l (ak_alpha k)) in X; [|lra].
    replace (ak_alpha k * - (3 / ak_alpha k)) with (-3) in X by (field; lra). auto.
Qed.

(** ** Points and vectors *)
Lemma pconv_ext u v p : (forall n, u n = v n) -> pconv u p -> pconv v p.
Proof. intros E [H1 H2]. split; [apply (cv_ext _ _ _ (fun n => f_equal fst (E n)) H1)|apply (cv_ext _ _ _ (fun n => f_equal snd (E n)) H2)]. Qed.
Lemma pconv_const p : pconv (fun _ => p) p.
Proof. split; apply cv_const. Qed.
Lemma pconv_pair u v a b : Un_cv u a -> Un_cv v b -> pconv (fun n => (u n, v n)) (a, b).
Proof. split; auto. Qed.
Lemma pconv_sub u v p q : pconv u p -> pconv v q -> pconv (fun n => vsub (u n) (v n)) (vsub p q).
Proof. intros [A B] [C D]. split; apply cv_minus; auto. Qed.
Lemma pconv_add u v p q : pconv u p -> pconv v q -> pconv (fun n => vadd (u n) (v n)) (vadd p q).
Proof. intros [A B] [C D]. split; apply cv_plus; auto. Qed.
Lemma pconv_scale k c u p : Un_cv k c -> pconv u p -> pconv (fun n => vscale (k n) (u n)) (vscale c p).
Proof. intros K [A B]. split; apply cv_mult; auto. Qed.
Lemma pconv_opp u p : pconv u p -> pconv (fun n => vopp (u n)) (vopp p).
Proof. intros [A B]. split; apply cv_opp; auto. Qed.
Lemma cv_dot u v p q : pconv u p -> pconv v q -> Un_cv (fun n => dot (u n) (v n)) (dot p q).
Proof. intros [A B] [C D]. apply cv_plus; apply cv_mult; auto. Qed.
Lemma cv_cross u v p q : pconv u p -> pconv v q -> Un_cv (fun n => cross (u n) (v n)) (cross p q).
Proof. intros [A B] [C D]. apply cv_minus; apply cv_mult; auto. Qed.
Lemma cv_norm u p : pconv u p -> Un_cv (fun n => norm (u n)) (norm p).
Proof. intro H. apply cv_sqrt; [apply cv_dot; auto|apply dot_nonneg]. Qed.
Lemma pconv_ne u p q : pconv u p -> p <> q -> exists N, forall n, (N <= n)%nat -> u n <> q.
Proof.
  intros [A B] H. apply vec_neq in H. destruct H as [H|H].
  - destruct (cv_away0 (fun n => fst (u n) - fst q) (fst p - fst q)) as [N HN];
      [apply cv_minus; [auto|apply cv_const]|lra|]. exists N. intros n Hn E. apply (HN n Hn). rewrite E. ring.
  - destruct (cv_away0 (fun n => snd (u n) - snd q) (snd p - snd q)) as [N HN];
      [apply cv_minus; [auto|apply cv_const]|lra|]. exists N. intros n Hn E. apply (HN n Hn). rewrite E. ring.
Qed.
Lemma pconv_normalize u p : pconv u p -> p <> (0, 0) ->
  pconv (fun n => fst (normalize (u n))) (fst (normalize p)).
Proof.
  intros H N. pose proof (norm_pos p N) as NP. destruct (pconv_ne u p (0, 0) H N) as [M HM].
  rewrite normalize_nonzero by auto. cbn [fst]. destruct H as [A B].
  assert (C : Un_cv (fun n => norm (u n)) (norm p)) by (apply cv_norm; split; auto).
  split; cbn [fst snd].
  - apply (cv_eventually (fun n => fst (u n) / norm (u n)) _ _ M).
    + intros n Hn. rewrite normalize_nonzero by auto. reflexivity.
    + apply cv_div; auto; lra.
  - apply (cv_eventually (fun n => snd (u n) / norm (u n)) _ _ M).
    + intros n Hn. rewrite normalize_nonzero by auto. reflexivity.
    + apply cv_div; auto; lra.
Qed.

(** ** [segments_intersect] *)
Definition segv (k : akw) (tol : R) (P1 P2 P3 P4 : vec) : R :=
  if Reqb (seg_d P1 P2 P3 P4) 0 then 0
  else smin4 k (seg_a P1 P3 P4 / seg_d P1 P2 P3 P4) (seg_b P1 P2 P3 / seg_d P1 P2 P3 P4) tol.
Lemma seg_value g P1 P2 P3 P4 tol k : shipped k -> 0 < ak_alpha k ->
  segments_intersect g P1 P2 P3 P4 tol (Some true) k = fl (segv k tol P1 P2 P3 P4).
Proof.
  intros H A. unfold segv. destruct (Reqb_spec (seg_d P1 P2 P3 P4) 0) as [E|E].
  - apply C13_lemma; auto; [apply parallel_d; auto|lra].
  - apply seg_approx; auto.
Qed.
Lemma smin4_range k s t tol : shipped k -> 0 <= smin4 k s t tol.
Proof.
  intro H. unfold smin4. pose proof (act_range k (s + tol) H). pose proof (act_range k (1 + tol - s) H).
  pose proof (act_range k (t + tol) H). pose proof (act_range k (1 + tol - t) H). repeat mmcase; lra.
Qed.
Lemma smin4_far k s t tol e M : shipped k -> 0 < ak_alpha k -> (forall x, x <= - M -> act k x < e) ->
  M + Rabs tol + 1 <= Rabs s \/ M + Rabs tol + 1 <= Rabs t -> smin4 k s t tol < e.
Proof.
  intros H A HM X. unfold smin4. pose proof (Rle_abs tol). pose proof (Rle_abs (- tol)) as Y. rewrite Rabs_Ropp in Y.
  assert (Z : forall x, M + Rabs tol + 1 <= Rabs x -> Rmin (act k (x + tol)) (act k (1 + tol - x)) < e).
  { intros x Hx. destruct (Rle_dec 0 x) as [L|L].
    - rewrite (Rabs_pos_eq x) in Hx by auto. assert (act k (1 + tol - x) < e) by (apply HM; lra). mmcase; lra.
    - rewrite (Rabs_left x) in Hx by lra. assert (act k (x + tol) < e) by (apply HM; lra). mmcase; lra. }
  destruct X as [X|X]; apply Z in X; revert X; generalize (Rmin (act k (s + tol)) (act k (1 + tol - s)));
    generalize (Rmin (act k (t + tol)) (act k (1 + tol - t))); intros; mmcase; lra.
Qed.
Lemma one_line_iff P1 P2 P3 P4 : on_one_line P1 P2 P3 P4 <->
  seg_a P1 P3 P4 = 0 /\ seg_b P1 P2 P3 = 0 /\ seg_d P1 P2 P3 P4 = 0.
Proof.
  split.
  - intros (A & B & _ & (t1 & ->) & (t2 & ->) & (t3 & ->) & (t4 & ->)).
    unfold seg_a, seg_b, seg_d, vsub, at_. cbn [fst snd]. repeat split; ring.
  - unfold seg_a, seg_b, seg_d, vsub. cbn [fst snd]. intros (Ha & Hb & Hd).
    assert (K : forall P Q X, P <> Q -> (fst Q - fst P) * (snd X - snd P) = (snd Q - snd P) * (fst X - fst P) -> on_line P Q X).
    { intros P Q X N E. apply vec_neq in N. destruct (Req_dec (fst Q) (fst P)) as [Z|Z].
      - assert (snd Q <> snd P) by (destruct N; auto; congruence).
        exists ((snd X - snd P) / (snd Q - snd P)). unfold at_. apply vec_eq; cbn [fst snd].
        + rewrite Z in *. assert ((snd Q - snd P) * (fst X - fst P) = 0) by lra.
          apply Rmult_integral in H0. destruct H0; [lra|]. replace (fst P - fst P) with 0 by ring. lra.
        + field. lra.
      - exists ((fst X - fst P) / (fst Q - fst P)). unfold at_. apply vec_eq; cbn [fst snd]; [field; lra|].
        replace ((fst X - fst P) / (fst Q - fst P) * (snd Q - snd P)) with ((snd Q - snd P) * (fst X - fst P) / (fst Q - fst P)) by (field; lra).
        rewrite <- E. field. lra. }
    assert (T0 : forall P Q, on_line P Q P) by (intros; exists 0; apply vec_eq; cbn; ring).
    assert (T1 : forall P Q, on_line P Q Q) by (intros; exists 1; apply vec_eq; cbn; ring).
    assert (DEC : forall p q : vec, p = q \/ p <> q).
    { intros p q. destruct (Req_dec (fst p) (fst q)), (Req_dec (snd p) (snd q)); [left; apply vec_eq; auto|right; congruence..]. }
    destruct (DEC P1 P2) as [E|E].
    + subst P2. destruct (DEC P3 P4) as [F|F].
      * subst P4. destruct (DEC P1 P3) as [G|G].
        -- subst P3. exists P1, (fst P1 + 1, snd P1). split; [intro X; apply (f_equal fst) in X; cbn in X; lra|]. auto.
        -- exists P1, P3. auto.
      * exists P3, P4. split; auto. assert (on_line P3 P4 P1) by (apply K; auto; lra). auto.
    + exists P1, P2. split; auto. split; auto. split; auto. split; apply K; auto; lra.
Qed.

Section Seg.
  Variables (P1s P2s P3s P4s : nat -> vec) (P1 P2 P3 P4 : vec).
  Hypotheses (H1 : pconv P1s P1) (H2 : pconv P2s P2) (H3 : pconv P3s P3) (H4 : pconv P4s P4).
  Lemma cv_seg_a : Un_cv (fun n => seg_a (P1s n) (P3s n) (P4s n)) (seg_a P1 P3 P4).
  Proof.
    pose proof (pconv_sub _ _ _ _ H3 H4) as [B1 B2]. pose proof (pconv_sub _ _ _ _ H1 H3) as [C1 C2].
    apply cv_minus; apply cv_mult; auto.
  Qed.
  Lemma cv_seg_b : Un_cv (fun n => seg_b (P1s n) (P2s n) (P3s n)) (seg_b P1 P2 P3).
  Proof.
    pose proof (pconv_sub _ _ _ _ H2 H1) as [B1 B2]. pose proof (pconv_sub _ _ _ _ H1 H3) as [C1 C2].
    apply cv_minus; apply cv_mult; auto.
  Qed.
  Lemma cv_seg_d : Un_cv (fun n => seg_d (P1s n) (P2s n) (P3s n) (P4s n)) (seg_d P1 P2 P3 P4).
  Proof.
    pose proof (pconv_sub _ _ _ _ H2 H1) as [B1 B2]. pose proof (pconv_sub _ _ _ _ H3 H4) as [C1 C2].
    apply cv_minus; apply cv_mult; auto.
  Qed.
  (** A ratio whose numerator stays away from 0 while its denominator vanishes. *)
  Lemma ratio_far u v a M : Un_cv u a -> a <> 0 -> Un_cv v 0 -> 0 < M ->
    exists N, forall n, (N <= n)%nat -> v n <> 0 -> M <= Rabs (u n / v n).
  Proof.
    intros U A V HM. destruct (cv_away u a U A) as [N1 HN1]. pose proof (Rabs_pos_lt a A) as PA.
    destruct (V (Rabs a / 2 / M)) as [N2 HN2]; [apply Rdiv_lt_0_compat; lra|].
    exists (Nat.max N1 N2). intros n Hn Z. specialize (HN1 n ltac:(lia)). specialize (HN2 n ltac:(lia)).
    unfold R_dist in HN2. rewrite Rminus_0_r in HN2. pose proof (Rabs_pos_lt (v n) Z).
    unfold Rdiv. rewrite Rabs_mult, Rabs_inv.
    apply (Rmult_le_reg_r (Rabs (v n))); auto. rewrite Rmult_assoc, Rinv_l by lra. rewrite Rmult_1_r.
    apply (Rmult_lt_compat_r M) in HN2; auto. unfold Rdiv in HN2.
    replace (Rabs a * / 2 * / M * M) with (Rabs a / 2) in HN2 by (field; lra). lra.
  Qed.
  Lemma cv_segv k tol : shipped k -> 0 < ak_alpha k -> ~ on_one_line P1 P2 P3 P4 ->
    Un_cv (fun n => segv k tol (P1s n) (P2s n) (P3s n) (P4s n)) (segv k tol P1 P2 P3 P4).
  Proof.
    intros H A NL. pose proof cv_seg_a as CA. pose proof cv_seg_b as CB. pose proof cv_seg_d as CD.
    unfold segv at 2. destruct (Reqb_spec (seg_d P1 P2 P3 P4) 0) as [E|E].
    - rewrite E in CD. intros e He. destruct (act_small k e H A He) as (M & MP & HM).
      assert (X : seg_a P1 P3 P4 <> 0 \/ seg_b P1 P2 P3 <> 0).
      { destruct (Req_dec (seg_a P1 P3 P4) 0), (Req_dec (seg_b P1 P2 P3) 0); auto. exfalso. apply NL. apply one_line_iff; auto. }
      assert (Q : 0 < M + Rabs tol + 1) by (pose proof (Rabs_pos tol); lra).
      assert (Y : exists N, forall n, (N <= n)%nat -> seg_d (P1s n) (P2s n) (P3s n) (P4s n) <> 0 ->
        M + Rabs tol + 1 <= Rabs (seg_a (P1s n) (P3s n) (P4s n) / seg_d (P1s n) (P2s n) (P3s n) (P4s n)) \/
        M + Rabs tol + 1 <= Rabs (seg_b (P1s n) (P2s n) (P3s n) / seg_d (P1s n) (P2s n) (P3s n) (P4s n))).
      { destruct X as [X|X].
        - destruct (ratio_far _ _ _ _ CA X CD Q) as [N HN]. exists N. auto.
        - destruct (ratio_far _ _ _ _ CB X CD Q) as [N HN]. exists N. auto. }
      destruct Y as [N HN]. exists N. intros n Hn. unfold R_dist. rewrite Rminus_0_r. unfold segv.
      destruct (Reqb_spec (seg_d (P1s n) (P2s n) (P3s n) (P4s n)) 0) as [Z|Z]; [rewrite Rabs_R0; auto|].
      rewrite Rabs_pos_eq by (apply smin4_range; auto). apply (smin4_far _ _ _ _ _ M); auto.
    - destruct (cv_away0 _ _ CD E) as [N HN].
      apply (cv_eventually (fun n => smin4 k (seg_a (P1s n) (P3s n) (P4s n) / seg_d (P1s n) (P2s n) (P3s n) (P4s n))
        (seg_b (P1s n) (P2s n) (P3s n) / seg_d (P1s n) (P2s n) (P3s n) (P4s n)) tol) _ _ N).
      + intros n Hn. unfold segv. destruct (Reqb_spec (seg_d (P1s n) (P2s n) (P3s n) (P4s n)) 0); auto.
        exfalso. apply (HN n Hn). auto.
      + pose proof (cv_div _ _ _ _ CA CD E) as S1. pose proof (cv_div _ _ _ _ CB CD E) as S2. cbv beta in S1, S2.
        unfold smin4. repeat apply cv_min; apply cv_act; auto;
          first [apply cv_minus; [apply cv_const|assumption]|apply cv_plus; [assumption|apply cv_const]].
  Qed.
End Seg.
Lemma C66_lemma g P1s P2s P3s P4s P1 P2 P3 P4 tol k : shipped k -> 0 < ak_alpha k ->
  pconv P1s P1 -> pconv P2s P2 -> pconv P3s P3 -> pconv P4s P4 -> ~ on_one_line P1 P2 P3 P4 ->
  tconv (fun n => segments_intersect g (P1s n) (P2s n) (P3s n) (P4s n) tol (Some true) k)
    (segments_intersect g P1 P2 P3 P4 tol (Some true) k).
Proof.
  intros H A H1 H2 H3 H4 NL. eexists _, _. split; [intro n; apply seg_value; auto|]. split; [apply seg_value; auto|].
  apply cv_segv; auto.
Qed.
