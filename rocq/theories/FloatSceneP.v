(** The power received in a whole scene, in single precision. *)
From Coq Require Import Reals List Bool ZArith Lra Lia Psatz.
From Flocq Require Import Core.Core IEEE754.BinarySingleNaN.
From Verif Require CandidatesP.
From Verif Require Import Base BaseP LogicM GeometryM OptimizeM PathM CandidatesM SceneM FloatM FloatImageM FloatSceneM SpecGeometry SpecFloat32 SpecGrid SpecImage32 SpecAnywhere SpecAccuracy SpecScene32
  FloatP FloatLogicP FloatCmpP FloatAccP FloatGeomP FloatSegP FloatGridP FloatImageP FloatImageErrP FloatImageLossP FloatAnyP FloatObliqueP FloatShiftP FloatLenP FloatCrossP PropertiesAnywhere PropertiesOblique.
Import ListNotations.
Open Scope R_scope.
Local Notation length := List.length.

(** ** Lengths *)
Lemma foot_height tau L a b p r q : / 12 <= tau -> one_reflection tau L a b p r -> det a b a q = 0 -> tau * L <= dist p q /\ tau * L <= dist q r.
Proof.
  intros Ht (HL & _ & _ & _ & _ & _ & _ & _ & Hl & n & Nu & Nd & Hp & Hr) D. unfold det in D. unfold height in Hp, Hr.
  assert (L0 : 0 < L) by (destruct HL; pose proof (bpow_gt_0 radix2 (-50)); lra).
  set (d1 := fst b - fst a) in *. set (d2 := snd b - snd a) in *. set (e1 := fst q - fst a) in *. set (e2 := snd q - snd a) in *.
  assert (T0 : 0 < tau * L) by nra. assert (D0 : 0 < d1 * d1 + d2 * d2) by nra.
  assert (Q : fst n * e1 + snd n * e2 = 0).
  { apply Rmult_eq_reg_r with (d1 * d1 + d2 * d2); [|lra].
    replace ((fst n * e1 + snd n * e2) * (d1 * d1 + d2 * d2)) with ((fst n * d1 + snd n * d2) * (e1 * d1 + e2 * d2) + (snd n * d1 - fst n * d2) * (d1 * e2 - d2 * e1)) by ring.
    rewrite Nd, D. ring. }
  assert (H1 : hyp (fst n) (snd n) = 1) by (unfold hyp; rewrite Nu; apply sqrt_1).
  rewrite !dist_hyp. split.
  - pose proof (cs_abs (fst q - fst p) (snd q - snd p) (fst n) (snd n)) as C. rewrite H1, Rmult_1_r in C. apply Rabs_le_inv in C.
    unfold e1, e2 in Q. nra.
  - pose proof (cs_abs (fst r - fst q) (snd r - snd q) (fst n) (snd n)) as C. rewrite H1, Rmult_1_r in C. apply Rabs_le_inv in C.
    unfold e1, e2 in Q. nra.
Qed.
Lemma dist_moves p q q' e : close_by e q' q -> 0 <= e -> Rabs (dist p q' - dist p q) <= 17 / 12 * e /\ Rabs (dist q' p - dist q p) <= 17 / 12 * e.
Proof.
  intros [E1 E2] E0. rewrite !dist_hyp. split; (eapply Rle_trans; [apply hyp_diff|]).
  - apply hyp_small; [replace (fst q' - fst p - (fst q - fst p)) with (fst q' - fst q) by ring|replace (snd q' - snd p - (snd q - snd p)) with (snd q' - snd q) by ring]; auto.
  - apply hyp_small; [replace (fst p - fst q' - (fst p - fst q)) with (- (fst q' - fst q)) by ring|replace (snd p - snd q' - (snd p - snd q)) with (- (snd q' - snd q)) by ring]; rewrite Rabs_Ropp; auto.
Qed.
Lemma power_moves g h l l' th : 0 <= g <= 1 -> 0 < h -> 0 <= l -> 0 <= l' -> 0 <= th <= / 100 -> Rabs (l' - l) <= th * l ->
  / (h * h + l' * l') <= 103 / 100 / (h * h + l * l) /\ Rabs (g / (h * h + l' * l') - g / (h * h + l * l)) <= 208 / 100 * th / (h * h + l * l).
Proof.
  intros G H L0 L1 T E. assert (hh : 0 < h * h) by nra. assert (ll : 0 <= l * l) by nra. set (d := h * h + l * l). assert (d0 : 0 < d) by (unfold d; lra).
  assert (K : Rabs (h * h + l' * l' - d) <= 201 / 100 * th * d).
  { unfold d. replace (h * h + l' * l' - (h * h + l * l)) with ((l' - l) * (2 * l + (l' - l))) by ring. rewrite Rabs_mult.
    assert (A : Rabs (2 * l + (l' - l)) <= 201 / 100 * l) by (apply Rabs_le_inv in E; assert (th * l <= / 100 * l) by (apply Rmult_le_compat_r; lra); apply Rabs_le; lra).
    apply Rle_trans with (th * l * (201 / 100 * l)); [apply Rmult_le_compat; auto using Rabs_pos|].
    replace (th * l * (201 / 100 * l)) with (201 / 100 * th * (l * l)) by ring. apply Rmult_le_compat_l; lra. }
  destruct (quotient_near g (h * h + l' * l') d g (201 / 100 * th) 0 G G d0) as [_ Q]; [rewrite Rminus_eq_0, Rabs_R0; lra|exact K|lra|].
  destruct (quotient_near 1 (h * h + l' * l') d 1 (201 / 100 * th) 0) as [[_ Q1] _]; [lra|lra|auto|rewrite Rminus_eq_0, Rabs_R0; lra|exact K|lra|].
  split; [unfold Rdiv in *; lra|]. eapply Rle_trans; [exact Q|]. unfold Rdiv. apply Rmult_le_compat_r; [left; apply Rinv_0_lt_compat; auto|lra].
Qed.

(** ** The error of one path *)
Definition kappa (tau h : R) : R := bpow radix2 (-14) / (tau * tau) + bpow radix2 (-21) * (6 + 4 / h).
Lemma kappa_facts tau h : / 12 <= tau <= 1 -> / 256 <= h <= 1048576 -> 0 <= bpow radix2 (-21) * (6 + 4 / h) /\ 0 < / (tau * tau) <= 144 /\ 0 <= kappa tau h <= / 50.
Proof.
  intros Ht Hh. unfold kappa, Rdiv. assert (T : / 144 <= tau * tau) by nra. assert (I : 0 < / (tau * tau) <= 144) by (split; [apply Rinv_0_lt_compat; lra|replace 144 with (/ / 144) by lra; apply Rinv_le_contravar; lra]).
  assert (J : 0 < / h <= 256) by (split; [apply Rinv_0_lt_compat; lra|replace 256 with (/ / 256) by lra; apply Rinv_le_contravar; lra]).
  cbn -[Rinv]. repeat split; try lra.
Qed.
Definition good_term (c h kap : R) (term : ftruthy * f32) (pts : list (R * R)) (v : bool) : Prop :=
  exists x y, term = (FB v, x) /\ fval x = Fin y /\ 0 <= y /\
    Rabs (y - exact_power c h (length pts - 2) (polyline pts)) <= kap / (h * h + polyline pts * polyline pts).

Section Scene.
Variables (t tau s L : R) (tx rx : fvec) (p r : R * R) (ws : list fwall) (walls : list ((R * R) * (R * R))).
Variables (tol patch : f32) (k : fkw) (tl : R) (rc H : f32) (c h : R).
Hypotheses (T : fval F_SEG_TOL = Fin t) (T1 : 0 <= t <= 1) (Err : Rabs (t - 5 / 1000) <= bpow radix2 (-32)).
Hypotheses (Ht : / 12 <= tau <= 1) (Hs : / 128 <= s) (Op : stands_for tx p) (Or : stands_for rx r) (W : Forall2 wall_stands_for ws walls).
Hypotheses (HL : ordinary (8 * L)) (Z : fval patch = Fin 0) (Tv : fval tol = Fin tl) (Tl : / 10000000 / (tau * tau * (tau * tau)) < tl).
Hypotheses (Rc : fval rc = Fin c) (C0 : 0 <= c <= 1) (Hv : fval H = Fin h) (H0 : / 256 <= h <= 1048576).
Hypotheses (Tl1 : tl <= 1) (Near : forall a b, In (a, b) walls -> one_reflection tau L a b p r \/ opposite_sides L a b p r) (Size : forall a b a' b', In (a, b) walls -> In (a', b') walls -> close_by L a a').
Let m := bpow radix2 (-14) / (tau * tau).
Let M := bpow radix2 (-11) / (tau * s).

Lemma L0 : 0 < L. Proof. destruct HL as [A _]. pose proof (bpow_gt_0 radix2 (-50)). lra. Qed.
Lemma near_facts a b : In (a, b) walls -> ordinary L /\ True /\ within L a /\ within L p /\ within L r /\ close_by L a b /\ close_by L p a /\ close_by L r a /\ True.
Proof. intro I. destruct (Near a b I) as [H1|H1]; unfold one_reflection, opposite_sides in H1; tauto. Qed.
Lemma objects_are : Forall2 object_stands_for (map FWall ws) (segments walls).
Proof. clear -W. unfold segments. induction W as [|w [a b] ws' walls' [A B] F IH]; cbn [map]; constructor; [split; auto|auto]. Qed.
Lemma in_segments a b : In (Segment a b) (segments walls) -> In (a, b) walls.
Proof. unfold segments. intro I. apply in_map_iff in I. destruct I as ([a' b'] & E & I). injection E as <- <-. auto. Qed.
Lemma inv_M : 0 < / (tau * s) /\ / s <= / (tau * s).
Proof. assert (0 < tau * s) by nra. split; [apply Rinv_0_lt_compat; auto|apply Rinv_le_contravar; nra]. Qed.

Lemma direct_term term : legs_clear s L [p; r] (segments walls) [] -> f_path_term false tx rx ws tol patch k rc H [] term -> walls <> [] ->
  forall v, settled t m M [p; r] (segments walls) [] [] v -> good_term c h (kappa tau h) term [p; r] v.
Proof.
  intros Cl (inter & v' & x & Ri & V & P & ->) Ne v S. cbn in Ri. injection Ri as <-. cbn [f_ImagePath_from] in V, P. cbn [f_xys] in P.
  pose proof L0 as L0. destruct inv_M as [I0 I1].
  assert (Wc : well_conditioned (s / 4) [p; r] (segments walls) [] []).
  { split; [|intros i a b q J; destruct i; discriminate].
    intros i j a b p' r' J N N' Nt. destruct i as [|[|i]]; cbn in N, N'; [|discriminate|destruct i; discriminate]. injection N as <-. injection N' as <-.
    destruct (near_facts a b) as (_ & _ & _ & _ & _ & Cab & Cpa & Cra & _); [apply in_segments; eapply nth_error_In; eauto|].
    exists (2 * L). split; [destruct HL as [HA HB]; split|].
    - destruct (near_facts a b) as ([HA' _] & _); [apply in_segments; eapply nth_error_In; eauto|]. lra.
    - lra.
    - split; [eapply close_more; [|exact Cab]; lra|]. split; [replace (2 * L) with (L + L) by ring; eapply close_trans; [exact Cpa|apply close_sym, Cra]|]. split; [eapply close_more; [|apply close_sym, Cpa]; lra|].
      destruct (Cl 0%nat j a b p r J eq_refl eq_refl Nt) as [Tr|[Wo|Wo]].
      + left. unfold transverse in *. lra.
      + right. right. left. assert (bpow radix2 (-18) * (2 * L * (2 * L)) <= bpow radix2 (-7) * (L * L)) by (cbn; nra). lra.
      + right. right. right. assert (bpow radix2 (-18) * (2 * L * (2 * L)) <= bpow radix2 (-7) * (L * L)) by (cbn; nra). lra. }
  destruct (f_intersects_with_objects false (mkfpath [tx; rx] f_zero) (map FWall ws) [] patch k) as [ob|] eqn:Ro; [|rewrite f_inter_fold in Ro by (cbn; lia); discriminate].
  destruct (any_obstruction (s / 4) (mkfpath [tx; rx] f_zero) [p; r] (map FWall ws) (segments walls) [] patch k t ob) as [O1 O2]; auto; try lra; [constructor; [exact Op|constructor; [exact Or|constructor]]|apply objects_are|apply Wc|].
  assert (Mm : margin (s / 4) <= M).
  { unfold margin, M, Rdiv. rewrite Rinv_mult, Rinv_inv. assert (bpow radix2 (-18) * (/ s * 4) <= bpow radix2 (-18) * (/ (tau * s) * 4)) by (apply Rmult_le_compat_l; [apply bpow_ge_0|lra]).
    eapply Rle_trans; [exact H1|]. cbn -[Rinv]. lra. }
  assert (Vv : v' = FB v).
  { unfold f_is_valid in V. cbn [f_on_objects fold_left enumerate map] in V. rewrite Ro in V. cbn [rbind] in V. rewrite all3_exact in V. injection V as <-. f_equal.
    assert (Ls : f_to_b (f_less false f_zero tol k) = true).
    { cbn [f_less f_to_b]. rewrite val_ltb, val_zero, Tv. cbn [xltb]. apply Rltb_true. assert (0 < / (tau * tau * (tau * tau))) by (apply Rinv_0_lt_compat; assert (0 < tau * tau) by nra; nra). unfold Rdiv in Tl. nra. }
    cbn [f_less f_to_b] in Ls. rewrite Ls. rewrite !andb_true_r.
    destruct v; cbn [settled] in S.
    - destruct S as [_ S]. destruct (f_to_b ob) eqn:B; auto. elim S. specialize (O2 eq_refl). eapply obstructed_wider; [| |exact O2]; lra.
    - destruct S as [S|S]; [elim S; intros i a b q J; destruct i; discriminate|]. destruct (f_to_b ob) eqn:B; auto. assert (X : false = true) by (apply O1; eapply obstructed_wider; [| |exact S]; lra). discriminate. }
  subst v'. assert (Ln : polyline [p; r] <= bpow radix2 50).
  { assert (I1' : exists a b, In (a, b) walls) by (clear -Ne; destruct walls as [|[a b] wl]; [congruence|]; exists a, b; left; auto). destruct I1' as (a & b & Iab). destruct (near_facts a b Iab) as (_ & _ & _ & _ & _ & _ & Cpa & Cra & _).
    cbn [polyline]. rewrite dist_hyp. assert (Cpr : close_by (2 * L) r p) by (replace (2 * L) with (L + L) by ring; eapply close_trans; [exact Cra|apply close_sym, Cpa]).
    destruct Cpr as [X Y]. pose proof (hyp_small _ _ _ X Y). destruct HL as [_ HB]. lra. }
  assert (F2 : Forall2 stands_for [tx; rx] [p; r]) by (constructor; [exact Op|constructor; [exact Or|constructor]]).
  destruct (received_near [tx; rx] [p; r] rc c H h x F2 Ln ltac:(cbn; lia) Rc C0 Hv H0 P) as (y & Y & Y0 & E).
  exists x, y. split; auto. split; auto. split; auto. unfold exact_power. eapply Rle_trans; [exact E|]. cbn [length Nat.sub]. replace (INR 1) with 1 by reflexivity.
  unfold Rdiv. apply Rmult_le_compat_r; [left; apply Rinv_0_lt_compat; pose proof (polyline_pos [p; r]); nra|].
  destruct (kappa_facts tau h Ht H0) as (K1 & K2 & K3). assert (J : 0 < / h) by (apply Rinv_0_lt_compat; lra). unfold kappa, u24, Rdiv in *. cbn -[Rinv] in *. nra.
Qed.

Lemma reflected_term term j w a b q : nth_error ws j = Some w -> nth_error walls j = Some (a, b) -> one_reflection tau L a b p r -> reflection_point a b p r q ->
  legs_clear s L [p; q; r] (segments walls) [Z.of_nat j] -> f_path_term false tx rx ws tol patch k rc H [Z.of_nat j] term ->
  forall v, settled t m M [p; q; r] (segments walls) [Z.of_nat j] [Segment a b] v -> good_term c h (kappa tau h) term [p; q; r] v.
Proof.
  intros Jw Ja On Rq Cl (inter & v' & x & Ri & V & P & ->) v S. pose proof L0 as L0.
  assert (Ri' : inter = [w]).
  { cbn [map rseq] in Ri. unfold py_index in Ri. assert (Jl : (j < length ws)%nat) by (apply nth_error_Some; congruence).
    replace (Z.of_nat j <? 0)%Z with false in Ri by (symmetry; apply Z.ltb_ge; lia). replace ((0 <=? Z.of_nat j) && (Z.of_nat j <? Z.of_nat (length ws)))%Z%bool with true in Ri.
    - rewrite Nat2Z.id, Jw in Ri. cbn in Ri. injection Ri as <-. reflexivity.
    - symmetry. apply andb_true_intro. split; [apply Z.leb_le; lia|apply Z.ltb_lt; lia]. }
  subst inter. clear Ri. cbn [map] in V.
  assert (Ia : In (a, b) walls) by (eapply nth_error_In; eauto).
  assert (Wab : wall_stands_for w (a, b)).
  { clear -W Jw Ja. revert j Jw Ja. induction W as [|w' ab ws' walls' A F IH]; intros [|j] Jw Ja; cbn in *; try discriminate; [injection Jw as <-; injection Ja as ->; auto|eapply IH; eauto]. }
  assert (HL4 : ordinary (4 * L)) by (destruct HL, On as ((O1 & O2) & _); split; lra).
  assert (Sc : scene_within L a (segments walls)).
  { intros a' b' I. apply in_segments in I. destruct (near_facts a' b' I) as (_ & _ & _ & _ & _ & C & _). split; [auto|eapply Size; eauto]. }
  destruct (scene_any t T T1 Err tau s L w tx rx a b p r q (map FWall ws) (segments walls) (Z.of_nat j) tol patch k tl Ht Hs Wab Op Or objects_are On Rq HL4 Sc Cl Z Tv Tl) as (v'' & V' & A1 & A2).
  fold m in A1, A2. fold M in A1, A2. rewrite V' in V. injection V as <-.
  assert (Vv : v'' = v).
  { destruct v; cbn [settled] in S.
    - destruct S as [S1 S2]. apply A2; auto. apply (S1 0%nat); reflexivity.
    - destruct v''; auto. destruct A1 as [A A']; auto. destruct S as [S|S]; [|contradiction]. elim S. intros i a' b' q' I I'. destruct i as [|[|i]]; cbn in I, I'; try discriminate. injection I as <- <-. injection I' as <-. exact A. }
  subst v''. destruct Wab as [Oa Ob]. cbn [fst snd] in Oa, Ob.
  destruct (one_reflection_any tau L w tx rx a b p r q Ht Oa Ob Op Or On Rq) as ((x' & y' & Oq & Ex & Ey) & _ & R1 & R2).
  destruct (one_path tx w rx) as [Xs _]. rewrite Xs in P. set (e := 262 * u24 * L / tau) in *. pose proof u24_pos as U.
  assert (Ee : 0 <= e <= L / 5200).
  { split; [pose proof (Rabs_pos (x' - fst q)); lra|]. apply Rmult_le_reg_r with tau; [lra|]. unfold e, Rdiv at 1. rewrite (Rmult_assoc _ (/ tau)), Rinv_l, Rmult_1_r by lra. unfold u24. nra. }
  assert (Cq : close_by e (x', y') q) by (split; auto).
  destruct (foot_height tau L a b p r q (proj1 Ht) On (proj1 Rq)) as [F1 F2].
  destruct (dist_moves p q (x', y') e Cq (proj1 Ee)) as [M1 _]. destruct (dist_moves r q (x', y') e Cq (proj1 Ee)) as [_ M2].
  pose proof On as (HLo & _ & _ & _ & _ & Cab & Cpa & Cra & _).
  assert (Cqa : close_by (17 / 12 * L) q a) by (split; auto).
  assert (D1 : dist p q <= 17 / 12 * (29 / 12 * L)).
  { rewrite dist_hyp. assert (C1 : close_by (29 / 12 * L) q p) by (replace (29 / 12 * L) with (17 / 12 * L + L) by field; eapply close_trans; [exact Cqa|apply close_sym, Cpa]). destruct C1. apply hyp_small; auto. }
  assert (D2 : dist q r <= 17 / 12 * (29 / 12 * L)).
  { rewrite dist_hyp. assert (C1 : close_by (29 / 12 * L) r q) by (replace (29 / 12 * L) with (L + 17 / 12 * L) by field; eapply close_trans; [exact Cra|apply close_sym, Cqa]). destruct C1. apply hyp_small; auto. }
  assert (Pl : polyline [p; q; r] = dist p q + dist q r) by (cbn [polyline]; ring). assert (Pl' : polyline [p; (x', y'); r] = dist p (x', y') + dist (x', y') r) by (cbn [polyline]; ring).
  apply Rabs_le_inv in M1, M2. destruct HL as [_ HB].
  assert (Ln : polyline [p; (x', y'); r] <= bpow radix2 50) by (rewrite Pl'; lra).
  set (th := 372 * u24 / (tau * tau)). destruct (kappa_facts tau h Ht H0) as (K1 & K2 & K3).
  assert (Th : 0 <= th <= / 100) by (unfold th, Rdiv, u24; lra).
  assert (Dl : Rabs (polyline [p; (x', y'); r] - polyline [p; q; r]) <= th * polyline [p; q; r]).
  { rewrite Pl, Pl'. apply Rle_trans with (17 / 6 * e); [apply Rabs_le; lra|]. apply Rle_trans with (th * (2 * (tau * L))); [|apply Rmult_le_compat_l; lra].
    unfold th, e. replace (372 * u24 / (tau * tau) * (2 * (tau * L))) with (744 * (u24 * L / tau)) by (field; lra). replace (17 / 6 * (262 * u24 * L / tau)) with (17 / 6 * 262 * (u24 * L / tau)) by (field; lra).
    apply Rmult_le_compat_r; [|lra]. apply Rmult_le_pos; [nra|left; apply Rinv_0_lt_compat; lra]. }
  assert (St : Forall2 stands_for [tx; f_backward rx (w, f_image_of w tx); rx] [p; (x', y'); r]).
  { constructor; [exact Op|]. constructor; [exact Oq|]. constructor; [exact Or|constructor]. }
  destruct (received_near _ _ rc c H h x St Ln ltac:(cbn; lia) Rc C0 Hv H0 P) as (y & Y & Y0 & E).
  exists x, y. split; auto. split; auto. split; auto. cbn [length Nat.sub] in E |- *. unfold exact_power.
  assert (G1 : 0 <= c ^ 1 <= 1) by (cbn; lra).
  destruct (power_moves (c ^ 1) h (polyline [p; q; r]) (polyline [p; (x', y'); r]) th G1 ltac:(lra) (polyline_pos _) (polyline_pos _) Th Dl) as [Q1 Q2].
  set (d := h * h + polyline [p; q; r] * polyline [p; q; r]) in *. set (d' := h * h + polyline [p; (x', y'); r] * polyline [p; (x', y'); r]) in *.
  replace (y - c ^ 1 / d) with ((y - c ^ 1 / d') + (c ^ 1 / d' - c ^ 1 / d)) by ring. eapply Rle_trans; [apply Rabs_triang|].
  replace (INR 2) with 2 in E by (cbn; lra). assert (J : 0 < / h) by (apply Rinv_0_lt_compat; lra). assert (d0 : 0 < d) by (unfold d; pose proof (polyline_pos [p; q; r]); nra). assert (d1 : 0 < / d) by (apply Rinv_0_lt_compat; auto).
  assert (E' : 4 * u24 * (2 + 4 + 2 * 2 / h) / d' <= 4 * u24 * (6 + 4 / h) * (103 / 100 / d)).
  { unfold Rdiv at 1. replace (2 + 4 + 2 * 2 / h) with (6 + 4 / h) by (field; lra). apply Rmult_le_compat_l; [|exact Q1]. apply Rmult_le_pos; [lra|]. unfold Rdiv. lra. }
  apply Rle_trans with (4 * u24 * (6 + 4 / h) * (103 / 100 / d) + 208 / 100 * th / d); [lra|].
  assert (U1 : 0 <= u24 * / (tau * tau)) by (apply Rmult_le_pos; lra).
  assert (U2 : 0 <= u24 * (6 + 4 / h)) by (apply Rmult_le_pos; unfold Rdiv; lra).
  replace (4 * u24 * (6 + 4 / h) * (103 / 100 / d) + 208 / 100 * th / d) with ((4 * u24 * (6 + 4 / h) * (103 / 100) + 208 / 100 * th) * / d) by (field; lra).
  change (kappa tau h / d) with (kappa tau h * / d). apply Rmult_le_compat_r; [lra|]. unfold kappa, th.
  replace (bpow radix2 (-14)) with (1024 * u24) by (unfold u24; cbn; lra). replace (bpow radix2 (-21)) with (8 * u24) by (unfold u24; cbn; lra).
  clear - U1 U2. unfold Rdiv in *. lra.
Qed.

Lemma opposite_term term j w a b : nth_error ws j = Some w -> nth_error walls j = Some (a, b) -> opposite_sides L a b p r ->
  f_path_term false tx rx ws tol patch k rc H [Z.of_nat j] term -> exists q, good_term c h (kappa tau h) term [p; q; r] false.
Proof.
  intros Jw Ja On (inter & v' & x & Ri & V & P & ->). pose proof L0 as L0.
  assert (Ri' : inter = [w]).
  { cbn [map rseq] in Ri. unfold py_index in Ri. assert (Jl : (j < length ws)%nat) by (apply nth_error_Some; congruence).
    replace (Z.of_nat j <? 0)%Z with false in Ri by (symmetry; apply Z.ltb_ge; lia). replace ((0 <=? Z.of_nat j) && (Z.of_nat j <? Z.of_nat (length ws)))%Z%bool with true in Ri.
    - rewrite Nat2Z.id, Jw in Ri. cbn in Ri. injection Ri as <-. reflexivity.
    - symmetry. apply andb_true_intro. split; [apply Z.leb_le; lia|apply Z.ltb_lt; lia]. }
  subst inter. clear Ri. cbn [map] in V.
  assert (Wab : wall_stands_for w (a, b)).
  { clear -W Jw Ja. revert j Jw Ja. induction W as [|w' ab ws' walls' A F IH]; intros [|j] Jw Ja; cbn in *; try discriminate; [injection Jw as <-; injection Ja as ->; auto|eapply IH; eauto]. }
  destruct Wab as [Oa Ob]. cbn [fst snd] in Oa, Ob.
  destruct (opposite_any L w tx rx a b p r Oa Ob Op Or On) as [(q & Oq & D1 & D2) (lo & Lo & Lo1)].
  destruct (one_path tx w rx) as [Xs Ls]. exists q.
  assert (Vv : v' = FB false).
  { unfold f_is_valid in V. destruct (f_intersects_with_objects false (f_ImagePath_from tx [w] rx) (map FWall ws) [Z.of_nat j] patch k) as [ob|] eqn:Ro; [|discriminate].
    cbn [rbind] in V. rewrite all3_exact in V. injection V as <-. f_equal.
    assert (Lt : f_to_b (f_less false (f_loss (f_ImagePath_from tx [w] rx)) tol k) = false).
    { cbn [f_to_b f_less]. rewrite Ls, val_ltb, (zero_add_val _ _ val_zero), Lo, Tv. cbn [xltb]. apply Rltb_false. lra. }
    cbn [f_to_b f_less] in Lt |- *. change (f_ltb (f_path_loss [w] (f_image_points tx [w] rx)) tol = false) in Lt. rewrite Lt, !andb_false_r. reflexivity. }
  subst v'. rewrite Xs in P. destruct On as (_ & [_ HL2] & _).
  assert (Pl : polyline [p; q; r] = dist p q + dist q r) by (cbn [polyline]; ring).
  assert (Ln : polyline [p; q; r] <= bpow radix2 50) by (rewrite Pl; lra).
  assert (St : Forall2 stands_for [tx; f_backward rx (w, f_image_of w tx); rx] [p; q; r]).
  { constructor; [exact Op|]. constructor; [exact Oq|]. constructor; [exact Or|constructor]. }
  destruct (received_near _ _ rc c H h x St Ln ltac:(cbn; lia) Rc C0 Hv H0 P) as (y & Y & Y0 & E).
  exists x, y. split; auto. split; auto. split; auto. unfold exact_power. cbn [length Nat.sub] in E |- *.
  eapply Rle_trans; [exact E|]. replace (INR 2) with 2 by (cbn; lra).
  unfold Rdiv. apply Rmult_le_compat_r; [left; apply Rinv_0_lt_compat; pose proof (polyline_pos [p; q; r]); nra|].
  destruct (kappa_facts tau h Ht H0) as (K1 & K2 & K3). assert (J : 0 < / h) by (apply Rinv_0_lt_compat; lra). unfold kappa, u24, Rdiv in *. cbn -[Rinv] in *. nra.
Qed.
End Scene.


(** ** The sum *)
Definition power_of (c h : R) (pv : list (R * R) * bool) : R := let '(pts, v) := pv in if v : bool then exact_power c h (length pts - 2) (polyline pts) else 0.
Lemma terms_sum c h kap terms pvs : 0 <= c <= 1 -> / 256 <= h -> 0 <= kap <= / 50 -> Forall2 (fun term pv => good_term c h kap term (fst pv) (snd pv)) terms pvs ->
  exists rs, Forall2 contributes terms rs /\ Forall (fun t => exists b, fst t = FB b) terms /\
    Rabs (sum_of rs - sum_of (map (power_of c h) pvs)) <= kap * sum_of (map (power_of 1 h) pvs) /\
    0 <= sum_of rs <= 51 / 50 * sum_of (map (power_of 1 h) pvs) /\ 0 <= sum_of (map (power_of 1 h) pvs) <= 65536 * INR (length terms).
Proof.
  intros C Hh K F. induction F as [|term [pts v] terms pvs G F (rs & F1 & F2 & E & [B0 B1] & [S0 S1])].
  - exists []. cbn. rewrite Rminus_eq_0, Rabs_R0. repeat split; try constructor; lra.
  - destruct G as (x & y & -> & Vx & y0 & Ey). cbn [fst snd] in Ey. set (d := h * h + polyline pts * polyline pts) in *.
    assert (hh : / 65536 <= h * h) by nra. pose proof (polyline_pos pts) as P0.
    assert (d0 : / 65536 <= d) by (unfold d; nra). assert (d1 : 0 < / d <= 65536) by (split; [apply Rinv_0_lt_compat; lra|replace 65536 with (/ / 65536) by lra; apply Rinv_le_contravar; lra]).
    assert (Cp : 0 <= c ^ (length pts - 2) <= 1).
    { generalize (length pts - 2)%nat. intro n. induction n as [|n IHn]; cbn; [lra|]. split; [apply Rmult_le_pos; lra|]. replace 1 with (1 * 1) by ring. apply Rmult_le_compat; lra. }
    assert (P1 : power_of 1 h (pts, true) = / d) by (unfold power_of, exact_power; rewrite pow1; fold d; unfold Rdiv; ring).
    assert (Pc : 0 <= power_of c h (pts, true) <= / d).
    { unfold power_of, exact_power. fold d. unfold Rdiv. split; [apply Rmult_le_pos; lra|]. rewrite <- (Rmult_1_l (/ d)) at 2. apply Rmult_le_compat_r; lra. }
    assert (kd : kap * / d <= / 50 * / d) by (apply Rmult_le_compat_r; lra). pose proof (Rmult_le_pos _ _ (proj1 K) (Rlt_le _ _ (proj1 d1))) as kd0.
    exists ((if v then y else 0) :: rs). assert (LS : INR (length ((FB v, x) :: terms)) = INR (length terms) + 1) by (cbn [length]; apply S_INR). cbn [snd]. rewrite LS. clear LS. cbn [map sum_of fold_right].
    fold (sum_of rs). fold (sum_of (map (power_of c h) pvs)). fold (sum_of (map (power_of 1 h) pvs)).
    split; [|split; [|split; [|split; [split|split]]]].
    + constructor; auto. exists (if v then 1 else 0), y. cbn [fst snd weighs]. destruct v; repeat split; auto; ring.
    + constructor; auto. exists v. reflexivity.
    + destruct v; [|cbn [power_of]; rewrite !Rplus_0_l; auto]. change (Rabs (y - power_of c h (pts, true)) <= kap / d) in Ey.
      rewrite P1. clear - E Ey. unfold Rdiv in Ey. apply Rabs_le_inv in E, Ey. apply Rabs_le. lra.
    + destruct v; lra.
    + destruct v; [|cbn [power_of]; lra]. rewrite P1. change (Rabs (y - power_of c h (pts, true)) <= kap / d) in Ey. apply Rabs_le_inv in Ey. unfold Rdiv in Ey. lra.
    + destruct v; [rewrite P1|cbn [power_of]]; lra.
    + destruct v; [rewrite P1|cbn [power_of]]; lra.
Qed.
Lemma sum_accurate c h kap terms paths vs : 0 <= c <= 1 -> / 256 <= h -> 0 <= kap <= / 50 -> (length terms <= 1000)%nat ->
  Forall2 (fun term pv => good_term c h kap term (fst pv) (snd pv)) terms (combine paths vs) ->
  exists a, fval (f_accumulate terms) = Fin a /\ 0 <= a /\ Rabs (a - scene_power c h paths vs) <= (kap + bpow radix2 (-23) * INR (length terms)) * scene_power 1 h paths vs.
Proof.
  intros C Hh K N F. destruct (terms_sum c h kap terms _ C Hh K F) as (rs & F1 & F2 & E & [B0 B1] & [S0 S1]).
  change (sum_of (map (power_of c h) (combine paths vs))) with (scene_power c h paths vs) in *. change (sum_of (map (power_of 1 h) (combine paths vs))) with (scene_power 1 h paths vs) in *.
  assert (N1 : INR (length terms) <= 1000) by (replace 1000 with (INR 1000) by (rewrite INR_IZR_INZ; reflexivity); apply le_INR; auto). pose proof (pos_INR (length terms)) as N0.
  destruct (accumulate_bool terms rs F1 F2 N) as (a & A & A0 & Ea).
  { apply Rle_trans with (bpow radix2 30); [cbn; lra|apply bpow_le; lia]. }
  exists a. split; auto. split; auto. pose proof u24_pos as U.
  assert (X : u24 * INR (length terms) * sum_of rs <= bpow radix2 (-23) * INR (length terms) * scene_power 1 h paths vs).
  { replace (bpow radix2 (-23)) with (2 * u24) by (unfold u24; cbn; lra). set (P := scene_power 1 h paths vs) in *. replace (2 * u24 * INR (length terms) * P) with (u24 * INR (length terms) * (2 * P)) by ring. apply Rmult_le_compat_l; [apply Rmult_le_pos; lra|lra]. }
  apply Rabs_le_inv in E, Ea. apply Rabs_le. lra.
Qed.

(** ** The candidates *)
Lemma first_candidates n : map (map Z.of_nat) (all_path_candidates n 0 1 None None) = [] :: map (fun j => [Z.of_nat j]) (seq 0 n).
Proof.
  unfold all_path_candidates, order_range. cbn [Nat.sub seq flat_map complete_paths app map]. f_equal.
  rewrite app_nil_r. rewrite CandidatesP.filter_all. induction (seq 0 n) as [|i l IH]; [reflexivity|]. cbn. rewrite IH. reflexivity.
Qed.
