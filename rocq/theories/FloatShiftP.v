(** How the segment tests change when the ends of a leg are moved a little. *)
From Coq Require Import Reals List Bool ZArith Lra Lia Psatz.
From Flocq Require Import Core.Core.
From Verif Require Import Base BaseP FloatM SpecFloat32 SpecGrid SpecImage32 SpecAnywhere FloatAnyP.
Import ListNotations.
Open Scope R_scope.

Lemma mul_le x y A B : Rabs x <= A -> Rabs y <= B -> Rabs (x * y) <= A * B.
Proof. intros X Y. rewrite Rabs_mult. apply Rmult_le_compat; auto using Rabs_pos. Qed.
Lemma cross_le x1 x2 y1 y2 A B : Rabs x1 <= A -> Rabs x2 <= A -> Rabs y1 <= B -> Rabs y2 <= B -> Rabs (x1 * y2 - x2 * y1) <= 2 * (A * B).
Proof.
  intros. unfold Rminus. eapply Rle_trans; [apply Rabs_triang|]. rewrite Rabs_Ropp. pose proof (mul_le x1 y2 A B). pose proof (mul_le x2 y1 A B). lra.
Qed.
Lemma parallel_det a b p q : parallel a b p q <-> det a b p q = 0.
Proof. unfold parallel, det. split; lra. Qed.
Lemma crosses_char lo hi a b p q : det a b p q <> 0 ->
  (crosses lo hi a b p q <-> exists s t, lo <= s <= hi /\ lo <= t <= hi /\ s * det a b p q = - det p a p q /\ t * det a b p q = det a p a b).
Proof.
  intro D. unfold crosses. split; intros (s & t & S & T & E1 & E2); exists s, t; split; auto; split; auto.
  - unfold det in *. set (d1 := fst b - fst a) in *. set (d2 := snd b - snd a) in *. set (v1 := fst q - fst p) in *. set (v2 := snd q - snd p) in *.
    assert (F1 : fst a - fst p = t * v1 - s * d1) by lra. assert (F2 : snd a - snd p = t * v2 - s * d2) by lra.
    replace (fst p - fst a) with (- (fst a - fst p)) by ring. replace (snd p - snd a) with (- (snd a - snd p)) by ring. rewrite F1, F2. split; ring.
  - split; apply Rmult_eq_reg_l with (det a b p q); auto; rewrite !Rmult_plus_distr_l, <- !Rmult_assoc, (Rmult_comm (det a b p q) s), (Rmult_comm (det a b p q) t), E1, E2; unfold det; ring.
Qed.

Section Shift.
Variables (L e : R) (a b p q p' q' : R * R).
Hypothesis L0 : 0 < L.
Hypothesis He : 0 <= e <= L / 5200.
Hypothesis Cab : close_by L a b.
Hypothesis Cap : close_by (5 / 2 * L) a p.
Hypothesis Cpq : close_by (5 / 2 * L) p q.
Hypothesis Mp : close_by e p' p.
Hypothesis Mq : close_by e q' q.
Lemma det_moves : Rabs (det a b p' q' - det a b p q) <= 4 * (L * e).
Proof.
  destruct Cab as [A1 A2], Mp as [P1 P2], Mq as [Q1 Q2].
  replace (det a b p' q' - det a b p q) with ((fst b - fst a) * ((snd q' - snd q) - (snd p' - snd p)) - (snd b - snd a) * ((fst q' - fst q) - (fst p' - fst p))) by (unfold det; ring).
  eapply Rle_trans; [apply cross_le with (A := L) (B := 2 * e)|lra].
  - rewrite Rabs_minus_sym. auto.
  - rewrite Rabs_minus_sym. auto.
  - apply Rabs_le_inv in P1, P2, Q1, Q2. apply Rabs_le. lra.
  - apply Rabs_le_inv in P1, P2, Q1, Q2. apply Rabs_le. lra.
Qed.
Lemma left_moves : Rabs (det p' a p' q' - det p a p q) <= 16 * (L * e).
Proof.
  destruct Cap as [A1 A2], Cpq as [B1 B2], Mp as [P1 P2], Mq as [Q1 Q2].
  set (e1 := fst p' - fst p) in *. set (e2 := snd p' - snd p) in *. set (g1 := fst q' - fst q) in *. set (g2 := snd q' - snd q) in *.
  replace (det p' a p' q' - det p a p q) with (((fst a - fst p) * (g2 - e2) - (snd a - snd p) * (g1 - e1)) - (e1 * (snd q - snd p) - e2 * (fst q - fst p)) - (e1 * g2 - e2 * g1)) by (unfold det, e1, e2, g1, g2; ring).
  assert (C1 : Rabs ((fst a - fst p) * (g2 - e2) - (snd a - snd p) * (g1 - e1)) <= 2 * (5 / 2 * L * (2 * e))).
  { apply cross_le; auto; apply Rabs_le_inv in P1, P2, Q1, Q2; apply Rabs_le; lra. }
  assert (C2 : Rabs (e1 * (snd q - snd p) - e2 * (fst q - fst p)) <= 2 * (e * (5 / 2 * L))) by (apply cross_le; auto; rewrite Rabs_minus_sym; auto).
  assert (C3 : Rabs (e1 * g2 - e2 * g1) <= 2 * (e * e)) by (apply cross_le; auto).
  assert (e * e <= L * e / 5200) by nra. assert (0 <= L * e) by nra.
  apply Rabs_le_inv in C1, C2, C3. apply Rabs_le. lra.
Qed.
Lemma right_moves : Rabs (det a p' a b - det a p a b) <= 2 * (L * e).
Proof.
  destruct Cab as [A1 A2], Mp as [P1 P2].
  replace (det a p' a b - det a p a b) with ((fst p' - fst p) * (snd b - snd a) - (snd p' - snd p) * (fst b - fst a)) by (unfold det; ring).
  eapply Rle_trans; [apply cross_le with (A := e) (B := L); auto; rewrite Rabs_minus_sym; auto|lra].
Qed.
Lemma off_moves : well_off L a b p q -> far_off (5 / 2 * L) a b p' q'.
Proof.
  pose proof det_moves as D. pose proof left_moves as N. pose proof right_moves as M. apply Rabs_le_inv in D, N, M.
  assert (Le0 : 0 <= L * e <= L * L / 5200) by nra. unfold well_off, far_off.
  assert (T : bpow radix2 (-18) * (5 / 2 * L * (5 / 2 * L)) <= / 40000 * (L * L)) by (cbn; nra).
  assert (U : bpow radix2 (-7) = / 128) by (cbn; lra). rewrite U.
  pose proof (Rabs_triang_inv (det p a p q) (det p a p q - det p' a p' q')) as I1. pose proof (Rabs_triang_inv (det a p a b) (det a p a b - det a p' a b)) as I2.
  pose proof (Rabs_triang (det a b p q) (det a b p' q' - det a b p q)) as I3.
  replace (det a b p q + (det a b p' q' - det a b p q)) with (det a b p' q') in I3 by ring.
  replace (det p a p q - (det p a p q - det p' a p' q')) with (det p' a p' q') in I1 by ring. replace (det a p a b - (det a p a b - det a p' a b)) with (det a p' a b) in I2 by ring.
  assert (D' : Rabs (det a b p' q' - det a b p q) <= 4 * (L * e)) by (apply Rabs_le; lra).
  assert (N' : Rabs (det p a p q - det p' a p' q') <= 16 * (L * e)) by (apply Rabs_le; lra).
  assert (M' : Rabs (det a p a b - det a p' a b) <= 2 * (L * e)) by (apply Rabs_le; lra).
  intros [H|H]; [left|right]; lra.
Qed.
Lemma transverse_moves s : / 128 <= s -> transverse s L a b p q -> 9 / 10 * s * (L * L) <= Rabs (det a b p' q').
Proof.
  intros S H. unfold transverse in H. pose proof det_moves as D. assert (Le0 : 0 <= L * e <= L * L / 5200) by nra.
  pose proof (Rabs_triang_inv (det a b p q) (det a b p q - det a b p' q')) as I. replace (det a b p q - (det a b p q - det a b p' q')) with (det a b p' q') in I by ring.
  rewrite (Rabs_minus_sym (det a b p q)) in I. assert (/ 128 * (L * L) <= s * (L * L)) by nra. lra.
Qed.
(** [D] is the determinant after the move in one direction, before it in the other. *)
Lemma quotient_moves s x D0 N0 D1 N1 : Rabs x <= 2 -> 0 < s -> x * D0 = N0 -> Rabs (D1 - D0) <= 4 * (L * e) -> Rabs (N1 - N0) <= 16 * (L * e) -> 9 / 10 * s * (L * L) <= Rabs D1 ->
  exists y, y * D1 = N1 /\ Rabs (y - x) <= 80 / 3 * (e / (L * s)).
Proof.
  intros X S E HD HN Lo. assert (LL : 0 < L * L) by nra. assert (0 < Rabs D1) by nra. assert (D1 <> 0) by (intro Z; rewrite Z, Rabs_R0 in *; lra).
  exists (N1 / D1). split; [field; auto|]. apply Rmult_le_reg_r with (Rabs D1); auto. rewrite <- Rabs_mult.
  replace ((N1 / D1 - x) * D1) with ((N1 - N0) - x * (D1 - D0)) by (rewrite <- E; field; auto).
  assert (K : Rabs (x * (D1 - D0)) <= 2 * (4 * (L * e))) by (apply mul_le; auto).
  assert (K' : Rabs (N1 - N0 - x * (D1 - D0)) <= 24 * (L * e)) by (unfold Rminus at 1; eapply Rle_trans; [apply Rabs_triang|]; rewrite Rabs_Ropp; lra).
  eapply Rle_trans; [exact K'|]. apply Rle_trans with (80 / 3 * (e / (L * s)) * (9 / 10 * s * (L * L))); [right; field; lra|].
  apply Rmult_le_compat_l; [|auto]. apply Rmult_le_pos; [lra|]. apply Rmult_le_pos; [lra|]. left. apply Rinv_0_lt_compat. nra.
Qed.
Lemma crosses_moves s lo hi : / 128 <= s -> transverse s L a b p q -> -2 <= lo -> hi <= 2 -> crosses lo hi a b p q ->
  ~ parallel a b p' q' /\ crosses (lo - 80 / 3 * (e / (L * s))) (hi + 80 / 3 * (e / (L * s))) a b p' q'.
Proof.
  intros S T Lo Hi C. pose proof (transverse_moves s S T) as T'. assert (LL : 0 < L * L) by nra.
  assert (D0 : det a b p q <> 0) by (intro Z; unfold transverse in T; rewrite Z, Rabs_R0 in T; nra).
  assert (D1 : det a b p' q' <> 0) by (intro Z; rewrite Z, Rabs_R0 in T'; nra).
  split; [rewrite parallel_det; auto|]. apply crosses_char in C; auto. destruct C as (x & y & X & Y & E1 & E2). apply crosses_char; auto.
  destruct (quotient_moves s x (det a b p q) (- det p a p q) (det a b p' q') (- det p' a p' q')) as (x' & X' & Bx); auto using det_moves; try lra.
  { apply Rabs_le. lra. } { pose proof left_moves. replace (- det p' a p' q' - - det p a p q) with (- (det p' a p' q' - det p a p q)) by ring. rewrite Rabs_Ropp. auto. }
  destruct (quotient_moves s y (det a b p q) (det a p a b) (det a b p' q') (det a p' a b)) as (y' & Y' & By); auto using det_moves; try lra.
  { apply Rabs_le. lra. } { pose proof right_moves. assert (0 <= L * e) by nra. lra. }
  exists x', y'. apply Rabs_le_inv in Bx, By. repeat split; auto; lra.
Qed.
Lemma crosses_back s lo hi : / 128 <= s -> transverse s L a b p q -> -2 <= lo -> hi <= 2 -> crosses lo hi a b p' q' ->
  ~ parallel a b p q /\ crosses (lo - 80 / 3 * (e / (L * s))) (hi + 80 / 3 * (e / (L * s))) a b p q.
Proof.
  intros S T Lo Hi C. pose proof (transverse_moves s S T) as T'. assert (LL : 0 < L * L) by nra.
  assert (D0 : det a b p q <> 0) by (intro Z; unfold transverse in T; rewrite Z, Rabs_R0 in T; nra).
  assert (D1 : det a b p' q' <> 0) by (intro Z; rewrite Z, Rabs_R0 in T'; nra).
  split; [rewrite parallel_det; auto|]. apply crosses_char in C; auto. destruct C as (x & y & X & Y & E1 & E2). apply crosses_char; auto.
  assert (T2 : 9 / 10 * s * (L * L) <= Rabs (det a b p q)) by (unfold transverse in T; nra).
  destruct (quotient_moves s x (det a b p' q') (- det p' a p' q') (det a b p q) (- det p a p q)) as (x' & X' & Bx); auto; try lra.
  { apply Rabs_le. lra. } { rewrite Rabs_minus_sym. apply det_moves. } { pose proof left_moves. replace (- det p a p q - - det p' a p' q') with (det p' a p' q' - det p a p q) by ring. auto. }
  destruct (quotient_moves s y (det a b p' q') (det a p' a b) (det a b p q) (det a p a b)) as (y' & Y' & By); auto; try lra.
  { apply Rabs_le. lra. } { rewrite Rabs_minus_sym. apply det_moves. } { pose proof right_moves. assert (0 <= L * e) by nra. rewrite Rabs_minus_sym. lra. }
  exists x', y'. apply Rabs_le_inv in Bx, By. repeat split; auto; lra.
Qed.
End Shift.
Lemma off_not_crossing K a b p q lo hi : 0 < K -> far_off K a b p q -> -2 <= lo -> hi <= 2 -> ~ parallel a b p q -> crosses lo hi a b p q -> False.
Proof.
  intros K0 F Lo Hi N C. rewrite parallel_det in N. apply crosses_char in C; auto. destruct C as (s & t & S & T & E1 & E2).
  assert (0 < bpow radix2 (-18) * (K * K)) by (apply Rmult_lt_0_compat; [apply bpow_gt_0|nra]). pose proof (Rabs_pos (det a b p q)).
  assert (A1 : Rabs (det p a p q) <= 2 * Rabs (det a b p q)).
  { rewrite <- Rabs_Ropp, <- E1, Rabs_mult. apply Rmult_le_compat_r; auto. apply Rabs_le. lra. }
  assert (A2 : Rabs (det a p a b) <= 2 * Rabs (det a b p q)).
  { rewrite <- E2, Rabs_mult. apply Rmult_le_compat_r; auto. apply Rabs_le. lra. }
  destruct F; lra.
Qed.
Lemma crosses_wider lo hi lo' hi' a b p q : lo' <= lo -> hi <= hi' -> crosses lo hi a b p q -> crosses lo' hi' a b p q.
Proof. intros A B (s & t & S & T & E). exists s, t. split; [lra|]. split; [lra|auto]. Qed.
Lemma close_trans A B p q r : close_by A p q -> close_by B q r -> close_by (A + B) p r.
Proof. intros [P1 P2] [Q1 Q2]. apply Rabs_le_inv in P1, P2, Q1, Q2. split; apply Rabs_le; lra. Qed.
Lemma close_more A B p q : A <= B -> close_by A p q -> close_by B p q.
Proof. intros H [P1 P2]. split; lra. Qed.
Lemma close_refl A p : 0 <= A -> close_by A p p.
Proof. intro H. split; rewrite Rminus_diag_eq, Rabs_R0 by auto; auto. Qed.

(** ** All the legs of a path whose points have moved *)
Section Legs.
Variables (L e s : R) (o : R * R) (qs qs' : list (R * R)) (shapes : list shape2) (cand : list Z).
Hypothesis HL : ordinary L.
Hypothesis HL4 : ordinary (4 * L).
Hypothesis He : 0 <= e <= L / 5200.
Hypothesis Hs : / 128 <= s.
Hypothesis Moved : Forall2 (fun q' q => close_by e q' q) qs' qs.
Hypothesis Near : forall q, In q qs -> close_by (17 / 12 * L) q o.
Hypothesis Legs : forall i p q, nth_error qs i = Some p -> nth_error qs (S i) = Some q -> close_by (29 / 12 * L) p q.
Hypothesis Scene : scene_within L o shapes.
Hypothesis Clear : legs_clear s L qs shapes cand.
Let K := 5 / 2 * L.
Let sh := 80 / 3 * (e / (L * s)).
Lemma L_pos' : 0 < L. Proof. destruct HL. pose proof (bpow_gt_0 radix2 (-50)). lra. Qed.
Lemma moved_nth i p' : nth_error qs' i = Some p' -> exists p, nth_error qs i = Some p /\ close_by e p' p.
Proof.
  clear -Moved. revert i. induction Moved as [|x y xs ys H F IH]; intros i N; [destruct i; discriminate|].
  destruct i as [|i]; cbn in *; [injection N as <-; eauto|auto].
Qed.
Lemma moved_nth' i p : nth_error qs i = Some p -> exists p', nth_error qs' i = Some p' /\ close_by e p' p.
Proof.
  clear -Moved. revert i. induction Moved as [|x y xs ys H F IH]; intros i N; [destruct i; discriminate|].
  destruct i as [|i]; cbn in *; [injection N as <-; eauto|auto].
Qed.
Lemma leg_facts i j a b p q : nth_error shapes j = Some (Segment a b) -> nth_error qs i = Some p -> nth_error qs (S i) = Some q ->
  close_by L a b /\ close_by (29 / 12 * L) a p /\ close_by (29 / 12 * L) p q.
Proof.
  intros J I I'. pose proof L_pos'. destruct (Scene a b (nth_error_In _ _ J)) as [C1 C2]. split; auto. split; [|eauto].
  eapply close_more; [|eapply close_trans; [exact C2|apply close_sym, Near; eapply nth_error_In; eauto]]. lra.
Qed.
Lemma moved_clear i j a b p' q' : nth_error shapes j = Some (Segment a b) -> nth_error qs' i = Some p' -> nth_error qs' (S i) = Some q' ->
  ~ touches cand i j -> clear_cut (144 / 1000 * s) a b p' q'.
Proof.
  intros J I I' T. pose proof L_pos' as L0. destruct (moved_nth _ _ I) as (p & P & Mp). destruct (moved_nth _ _ I') as (q & Q & Mq). destruct (leg_facts _ _ _ _ _ _ J P Q) as (C1 & C2 & C3).
  assert (C2' : close_by K a p) by (eapply close_more; [|exact C2]; unfold K; lra). assert (C3' : close_by K p q) by (eapply close_more; [|exact C3]; unfold K; lra).
  exists K. split; [destruct HL, HL4; unfold K; split; lra|]. split; [eapply close_more; [|exact C1]; unfold K; lra|].
  split; [eapply close_more; [|eapply close_trans; [eapply close_trans; [exact Mp|exact C3]|apply close_sym, Mq]]; unfold K; lra|].
  split; [eapply close_more; [|eapply close_trans; [exact C2|apply close_sym, Mp]]; unfold K; lra|].
  destruct (Clear _ _ _ _ _ _ J P Q T) as [Tr|Off].
  - left. unfold transverse, K. assert (9 / 10 * s * (L * L) <= Rabs (det a b p' q')) by (eapply transverse_moves with (p := p) (q := q) (e := e); eauto). lra.
  - right. right. eapply off_moves with (p := p) (q := q) (e := e); eauto.
Qed.
Lemma obstructed_moves lo hi : -2 <= lo -> hi <= 2 -> obstructed lo hi qs shapes cand -> obstructed (lo - sh) (hi + sh) qs' shapes cand.
Proof.
  intros Lo Hi (i & j & a & b & p & q & J & P & Q & T & N & C). pose proof L_pos' as L0. destruct (moved_nth' _ _ P) as (p' & P' & Mp). destruct (moved_nth' _ _ Q) as (q' & Q' & Mq).
  destruct (leg_facts _ _ _ _ _ _ J P Q) as (C1 & C2 & C3).
  assert (C2' : close_by K a p) by (eapply close_more; [|exact C2]; unfold K; lra). assert (C3' : close_by K p q) by (eapply close_more; [|exact C3]; unfold K; lra).
  destruct (Clear _ _ _ _ _ _ J P Q T) as [Tr|Off].
  - assert (X : ~ parallel a b p' q' /\ crosses (lo - 80 / 3 * (e / (L * s))) (hi + 80 / 3 * (e / (L * s))) a b p' q') by (eapply crosses_moves with (p := p) (q := q) (e := e); eauto). destruct X as [N' C']. exists i, j, a, b, p', q'. auto 10.
  - exfalso. assert (F : far_off L a b p q) by (assert (bpow radix2 (-18) * (L * L) <= bpow radix2 (-7) * (L * L)) by (apply Rmult_le_compat_r; [nra|apply bpow_le; lia]); destruct Off; [left|right]; lra).
    exact (off_not_crossing L a b p q lo hi L0 F Lo Hi N C).
Qed.
Lemma obstructed_back lo hi : -2 <= lo -> hi <= 2 -> obstructed lo hi qs' shapes cand -> obstructed (lo - sh) (hi + sh) qs shapes cand.
Proof.
  intros Lo Hi (i & j & a & b & p' & q' & J & P' & Q' & T & N & C). pose proof L_pos' as L0. destruct (moved_nth _ _ P') as (p & P & Mp). destruct (moved_nth _ _ Q') as (q & Q & Mq).
  destruct (leg_facts _ _ _ _ _ _ J P Q) as (C1 & C2 & C3).
  assert (C2' : close_by K a p) by (eapply close_more; [|exact C2]; unfold K; lra). assert (C3' : close_by K p q) by (eapply close_more; [|exact C3]; unfold K; lra).
  destruct (Clear _ _ _ _ _ _ J P Q T) as [Tr|Off].
  - assert (X : ~ parallel a b p q /\ crosses (lo - 80 / 3 * (e / (L * s))) (hi + 80 / 3 * (e / (L * s))) a b p q) by (eapply crosses_back with (p' := p') (q' := q') (e := e); eauto). destruct X as [N' C']. exists i, j, a, b, p, q. auto 10.
  - exfalso. assert (F : far_off (5 / 2 * L) a b p' q') by (eapply off_moves with (p := p) (q := q) (e := e); eauto).
    refine (off_not_crossing (5 / 2 * L) a b p' q' lo hi _ F Lo Hi N C). lra.
Qed.
End Legs.
Lemma obstructed_wider lo hi lo' hi' qs shapes cand : lo' <= lo -> hi <= hi' -> obstructed lo hi qs shapes cand -> obstructed lo' hi' qs shapes cand.
Proof.
  intros A B (i & j & a & b & p & q & J & P & Q & T & N & C). exists i, j, a, b, p, q. repeat (split; auto). eapply crosses_wider; eauto.
Qed.
