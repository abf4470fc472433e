(** The default optimiser: C97. *)
From Coq Require Import Reals List Bool Arith Lia Lra Psatz.
From Verif Require Import Base BaseP GeometryM OptimizeM AdM AdamM SpecAdam SpecOptimize OptimizeP.
Import ListNotations.
Open Scope R_scope.
Local Notation length := List.length.

(** ** Averages *)
Lemma wsum_S b a t : sum_f_R0 (fun j => b ^ (S t - j) * a j) (S t) = b * sum_f_R0 (fun j => b ^ (t - j) * a j) t + a (S t).
Proof.
  cbn [sum_f_R0]. replace (S t - S t)%nat with 0%nat by lia. cbn [pow]. f_equal; [|ring].
  rewrite scal_sum. apply sum_eq. intros j H. replace (S t - j)%nat with (S (t - j)) by lia. cbn [pow]. ring.
Qed.
Lemma psum_S b t : sum_f_R0 (fun j => b ^ (S t - j)) (S t) = b * sum_f_R0 (fun j => b ^ (t - j)) t + 1.
Proof.
  rewrite (sum_eq _ (fun j => b ^ (S t - j) * 1)) by (intros; ring).
  rewrite (wsum_S b (fun _ => 1)). f_equal. f_equal. apply sum_eq. intros. ring.
Qed.
Lemma psum_eq b t : (1 - b) * sum_f_R0 (fun j => b ^ (t - j)) t = 1 - b ^ S t.
Proof.
  induction t as [|t IH]; [cbn; ring|]. rewrite psum_S. cbn [pow] in *. 
  replace ((1 - b) * (b * sum_f_R0 (fun j => b ^ (t - j)) t + 1)) with (b * ((1 - b) * sum_f_R0 (fun j => b ^ (t - j)) t) + (1 - b)) by ring.
  rewrite IH. ring.
Qed.
Lemma psum_pos b t : 0 <= b -> 1 <= sum_f_R0 (fun j => b ^ (t - j)) t.
Proof.
  intro H. induction t as [|t IH]; [cbn; lra|]. rewrite psum_S. nra.
Qed.
(** The moments. *)
Fixpoint moment (b : R) (a : nat -> R) (n : nat) : R :=
  match n with O => 0 | S n' => (1 - b) * a n' + b * moment b a n' end.
Lemma moment_sum b a t : moment b a (S t) = (1 - b) * sum_f_R0 (fun j => b ^ (t - j) * a j) t.
Proof.
  induction t as [|t IH]; [cbn; ring|]. rewrite wsum_S. change (moment b a (S (S t))) with ((1 - b) * a (S t) + b * moment b a (S t)).
  rewrite IH. ring.
Qed.
Lemma moment_average b a t : 0 <= b < 1 -> moment b a (S t) / (1 - b ^ S t) = recent_average b a t.
Proof.
  intros [H0 H1]. rewrite moment_sum, <- psum_eq. unfold recent_average. pose proof (psum_pos b t H0). field. split; lra.
Qed.

(** ** One coordinate *)
Lemma tm2_length {A B C} (f : A -> B -> C) d g : forall m, length (tree_map2 f d g m) = length g.
Proof. induction g as [|x g IH]; intro m; cbn; auto. Qed.
Lemma tm2_nth {A B C} (f : A -> B -> C) d dg dc g : forall m i, (i < length g)%nat ->
  nth i (tree_map2 f d g m) dc = f (nth i g dg) (nth i m d).
Proof.
  induction g as [|x g IH]; intros m i H; cbn in H; [lia|]. destruct i as [|i]; cbn.
  - destruct m; reflexivity.
  - rewrite IH by lia. f_equal. destruct m as [|y m]; cbn; auto. destruct i; reflexivity.
Qed.
Lemma nth_map0 {A} (f : A -> R) l i d d' : (i < length l)%nat -> nth i (map f l) d = f (nth i l d').
Proof. intro H. rewrite (nth_indep _ d (f d')) by (rewrite map_length; auto). apply map_nth. Qed.
Lemma moved_length x u : length u = length x -> length (moved x u) = length x.
Proof. intro H. unfold moved. rewrite map_length, combine_length. lia. Qed.
Lemma moved_nth x u i : length u = length x -> (i < length x)%nat -> nth i (moved x u) 0 = nth i x 0 + nth i u 0.
Proof.
  intros H L. unfold moved. rewrite (nth_map0 _ _ _ 0 (0, 0)) by (rewrite combine_length; lia).
  rewrite combine_nth by auto. reflexivity.
Qed.

Definition adam_step (lr b1 b2 eps : R) (g : nat -> R) (t : nat) : R :=
  - lr * (moment b1 g (S t) / (1 - b1 ^ S t) / (sqrt (moment b2 (fun j => g j * g j) (S t) / (1 - b2 ^ S t)) + eps)).
Lemma adam_keeps lr b1 b2 eps : keeps_shape (adam lr b1 b2 eps).
Proof. intros g [[c m] v]. cbn. rewrite map_length, tm2_length, map_length, tm2_length. reflexivity. Qed.

Section Coord.
  Variables (lr b1 b2 eps : R) (grad : list R -> list R) (x : nat -> list R) (n : nat).
  Variable st : nat -> opt_state (adam lr b1 b2 eps).
  Hypothesis G : forall y, length (grad y) = length y.
  Hypothesis T : trajectory grad (adam lr b1 b2 eps) x st n.
  Lemma adam_lengths : forall j, (j <= n)%nat -> length (x j) = length (x 0%nat).
  Proof.
    destruct T as [T0 TS]. induction j as [|j IH]; intro L; auto. destruct (TS j ltac:(lia)) as [E _]. rewrite E.
    rewrite moved_length; [apply IH; lia|]. rewrite (adam_keeps lr b1 b2 eps). apply G.
  Qed.
  Variable i : nat.
  Hypothesis I : (i < length (x 0%nat))%nat.
  Let g (j : nat) : R := nth i (grad (x j)) 0.
  Lemma adam_state : forall j, (j <= n)%nat ->
    fst (fst (st j)) = j /\ nth i (snd (fst (st j))) 0 = moment b1 g j /\
    nth i (snd (st j)) 0 = moment b2 (fun j => g j * g j) j.
  Proof.
    destruct T as [T0 TS]. induction j as [|j IH]; intro L.
    - rewrite T0. cbn [adam opt_init fst snd moment]. split; auto.
      split; rewrite (nth_map0 _ _ _ _ 0); auto.
    - destruct (IH ltac:(lia)) as (A & B & C). destruct (TS j ltac:(lia)) as [_ E]. rewrite E. clear E.
      pose proof (adam_lengths j ltac:(lia)) as Lj.
      destruct (st j) as [[c m] v]. cbn [fst snd] in *. cbn [adam opt_update adam_update fst snd moment]. split; [congruence|].
      rewrite !(tm2_nth _ _ 0) by (rewrite G; lia). rewrite B, C. fold (g j). auto.
  Qed.
  Lemma adam_move j : (j < n)%nat -> nth i (x (S j)) 0 = nth i (x j) 0 + adam_step lr b1 b2 eps g j.
  Proof.
    intro L. destruct T as [T0 TS]. destruct (TS j L) as [E _]. rewrite E. clear E.
    pose proof (adam_lengths j ltac:(lia)) as Lj. destruct (adam_state j ltac:(lia)) as (A & B & C).
    rewrite moved_nth; [|rewrite (adam_keeps lr b1 b2 eps); apply G|lia]. f_equal.
    destruct (st j) as [[c m] v]. cbn [fst snd] in *. cbn [adam opt_update adam_update fst snd].
    assert (L1 : (i < length (grad (x j)))%nat) by (rewrite G; lia).
    rewrite (nth_map0 _ _ _ _ 0) by (rewrite tm2_length, map_length, tm2_length; auto).
    rewrite (tm2_nth _ _ 0) by (rewrite map_length, tm2_length; auto).
    rewrite !(nth_map0 _ _ _ _ 0) by (rewrite tm2_length; auto). rewrite !(tm2_nth _ _ 0) by auto.
    rewrite B, C, A. fold (g j). unfold adam_step. cbn [moment]. rewrite Rplus_0_r. reflexivity.
  Qed.
End Coord.

Lemma step_average lr b1 b2 eps g t : 0 <= b1 < 1 -> 0 <= b2 < 1 ->
  adam_step lr b1 b2 eps g t =
  - lr * (recent_average b1 g t / (sqrt (recent_average b2 (fun j => g j * g j) t) + eps)).
Proof. intros. unfold adam_step. rewrite !moment_average by auto. reflexivity. Qed.

(** ** Bounds *)
Definition KB : R := (1 - ADAM_B1) ^ 2 / ((1 - ADAM_B2) * (1 - ADAM_B1 ^ 2 / ADAM_B2)).
Lemma KB_val : KB = 370 / 7.
Proof. unfold KB, ADAM_B1, ADAM_B2. field. Qed.
Lemma moments_ratio (g : nat -> R) n : moment ADAM_B1 g n ^ 2 <= KB * moment ADAM_B2 (fun j => g j * g j) n /\
  0 <= moment ADAM_B2 (fun j => g j * g j) n.
Proof.
  rewrite KB_val. induction n as [|n [IH1 IH2]]; [cbn; lra|]. cbn [moment].
  set (m := moment ADAM_B1 g n) in *. set (v := moment ADAM_B2 (fun j => g j * g j) n) in *. set (a := g n).
  unfold ADAM_B1, ADAM_B2. clearbody m v a. split; [|nra].
  assert (H : ((1 - 9 / 10) * a + 9 / 10 * m) ^ 2 <= 999 / 1000 * m ^ 2 + 370 / 7 * ((1 - 999 / 1000) * (a * a))).
  { pose proof (pow2_ge_0 (21 * m - 10 * a)). nra. }
  nra.
Qed.
Lemma bias_ratio n : (1 <= n)%nat -> 1 - ADAM_B2 ^ n <= (1 - ADAM_B1 ^ n) ^ 2 /\ 0 < 1 - ADAM_B2 ^ n /\ 0 < 1 - ADAM_B1 ^ n.
Proof.
  intro H.
  assert (A : forall n, 0 < ADAM_B1 ^ n <= 1 /\ 0 < ADAM_B2 ^ n <= 1 /\ 2 * ADAM_B1 ^ n - (ADAM_B1 ^ n) ^ 2 <= ADAM_B2 ^ n).
  { unfold ADAM_B1, ADAM_B2. clear. induction n as [|n (A & B & C)]; [cbn; lra|].
    cbn [pow]. set (a := (9 / 10) ^ n) in *. set (b := (999 / 1000) ^ n) in *. clearbody a b. repeat split; nra. }
  destruct n as [|n]; [lia|]. destruct (A n) as (A1 & B1 & _). destruct (A (S n)) as (A2 & B2 & C2).
  cbn [pow] in *. unfold ADAM_B1, ADAM_B2 in *. 
  set (a := (9 / 10) ^ n) in *. set (b := (999 / 1000) ^ n) in *. clearbody a b. repeat split; nra.
Qed.
Lemma step_bound g t : Rabs (adam_step ADAM_LR ADAM_B1 ADAM_B2 ADAM_EPS g t) <= 728 / 1000.
Proof.
  unfold adam_step. destruct (moments_ratio g (S t)) as [M V]. destruct (bias_ratio (S t) ltac:(lia)) as (B & B2 & B1).
  set (m := moment ADAM_B1 g (S t)) in *. set (v := moment ADAM_B2 _ (S t)) in *.
  set (d1 := 1 - ADAM_B1 ^ S t) in *. set (d2 := 1 - ADAM_B2 ^ S t) in *. clearbody m v d1 d2.
  assert (E : 0 < ADAM_EPS) by (unfold ADAM_EPS; apply Rinv_0_lt_compat, pow_lt; lra).
  assert (Hv : 0 <= v / d2) by (apply Rmult_le_pos; [auto|left; apply Rinv_0_lt_compat; auto]).
  pose proof (sqrt_pos (v / d2)) as Sq. set (s := sqrt (v / d2)) in *.
  assert (Es : s * s = v / d2) by (apply sqrt_def; auto).
  assert (Q : Rabs (m / d1) <= 728 / 100 * s).
  { assert (Ev : v = s * s * d2) by (rewrite Es; field; lra).
    assert (Q2 : (m / d1) * (m / d1) <= (728 / 100 * s) * (728 / 100 * s)).
    { set (q := m / d1). assert (Em : m = q * d1) by (unfold q; field; lra). clearbody q.
      rewrite KB_val in M. rewrite Em, Ev in M.
      assert (S2 : 0 <= s * s) by nra. assert (D : 0 < d1 * d1) by nra.
      assert (X : q * q * (d1 * d1) <= 370 / 7 * (s * s) * (d1 * d1)) by nra.
      apply Rmult_le_reg_r in X; auto. nra. }
    rewrite <- (Rabs_pos_eq (728 / 100 * s)) by lra. apply Rsqr_le_abs_0. exact Q2. }
  set (q := m / d1) in *. clearbody q s. unfold ADAM_LR.
  rewrite Rabs_mult, Rabs_Ropp, (Rabs_pos_eq (1 / 10)) by lra.
  unfold Rdiv at 2. rewrite Rabs_mult, (Rabs_pos_eq (/ _)) by (left; apply Rinv_0_lt_compat; lra).
  assert (X : Rabs q * / (s + ADAM_EPS) <= 728 / 100); [|lra].
  apply (Rmult_le_reg_r (s + ADAM_EPS)); [lra|]. rewrite Rmult_assoc, Rinv_l, Rmult_1_r by lra. nra.
Qed.

Lemma travel grad x st n : (forall y, length (grad y) = length y) -> trajectory grad default_optimizer x st n ->
  forall i j, (i < length (x 0%nat))%nat -> (j <= n)%nat -> Rabs (nth i (x j) 0 - nth i (x 0%nat) 0) <= 728 / 1000 * INR j.
Proof.
  intros G T i j I. induction j as [|j IH]; intro L.
  - rewrite Rminus_diag_eq, Rabs_R0 by auto. cbn. lra.
  - rewrite (adam_move _ _ _ _ grad x n st G T i I j ltac:(lia)).
    set (d := adam_step _ _ _ _ _ j). assert (B : Rabs d <= 728 / 1000) by apply step_bound.
    rewrite S_INR. specialize (IH ltac:(lia)).
    replace (nth i (x j) 0 + d - nth i (x 0%nat) 0) with ((nth i (x j) 0 - nth i (x 0%nat) 0) + d) by ring.
    eapply Rle_trans; [apply Rabs_triang|]. lra.
Qed.
