(** What [minimize] does with the default optimiser: C97. *)
From Coq Require Import Reals List Bool Arith Lia Lra Psatz.
From Verif Require Import Base BaseP GeometryM SpecGeometry ShapeP OptimizeM AdM PathM SpecPath PathShapeP AdamM SpecAdam SpecOptimize OptimizeP AdamP.
Import ListNotations.
Open Scope R_scope.
Local Notation length := List.length.

Lemma b1_range : 0 <= ADAM_B1 < 1. Proof. unfold ADAM_B1. lra. Qed.
Lemma b2_range : 0 <= ADAM_B2 < 1. Proof. unfold ADAM_B2. lra. Qed.
Definition is_adam_run (grad : list R -> list R) (x : nat -> list R) (n : nat) : Prop :=
  forall j i, (j < n)%nat -> (i < length (x 0%nat))%nat ->
    nth i (x (S j)) 0 = nth i (x j) 0 - 1 / 10 *
      (recent_average (9 / 10) (fun k => nth i (grad (x k)) 0) j /
       (sqrt (recent_average (999 / 1000) (fun k => nth i (grad (x k)) 0 * nth i (grad (x k)) 0) j) + / 10 ^ 8)).
Lemma run_of_traj grad x st n : (forall y, length (grad y) = length y) -> trajectory grad default_optimizer x st n ->
  is_adam_run grad x n /\ forall j, (j <= n)%nat -> length (x j) = length (x 0%nat).
Proof.
  intros G T. split.
  - intros j i L I. rewrite (adam_move _ _ _ _ grad x n st G T i I j L).
    rewrite (step_average _ _ _ _ _ _ b1_range b2_range). unfold ADAM_LR, ADAM_B1, ADAM_B2, ADAM_EPS. lra.
  - apply (adam_lengths ADAM_LR ADAM_B1 ADAM_B2 ADAM_EPS grad x n st G T).
Qed.
Lemma C97_run f grad steps x0 : (1 <= steps)%nat -> (forall y, length (grad y) = length y) ->
  exists x, x 0%nat = x0 /\ (forall j, (j <= steps)%nat -> length (x j) = length x0) /\
    minimize f grad default_optimizer steps x0 = Ok (x steps, f (x (steps - 1)%nat)) /\
    forall j i, (j < steps)%nat -> (i < length x0)%nat ->
      let g k := nth i (grad (x k)) 0 in
      nth i (x (S j)) 0 = nth i (x j) 0 - 1 / 10 *
        (recent_average (9 / 10) g j / (sqrt (recent_average (999 / 1000) (fun k => g k * g k) j) + / 10 ^ 8)).
Proof.
  intros S1 G. destruct (traj_exists f grad default_optimizer steps x0) as (x & st & X0 & T).
  destruct (run_of_traj grad x st steps G T) as [A B]. exists x. split; auto. rewrite <- X0. split; auto. split.
  - apply (minimize_traj f grad default_optimizer steps x st S1 T).
  - intros j i L I. apply A; auto.
Qed.
Lemma C97_travel f grad steps x0 x l : (forall y, length (grad y) = length y) ->
  minimize f grad default_optimizer steps x0 = Ok (x, l) ->
  length x = length x0 /\ forall i, (i < length x0)%nat -> Rabs (nth i x 0 - nth i x0 0) <= 728 / 1000 * INR steps.
Proof.
  intros G E. destruct steps as [|n]; [rewrite minimize_zero in E; discriminate|].
  destruct (traj_exists f grad default_optimizer (S n) x0) as (y & st & X0 & T).
  rewrite <- X0 in E. rewrite (minimize_traj f grad default_optimizer (S n) y st) in E; auto; [|lia]. 
  assert (Ex : x = y (S n)) by congruence. subst x. clear E. rewrite <- X0. split.
  - apply (run_of_traj grad y st (S n) G T). lia.
  - intros i I. apply (travel grad y st (S n) G T i (S n) I). lia.
Qed.

(** ** Averages of constants, signs *)
Lemma average_const b c t : 0 <= b -> recent_average b (fun _ => c) t = c.
Proof.
  intro H. unfold recent_average. pose proof (psum_pos b t H).
  rewrite <- (scal_sum (fun j => b ^ (t - j))). field. lra.
Qed.
Lemma average_ext b a a' t : (forall j, (j <= t)%nat -> a j = a' j) -> recent_average b a t = recent_average b a' t.
Proof. intro H. unfold recent_average. f_equal. apply sum_eq. intros j L. rewrite H; auto. Qed.
Lemma average_nonneg b a t : 0 <= b -> (forall j, (j <= t)%nat -> 0 <= a j) -> 0 <= recent_average b a t.
Proof.
  intros Hb H. unfold recent_average. pose proof (psum_pos b t Hb). apply Rmult_le_pos; [|left; apply Rinv_0_lt_compat; lra].
  clear - Hb H. induction t as [|t IH]; cbn [sum_f_R0].
  - apply Rmult_le_pos; [apply pow_le; auto|apply H; lia].
  - apply Rplus_le_le_0_compat.
    + assert (E : sum_f_R0 (fun j => b ^ (S t - j) * a j) t = b * sum_f_R0 (fun j => b ^ (t - j) * a j) t).
      { rewrite scal_sum. apply sum_eq. intros j L. replace (S t - j)%nat with (S (t - j)) by lia. cbn [pow]. ring. }
      rewrite E. apply Rmult_le_pos; auto.
    + apply Rmult_le_pos; [apply pow_le; auto|apply H; lia].
Qed.
Lemma adam_eps_pos : 0 < / 10 ^ 8.
Proof. apply Rinv_0_lt_compat, pow_lt. lra. Qed.
Lemma average_opp b a t : recent_average b (fun j => - a j) t = - recent_average b a t.
Proof.
  unfold recent_average. rewrite (sum_eq (fun j => b ^ (t - j) * - a j) (fun j => (b ^ (t - j) * a j) * (-1))) by (intros; ring).
  rewrite <- scal_sum. unfold Rdiv. ring.
Qed.

Lemma C97_constant f grad steps x0 x l : (forall y, length (grad y) = length y) ->
  minimize f grad default_optimizer steps x0 = Ok (x, l) ->
  forall i c, (i < length x0)%nat -> (forall y, length y = length x0 -> nth i (grad y) 0 = c) ->
  nth i x 0 = nth i x0 0 - INR steps * (1 / 10 * (c / (Rabs c + / 10 ^ 8))).
Proof.
  intros G E i c I H. destruct steps as [|n]; [rewrite minimize_zero in E; discriminate|].
  destruct (C97_run f grad (S n) x0 ltac:(lia) G) as (y & Y0 & Ly & M & R). rewrite M in E.
  assert (Ex : x = y (S n)) by congruence. subst x. clear E M.
  assert (P : forall j, (j <= S n)%nat -> nth i (y j) 0 = nth i x0 0 - INR j * (1 / 10 * (c / (Rabs c + / 10 ^ 8)))).
  { induction j as [|j IH]; intro L; [cbn [INR]; rewrite Y0; ring|]. rewrite (R j i ltac:(lia) I), IH by lia.
    rewrite (average_ext (9 / 10) _ (fun _ => c)) by (intros k Lk; apply H, Ly; lia).
    rewrite (average_ext (999 / 1000) _ (fun _ => c * c)) by (intros k Lk; rewrite (H (y k)) by (apply Ly; lia); reflexivity).
    rewrite !average_const by lra. replace (sqrt (c * c)) with (Rabs c) by (symmetry; apply sqrt_Rsqr_abs). rewrite (S_INR j). lra. }
  apply P. lia.
Qed.
Lemma C97_stationary f grad steps x0 : (1 <= steps)%nat -> (forall y, length (grad y) = length y) ->
  (forall i, nth i (grad x0) 0 = 0) -> minimize f grad default_optimizer steps x0 = Ok (x0, f x0).
Proof.
  intros S1 G H. destruct (C97_run f grad steps x0 S1 G) as (y & Y0 & Ly & M & R). rewrite M.
  assert (P : forall j, (j <= steps)%nat -> forall k, (k <= j)%nat -> y k = x0).
  { induction j as [|j IH]; intros L k Lk; [replace k with 0%nat by lia; auto|].
    destruct (Nat.eq_dec k (S j)) as [->|N]; [|apply IH; lia]. 
    apply (nth_ext _ _ 0 0); [rewrite Ly by lia; auto|]. intros i I. rewrite Ly in I by lia.
    rewrite (R j i ltac:(lia) I). rewrite (IH ltac:(lia) j ltac:(lia)).
    rewrite (average_ext (9 / 10) _ (fun _ => 0)) by (intros q Lq; rewrite (IH ltac:(lia) q Lq); apply H).
    rewrite average_const by lra. unfold Rdiv. ring. }
  rewrite !(P steps) by lia. reflexivity.
Qed.
(** The first step, and one way traffic. *)
Lemma C97_first f grad x0 : (forall y, length (grad y) = length y) ->
  exists x, minimize f grad default_optimizer 1 x0 = Ok (x, f x0) /\ length x = length x0 /\
    forall i, (i < length x0)%nat ->
      let g := nth i (grad x0) 0 in
      nth i x 0 = nth i x0 0 - 1 / 10 * (g / (Rabs g + / 10 ^ 8)) /\ Rabs (nth i x 0 - nth i x0 0) < 1 / 10.
Proof.
  intro G. destruct (C97_run f grad 1 x0 ltac:(lia) G) as (y & Y0 & Ly & M & R). exists (y 1%nat).
  cbn [Nat.sub] in M. rewrite Y0 in M. split; auto. split; [apply Ly; lia|]. intros i I g.
  pose proof (R 0%nat i ltac:(lia) I) as E. cbv zeta in E.
  rewrite (average_ext (9 / 10) _ (fun _ => g)) in E by (intros q Lq; replace q with 0%nat by lia; rewrite Y0; reflexivity).
  rewrite (average_ext (999 / 1000) _ (fun _ => g * g)) in E by (intros q Lq; replace q with 0%nat by lia; rewrite Y0; reflexivity).
  rewrite !average_const in E by lra. replace (sqrt (g * g)) with (Rabs g) in E by (symmetry; apply sqrt_Rsqr_abs).
  rewrite Y0 in E. split; [exact E|]. rewrite E. pose proof adam_eps_pos as Ep. pose proof (Rabs_pos g) as Ag.
  set (e := / 10 ^ 8) in *. clearbody e g. 
  replace (nth i x0 0 - 1 / 10 * (g / (Rabs g + e)) - nth i x0 0) with (- (1 / 10) * (g * / (Rabs g + e))) by (unfold Rdiv; ring).
  rewrite !Rabs_mult, Rabs_Ropp, (Rabs_pos_eq (1 / 10)), (Rabs_pos_eq (/ _)) by (try lra; left; apply Rinv_0_lt_compat; lra).
  assert (Q : Rabs g * / (Rabs g + e) < 1); [|lra].
  apply (Rmult_lt_reg_r (Rabs g + e)); [lra|]. rewrite Rmult_assoc, Rinv_l; lra.
Qed.
Lemma C97_sign f grad steps x0 x l : (forall y, length (grad y) = length y) ->
  minimize f grad default_optimizer steps x0 = Ok (x, l) ->
  forall i, (i < length x0)%nat ->
  ((forall y, length y = length x0 -> 0 <= nth i (grad y) 0) -> nth i x 0 <= nth i x0 0) /\
  ((forall y, length y = length x0 -> nth i (grad y) 0 <= 0) -> nth i x0 0 <= nth i x 0).
Proof.
  intros G E i I. destruct steps as [|n]; [rewrite minimize_zero in E; discriminate|].
  destruct (C97_run f grad (S n) x0 ltac:(lia) G) as (y & Y0 & Ly & M & R). rewrite M in E.
  assert (Ex : x = y (S n)) by congruence. subst x. clear E M. pose proof adam_eps_pos as Ep.
  assert (Q : forall a b, 0 <= a -> 0 <= a / (sqrt b + / 10 ^ 8)).
  { intros a b A. apply Rmult_le_pos; auto. left. apply Rinv_0_lt_compat. pose proof (sqrt_pos b). lra. }
  split; intro H.
  - assert (P : forall j, (j <= S n)%nat -> nth i (y j) 0 <= nth i x0 0).
    { induction j as [|j IH]; intro L; [rewrite Y0; lra|]. rewrite (R j i ltac:(lia) I). specialize (IH ltac:(lia)).
      set (s := recent_average (999 / 1000) _ j). set (a := recent_average (9 / 10) _ j).
      assert (A : 0 <= a) by (apply average_nonneg; [lra|intros k Lk; apply H, Ly; lia]).
      pose proof (Q a s A). lra. }
    apply P. lia.
  - assert (P : forall j, (j <= S n)%nat -> nth i x0 0 <= nth i (y j) 0).
    { induction j as [|j IH]; intro L; [rewrite Y0; lra|]. rewrite (R j i ltac:(lia) I). specialize (IH ltac:(lia)).
      set (s := recent_average (999 / 1000) _ j). set (a := recent_average (9 / 10) _ j).
      assert (A : 0 <= - a). { unfold a. rewrite <- average_opp. apply average_nonneg; [lra|]. intros k Lk. 
        assert (nth i (grad (y k)) 0 <= 0) by (apply H, Ly; lia). lra. }
      pose proof (Q (- a) s A) as X. unfold Rdiv in *. lra. }
    apply P. lia.
Qed.
(** The loss may go up. *)
Lemma C97_up : let square x := nth 0 x 0 * nth 0 x 0 in
  exists x l, minimize square (map (fun a => 2 * a)) default_optimizer 2 [1 / 100] = Ok (x, l) /\ 64 * square [1 / 100] < l.
Proof.
  intro sq. destruct (C97_run sq (map (fun a => 2 * a)) 2 [1 / 100] ltac:(lia) ltac:(intro; apply map_length)) as (y & Y0 & Ly & M & R).
  exists (y 2%nat), (sq (y 1%nat)). split; [exact M|].
  pose proof (R 0%nat 0%nat ltac:(lia) ltac:(cbn; lia)) as E. cbv zeta in E.
  rewrite (average_ext (9 / 10) _ (fun _ => 1 / 50)) in E by (intros q Lq; replace q with 0%nat by lia; rewrite Y0; cbn; lra).
  rewrite (average_ext (999 / 1000) _ (fun _ => 1 / 50 * (1 / 50))) in E by (intros q Lq; replace q with 0%nat by lia; rewrite Y0; cbn; lra).
  rewrite !average_const in E by lra. rewrite sqrt_square in E by lra. rewrite Y0 in E. cbn [nth] in E.
  unfold sq at 1. cbn [nth]. unfold sq. rewrite E. clear.
  assert (A : 999 / 1000 <= 1 / 50 / (1 / 50 + / 10 ^ 8)).
  { pose proof adam_eps_pos as Ep.
    assert (H : / 10 ^ 8 <= / 10 ^ 6) by (apply Rinv_le_contravar; [apply pow_lt; lra|apply Rle_pow; [lra|lia]]).
    replace (/ 10 ^ 6) with (1 / 1000000) in H by (field_simplify; lra). set (e := / 10 ^ 8) in *. clearbody e.
    apply (Rmult_le_reg_r (1 / 50 + e)); [lra|]. replace (1 / 50 / (1 / 50 + e) * (1 / 50 + e)) with (1 / 50) by (field; lra). lra. }
  set (q := 1 / 50 / (1 / 50 + / 10 ^ 8)) in *. clearbody q. nra.
Qed.

(** The solver-based paths with the default optimiser. *)
Lemma C97_solvers P c key tx os rx grad steps many p :
  (exists eps, c = ClsFermat eps (mksolver grad default_optimizer steps many)) \/ c = ClsMin (mksolver grad default_optimizer steps many) ->
  (forall f x, length (grad f x) = length x) ->
  (forall k n, length (runiform P k n) = n /\ Forall (fun u => 0 <= u < 1) (runiform P k n)) -> os <> [] ->
  from_tx_objects_rx P c (Some key) tx os rx = Ok p ->
  exists theta, length theta = walls_before os (length os) /\
    Forall (fun t => - (728 / 1000 * INR steps) <= t <= 1 + 728 / 1000 * INR steps) theta /\
    forall i o, nth_error os i = Some o -> nth_error (xys p) (S i) = Some (position_on o (nth (walls_before os i) theta 0)).
Proof.
  intros C G U N E. set (s := mksolver grad default_optimizer steps many) in *.
  assert (Q : forall f r, minimize_many_random_uniform P f (sv_grad s f) (sv_opt s) (sv_steps s) key (n_unknowns os) (sv_many s) = Ok r ->
    length (fst r) = walls_before os (length os) /\
    Forall (fun t => - (728 / 1000 * INR steps) <= t <= 1 + 728 / 1000 * INR steps) (fst r)).
  { intros f [x l] H. apply many_is_trial in H. destruct H as [k H]. unfold minimize_random_uniform in H.
    destruct (U k (n_unknowns os)) as [L1 L2].
    destruct (C97_travel f (grad f) steps _ x l (G f) H) as [A B]. cbn [fst]. split.
    - rewrite A, L1. apply count_params.
    - apply Forall_forall. intros t It. apply (In_nth _ _ 0) in It. destruct It as (i & Hi & <-). rewrite A in Hi. specialize (B i Hi).
      rewrite Forall_forall in L2. specialize (L2 _ (nth_In _ 0 Hi)). cbv beta in L2. apply Rabs_le_between in B || apply Rabs_def2 in B || idtac.
      unfold Rabs in B. destruct (Rcase_abs _); lra. }
  destruct C as [[eps ->]| ->]; cbn [from_tx_objects_rx] in E.
  - unfold FermatPath_from in E. destruct os as [|o0 os']; [contradiction|]. set (os := o0 :: os') in *.
    destruct (minimize_many_random_uniform _ _ _ _ _ _ _ _) as [[th l]|] eqn:Em; cbn [rbind] in E; [|discriminate].
    inversion E; subst p. cbn [xys]. destruct (Q _ _ Em) as [Q1 Q2]. cbn [fst] in Q1, Q2. exists th. split; auto. split; auto.
    intros i o I. apply C30_lemma; auto.
  - unfold MinPath_from in E. destruct os as [|o0 os']; [contradiction|]. set (os := o0 :: os') in *.
    destruct (minimize_many_random_uniform _ _ _ _ _ _ _ _) as [[th l]|] eqn:Em; cbn [rbind] in E; [|discriminate].
    inversion E; subst p. cbn [xys]. destruct (Q _ _ Em) as [Q1 Q2]. cbn [fst] in Q1, Q2. exists th. split; auto. split; auto.
    intros i o I. apply C30_lemma; auto.
Qed.

Lemma single_start P cls key tx os rx grad p f steps :
  (exists eps, cls = ClsFermat eps (mksolver grad default_optimizer steps 1) /\ f = fermat_objective eps os tx rx) \/
    cls = ClsMin (mksolver grad default_optimizer steps 1) /\ f = min_objective os tx rx ->
  (forall f x, length (grad f x) = length x) ->
  (forall k n, length (runiform P k n) = n /\ Forall (fun u => 0 <= u < 1) (runiform P k n)) -> os <> [] ->
  from_tx_objects_rx P cls (Some key) tx os rx = Ok p ->
  exists theta l, minimize f (grad f) default_optimizer steps (runiform P key (walls_before os (length os))) = Ok (theta, l) /\
    length theta = walls_before os (length os) /\ Forall (fun t => - (728 / 1000 * INR steps) <= t <= 1 + 728 / 1000 * INR steps) theta /\
    forall i o, nth_error os i = Some o -> nth_error (xys p) (S i) = Some (position_on o (nth (walls_before os i) theta 0)).
Proof.
  intros C G U N E.
  assert (Q : forall th l, minimize_many_random_uniform P f (grad f) default_optimizer steps key (n_unknowns os) 1 = Ok (th, l) ->
    minimize f (grad f) default_optimizer steps (runiform P key (walls_before os (length os))) = Ok (th, l) /\
    length th = walls_before os (length os) /\ Forall (fun t => - (728 / 1000 * INR steps) <= t <= 1 + 728 / 1000 * INR steps) th).
  { intros th l H. rewrite C44_single, count_params in H. split; auto. destruct (U key (walls_before os (length os))) as [L1 L2].
    destruct (C97_travel f (grad f) steps _ th l (G f) H) as [A B]. split; [congruence|].
    apply Forall_forall. intros t It. apply (In_nth _ _ 0) in It. destruct It as (i & Hi & <-). rewrite A in Hi. specialize (B i Hi).
    rewrite Forall_forall in L2. specialize (L2 _ (nth_In _ 0 Hi)). cbv beta in L2. unfold Rabs in B. destruct (Rcase_abs _); lra. }
  destruct C as [(eps & -> & Ef)|[-> Ef]]; cbn [from_tx_objects_rx] in E.
  - unfold FermatPath_from in E. destruct os as [|o0 os']; [contradiction|]. set (os := o0 :: os') in *. rewrite <- Ef in E. cbn [sv_grad sv_opt sv_steps sv_many] in E.
    destruct (minimize_many_random_uniform _ _ _ _ _ _ _ _) as [[th l]|]; cbn [rbind] in E; [|discriminate].
    inversion E; subst p. cbn [xys]. destruct (Q _ _ eq_refl) as (Q0 & Q1 & Q2). exists th, l. split; auto. split; auto. split; auto.
    intros i o I. apply C30_lemma; auto.
  - unfold MinPath_from in E. destruct os as [|o0 os']; [contradiction|]. set (os := o0 :: os') in *. rewrite <- Ef in E. cbn [sv_grad sv_opt sv_steps sv_many] in E.
    destruct (minimize_many_random_uniform _ _ _ _ _ _ _ _) as [[th l]|]; cbn [rbind] in E; [|discriminate].
    inversion E; subst p. cbn [xys]. destruct (Q _ _ eq_refl) as (Q0 & Q1 & Q2). exists th, l. split; auto. split; auto. split; auto.
    intros i o I. apply C30_lemma; auto.
Qed.
Lemma many_starts P f grad o steps key n many : (2 <= many)%nat -> (1 <= steps)%nat -> length (rsplit P key many) = many ->
  exists trials i, length trials = many /\ (i < many)%nat /\
    (forall j dk d, (j < many)%nat -> minimize f grad o steps (runiform P (nth j (rsplit P key many) dk) n) = Ok (nth j trials d)) /\
    (forall d, minimize_many_random_uniform P f grad o steps key n many = Ok (nth i trials d)) /\
    forall j d, (j < many)%nat -> snd (nth i trials d) <= snd (nth j trials d).
Proof. intros M S L. destruct (C44_lemma P f grad o steps key n many M L S) as (trials & i & A & B & C & D & E & _). exists trials, i. auto 10. Qed.

Lemma C97_defaults :
  (forall f grad x0 x l, (forall y, length (grad y) = length y) ->
     minimize f grad default_optimizer DEFAULT_STEPS x0 = Ok (x, l) ->
     forall i c, (i < length x0)%nat -> (forall y, length y = length x0 -> nth i (grad y) 0 = c) ->
     nth i x 0 = nth i x0 0 - 10 * (c / (Rabs c + / 10 ^ 8))) /\
  (forall P f grad key n, length (rsplit P key 10) = 10%nat ->
     exists trials i, length trials = 10%nat /\ (i < 10)%nat /\
       (forall j dk d, (j < 10)%nat -> minimize f grad default_optimizer 100 (runiform P (nth j (rsplit P key 10) dk) n) = Ok (nth j trials d)) /\
       (forall d, minimize_many_random_uniform P f grad default_optimizer DEFAULT_STEPS key n DEFAULT_MANY = Ok (nth i trials d)) /\
       forall j d, (j < 10)%nat -> snd (nth i trials d) <= snd (nth j trials d)) /\
  (forall P cls key tx objects rx grad p f,
     (exists eps, cls = ClsFermat eps (default_solver grad) /\ f = fermat_objective eps objects tx rx) \/
       cls = ClsMin (default_solver grad) /\ f = min_objective objects tx rx ->
     (forall f x, length (grad f x) = length x) ->
     (forall k n, length (runiform P k n) = n /\ Forall (fun u => 0 <= u < 1) (runiform P k n)) -> objects <> [] ->
     from_tx_objects_rx P cls (Some key) tx objects rx = Ok p ->
     exists theta l, minimize f (grad f) default_optimizer 100 (runiform P key (walls_before objects (length objects))) = Ok (theta, l) /\
       length theta = walls_before objects (length objects) /\ Forall (fun t => - (728 / 10) <= t <= 738 / 10) theta /\
       forall i o, nth_error objects i = Some o -> nth_error (xys p) (S i) = Some (position_on o (nth (walls_before objects i) theta 0))).
Proof.
  split; [|split].
  - intros f grad x0 x l G E i c I H. rewrite (C97_constant f grad DEFAULT_STEPS x0 x l G E i c I H).
    replace (INR DEFAULT_STEPS) with 100 by (unfold DEFAULT_STEPS; rewrite INR_IZR_INZ; reflexivity). lra.
  - intros P f grad key n Ls. apply (many_starts P f grad default_optimizer DEFAULT_STEPS key n DEFAULT_MANY); unfold DEFAULT_STEPS, DEFAULT_MANY; [lia|lia|exact Ls].
  - intros P cls key tx os rx grad p f C G U N E. destruct (single_start P cls key tx os rx grad p f DEFAULT_STEPS C G U N E) as (th & l & A & B & D & F).
    exists th, l. split; [exact A|]. split; [exact B|]. split; [|exact F].
    eapply Forall_impl; [|exact D]. cbv beta. replace (INR DEFAULT_STEPS) with 100 by (unfold DEFAULT_STEPS; rewrite INR_IZR_INZ; reflexivity). intros. lra.
Qed.
