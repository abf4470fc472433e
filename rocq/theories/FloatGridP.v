(** Single precision: the exact validity test on a grid. *)
From Coq Require Import Reals List Bool ZArith Lra Lia Psatz.
From Flocq Require Import Core.Core IEEE754.BinarySingleNaN.
From Verif Require Import Base BaseP LogicM GeometryM PathM FloatM SpecFloat32 SpecGrid FloatP FloatLogicP FloatCmpP FloatAccP FloatGeomP FloatSegP.
Import ListNotations.
Open Scope R_scope.
Local Instance p24g : Prec_gt_0 24 := eq_refl.

Lemma gr_add e x y i j : gr e x i -> gr e y j -> (Z.abs (i + j) <= 2 ^ 24)%Z -> (-149 <= e <= 103)%Z -> gr e (f_add x y) (i + j).
Proof.
  unfold gr. intros X Y N E. rewrite val_add, X, Y. cbn [xadd].
  replace (IZR i * bpow radix2 e + IZR j * bpow radix2 e) with (IZR (i + j) * bpow radix2 e) by (rewrite plus_IZR; ring).
  apply gr_round; auto.
Qed.
Lemma grid_dot e x y z w i j k l : gr e x i -> gr e y j -> gr e z k -> gr e w l ->
  (Z.abs i <= 2048)%Z -> (Z.abs j <= 2048)%Z -> (Z.abs k <= 2048)%Z -> (Z.abs l <= 2048)%Z -> (-74 <= e <= 51)%Z ->
  gr (e + e) (f_add (f_mul x y) (f_mul z w)) (i * j + k * l).
Proof.
  intros X Y Z W I J K L E. pose proof (prod_bound _ _ I J). pose proof (prod_bound _ _ K L).
  apply gr_add; [apply gr_mul; auto; lia|apply gr_mul; auto; lia|lia|lia].
Qed.

(** A quotient of integers of at most 23 bits is rounded to the right side of 0 and 1. *)
Lemma ratio_range (n d : Z) : (1 <= d <= 2 ^ 23)%Z -> (0 <= rnd (IZR n / IZR d) <= 1 <-> (0 <= n <= d)%Z).
Proof.
  intro D. assert (Pd : 0 < IZR d) by (apply IZR_lt; lia). assert (Ud : IZR d <= 8388608) by (apply IZR_le; lia).
  assert (Pi : 0 < / IZR d) by (apply Rinv_0_lt_compat; auto).
  assert (Li : / 8388608 <= / IZR d) by (apply Rinv_le_contravar; lra).
  assert (B : bpow radix2 (-23) = / 8388608) by (cbn; lra).
  split.
  - intros [H1 H2]. split.
    + destruct (Z_le_gt_dec 0 n) as [K|K]; auto. exfalso.
      assert (N : IZR n <= -1) by (apply IZR_le; lia).
      assert (Q : IZR n / IZR d <= - bpow radix2 (-23)) by (unfold Rdiv; rewrite B; nra).
      apply rnd_le in Q. rewrite rnd_opp, (rnd_id (bpow radix2 (-23))) in Q; [pose proof (bpow_gt_0 radix2 (-23)); lra|].
      rewrite <- Rmult_1_l. apply (format_scaled 1); cbn; lia.
    + destruct (Z_le_gt_dec n d) as [K|K]; auto. exfalso.
      assert (N : IZR d + 1 <= IZR n) by (rewrite <- plus_IZR; apply IZR_le; lia).
      assert (Q : IZR 8388609 * bpow radix2 (-23) <= IZR n / IZR d).
      { unfold Rdiv. apply Rle_trans with ((IZR d + 1) * / IZR d); [|nra]. rewrite Rmult_plus_distr_r, Rinv_r, Rmult_1_l, B by lra. lra. }
      apply rnd_le in Q. rewrite rnd_id in Q by (apply format_scaled; cbn; lia). rewrite B in Q. lra.
  - intros [H1 H2]. assert (N1 : 0 <= IZR n) by (apply IZR_le; auto). assert (N2 : IZR n <= IZR d) by (apply IZR_le; auto). split.
    + apply rnd_pos. unfold Rdiv. nra.
    + rewrite <- (rnd_id 1 format_1). apply rnd_le. apply Rmult_le_reg_r with (IZR d); auto. unfold Rdiv. rewrite Rmult_assoc, Rinv_l by lra. lra.
Qed.

Lemma contains_true s r k : xround (Fin r) = fval s -> f_contains false s k = FB true <-> 0 <= rnd r <= 1.
Proof.
  intro S. unfold f_contains, f_and, f_greater_equal, f_less_equal. cbn [f_to_b]. rewrite !val_leb, <- S, val_one, val_zero. cbn [xround].
  destruct (Rltb_spec (Rabs (rnd r)) (bpow radix2 128)) as [X|X].
  - cbn [xleb]. rewrite <- !Rleb_true. split; [intro K; injection K as K; apply andb_prop in K; auto|intros [K1 K2]; rewrite K1, K2; reflexivity].
  - split; [|intros K; exfalso; rewrite Rabs_pos_eq in X by lra; pose proof big_large; lra].
    destruct (Rltb 0 r); cbn; discriminate.
Qed.

Lemma grid_contains e w a b p q k : (-74 <= e <= 51)%Z -> on_grid e (fw_origin w) a -> on_grid e (fw_dest w) b -> on_grid e p q ->
  (f_contains false (f_c2p w p) k = FB true <-> projects_onto q a b).
Proof.
  intros E (i1 & j1 & I1 & J1 & -> & X1 & Y1) (i2 & j2 & I2 & J2 & -> & X2 & Y2) (i3 & j3 & I3 & J3 & -> & X3 & Y3). cbn [fst snd] in *.
  assert (GT : gr e (fst (fw_t w)) (i2 - i1) /\ gr e (snd (fw_t w)) (j2 - j1)) by (split; unfold fw_t; cbn [fst snd fv_sub]; apply gr_sub; auto; lia).
  assert (GO : gr e (fst (fv_sub p (fw_origin w))) (i3 - i1) /\ gr e (snd (fv_sub p (fw_origin w))) (j3 - j1)) by (split; cbn [fst snd fv_sub]; apply gr_sub; auto; lia).
  destruct GT as [Tx Ty], GO as [Ox Oy].
  pose proof (grid_dot e _ _ _ _ _ _ _ _ Tx Ox Ty Oy ltac:(lia) ltac:(lia) ltac:(lia) ltac:(lia) E) as Nn.
  pose proof (grid_dot e _ _ _ _ _ _ _ _ Tx Tx Ty Ty ltac:(lia) ltac:(lia) ltac:(lia) ltac:(lia) E) as Nd.
  unfold f_c2p, f_dot. set (fn := f_add (f_mul (fst (fw_t w)) (fst (fv_sub p _))) _) in *.
  set (fd := f_add (f_mul (fst (fw_t w)) (fst (fw_t w))) _) in *. clearbody fn fd. unfold gr in Nn, Nd.
  set (n := ((i2 - i1) * (i3 - i1) + (j2 - j1) * (j3 - j1))%Z) in *. set (d := ((i2 - i1) * (i2 - i1) + (j2 - j1) * (j2 - j1))%Z) in *.
  assert (U : 0 < bpow radix2 (e + e)) by apply bpow_gt_0.
  assert (Dn : (0 <= d <= 2 ^ 23)%Z).
  { pose proof (prod_bound (i2 - i1) (i2 - i1) ltac:(lia) ltac:(lia)). pose proof (prod_bound (j2 - j1) (j2 - j1) ltac:(lia) ltac:(lia)).
    pose proof (Z.square_nonneg (i2 - i1)). pose proof (Z.square_nonneg (j2 - j1)). unfold d. lia. }
  assert (SP : projects_onto (IZR i3 * bpow radix2 e, IZR j3 * bpow radix2 e) (IZR i1 * bpow radix2 e, IZR j1 * bpow radix2 e) (IZR i2 * bpow radix2 e, IZR j2 * bpow radix2 e) <-> (0 <= n <= d)%Z).
  { unfold projects_onto. cbn [fst snd].
    replace (_ + _) with (IZR n * bpow radix2 (e + e)) by (unfold n; rewrite bpow_plus, plus_IZR, !mult_IZR, !minus_IZR; ring).
    match goal with |- 0 <= _ <= ?x <-> _ => replace x with (IZR d * bpow radix2 (e + e)) by (unfold d; rewrite bpow_plus, plus_IZR, !mult_IZR, !minus_IZR; ring) end.
    split; intros [H1 H2]; split.
    - apply le_IZR. nra.
    - apply le_IZR. nra.
    - apply IZR_le in H1. nra.
    - apply IZR_le in H2. nra. }
  rewrite SP. destruct (f_eqb fd f_zero) eqn:Z.
  - apply val_eqb_zero in Z. rewrite Nd in Z. apply Fin_inj in Z.
    assert (Zd : d = 0%Z) by (apply eq_IZR; nra).
    assert (ij : (i2 - i1 = 0)%Z /\ (j2 - j1 = 0)%Z).
    { pose proof (Z.square_nonneg (i2 - i1)). pose proof (Z.square_nonneg (j2 - j1)). unfold d in Zd. nia. }
    assert (Zn : n = 0%Z) by (unfold n; nia). rewrite Zn, Zd. split; [intros; lia|intros _].
    rewrite Zn, Rmult_0_l in Nn.
    apply (contains_true _ 0).
    + rewrite (val_div fn f_one 1) by (try apply val_one; lra). rewrite Nn. cbn [xmul]. f_equal. f_equal. lra.
    + rewrite rnd_0. lra.
  - assert (Nz : IZR d * bpow radix2 (e + e) <> 0) by (intro K; rewrite K in Nd; apply val_eqb_zero in Nd; congruence).
    assert (Zd : (1 <= d)%Z) by (destruct (Z.eq_dec d 0) as [K|K]; [rewrite K, Rmult_0_l in Nz; contradiction|lia]).
    rewrite <- (ratio_range n d) by lia. apply contains_true.
    rewrite (div_small fn fd _ _ Nn Nd Nz). f_equal. f_equal.
    assert (IZR d <> 0) by (apply not_0_IZR; lia). field. split; lra.
Qed.

(** ** The fold over the objects of a path *)
Definition points_on_grid (e : Z) (ps : list fvec) (qs : list (R * R)) : Prop := Forall2 (on_grid e) ps qs.
Lemma row_on_grid e ps qs i q : Forall2 (on_grid e) ps qs -> nth_error qs i = Some q -> on_grid e (f_row ps i) q.
Proof.
  intros F N. assert (L : (i < length qs)%nat) by (apply nth_error_Some; congruence).
  assert (Ln : length ps = length qs) by (clear -F; induction F; cbn; auto).
  unfold f_row. rewrite Nat.min_l by lia. clear L Ln. revert i N. induction F; intros [|i] N; cbn in *; try discriminate; [injection N as <-; auto|auto].
Qed.
Lemma and_exact x y : f_and false x y = FB true <-> f_to_b x = true /\ f_to_b y = true.
Proof. unfold f_and. split; [intro H; injection H as H; apply andb_prop in H; auto|intros [-> ->]; reflexivity]. Qed.
Lemma fold_and_exact {A} (h : A -> ftruthy) l : forall acc,
  f_to_b (fold_left (fun c x => f_and false c (h x)) l acc) = true <-> f_to_b acc = true /\ forall x, In x l -> f_to_b (h x) = true.
Proof.
  induction l as [|x l IH]; intro acc; cbn [fold_left]; [split; [intro; split; auto; intros ? []|tauto]|].
  rewrite IH. cbn [f_to_b f_and]. rewrite andb_true_iff. split.
  - intros [[A1 A2] A3]. split; auto. intros y [->|Y]; auto.
  - intros [A1 A2]. split; [split; auto; apply A2; left; auto|]. intros y Y. apply A2. right. auto.
Qed.

Lemma contains_bool o p k : f_obj_contains false o p k = FB (f_to_b (f_obj_contains false o p k)).
Proof. destruct o; reflexivity. Qed.
Lemma grid_on_objects e p qs interacting shapes k : (-74 <= e <= 51)%Z -> Forall2 (on_grid e) (f_xys p) qs ->
  Forall2 (object_on_grid e) interacting shapes -> (length interacting < length qs)%nat ->
  (f_to_b (f_on_objects false p interacting k) = true <-> points_face_their_objects qs shapes).
Proof.
  intros E F G L. unfold f_on_objects, points_face_their_objects.
  assert (X : forall l acc, fold_left (fun contains '(i, obj) => f_and false contains (f_obj_contains false obj (f_row (f_xys p) (i + 1)) k)) l acc =
    fold_left (fun c x => f_and false c ((fun y => f_obj_contains false (snd y) (f_row (f_xys p) (fst y + 1)) k) x)) l acc).
  { induction l as [|[i o] l IH]; intro acc; cbn [fold_left fst snd]; auto. }
  rewrite X, fold_and_exact. clear X.
  assert (N : forall i o s, nth_error interacting i = Some o -> nth_error shapes i = Some s -> object_on_grid e o s).
  { clear L. induction G; intros [|i] o s A B; cbn in *; try discriminate; [congruence|eauto]. }
  assert (Ls : length interacting = length shapes) by (clear -G; induction G; cbn; auto).
  split.
  - intros [_ H] i a b q Sh Q. assert (i < length shapes)%nat by (apply nth_error_Some; congruence).
    destruct (nth_error interacting i) as [o|] eqn:O; [|apply nth_error_None in O; lia].
    specialize (N i o _ O Sh). specialize (H (i, o) (proj2 (PathP.in_enumerate _ _ _) O)). cbn [fst snd] in H. rewrite Nat.add_1_r in H.
    pose proof (row_on_grid e _ _ _ _ F Q) as R.
    destruct o as [w|w phi|v]; cbn [object_on_grid] in N; try contradiction; destruct N as [N1 N2];
      apply (grid_contains e w a b _ q k E N1 N2 R); rewrite <- H; reflexivity.
  - intro H. split; [reflexivity|]. intros [i o] I. apply PathP.in_enumerate in I. cbn [fst snd].
    assert (i < length interacting)%nat by (apply nth_error_Some; congruence).
    destruct (nth_error shapes i) as [s|] eqn:Sh; [|apply nth_error_None in Sh; lia].
    destruct (nth_error qs (S i)) as [q|] eqn:Q; [|apply nth_error_None in Q; lia].
    specialize (N i o s I Sh). pose proof (row_on_grid e _ _ _ _ F Q) as R. rewrite Nat.add_1_r.
    destruct o as [w|w phi|v], s as [a b|z]; cbn [object_on_grid] in N; try contradiction; [| |reflexivity]; destruct N as [N1 N2];
      specialize (H i a b q Sh Q); apply (grid_contains e w a b _ q k E N1 N2 R) in H; cbn [f_obj_contains]; rewrite H; reflexivity.
Qed.

(** ** The obstruction test *)
Lemma on_grid_val e p p' q : on_grid e p q -> fval (fst p') = fval (fst p) -> fval (snd p') = fval (snd p) -> on_grid e p' q.
Proof. intros (i & j & I & J & Q & X & Y) A B. exists i, j. rewrite A, B. auto. Qed.
Lemma grid_diff_finite e p q a b : on_grid e p a -> on_grid e q b -> (-74 <= e <= 51)%Z -> finite (fst (fv_sub p q)) /\ finite (snd (fv_sub p q)).
Proof.
  intros (i1 & j1 & I1 & J1 & -> & X1 & Y1) (i2 & j2 & I2 & J2 & -> & X2 & Y2) E. cbn [fst snd] in *.
  assert (GT : gr e (fst (fv_sub p q)) (i1 - i2) /\ gr e (snd (fv_sub p q)) (j1 - j2)) by (split; cbn [fst snd fv_sub]; apply gr_sub; auto; lia).
  destruct GT as [A B]. split; eexists; eauto.
Qed.
Lemma mul_zero_val z x : fval z = Fin 0 -> finite x -> fval (f_mul z x) = Fin 0.
Proof. intros Z [r X]. rewrite val_mul, Z, X. cbn [xmul]. rewrite Rmult_0_l. apply xround_zero. Qed.
Lemma sub_zero_val x z : fval z = Fin 0 -> fval (f_sub x z) = fval x.
Proof.
  intro Z. rewrite val_sub, Z. transitivity (xround (fval x)); [|apply xround_val]. f_equal. destruct (fval x) eqn:E; cbn; auto. f_equal. lra.
Qed.
Lemma add_zero_val x z : fval z = Fin 0 -> fval (f_add x z) = fval x.
Proof.
  intro Z. rewrite val_add, Z. transitivity (xround (fval x)); [|apply xround_val]. f_equal. destruct (fval x) eqn:E; cbn; auto. f_equal. lra.
Qed.
Lemma grid_patch e w a b patch : (-74 <= e <= 51)%Z -> on_grid e (fw_origin w) a -> on_grid e (fw_dest w) b -> fval patch = Fin 0 ->
  on_grid e (fv_sub (fw_origin w) (fv_scale patch (fw_t w))) a /\ on_grid e (fv_add (fw_dest w) (fv_scale patch (fw_t w))) b.
Proof.
  intros E A B Z. destruct (grid_diff_finite e _ _ _ _ B A E) as [F1 F2]. fold (fw_t w) in F1, F2. split.
  - eapply on_grid_val; [exact A| |]; cbn [fst snd fv_sub fv_scale]; apply sub_zero_val, mul_zero_val; auto.
  - eapply on_grid_val; [exact B| |]; cbn [fst snd fv_add fv_scale]; apply add_zero_val, mul_zero_val; auto.
Qed.
Lemma val_seg_tol : exists t, fval F_SEG_TOL = Fin t /\ 0 <= t <= 1 /\ Rabs (t - 5 / 1000) <= bpow radix2 (-32).
Proof.
  unfold F_SEG_TOL. rewrite val_lit by (cbn; lia). exists (rnd (5 * / 1000)). split; [reflexivity|].
  assert (K : Rabs (rnd (5 * / 1000) - 5 * / 1000) <= bpow radix2 (-7 - 25)) by (apply rnd_err; [lia|]; rewrite Rabs_pos_eq by lra; cbn; lra).
  change (-7 - 25)%Z with (-32)%Z in K. split; [|unfold Rdiv; auto]. apply Rabs_le_inv in K. assert (bpow radix2 (-32) <= / 1000000) by (cbn; lra). lra.
Qed.

Lemma fold_or_exact {A} (h : A -> ftruthy) l : forall acc,
  f_to_b (fold_left (fun c x => f_or false c (h x)) l acc) = true <-> f_to_b acc = true \/ exists x, In x l /\ f_to_b (h x) = true.
Proof.
  induction l as [|x l IH]; intro acc; cbn [fold_left]; [split; [auto|intros [H|(x & [] & _)]; auto]|].
  rewrite IH. cbn [f_to_b f_or]. rewrite orb_true_iff. split.
  - intros [[H|H]|(y & Y & H)]; [auto|right; exists x; split; [left; auto|auto]|right; exists y; split; [right; auto|auto]].
  - intros [H|(y & [->|Y] & H)]; eauto.
Qed.
(** The tests made by [intersects_with_objects], as a list. *)
Definition f_tests (p : fpath) (objects : list fobject) (cand : list Z) : list (nat * fobject) :=
  flat_map (fun i => map (fun '(j, o) => (i, o)) (filter (fun '(j, o) => negb (PathP.ignored cand i j)) (enumerate objects)))
    (seq 0 (length (f_xys p) - 1)).
Lemma f_inter_fold approx p objects cand patch k : (length (f_xys p) <= length cand + 2)%nat ->
  f_intersects_with_objects approx p objects cand patch k =
  Ok (fold_left (fun c x => f_or approx c ((fun y => f_obj_intersects approx (snd y) (f_row (f_xys p) (fst y)) (f_row (f_xys p) (fst y + 1)) patch k) x))
        (f_tests p objects cand) (f_false approx)).
Proof.
  intro L. unfold f_intersects_with_objects.
  assert (X : (length cand + 1 <? length (f_xys p) - 1)%nat = false) by (apply Nat.ltb_ge; lia). rewrite X. cbn [andb]. clear X. f_equal.
  unfold f_tests. generalize (f_false approx) as t.
  induction (seq 0 (length (f_xys p) - 1)) as [|i l IH]; intro t; cbn [fold_left flat_map]; auto.
  rewrite fold_left_app, IH. f_equal. clear IH.
  generalize (enumerate objects) as os. intro os. revert t. induction os as [|[j o] os IH]; intro t; cbn [fold_left filter map]; auto.
  unfold PathP.ignored at 1. destruct (_ || _)%bool; cbn [negb]; [apply IH|]. cbn [map fold_left fst snd]. apply IH.
Qed.
Lemma in_f_tests p objects cand i o : (length (f_xys p) <= length cand + 2)%nat ->
  (In (i, o) (f_tests p objects cand) <-> (S i < length (f_xys p))%nat /\ exists j, nth_error objects j = Some o /\ ~ touches cand i j).
Proof.
  intro L. unfold f_tests. rewrite in_flat_map. split.
  - intros (i' & I & T). apply in_seq in I. apply in_map_iff in T. destruct T as ([j o'] & Q & T).
    apply (f_equal fst) in Q as Q1. apply (f_equal snd) in Q. cbn [fst snd] in Q, Q1. subst i' o'. split; [lia|]. exists j.
    apply filter_In in T. destruct T as [T K]. apply PathP.in_enumerate in T. apply negb_true_iff in K. split; auto.
    change (touches cand i j) with (SpecPath.touches cand i j). rewrite <- PathP.ignored_touches by lia. congruence.
  - intros [I (j & O & T)]. exists i. split; [apply in_seq; lia|]. apply in_map_iff. exists (j, o). split; auto.
    apply filter_In. split; [apply PathP.in_enumerate; auto|]. change (touches cand i j) with (SpecPath.touches cand i j) in T.
    rewrite <- PathP.ignored_touches in T by lia. destruct (PathP.ignored cand i j); tauto.
Qed.
Lemma F2_nth {A B} (P : A -> B -> Prop) l l' : Forall2 P l l' -> forall i a, nth_error l i = Some a -> exists b, nth_error l' i = Some b /\ P a b.
Proof. induction 1; intros [|i] a E; cbn in *; try discriminate; [injection E as <-; eauto|eauto]. Qed.
Lemma F2_nth' {A B} (P : A -> B -> Prop) l l' : Forall2 P l l' -> forall i b, nth_error l' i = Some b -> exists a, nth_error l i = Some a /\ P a b.
Proof. induction 1; intros [|i] a E; cbn in *; try discriminate; [injection E as <-; eauto|eauto]. Qed.

Lemma seg_bool P1 P2 P3 P4 tol k : f_segments_intersect false P1 P2 P3 P4 tol k = FB (f_to_b (f_segments_intersect false P1 P2 P3 P4 tol k)).
Proof. reflexivity. Qed.
Lemma parallel_dec Q1 Q2 Q3 Q4 : parallel Q1 Q2 Q3 Q4 \/ ~ parallel Q1 Q2 Q3 Q4.
Proof. unfold parallel. destruct (Req_dec ((fst Q2 - fst Q1) * (snd Q4 - snd Q3)) ((snd Q2 - snd Q1) * (fst Q4 - fst Q3))); auto. Qed.
Lemma grid_obstruction e p qs objects shapes cand patch k t r : (-74 <= e <= 51)%Z -> Forall2 (on_grid e) (f_xys p) qs ->
  Forall2 (object_on_grid e) objects shapes -> (length qs <= length cand + 2)%nat -> fval patch = Fin 0 -> fval F_SEG_TOL = Fin t -> 0 <= t <= 1 ->
  f_intersects_with_objects false p objects cand patch k = Ok r ->
  (obstructed (- t) (1 + t) qs shapes cand -> f_to_b r = true) /\
  (f_to_b r = true -> obstructed (- (t + bpow radix2 (-22))) (1 + t + bpow radix2 (-22)) qs shapes cand).
Proof.
  intros E F G L Z T Ht H.
  assert (Lq : length (f_xys p) = length qs) by (clear -F; induction F; cbn; auto).
  rewrite f_inter_fold in H by lia. apply (f_equal (fun x => match x with Ok y => y | Err _ => FB false end)) in H. cbn beta iota in H. subst r.
  rewrite fold_or_exact. cbn [f_to_b f_false]. split.
  - intros (i & j & a & b & q & q' & O & Q & Q' & N & NP & C). right.
    destruct (F2_nth' _ _ _ G _ _ O) as (o & Oo & Og).
    exists (i, o). split; [apply in_f_tests; [lia|]; split; [rewrite Lq; apply nth_error_Some; congruence|eauto]|]. cbn [fst snd]. rewrite Nat.add_1_r.
    pose proof (row_on_grid e _ _ _ _ F Q) as R. pose proof (row_on_grid e _ _ _ _ F Q') as R'.
    destruct o as [w|w phi|v]; cbn [object_on_grid] in Og; try contradiction; destruct Og as [A B]; cbn [f_obj_intersects];
      destruct (grid_patch e w a b patch E A B Z) as [A' B'];
      destruct (grid_segments e _ _ _ _ _ _ _ _ F_SEG_TOL k t E A' B' R R' T Ht) as (_ & K & _); rewrite K by auto; reflexivity.
  - intros [D|([i o] & I & K)]; [discriminate|]. apply in_f_tests in I; [|lia]. destruct I as [I (j & O & N)]. cbn [fst snd] in K. rewrite Nat.add_1_r in K.
    destruct (F2_nth _ _ _ G _ _ O) as (s & Os & Og).
    destruct (nth_error qs i) as [q|] eqn:Q; [|apply nth_error_None in Q; lia]. destruct (nth_error qs (S i)) as [q'|] eqn:Q'; [|apply nth_error_None in Q'; lia].
    pose proof (row_on_grid e _ _ _ _ F Q) as R. pose proof (row_on_grid e _ _ _ _ F Q') as R'.
    destruct o as [w|w phi|v], s as [a b|z]; cbn [object_on_grid] in Og; try contradiction; [| |cbn in K; discriminate]; destruct Og as [A B]; cbn [f_obj_intersects] in K;
      exists i, j, a, b, q, q'; (do 3 (split; [auto|])); (split; [auto|]);
      destruct (grid_patch e w a b patch E A B Z) as [A' B'];
      destruct (grid_segments e _ _ _ _ _ _ _ _ F_SEG_TOL k t E A' B' R R' T Ht) as (K1 & _ & K3);
      rewrite seg_bool, K in K3; specialize (K3 eq_refl); (split; [|exact K3]); intro Pa; specialize (K1 Pa); rewrite seg_bool, K in K1; discriminate.
Qed.
Lemma all3_exact a b c : f_tnan_to_num (f_all false a [b; c]) = FB (f_to_b a && (f_to_b b && (f_to_b c && true))).
Proof. reflexivity. Qed.
