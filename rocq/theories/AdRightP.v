(** Gradients of the traced code: away from the transitions they are right. *)
From Coq Require Import Reals List Bool ZArith Arith Lia Lra Psatz.
From Verif Require Import Base BaseP LogicM GeometryM OptimizeM PathM UtilsM SceneM AdM SpecAd AdPos AdP AdSoundP AdGeomP AdGradP.
Import ListNotations.
Open Scope R_scope.
Local Notation length := List.length.

Section Right.
Variable n : nat.
Variable env : nat -> R.
Notation good := (good n env).
Notation gval := (gval n env).
Notation gvv := (gvv n env).
Notation gvl := (Forall2 (AdGradP.gvv n env)).

(** Locally constant. *)
Definition flat (e : expr) (c : R) : Prop := safe env e /\ (forall i, D env e i = 0) /\ eval env e = Fin c /\
  forall t0 curve v, (forall i, derivable_pt_lim (fun t => curve t i) t0 (v i)) -> (forall i, curve t0 i = env i) ->
  near t0 (fun t => eval (curve t) e = Fin c).
Lemma flat_gval e c : flat e c -> gval e c.
Proof.
  intros (S & Dz & E & N). split; auto. split; auto. intros t0 curve v Hv H0. eapply fol_const; eauto.
Qed.
Lemma flat_c r : flat (C r) r.
Proof. split; [cbn; auto|]. repeat split; auto. intros. apply near_all. reflexivity. Qed.
Lemma flat_min a b x y : flat a x -> flat b y -> flat (EMin a b) (Rmin x y).
Proof.
  intros (S & Z & E & N) (S' & Z' & E' & N'). split; [cbn; auto|]. split; [|split].
  - intros i. cbn [D]. cbv zeta. rewrite Z, Z'. ring.
  - cbn. rewrite E, E'. reflexivity.
  - intros t0 curve v Hv H0. eapply near_mono; [|apply near_and; [eapply N; eauto|eapply N'; eauto]]. cbn. intros t [-> ->]. reflexivity.
Qed.
Lemma flat_max a b x y : flat a x -> flat b y -> flat (EMax a b) (Rmax x y).
Proof.
  intros (S & Z & E & N) (S' & Z' & E' & N'). split; [cbn; auto|]. split; [|split].
  - intros i. cbn [D]. cbv zeta. rewrite Z, Z'. ring.
  - cbn. rewrite E, E'. reflexivity.
  - intros t0 curve v Hv H0. eapply near_mono; [|apply near_and; [eapply N; eauto|eapply N'; eauto]]. cbn. intros t [-> ->]. reflexivity.
Qed.
Lemma flat_sub a b x y : flat a x -> flat b y -> flat (ESub a b) (x - y).
Proof.
  intros (S & Z & E & N) (S' & Z' & E' & N'). split; [cbn; auto|]. split; [|split].
  - intros i. cbn [D]. rewrite Z, Z'. ring.
  - cbn. rewrite E, E'. reflexivity.
  - intros t0 curve v Hv H0. eapply near_mono; [|apply near_and; [eapply N; eauto|eapply N'; eauto]]. cbn. intros t [-> ->]. reflexivity.
Qed.
Definition bflat (e : expr) : Prop := exists c, (c = 0 \/ c = 1) /\ flat e c.
Lemma bf_min a b : bflat a -> bflat b -> bflat (EMin a b).
Proof.
  intros (x & Hx & A) (y & Hy & B). exists (Rmin x y). split; [|apply flat_min; auto]. unfold Rmin. destruct (Rle_dec x y); auto.
Qed.
Lemma bf_max a b : bflat a -> bflat b -> bflat (EMax a b).
Proof.
  intros (x & Hx & A) (y & Hy & B). exists (Rmax x y). split; [|apply flat_max; auto]. unfold Rmax. destruct (Rle_dec x y); auto.
Qed.
Lemma bf_not a : bflat a -> bflat (ESub (C 1) a).
Proof. intros (x & Hx & A). exists (1 - x). split; [destruct Hx; subst; [right|left]; ring|]. apply flat_sub; auto using flat_c. Qed.
Lemma bf_0 : bflat (C 0).
Proof. exists 0. split; auto. apply flat_c. Qed.
Lemma bf_1 : bflat (C 1).
Proof. exists 1. split; auto. apply flat_c. Qed.

(** The hard sigmoid. *)
Variable alpha : R.
Hypothesis Ha : 0 < alpha.
Let k := mkeakw alpha Hard.
Definition hs (x : R) : R := Rmin (Rmax (alpha * x + 3) 0) 6 / 6.
Lemma eval_act e x env' : eval env' e = Fin x -> eval env' (e_activation k e) = Fin (hs x).
Proof.
  intros E. unfold k, e_activation. cbn. rewrite E. cbn. unfold fdiv, Reqb. destruct (Req_EM_T 6 0); [lra|]. reflexivity.
Qed.
Lemma hs_high x : 3 < alpha * x -> hs x = 1.
Proof. intros H. unfold hs. rewrite Rmax_left by lra. rewrite Rmin_right by lra. field. Qed.
Lemma hs_low x : alpha * x < -3 -> hs x = 0.
Proof. intros H. unfold hs. rewrite Rmax_right by lra. rewrite Rmin_left by lra. field. Qed.
Lemma hs_range x : 0 <= hs x <= 1.
Proof.
  unfold hs. assert (0 <= Rmin (Rmax (alpha * x + 3) 0) 6 <= 6); [|lra]. split; [|apply Rmin_r].
  apply Rmin_glb; [apply Rmax_r|lra].
Qed.
Lemma settled_act e x : gval e x -> settled alpha x -> bflat (e_activation k e).
Proof.
  intros [[S F] E] St.
  assert (Sa : safe env (e_activation k e)) by (apply safe_activation; [cbn; lra|auto|rewrite E; discriminate]).
  exists (hs x). split; [destruct St as [L|L]; [left; apply hs_low; auto|right; apply hs_high; auto]|].
  split; [auto|split; [|split]].
  - intros i. unfold k, e_activation. cbn [ek_act ek_alpha D]. cbv zeta. cbn [eval]. rewrite E. cbn [xmul xadd xmax rv].
    destruct St as [L|L].
    + rewrite Rmax_right by lra. rewrite (shares_lost 0 (alpha * x + 3)) by lra. cbn [xmin rv]. unfold Rdiv. ring.
    + rewrite Rmax_left by lra. cbn [xmin]. rewrite Rmin_right by lra. rewrite (shares_lost 6 (alpha * x + 3)) by lra.
      cbn [rv]. unfold Rdiv. ring.
  - apply eval_act; auto.
  - intros t0 curve v Hv H0. destruct (F t0 curve v Hv H0) as (f & N & Df).
    pose proof (follows_val t0 curve env H0 _ _ N) as E0. rewrite E in E0. assert (f t0 = x) by (inversion E0; auto). subst x.
    assert (Q : near t0 (fun t => hs (f t) = hs (f t0))).
    { destruct St as [L|L].
      - eapply near_mono; [|apply (deriv_lt _ _ _ (-3 / alpha) Df)].
        + cbn. intros t Ht. rewrite !hs_low; auto. apply (Rmult_lt_compat_l alpha) in Ht; auto.
          replace (alpha * (-3 / alpha)) with (-3) in Ht by (field; lra). auto.
        + apply (Rmult_lt_reg_l alpha); auto. replace (alpha * (-3 / alpha)) with (-3) by (field; lra). auto.
      - eapply near_mono; [|apply (deriv_gt _ _ _ (3 / alpha) Df)].
        + cbn. intros t Ht. rewrite !hs_high; auto. apply (Rmult_lt_compat_l alpha) in Ht; auto.
          replace (alpha * (3 / alpha)) with 3 in Ht by (field; lra). auto.
        + apply (Rmult_lt_reg_l alpha); auto. replace (alpha * (3 / alpha)) with 3 by (field; lra). auto. }
    eapply near_mono; [|apply near_and; [apply N|apply Q]]. cbv beta. intros t [A B]. rewrite (eval_act _ _ _ A), B. reflexivity.
Qed.
(* not at a corner *)
Lemma gv_min_ne a b x y : gval a x -> gval b y -> x <> y -> gval (EMin a b) (Rmin x y).
Proof.
  intros [[S F] E] [[S' F'] E'] Ne. split; [|cbn; rewrite E, E'; reflexivity]. split; [cbn; auto|]. intros.
  apply fol_min; auto. rewrite E, E'. intros Q; inversion Q; contradiction.
Qed.
Lemma gv_max_ne a b x y : gval a x -> gval b y -> x <> y -> gval (EMax a b) (Rmax x y).
Proof.
  intros [[S F] E] [[S' F'] E'] Ne. split; [|cbn; rewrite E, E'; reflexivity]. split; [cbn; auto|]. intros.
  apply fol_max; auto. rewrite E, E'. intros Q; inversion Q; contradiction.
Qed.
Lemma smooth_act e x : gval e x -> -3 < alpha * x < 3 -> gval (e_activation k e) (hs x).
Proof.
  intros H L. unfold k, e_activation. cbn [ek_act ek_alpha]. unfold hs. apply gv_div; [|apply gv_c|lra].
  apply gv_min_ne; [|apply gv_c|rewrite Rmax_left; lra].
  apply gv_max_ne; [|apply gv_c|lra]. apply gv_add; [|apply gv_c]. apply gv_mul; [apply gv_c|auto].
Qed.

(** Crossing tests. *)
Lemma seg_test_flat a d x y tol : gval a x -> gval d y ->
  (y = 0 /\ x <> 0) \/ (y <> 0 /\ settled alpha (x / y + tol) /\ settled alpha (1 + tol - x / y)) ->
  bflat (e_seg_test k a d tol).
Proof.
  intros A Dd [[-> Nx]|(Ny & S1 & S2)].
  - exists 0. split; [auto|].
    destruct (sf_seg_test env k ltac:(cbn; lra) a d tol (sf_of_gval _ _ _ _ A) (sf_of_gval _ _ _ _ Dd)) as [Ss _].
    destruct A as [[Sa Fa] Ea], Dd as [[Sd Fd] Ed].
    assert (V : forall env' p q, eval env' a = Fin p -> eval env' d = Fin q ->
       (q <> 0 -> alpha * (p / q + tol) < -3 \/ alpha * (1 + tol - p / q) < -3) ->
       eval env' (e_seg_test k a d tol) = Fin 0).
    { intros env' p q Ep Eq Hpq. unfold e_seg_test. cbv zeta.
      set (t := EWhere IsZero d (ECst PInf) (EDiv a (EWhere IsZero d (C 1) d))).
      destruct (Req_dec q 0) as [->|Nq].
      - assert (Et : eval env' t = PInf) by (unfold t; cbn [eval]; rewrite Eq; cbn [holds]; unfold Reqb; destruct (Req_EM_T 0 0); [auto|lra]).
        cbn [eval]. unfold e_greater_equal, e_less_equal, k, e_activation. cbn [ek_act ek_alpha eval]. rewrite Et. cbn.
        unfold inf_times, Reqb, Rltb. destruct (Req_EM_T alpha 0); [lra|]. destruct (Rlt_dec 0 alpha); [|lra]. cbn.
        unfold fdiv, Reqb. destruct (Req_EM_T 6 0); [lra|]. cbn. f_equal. rewrite (Rmin_left 0 6) by lra. rewrite Rmin_right; lra.
      - assert (Et : eval env' t = Fin (p / q)).
        { unfold t. cbn [eval]. rewrite Eq, Ep. cbn [holds]. unfold Reqb. destruct (Req_EM_T q 0); [contradiction|]. cbn.
          unfold fdiv, Reqb. destruct (Req_EM_T q 0); [contradiction|reflexivity]. }
        assert (E1 : eval env' (e_greater_equal k t (C (- tol))) = Fin (hs (p / q + tol))).
        { apply eval_act. cbn [eval]. rewrite Et. cbn. f_equal. ring. }
        assert (E2 : eval env' (e_less_equal k t (C (1 + tol))) = Fin (hs (1 + tol - p / q))).
        { apply eval_act. cbn [eval]. rewrite Et. cbn. f_equal. }
        change (xmin (eval env' (e_greater_equal k t (C (- tol)))) (eval env' (e_less_equal k t (C (1 + tol)))) = Fin 0).
        rewrite E1, E2. cbn. f_equal. pose proof (hs_range (p / q + tol)). pose proof (hs_range (1 + tol - p / q)).
        destruct (Hpq Nq) as [L|L]; rewrite (hs_low _ L) in *; [rewrite Rmin_left|rewrite Rmin_right]; lra. }
    split; [auto|split; [|split]].
    + intros i. unfold e_seg_test. cbv zeta. set (t := EWhere IsZero d (ECst PInf) (EDiv a (EWhere IsZero d (C 1) d))).
      assert (Dt : D env t i = 0).
      { unfold t. cbn [D]. rewrite Ed. cbn [holds]. unfold Reqb. destruct (Req_EM_T 0 0); [reflexivity|lra]. }
      unfold e_greater_equal, e_less_equal, k, e_activation. cbn [ek_act ek_alpha D]. cbv zeta. rewrite Dt. unfold Rdiv. ring.
    + apply (V env x 0); auto. intros; lra.
    + intros t0 curve v Hv H0. destruct (Fa t0 curve v Hv H0) as (f & N & Df). destruct (Fd t0 curve v Hv H0) as (g & M & Dg).
      pose proof (follows_val t0 curve env H0 _ _ N) as E1. rewrite Ea in E1. assert (Fx : f t0 = x) by (inversion E1; auto).
      pose proof (follows_val t0 curve env H0 _ _ M) as E2. rewrite Ed in E2. assert (Gx : g t0 = 0) by (inversion E2; auto).
      set (big := 1 + Rabs tol + 3 / alpha). assert (Bp : 0 < big) by (unfold big; pose proof (Rabs_pos tol); assert (0 < 3 / alpha) by (apply Rdiv_lt_0_compat; lra); lra).
      assert (Xp : 0 < Rabs x) by (apply Rabs_pos_lt; auto).
      set (del := Rabs x / 2 / (2 * big)). assert (Dp : 0 < del) by (unfold del; apply Rdiv_lt_0_compat; lra).
      assert (NA : near t0 (fun t => Rabs x / 2 < Rabs (f t))).
      { destruct (Rcase_abs x) as [Lx|Lx].
        - eapply near_mono; [|apply (deriv_lt _ _ _ (x / 2) Df); lra]. cbn. intros t Ht.
          rewrite !Rabs_left by lra. lra.
        - eapply near_mono; [|apply (deriv_gt _ _ _ (x / 2) Df); rewrite Rabs_right in Xp; lra]. cbn. intros t Ht.
          rewrite (Rabs_right x) in * by lra. rewrite Rabs_right by lra. lra. }
      assert (ND : near t0 (fun t => Rabs (g t) < del)).
      { eapply near_mono; [|apply near_and; [apply (deriv_lt _ _ _ del Dg); lra|apply (deriv_gt _ _ _ (- del) Dg); lra]].
        cbn. intros t [L1 L2]. apply Rabs_def1; lra. }
      eapply near_mono; [|apply near_and; [apply near_and; [apply N|apply M]|apply near_and; [apply NA|apply ND]]].
      cbv beta. intros t [[Et1 Et2] [La Ld]]. apply (V (curve t) (f t) (g t)); auto. intros Ng.
      assert (Gp : 0 < Rabs (g t)) by (apply Rabs_pos_lt; auto).
      assert (Q : 2 * big < Rabs (f t / g t)).
      { unfold Rdiv. rewrite Rabs_mult, Rabs_inv. apply (Rmult_lt_reg_r (Rabs (g t))); auto.
        replace (Rabs (f t) * / Rabs (g t) * Rabs (g t)) with (Rabs (f t)) by (field; lra). eapply Rlt_trans; [|apply La].
        apply (Rlt_le_trans _ (2 * big * del)); [apply Rmult_lt_compat_l; lra|]. unfold del. right. field. lra. }
      assert (A3 : alpha * (3 / alpha) = 3) by (field; lra).
      set (q := f t / g t) in *. pose proof (Rle_abs tol). pose proof (Rle_abs (- tol)) as H1. rewrite Rabs_Ropp in H1.
      assert (0 < 3 / alpha) by (apply Rdiv_lt_0_compat; lra).
      destruct (Rcase_abs q) as [Lq|Lq].
      * left. rewrite Rabs_left in Q by lra. apply Rlt_le_trans with (alpha * (- (3 / alpha))); [|lra].
        apply Rmult_lt_compat_l; auto. unfold big in Q. lra.
      * right. rewrite Rabs_right in Q by lra. apply Rlt_le_trans with (alpha * (- (3 / alpha))); [|lra].
        apply Rmult_lt_compat_l; auto. unfold big in Q. lra.
  - unfold e_seg_test. cbv zeta.
    assert (W1 : gval (EWhere IsZero d (C 1) d) y) by (apply (gv_where0 n env d (C 1) d y); auto; cbn; auto).
    assert (W2 : gval (EWhere IsZero d (ECst PInf) (EDiv a (EWhere IsZero d (C 1) d))) (x / y)).
    { apply (gv_where0 n env d _ _ y); auto; [apply gv_div; auto|cbn; auto]. }
    apply bf_min; [apply (settled_act _ (x / y - - tol))|apply (settled_act _ (1 + tol - x / y))]; auto;
      try (apply gv_sub; auto; apply gv_c).
    replace (x / y - - tol) with (x / y + tol) by ring. auto.
Qed.
Lemma segments_flat P1 P2 P3 P4 p1 p2 p3 p4 tol : gvv P1 p1 -> gvv P2 p2 -> gvv P3 p3 -> gvv P4 p4 ->
  seg_set alpha p1 p2 p3 p4 tol -> bflat (e_segments_intersect k P1 P2 P3 P4 tol).
Proof.
  intros H1 H2 H3 H4 S. pose proof (gvv_vsub _ _ _ _ _ _ H2 H1) as [A1 A2]. pose proof (gvv_vsub _ _ _ _ _ _ H3 H4) as [B1 B2].
  pose proof (gvv_vsub _ _ _ _ _ _ H1 H3) as [C1 C2]. unfold seg_set in S. cbv zeta in S.
  unfold e_segments_intersect. cbv zeta.
  apply bf_min; (eapply seg_test_flat; [apply gv_sub; apply gv_mul; eauto|apply gv_sub; apply gv_mul; eauto|]); tauto.
Qed.
Lemma obj_intersects_flat o r0 r1 p q patch : gvv r0 p -> gvv r1 q -> obj_set alpha o p q patch ->
  bflat (e_obj_intersects k o r0 r1 patch).
Proof.
  intros A B S. destruct o as [w|w phi|x]; cbn [e_obj_intersects obj_set] in *; try apply bf_0;
    (eapply segments_flat; [| |exact A|exact B|exact S];
     [apply gvv_vsub|apply gvv_vadd]; try apply gvv_cvec; apply gvv_vscale; try apply gv_c; apply gvv_t).
Qed.
Lemma contains_flat e s : gval e s -> settled alpha s -> settled alpha (1 - s) -> bflat (e_contains k e).
Proof.
  intros H S1 S2. unfold e_contains, e_greater_equal, e_less_equal. apply bf_min.
  - apply (settled_act _ (s - 0)); [apply gv_sub; auto; apply gv_c|]. rewrite Rminus_0_r. auto.
  - apply (settled_act _ (1 - s)); [apply gv_sub; auto; apply gv_c|]. auto.
Qed.
Lemma row_nth ps i : (i < length ps)%nat -> row ps i = nth i ps (0, 0).
Proof. intros H. unfold row. rewrite Nat.min_l by lia. reflexivity. Qed.
Lemma on_objects_flat ws es ps : gvl es ps -> length ps = (length ws + 2)%nat ->
  (forall j w, nth_error ws j = Some w ->
     settled alpha (wall_c2p w (nth (j + 1) ps (0, 0))) /\ settled alpha (1 - wall_c2p w (nth (j + 1) ps (0, 0)))) ->
  bflat (e_on_objects k es (map OWall ws)).
Proof.
  intros L Len St. unfold e_on_objects.
  assert (G : forall m e, (forall i o, In (i, o) m -> (i < length ws)%nat /\ exists w, o = OWall w /\ nth_error ws i = Some w) -> bflat e ->
    bflat (fold_left (fun contains '(i, obj) => EMin contains (e_obj_contains k obj (e_row es (i + 1)))) m e)).
  { induction m as [|[i o] m IH]; intros e Hm E; cbn [fold_left]; auto.
    destruct (Hm i o (or_introl eq_refl)) as (Hi & w & -> & Ew).
    apply IH; [intros; apply Hm; right; auto|]. apply bf_min; auto. cbn [e_obj_contains].
    destruct (St i w Ew) as [S1 S2]. eapply contains_flat; [apply gv_c2p; apply gvv_row; eauto| |]; rewrite row_nth by lia; auto. }
  apply G; [|apply bf_1]. intros i o H. apply in_enumerate in H. rewrite map_length in H. destruct H as [H E]. split; auto.
  rewrite nth_error_map in E. destruct (nth_error ws i) as [w|]; [|discriminate]. cbn in E. inversion E. eauto.
Qed.
Lemma iwo_flat objs cand es ps patch : gvl es ps ->
  (forall i m o, (i + 1 < length ps)%nat -> nth_error objs m = Some o ->
     Z.of_nat m <> nth i (interacting_object_indices cand) 0%Z ->
     Z.of_nat m <> nth (i + 1) (interacting_object_indices cand) 0%Z ->
     obj_set alpha o (nth i ps (0, 0)) (nth (i + 1) ps (0, 0)) patch) ->
  bflat (e_intersects_with_objects k es objs cand patch).
Proof.
  intros L St. unfold e_intersects_with_objects. cbv zeta. rewrite (F2_length _ _ L).
  assert (G : forall l e, (forall i, In i l -> (i + 1 < length ps)%nat) -> bflat e ->
    bflat (fold_left (fun acc i => fold_left (fun acc '(obj_index, obj) =>
            let ignore := (Z.eqb (Z.of_nat obj_index) (nth (i + 0) (interacting_object_indices cand) 0%Z)
                           || Z.eqb (Z.of_nat obj_index) (nth (i + 1) (interacting_object_indices cand) 0%Z))%bool in
            if ignore then acc
            else EMax acc (e_obj_intersects k obj (e_row es i) (e_row es (i + 1)) patch)) (enumerate objs) acc) l e)).
  { induction l as [|i l IH]; intros e Hl E; cbn [fold_left]; auto. apply IH; [intros; apply Hl; right; auto|].
    assert (Hi : (i + 1 < length ps)%nat) by (apply Hl; left; auto).
    assert (G2 : forall m e, (forall j o, In (j, o) m -> nth_error objs j = Some o) -> bflat e ->
      bflat (fold_left (fun acc '(obj_index, obj) =>
            let ignore := (Z.eqb (Z.of_nat obj_index) (nth (i + 0) (interacting_object_indices cand) 0%Z)
                           || Z.eqb (Z.of_nat obj_index) (nth (i + 1) (interacting_object_indices cand) 0%Z))%bool in
            if ignore then acc
            else EMax acc (e_obj_intersects k obj (e_row es i) (e_row es (i + 1)) patch)) m e)).
    { clear e E. induction m as [|[j o] m IHm]; intros e Hm E; cbn [fold_left]; auto. apply IHm; [intros; apply Hm; right; auto|].
      cbv zeta. rewrite Nat.add_0_r. destruct (Z.eqb_spec (Z.of_nat j) (nth i (interacting_object_indices cand) 0%Z)); cbn [orb]; auto.
      destruct (Z.eqb_spec (Z.of_nat j) (nth (i + 1) (interacting_object_indices cand) 0%Z)); auto.
      apply bf_max; auto. eapply obj_intersects_flat; [apply gvv_row; eauto|apply gvv_row; eauto|].
      rewrite !row_nth by lia. apply (St i j o); auto. apply Hm. left; auto. }
    apply G2; auto. intros j o H. apply in_enumerate in H. tauto. }
  apply G; [|apply bf_0]. intros i H. apply in_seq in H. lia.
Qed.
Lemma gv_nan_to_num e x : gval e x -> gval (e_nan_to_num e) x.
Proof.
  intros H. unfold e_nan_to_num. cbv zeta.
  assert (W : forall c l a b y z, gval l y -> c <> IsZero -> gval b z -> safe env a -> gval (EWhere c l a b) z).
  { intros c l a b y z [[S F] E] Nc [[S' F'] E'] Sa.
    assert (Hh : holds c (eval env l) = false) by (rewrite E; destruct c; auto; congruence).
    split; [|cbn [eval]; rewrite Hh; auto]. split; [cbn; auto|]. intros. apply fol_where; [eapply near_holds; eauto|]. rewrite Hh. auto. }
  repeat (eapply W; [| discriminate | | cbn; auto]); eauto.
Qed.
Lemma gv_is_valid es ps le l objs cand ws tol patch : gvl es ps -> length ps = (length ws + 2)%nat -> gval le l ->
  path_set alpha tol patch objs cand ws ps l ->
  exists y, gval (e_is_valid k es le objs cand (map OWall ws) tol patch) y.
Proof.
  intros L Len E (S1 & S2 & S3 & S4). unfold e_is_valid.
  destruct (on_objects_flat ws es ps L Len S1) as (c1 & H1 & F1).
  destruct (bf_not _ (iwo_flat objs cand es ps patch L S2)) as (c2 & H2 & F2).
  assert (Lt : gval (ESub (C tol) le) (tol - l)) by (apply gv_sub; auto; apply gv_c).
  set (on := e_on_objects k es (map OWall ws)) in *. set (nb := ESub (C 1) (e_intersects_with_objects k es objs cand patch)) in *.
  assert (T12 : eval env on = eval env nb -> forall i, D env on i = D env nb i).
  { intros _ i. destruct F1 as (_ & Z1 & _), F2 as (_ & Z2 & _). rewrite Z1, Z2. reflexivity. }
  assert (M3 : exists z, gval (e_less k le (C tol)) z /\
     (forall e c, (c = 0 \/ c = 1) -> flat e c -> eval env e = eval env (e_less k le (C tol)) -> forall i, D env e i = D env (e_less k le (C tol)) i)).
  { assert (Cs : settled alpha (tol - l) \/ -3 < alpha * (tol - l) < 3) by (unfold settled; lra).
    destruct Cs as [Cs|Cs].
    - destruct (settled_act _ _ Lt Cs) as (c & Hc & Fc). exists c. split; [apply flat_gval; exact Fc|].
      intros e c' _ (_ & Z & _) _ i. destruct Fc as (_ & Z' & _). rewrite Z. symmetry. apply Z'.
    - exists (hs (tol - l)). split; [apply smooth_act; auto|]. intros e c Hc (_ & _ & Ev & _) Q. exfalso.
      assert (Ev' : eval env (e_less k le (C tol)) = Fin (hs (tol - l))) by (apply eval_act; apply Lt).
      rewrite Ev, Ev' in Q. assert (c = hs (tol - l)) by (inversion Q; auto). unfold hs in *.
      rewrite Rmax_left in * by lra. rewrite Rmin_left in * by lra. lra. }
  destruct M3 as (z & M & Tz).
  exists (Rmin (Rmin c1 c2) z). apply gv_nan_to_num.
  pose proof (flat_gval _ _ F1) as [[Sa Fa] Ea]. pose proof (flat_gval _ _ F2) as [[Sb Fb] Eb]. destruct M as [[Sc Fc] Ec].
  split; [|change (xmin (xmin (eval env on) (eval env nb)) (eval env (e_less k le (C tol))) = Fin (Rmin (Rmin c1 c2) z)); rewrite Ea, Eb, Ec; reflexivity].
  split.
  - cbn [safe]. right. rewrite Ea, Eb, Ec. repeat split; auto; discriminate.
  - intros t0 curve v Hv H0. pose proof (Tz on c1 H1 F1). pose proof (Tz nb c2 H2 F2). apply fol_min3; auto.
Qed.
Lemma gv_term eps rc h tol patch objs tx rx t r cand ws : gvv tx t -> gvv rx r -> h <> 0 ->
  gen_pos eps t ws r ->
  path_set alpha tol patch objs cand ws (image_points t ws r)
    (match ws with [] => 0 | _ => path_loss (map OWall ws) (image_points t ws r) end) ->
  exists y, gval (e_term k eps rc h tol patch objs tx rx (cand, ws)) y.
Proof.
  intros T Rr Hh (G1 & G2 & G3) St. pose proof (gvl_image_points n env tx t ws rx r T Rr G1) as L.
  assert (V : exists y, gval (e_is_valid k (e_image_points tx ws rx)
     (match ws with [] => C 0 | _ => e_path_loss (map OWall ws) (e_image_points tx ws rx) end) objs cand (map OWall ws) tol patch) y).
  { eapply gv_is_valid; eauto; [apply image_points_length|]. destruct ws as [|w ws]; [apply gv_c|].
    apply gv_path_loss; auto; [apply image_points_length|]. intros v Hv. apply G3; auto. discriminate. }
  destruct V as [y V]. destruct (gv_received_power n env eps _ _ rc h L G2 Hh) as [z Z].
  exists (y * z). unfold e_term. apply gv_mul; auto.
Qed.
Lemma gv_facc eps rc h tol patch objs work tx rx t r : gvv tx t -> gvv rx r -> h <> 0 ->
  (forall cand ws, In (cand, ws) work -> gen_pos eps t ws r /\
    path_set alpha tol patch objs cand ws (image_points t ws r)
      (match ws with [] => 0 | _ => path_loss (map OWall ws) (image_points t ws r) end)) ->
  exists y, gval (e_facc k eps rc h tol patch objs work tx rx) y.
Proof.
  intros T Rr Hh. unfold e_facc. pose proof (gv_c n env 0) as E. revert E. generalize 0 at 2. generalize (C 0).
  induction work as [|[cand ws] work IH]; intros e x E G; cbn [fold_left]; [eauto|].
  destruct (G cand ws (or_introl eq_refl)) as [G1 G2].
  destruct (gv_term eps rc h tol patch objs tx rx t r cand ws T Rr Hh G1 G2) as [y Y].
  eapply (IH _ (x + y)); [apply gv_add; auto|intros; apply G; right; auto].
Qed.
End Right.
