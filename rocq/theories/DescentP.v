(** Proofs: gradient descent on the length of a path. *)
From Coq Require Import Reals List Bool ZArith Lia Lra Psatz.
From Verif Require Import Base BaseP GeometryM SpecGeometry VecP OptimizeM SpecOptimize OptimizeP PathM SpecPath PathShapeP SpecImage ImageP SpecSolver SolverP SpecDescent.
Import ListNotations.
Local Notation length := List.length.
Open Scope R_scope.

(** ** Parameter vectors *)
Lemma scalar_cons a x b y : scalar (a :: x) (b :: y) = a * b + scalar x y.
Proof. reflexivity. Qed.
Lemma minus_cons a x b y : minus (a :: x) (b :: y) = (a - b) :: minus x y.
Proof. reflexivity. Qed.
Lemma minus_length x : forall y, length y = length x -> length (minus x y) = length x.
Proof. intros y H. unfold minus. rewrite map_length, combine_length. lia. Qed.
Lemma scalar_pos x : 0 <= scalar x x.
Proof. induction x as [|a x IH]; [unfold scalar; cbn; lra|]. rewrite scalar_cons. nra. Qed.
Lemma step_square x : forall g z eta, length g = length x -> length z = length x ->
  scalar (minus (moved x (map (fun a => - eta * a) g)) z) (minus (moved x (map (fun a => - eta * a) g)) z) =
  scalar (minus x z) (minus x z) + 2 * eta * scalar g (minus z x) + eta * eta * scalar g g.
Proof.
  induction x as [|a x IH]; intros [|b g] [|c z] eta H1 H2; try discriminate; [unfold scalar; cbn; ring|].
  cbn [length] in *. unfold moved. cbn [map combine]. fold (moved x (map (fun a => - eta * a) g)). cbn [fst snd].
  rewrite !minus_cons, !scalar_cons. rewrite IH by lia. ring.
Qed.
Lemma moved_step_length x g eta : length g = length x -> length (moved x (map (fun a => - eta * a) g)) = length x.
Proof. intro H. unfold moved. rewrite map_length, combine_length, map_length. lia. Qed.
Lemma step_minus x : forall g eta, length g = length x ->
  minus (moved x (map (fun a => - eta * a) g)) x = map (fun a => - eta * a) g.
Proof.
  induction x as [|a x IH]; intros [|b g] eta H; try discriminate; [reflexivity|]. cbn [length] in H.
  unfold moved. cbn [map combine]. fold (moved x (map (fun a => - eta * a) g)). cbn [fst snd].
  rewrite minus_cons, IH by lia. f_equal. ring.
Qed.
Lemma scalar_scale g : forall h c, scalar g (map (fun a => c * a) h) = c * scalar g h.
Proof. induction g as [|a g IH]; intros [|b h] c; try (unfold scalar; cbn; ring). cbn [map]. rewrite !scalar_cons, IH. ring. Qed.
Lemma scalar_sym g : forall h, scalar g h = scalar h g.
Proof. induction g as [|a g IH]; intros [|b h]; try reflexivity. rewrite !scalar_cons, IH. ring. Qed.

(** ** Gradient descent on a convex function that does not curve too much *)
Section Descent.
  Variable f : list R -> R.
  Variable grad : list R -> list R.
  Variable n : nat.
  Variable eta : R.
  Hypothesis Eta : 0 < eta.
  Hypothesis Len : forall x, length x = n -> length (grad x) = n.
  Hypothesis Convex : forall x y, length x = n -> length y = n -> f x + scalar (grad x) (minus y x) <= f y.
  Hypothesis Smooth : forall x, length x = n -> f (moved x (map (fun a => - eta * a) (grad x))) <= f x - eta / 2 * scalar (grad x) (grad x).

  Lemma iterates_length x st k m : length (x 0%nat) = n -> trajectory grad (sgd eta) x st m -> (k <= m)%nat -> length (x k) = n.
  Proof.
    intros L [_ T]. induction k as [|k IH]; intro K; auto. destruct (T k ltac:(lia)) as [-> _]. cbn [sgd opt_update fst].
    rewrite moved_step_length; [apply IH; lia|]. rewrite Len by (apply IH; lia). symmetry. apply IH. lia.
  Qed.
  Lemma descent x st m z : length (x 0%nat) = n -> trajectory grad (sgd eta) x st m -> length z = n -> forall k, (k <= m)%nat ->
    2 * eta * INR k * (f (x k) - f z) + scalar (minus (x k) z) (minus (x k) z) <= scalar (minus (x 0%nat) z) (minus (x 0%nat) z).
  Proof.
    intros L T Lz. induction k as [|k IH]; intro K; [cbn; lra|].
    assert (Lk : length (x k) = n) by (eapply iterates_length; eauto; lia). specialize (IH ltac:(lia)).
    destruct T as [_ T]. destruct (T k ltac:(lia)) as [E _]. cbn [sgd opt_update fst] in E.
    pose proof (Smooth (x k) Lk) as Sm. pose proof (Convex (x k) z Lk Lz) as Cv.
    pose proof (step_square (x k) (grad (x k)) z eta ltac:(rewrite Len; auto) ltac:(lia)) as Sq. rewrite <- E in Sm, Sq.
    pose proof (scalar_pos (grad (x k))) as Gp. set (G := scalar (grad (x k)) (grad (x k))) in *.
    set (Q := scalar (grad (x k)) (minus z (x k))) in *. rewrite Sq, S_INR.
    set (S1 := scalar (minus (x k) z) (minus (x k) z)) in *.
    assert (I : 0 <= INR k) by apply pos_INR.
    assert (D : f (x (S k)) <= f (x k)) by nra.
    assert (2 * eta * INR k * (f (x (S k)) - f z) <= 2 * eta * INR k * (f (x k) - f z)).
    { apply Rmult_le_compat_l; [|lra]. apply Rmult_le_pos; lra. }
    assert (2 * eta * (f (x (S k)) - f z) + 2 * eta * Q + eta * eta * G <= 0); [|lra].
    replace (2 * eta * (f (x (S k)) - f z) + 2 * eta * Q + eta * eta * G) with (2 * eta * (f (x (S k)) - f z + Q + eta / 2 * G)) by field.
    assert (f (x (S k)) - f z + Q + eta / 2 * G <= 0) by lra. nra.
  Qed.
End Descent.

(** ** Norms *)
Definition cr (u v : vec) : R := fst u * snd v - snd u * fst v.
(** The remainder of the first-order expansion of a norm. *)
Definition rest (u v : vec) : R := norm v - norm u - dot u (vsub v u) / norm u.
Lemma rest_eq u v : 0 < norm u -> rest u v = (norm u * norm v - dot u v) / norm u.
Proof.
  intro H. unfold rest. assert (E : dot u (vsub v u) = dot u v - norm u * norm u) by (rewrite norm_sq; unfold dot, vsub; cbn; ring).
  rewrite E. field. lra.
Qed.
Lemma rest_pos u v : 0 < norm u -> 0 <= rest u v.
Proof. intro H. rewrite rest_eq by auto. pose proof (cauchy u v). apply Rmult_le_pos; [lra|]. left. apply Rinv_0_lt_compat. auto. Qed.
Lemma le_div a b c : 0 < c -> a * c <= b -> a <= b / c.
Proof. intros H1 H2. apply Rmult_le_reg_r with c; auto. unfold Rdiv. rewrite Rmult_assoc, Rinv_l by lra. lra. Qed.
Lemma div_le a b c : 0 < c -> b <= a * c -> b / c <= a.
Proof. intros H1 H2. apply Rmult_le_reg_r with c; auto. unfold Rdiv. rewrite Rmult_assoc, Rinv_l by lra. lra. Qed.
Lemma rest_upper u v d : 0 < d -> d <= norm u -> rest u v <= dot (vsub v u) (vsub v u) / (2 * d).
Proof.
  intros H1 H2. set (q := dot (vsub v u) (vsub v u)).
  assert (Hq : 0 <= q).
  { unfold q. rewrite <- norm_sq. pose proof (norm_nonneg (vsub v u)). nra. }
  assert (E : rest u v <= q / (2 * norm u)).
  { rewrite rest_eq by lra. apply div_le; [lra|]. assert (Eq : q / (2 * norm u) * norm u = q / 2) by (field; lra). rewrite Eq.
    assert (X : q = norm v * norm v + norm u * norm u - 2 * dot u v) by (unfold q; rewrite !norm_sq; unfold dot, vsub; cbn; ring).
    pose proof (Rle_0_sqr (norm u - norm v)) as Y. unfold Rsqr in Y. lra. }
  eapply Rle_trans; [exact E|]. unfold Rdiv. apply Rmult_le_compat_l; auto. apply Rinv_le_contravar; lra.
Qed.
Lemma lagrange u v : dot u v * dot u v + cr u v * cr u v = (norm u * norm u) * (norm v * norm v).
Proof. rewrite !norm_sq. unfold dot, cr. ring. Qed.
Lemma rest_lower u v : 0 < norm u -> cr u v * cr u v <= 2 * norm u * norm u * norm v * rest u v.
Proof.
  intro H. rewrite rest_eq by auto. pose proof (norm_nonneg v) as Nv. pose proof (cauchy u v) as C.
  assert (L := lagrange u v). set (p := norm u * norm v) in *. set (d := dot u v) in *.
  replace (2 * norm u * norm u * norm v * ((p - d) / norm u)) with (2 * p * (p - d)) by (unfold p; field; lra).
  assert (Ec : cr u v * cr u v = p * p - d * d) by (unfold p; nra).
  assert (Nd : - d <= p).
  { pose proof (cauchy (vscale (-1) u) v) as C2. assert (E1 : dot (vscale (-1) u) v = - d) by (unfold d, dot, vscale; cbn; ring).
    assert (E2 : norm (vscale (-1) u) = norm u) by (unfold norm; f_equal; unfold dot, vscale; cbn; ring). rewrite E1, E2 in C2. exact C2. }
  rewrite Ec. nra.
Qed.

(** ** Legs *)
Definition wd (w : wall) : vec := vsub (w_dest w) (w_origin w).
Definition wp (w : wall) (t : R) : vec := at_ (w_origin w) (w_dest w) t.
Fixpoint legs (e : R) (A : vec) (ws : list wall) (th : list R) (rx : vec) : list vec :=
  match ws, th with
  | w :: ws', t :: th' => vadd (vsub (wp w t) A) (e, e) :: legs e (wp w t) ws' th' rx
  | _, _ => [vadd (vsub rx A) (e, e)]
  end.
Definition total (l : list vec) : R := fold_right Rplus 0 (map norm l).
Fixpoint points (ws : list wall) (th : list R) : list vec :=
  match ws, th with w :: ws', t :: th' => wp w t :: points ws' th' | _, _ => [] end.
Lemma legs_diffs e ws : forall A th rx, length th = length ws ->
  map (fun v => (fst v + e, snd v + e)) (diffs (A :: points ws th ++ [rx])) = legs e A ws th rx.
Proof.
  induction ws as [|w ws IH]; intros A [|t th] rx L; try discriminate; [reflexivity|]. cbn [length] in L.
  cbn [points legs app]. rewrite <- IH by lia. reflexivity.
Qed.
Lemma points_p2c ws th tx rx : length th = length ws ->
  parametric_to_cartesian (map OWall ws) th (length (map OWall ws)) tx rx = tx :: points ws th ++ [rx].
Proof.
  intro L. rewrite p2c_eq. f_equal. f_equal.
  assert (X : forall ws pre th, length th = length ws -> param_points (map OWall ws) (pre ++ th) (length pre) = points ws th).
  { clear. induction ws as [|w ws IH]; intros pre [|t th] L; try discriminate; [reflexivity|]. cbn [length] in L.
    cbn [map param_points points parameters_count]. f_equal.
    - unfold p2c_from_slice. cbn [obj_p2c]. rewrite slice_one by (rewrite app_length; cbn; lia).
      rewrite app_nth2, Nat.sub_diag by lia. cbn [nth]. unfold wall_p2c, wp, at_, wall_t, vadd, vscale, vsub, origin, dest.
      destruct (w_origin w), (w_dest w). cbn. f_equal; ring.
    - specialize (IH (pre ++ [t]) th ltac:(lia)). rewrite app_length, <- app_assoc in IH. exact IH. }
  exact (X ws [] th L).
Qed.
Lemma objective_legs e ws th tx rx : length th = length ws -> fermat_objective e (map OWall ws) tx rx th = total (legs e tx ws th rx).
Proof. intro L. unfold fermat_objective. rewrite points_p2c by auto. unfold path_length. rewrite legs_diffs by auto. reflexivity. Qed.

(** ** The gradient of the total length *)
Definition unit_ (u : vec) : vec := vscale (/ norm u) u.
Fixpoint slopes (ws : list wall) (L : list vec) : list R :=
  match ws, L with
  | w :: ws', u :: L' => (dot (unit_ u) (wd w) - dot (unit_ (hd (0, 0) L')) (wd w)) :: slopes ws' L'
  | _, _ => []
  end.
Lemma dot_unit u x : 0 < norm u -> dot (unit_ u) x = dot u x / norm u.
Proof. intro H. unfold unit_, dot, vscale. cbn [fst snd]. field. lra. Qed.
Lemma slopes_length e ws : forall A th rx, length th = length ws -> length (slopes ws (legs e A ws th rx)) = length ws.
Proof.
  induction ws as [|w ws IH]; intros A [|t th] rx L; try discriminate; [reflexivity|]. cbn [length] in L.
  cbn [legs slopes length]. rewrite IH; auto.
Qed.
Definition over (F : vec -> vec -> R) (L L' : list vec) : R := fold_right Rplus 0 (map (fun p => F (fst p) (snd p)) (combine L L')).
Lemma over_cons F u L v L' : over F (u :: L) (v :: L') = F u v + over F L L'.
Proof. reflexivity. Qed.
Definition stretch (u v : vec) : R := dot (unit_ u) (vsub v u).
Lemma parts e ws : forall A A' th th' rx, length th = length ws -> length th' = length ws ->
  over stretch (legs e A ws th rx) (legs e A' ws th' rx) =
  scalar (slopes ws (legs e A ws th rx)) (minus th' th) + dot (unit_ (hd (0, 0) (legs e A ws th rx))) (vsub A A').
Proof.
  induction ws as [|w ws IH]; intros A A' [|t th] [|t' th'] rx L L'; try discriminate.
  - cbn. unfold stretch, scalar, over, dot, vsub, vadd. cbn. ring.
  - cbn [length] in *. cbn [legs slopes]. rewrite over_cons, minus_cons, scalar_cons, (IH (wp w t) (wp w t') th th' rx) by lia.
    set (h := hd (0, 0) (legs e (wp w t) ws th rx)). cbn [hd]. set (u := vadd (vsub (wp w t) A) (e, e)).
    assert (E1 : stretch u (vadd (vsub (wp w t') A') (e, e)) = (t' - t) * dot (unit_ u) (wd w) + dot (unit_ u) (vsub A A')).
    { unfold stretch, u at 2. unfold wp, at_, wd, dot, vsub, vadd, vscale. cbn [fst snd]. ring. }
    assert (E2 : dot (unit_ h) (vsub (wp w t) (wp w t')) = - (t' - t) * dot (unit_ h) (wd w)).
    { unfold wp, at_, wd, dot, vsub, vadd, vscale. cbn [fst snd]. ring. }
    rewrite E1, E2. ring.
Qed.
Lemma total_rest (L L' : list vec) : length L = length L' -> Forall (fun u => 0 < norm u) L ->
  total L' = total L + over stretch L L' + over rest L L'.
Proof.
  revert L'. induction L as [|u L IH]; intros [|v L'] E F; try discriminate; [unfold total, over; cbn; ring|].
  inversion F; subst. rewrite !over_cons. unfold total. cbn [map fold_right]. fold (total L) (total L').
  rewrite (IH L') by auto. unfold rest, stretch. rewrite dot_unit by auto. ring.
Qed.
Lemma legs_length e ws : forall A th rx, length th = length ws -> length (legs e A ws th rx) = S (length ws).
Proof.
  induction ws as [|w ws IH]; intros A [|t th] rx L; try discriminate; [reflexivity|]. cbn [length] in L.
  cbn [legs length]. rewrite IH; auto.
Qed.
Lemma over_le F G L : forall L', length L = length L' -> (forall u v, In u L -> F u v <= G u v) -> over F L L' <= over G L L'.
Proof.
  induction L as [|u L IH]; intros [|v L'] E H; try discriminate; [unfold over; cbn; lra|]. rewrite !over_cons.
  apply Rplus_le_compat; [apply H; left; auto|]. apply IH; auto. intros; apply H; right; auto.
Qed.
Lemma over_zero L : forall L', over (fun _ _ => 0) L L' = 0.
Proof. induction L as [|u L IH]; intros [|v L']; try reflexivity. rewrite over_cons, IH. ring. Qed.
Definition gapsq (u v : vec) : R := dot (vsub v u) (vsub v u).
Lemma over_scale F c L : forall L', over (fun u v => F u v / c) L L' = over F L L' / c.
Proof. induction L as [|u L IH]; intros [|v L']; try (unfold over, Rdiv; cbn; ring). rewrite !over_cons, IH. unfold Rdiv. ring. Qed.
Lemma gaps_bound e D ws : forall A A' th th' rx, length th = length ws -> length th' = length ws -> 0 <= D ->
  Forall (fun w => norm (wd w) <= D) ws ->
  over gapsq (legs e A ws th rx) (legs e A' ws th' rx) <=
  2 * dot (vsub A' A) (vsub A' A) + 4 * (D * D) * scalar (minus th' th) (minus th' th).
Proof.
  induction ws as [|w ws IH]; intros A A' [|t th] [|t' th'] rx L L' HD F; try discriminate.
  - destruct A as [a b], A' as [a' b'], rx as [x y]. unfold gapsq, scalar, over, minus, dot, vsub, vadd. cbn.
    pose proof (Rle_0_sqr (a' - a)) as Y1. pose proof (Rle_0_sqr (b' - b)) as Y2. unfold Rsqr in Y1, Y2.
    match goal with |- ?l <= ?r => replace l with ((a' - a) * (a' - a) + (b' - b) * (b' - b)) by ring;
      replace r with (2 * ((a' - a) * (a' - a) + (b' - b) * (b' - b))) by ring end. lra.
  - cbn [length] in *. inversion F; subst. cbn [legs]. rewrite over_cons, minus_cons, scalar_cons.
    specialize (IH (wp w t) (wp w t') th th' rx ltac:(lia) ltac:(lia) HD ltac:(auto)).
    set (Z := over gapsq _ _) in *. set (S1 := scalar _ _) in *.
    set (q := dot (vsub (wp w t') (wp w t)) (vsub (wp w t') (wp w t))) in *.
    assert (Eq : q = (t' - t) * (t' - t) * dot (wd w) (wd w)).
    { unfold q, wp, at_, wd, dot, vsub, vadd, vscale. cbn [fst snd]. ring. }
    assert (Q : q <= D * D * ((t' - t) * (t' - t))).
    { rewrite Eq, <- norm_sq. pose proof (norm_nonneg (wd w)) as N. pose proof (Rle_0_sqr (t' - t)) as Sq. unfold Rsqr in Sq.
      assert (norm (wd w) * norm (wd w) <= D * D) by (apply Rmult_le_compat; auto). nra. }
    assert (G : gapsq (vadd (vsub (wp w t) A) (e, e)) (vadd (vsub (wp w t') A') (e, e)) <= 2 * dot (vsub A' A) (vsub A' A) + 2 * q).
    { unfold gapsq, q. destruct (wp w t) as [px py], (wp w t') as [px' py'], A as [ax ay], A' as [ax' ay'].
      unfold dot, vsub, vadd. cbn [fst snd]. 
      pose proof (Rle_0_sqr ((px' - px) + (ax' - ax))) as Y1. pose proof (Rle_0_sqr ((py' - py) + (ay' - ay))) as Y2.
      unfold Rsqr in Y1, Y2. nra. }
    lra.
Qed.

(** ** The function to minimise *)
Section Objective.
  Variable e d D : R.
  Variable tx rx : vec.
  Variable ws : list wall.
  Hypothesis Hd : 0 < d.
  Hypothesis HD : 0 <= D.
  Hypothesis Walls : Forall (fun w => norm (wd w) <= D) ws.
  Hypothesis Legs : forall th, length th = length ws -> Forall (fun u => d <= norm u) (legs e tx ws th rx).
  Let f (th : list R) : R := total (legs e tx ws th rx).
  Let g (th : list R) : list R := slopes ws (legs e tx ws th rx).

  Lemma f_expand th th' : length th = length ws -> length th' = length ws ->
    f th' = f th + scalar (g th) (minus th' th) + over rest (legs e tx ws th rx) (legs e tx ws th' rx).
  Proof.
    intros L L'. unfold f. rewrite (total_rest (legs e tx ws th rx)).
    - rewrite (parts e ws tx tx th th' rx L L'). fold (g th).
      assert (E : dot (unit_ (hd (0, 0) (legs e tx ws th rx))) (vsub tx tx) = 0) by (unfold dot, vsub; cbn [fst snd]; ring).
      rewrite E. ring.
    - rewrite !legs_length; auto.
    - eapply Forall_impl; [|apply Legs; auto]. intros u Hu. cbn in Hu. lra.
  Qed.
  Lemma f_convex th th' : length th = length ws -> length th' = length ws -> f th + scalar (g th) (minus th' th) <= f th'.
  Proof.
    intros L L'. rewrite (f_expand th th' L L'). 
    assert (0 <= over rest (legs e tx ws th rx) (legs e tx ws th' rx)); [|lra].
    rewrite <- (over_zero (legs e tx ws th rx) (legs e tx ws th' rx)). apply over_le; [rewrite !legs_length; auto|].
    intros u v Hu. apply rest_pos. pose proof (Legs th L) as F. rewrite Forall_forall in F. specialize (F u Hu). lra.
  Qed.
  Lemma f_above th th' : length th = length ws -> length th' = length ws ->
    f th' <= f th + scalar (g th) (minus th' th) + 2 * (D * D) / d * scalar (minus th' th) (minus th' th).
  Proof.
    intros L L'. rewrite (f_expand th th' L L'). apply Rplus_le_compat_l.
    eapply Rle_trans; [apply (over_le rest (fun u v => gapsq u v / (2 * d))); [rewrite !legs_length; auto|]|].
    - intros u v Hu. apply rest_upper; auto. pose proof (Legs th L) as F. rewrite Forall_forall in F. exact (F u Hu).
    - rewrite over_scale. apply div_le; [lra|].
      pose proof (gaps_bound e D ws tx tx th th' rx L L' HD Walls) as G.
      assert (E : dot (vsub tx tx) (vsub tx tx) = 0) by (unfold dot, vsub; cbn [fst snd]; ring). rewrite E in G.
      replace (2 * (D * D) / d * scalar (minus th' th) (minus th' th) * (2 * d)) with (4 * (D * D) * scalar (minus th' th) (minus th' th)) by (field; lra).
      lra.
  Qed.
  Lemma g_length th : length th = length ws -> length (g th) = length ws.
  Proof. intro L. apply slopes_length. auto. Qed.
  Lemma f_step th eta : length th = length ws -> 0 < eta -> 4 * (D * D) * eta <= d ->
    f (moved th (map (fun a => - eta * a) (g th))) <= f th - eta / 2 * scalar (g th) (g th).
  Proof.
    intros L He H. pose proof (f_above th (moved th (map (fun a => - eta * a) (g th))) L) as A.
    rewrite moved_step_length in A by (rewrite g_length; auto). specialize (A L).
    rewrite step_minus in A by (rewrite g_length; auto).
    rewrite !scalar_scale, (scalar_sym (map _ _)), scalar_scale in A.
    pose proof (scalar_pos (g th)) as P. set (G := scalar (g th) (g th)) in *.
    assert (2 * (D * D) / d * (- eta * (- eta * G)) <= eta / 2 * G); [|lra].
    replace (2 * (D * D) / d * (- eta * (- eta * G))) with ((2 * (D * D) * eta * (eta * G)) / d) by (field; lra).
    apply div_le; auto. assert (0 <= eta * G) by (apply Rmult_le_pos; lra). nra.
  Qed.
  Lemma f_gradient th : length th = length ws -> is_gradient_of f th (g th).
  Proof.
    intro L. split; [rewrite g_length; auto|]. intros r Hr. set (C := 2 * (D * D) / d).
    assert (HC : 0 <= C). { unfold C. apply Rmult_le_pos; [nra|]. left. apply Rinv_0_lt_compat. auto. }
    exists (r / (C + 1)). split; [apply Rdiv_lt_0_compat; lra|]. intros y Ly Hy. rewrite L in Ly.
    pose proof (f_convex th y L Ly) as B1. pose proof (f_above th y L Ly) as B2. fold C in B2.
    set (q := scalar (minus y th) (minus y th)) in *. assert (Q : 0 <= q) by apply scalar_pos.
    assert (Sq : sqrt q * sqrt q = q) by (apply sqrt_sqrt; auto). pose proof (sqrt_pos q) as Sp.
    assert (K : C * sqrt q <= r).
    { assert (sqrt q * (C + 1) <= r); [|nra]. apply Rlt_le in Hy. apply Rmult_le_compat_r with (r := C + 1) in Hy; [|lra].
      unfold Rdiv in Hy. rewrite Rmult_assoc, Rinv_l in Hy by lra. lra. }
    rewrite Rabs_pos_eq by lra. assert (C * q <= r * sqrt q); [|lra]. rewrite <- Sq at 1. rewrite <- Rmult_assoc. apply Rmult_le_compat_r; auto.
  Qed.
End Objective.

(** ** Gradients are unique *)
Lemma scalar_minus_l a : forall b h, length a = length b -> length h = length a -> scalar (minus a b) h = scalar a h - scalar b h.
Proof.
  induction a as [|x a IH]; intros [|y b] [|z h] L1 L2; try discriminate; [unfold scalar; cbn; ring|]. cbn [length] in *.
  rewrite minus_cons, !scalar_cons, IH by lia. ring.
Qed.
Lemma scalar_zero x : scalar x x <= 0 -> Forall (fun a => a = 0) x.
Proof.
  induction x as [|a x IH]; intro H; constructor; rewrite scalar_cons in H; pose proof (scalar_pos x); [nra|apply IH; nra].
Qed.
Lemma minus_zero a : forall b, length a = length b -> Forall (fun x => x = 0) (minus a b) -> a = b.
Proof.
  induction a as [|x a IH]; intros [|y b] L F; try discriminate; auto. rewrite minus_cons in F. inversion F; subst.
  f_equal; [lra|]. apply IH; auto.
Qed.
Lemma moved_minus x : forall h, length h = length x -> minus (moved x h) x = h.
Proof.
  induction x as [|a x IH]; intros [|b h] H; try discriminate; [reflexivity|]. cbn [length] in H.
  unfold moved. cbn [map combine]. fold (moved x h). cbn [fst snd]. rewrite minus_cons, IH by lia. f_equal. ring.
Qed.
Lemma moved_length x h : length h = length x -> length (moved x h) = length x.
Proof. intro H. unfold moved. rewrite map_length, combine_length. lia. Qed.
Lemma gradient_unique f x g1 g2 : is_gradient_of f x g1 -> is_gradient_of f x g2 -> g1 = g2.
Proof.
  intros [L1 H1] [L2 H2]. apply minus_zero; [lia|]. set (h := minus g1 g2).
  assert (Lh : length h = length x) by (unfold h; rewrite minus_length; lia).
  apply scalar_zero. set (q := scalar h h). destruct (Rle_or_lt q 0) as [|Q]; auto. exfalso.
  assert (Sq : sqrt q * sqrt q = q) by (apply sqrt_sqrt; lra). assert (Sp : 0 < sqrt q) by (apply sqrt_lt_R0; auto).
  destruct (H1 (sqrt q / 4) ltac:(lra)) as (d1 & D1 & F1). destruct (H2 (sqrt q / 4) ltac:(lra)) as (d2 & D2 & F2).
  set (dm := Rmin d1 d2). assert (Dm : 0 < dm) by (apply Rmin_glb_lt; auto).
  set (t := dm / (2 * sqrt q)). assert (T : 0 < t) by (apply Rdiv_lt_0_compat; lra).
  set (y := moved x (map (fun a => t * a) h)).
  assert (Ly : length y = length x) by (unfold y; apply moved_length; rewrite map_length; auto).
  assert (E : minus y x = map (fun a => t * a) h) by (unfold y; apply moved_minus; rewrite map_length; auto).
  assert (En : sqrt (scalar (minus y x) (minus y x)) = t * sqrt q).
  { rewrite E, scalar_scale, scalar_sym, scalar_scale. fold q. replace (t * (t * q)) with ((t * sqrt q) * (t * sqrt q)) by (rewrite <- Sq at 3; ring).
    apply sqrt_square. nra. }
  assert (Es : t * sqrt q = dm / 2) by (unfold t; field; lra).
  pose proof (Rmin_l d1 d2) as M1. pose proof (Rmin_r d1 d2) as M2. fold dm in M1, M2.
  specialize (F1 y Ly ltac:(rewrite En, Es; lra)). specialize (F2 y Ly ltac:(rewrite En, Es; lra)).
  rewrite En, E, scalar_scale in F1, F2.
  assert (K : scalar g1 h - scalar g2 h = q) by (rewrite <- scalar_minus_l by lia; reflexivity).
  set (z := f y - f x) in *. 
  assert (A1 : Rabs (t * q) <= 2 * (sqrt q / 4 * (t * sqrt q))).
  { replace (t * q) with ((z - t * scalar g2 h) - (z - t * scalar g1 h)) by (rewrite <- K; ring).
    eapply Rle_trans; [apply Rabs_triang|]. rewrite Rabs_Ropp. lra. }
  rewrite Rabs_pos_eq in A1 by nra. replace (2 * (sqrt q / 4 * (t * sqrt q))) with (t * (sqrt q * sqrt q) / 2) in A1 by field.
  rewrite Sq in A1. nra.
Qed.
Lemma gradient_ext f f' x g : (forall y, length y = length x -> f y = f' y) -> is_gradient_of f x g -> is_gradient_of f' x g.
Proof.
  intros E [L H]. split; auto. intros e He. destruct (H e He) as (d & D & F). exists d. split; auto.
  intros y Ly Hy. rewrite <- !E by auto. apply F; auto.
Qed.

(** ** From the hypotheses of the statements *)
Lemma in_legs e ws : forall A th rx u, length th = length ws -> In u (legs e A ws th rx) ->
  exists i P Q, nth_error (A :: points ws th ++ [rx]) i = Some P /\ nth_error (A :: points ws th ++ [rx]) (S i) = Some Q /\ u = vadd (vsub Q P) (e, e).
Proof.
  induction ws as [|w ws IH]; intros A [|t th] rx u L I; try discriminate.
  - destruct I as [<-|[]]. exists 0%nat, A, rx. cbn. auto.
  - cbn [length] in L. cbn [legs] in I. destruct I as [<-|I].
    + exists 0%nat, A, (wp w t). cbn [points app nth_error]. auto.
    + destruct (IH (wp w t) th rx u ltac:(lia) I) as (i & P & Q & H1 & H2 & H3). exists (S i), P, Q. cbn [points app]. split; auto.
Qed.
Lemma points_visits tx ws rx th : length th = length ws -> visits tx ws rx (tx :: points ws th ++ [rx]).
Proof.
  intro L. exists (points ws th). split; auto. revert th L. induction ws as [|w ws IH]; intros [|t th] L; try discriminate; constructor.
  - exists t. reflexivity.
  - apply IH. cbn in L. lia.
Qed.
Lemma norm_shift u e : 0 <= e -> norm u - sqrt 2 * e <= norm (vadd u (e, e)).
Proof.
  intro E. pose proof (norm_triangle (vadd u (e, e)) (-e, -e)) as T.
  assert (E1 : vadd (vadd u (e, e)) (-e, -e) = u) by (destruct u; unfold vadd; cbn; f_equal; ring).
  assert (E2 : norm (-e, -e) = sqrt 2 * e).
  { unfold norm, dot. cbn [fst snd]. replace (-e * -e + -e * -e) with (2 * (e * e)) by ring. rewrite sqrt_mult by nra. rewrite sqrt_square by auto. reflexivity. }
  rewrite E1, E2 in T. lra.
Qed.
Lemma legs_ok e d tx ws rx : 0 <= e -> legs_at_least (d + sqrt 2 * e) tx ws rx ->
  forall th, length th = length ws -> Forall (fun u => d <= norm u) (legs e tx ws th rx).
Proof.
  intros E H th L. apply Forall_forall. intros u I. destruct (in_legs e ws tx th rx u L I) as (i & P & Q & H1 & H2 & ->).
  pose proof (H _ _ _ _ (points_visits tx ws rx th L) H1 H2) as B. rewrite dist_norm in B.
  pose proof (norm_shift (vsub Q P) e E) as S1.
  assert (norm (vsub P Q) = norm (vsub Q P)) by (unfold norm; f_equal; unfold dot, vsub; cbn; ring). lra.
Qed.

(** ** The rate *)
Lemma min_inv P f grad o steps key n many th l : (1 <= steps)%nat ->
  minimize_many_random_uniform P f grad o steps key n many = Ok (th, l) ->
  exists k x st, x 0%nat = runiform P k n /\ trajectory grad o x st steps /\ th = x steps.
Proof.
  intros S1 E. apply many_is_trial in E. destruct E as (k & E). exists k. unfold minimize_random_uniform in E.
  destruct (C43_lemma f grad o steps (runiform P k n) S1) as [(x & st & X0 & T) H]. rewrite (H x st X0 T) in E. inversion E; subst.
  exists x, st. auto.
Qed.
Lemma traj_ext grad grad' o x st n (Q : list R -> Prop) : (forall i, (i < n)%nat -> Q (x i)) -> (forall y, Q y -> grad y = grad' y) ->
  trajectory grad o x st n -> trajectory grad' o x st n.
Proof. intros HQ HE [T0 T]. split; auto. intros i Hi. rewrite <- HE by auto. auto. Qed.
Lemma start_bound x : forall z, length x = length z -> Forall (fun u => 0 <= u <= 1) x -> scalar (minus x z) (minus x z) <= reach z.
Proof.
  induction x as [|a x IH]; intros [|b z] L F; try discriminate; [unfold scalar, reach; cbn; lra|]. inversion F; subst. cbn [length] in L.
  rewrite minus_cons, scalar_cons. unfold reach. cbn [map fold_right]. fold (reach z). apply Rplus_le_compat; [|apply IH; auto].
  pose proof (Rabs_pos b). assert (B : Rabs (a - b) <= 1 + Rabs b).
  { eapply Rle_trans; [apply Rabs_triang|]. rewrite Rabs_Ropp. rewrite (Rabs_pos_eq a) by lra. lra. }
  assert (E : (a - b) * (a - b) = Rabs (a - b) * Rabs (a - b)) by (rewrite <- Rabs_mult, Rabs_pos_eq; [auto|exact (Rle_0_sqr (a - b))]). rewrite E.
  apply Rmult_le_compat; auto; apply Rabs_pos.
Qed.
Lemma rate_core e d D eta P grad steps key many tx ws rx th l z : 0 < d -> 0 <= D ->
  (forall w, In w ws -> dist (w_origin w) (w_dest w) <= D) -> 
  (forall th, length th = length ws -> Forall (fun u => d <= norm u) (legs e tx ws th rx)) ->
  0 < eta -> 4 * (D * D) * eta <= d -> (1 <= steps)%nat -> unit_draws P ->
  let f := fermat_objective e (map OWall ws) tx rx in
  (forall x, length x = length ws -> is_gradient_of f x (grad x)) ->
  minimize_many_random_uniform P f grad (sgd eta) steps key (length ws) many = Ok (th, l) ->
  length z = length ws -> length th = length ws /\ 2 * eta * INR steps * (f th - f z) <= reach z.
Proof.
  intros Hd HD HW HL He Hs S1 U f HG E Lz. destruct (min_inv _ _ _ _ _ _ _ _ _ _ S1 E) as (k & x & st & X0 & T & ->).
  destruct (U k (length ws)) as [Lu Fu]. rewrite <- X0 in Lu, Fu.
  assert (Walls : Forall (fun w => norm (wd w) <= D) ws).
  { apply Forall_forall. intros w I. specialize (HW w I). rewrite dist_norm in HW.
    assert (norm (wd w) = norm (vsub (w_origin w) (w_dest w))) by (unfold norm, wd; f_equal; unfold dot, vsub; cbn; ring). lra. }
  set (f' := fun th => total (legs e tx ws th rx)). set (g' := fun th => slopes ws (legs e tx ws th rx)).
  assert (Ef : forall y, length y = length ws -> f y = f' y) by (intros; apply objective_legs; auto).
  assert (Eg : forall y, length y = length ws -> grad y = g' y).
  { intros y Ly. apply (gradient_unique f y); auto. apply (gradient_ext f'); [intros; symmetry; apply Ef; lia|].
    apply (f_gradient e d D); auto. }
  assert (LG : forall y, length y = length ws -> length (g' y) = length ws) by (intros; apply slopes_length; auto).
  assert (Li : forall i, (i <= steps)%nat -> length (x i) = length ws).
  { intros i Hi. eapply (iterates_length grad (length ws) eta); eauto. intros y Ly. rewrite Eg; auto. }
  assert (T' : trajectory g' (sgd eta) x st steps).
  { apply (traj_ext grad g' (sgd eta) x st steps (fun y => length y = length ws)); auto. intros i Hi. apply Li. lia. }
  split; [apply Li; auto|]. rewrite !Ef by (auto; apply Li; auto).
  pose proof (descent f' g' (length ws) eta He LG
    (fun a b => f_convex e d tx rx ws Hd HL a b) (fun a La => f_step e d D tx rx ws Hd HD Walls HL a eta La He Hs)
    x st steps z Lu T' Lz steps (le_n _)) as B.
  pose proof (scalar_pos (minus (x steps) z)) as B2. pose proof (start_bound (x 0%nat) z ltac:(lia) Fu). lra.
Qed.

(** ** A nearly shortest path is near the shortest one *)
Lemma total_in L u : In u L -> norm u <= total L.
Proof.
  induction L as [|v L IH]; intros I; [destruct I|]. unfold total. cbn [map fold_right]. fold (total L).
  assert (0 <= total L) by (clear; induction L as [|x L IH]; unfold total; cbn [map fold_right]; [lra|fold (total L); pose proof (norm_nonneg x); lra]).
  pose proof (norm_nonneg v). destruct I as [<-|I]; [lra|]. specialize (IH I). lra.
Qed.
Lemma over_pos L : forall L', Forall (fun u => 0 < norm u) L -> 0 <= over rest L L'.
Proof.
  induction L as [|u L IH]; intros [|v L'] F; try (unfold over; cbn; lra). inversion F; subst. rewrite over_cons.
  pose proof (rest_pos u v ltac:(auto)). pose proof (IH L' ltac:(auto)). lra.
Qed.
Lemma cr_le u v : Rabs (cr u v) <= norm u * norm v.
Proof.
  apply Rsqr_incr_0_var; [|apply Rmult_le_pos; apply norm_nonneg]. rewrite <- Rsqr_abs. unfold Rsqr. pose proof (lagrange u v) as L.
  pose proof (Rle_0_sqr (dot u v)) as S1. unfold Rsqr in S1. lra.
Qed.
Lemma cr_zero u d : 0 < norm d -> cr u d = 0 -> exists l, u = vscale l d.
Proof.
  intros H E. destruct u as [a b], d as [x y]. unfold cr in E. cbn [fst snd] in E.
  assert (Q : 0 < x * x + y * y). { pose proof (norm_sq (x, y)) as N. unfold dot in N. cbn [fst snd] in N. rewrite <- N. nra. }
  exists ((a * x + b * y) / (x * x + y * y)). unfold vscale. cbn [fst snd].
  f_equal; apply Rmult_eq_reg_r with (x * x + y * y); try lra.
  - replace ((a * x + b * y) / (x * x + y * y) * x * (x * x + y * y)) with ((a * x + b * y) * x) by (field; lra). 
    replace (a * (x * x + y * y)) with ((a * x + b * y) * x + (a * y - b * x) * y) by ring. rewrite E. ring.
  - replace ((a * x + b * y) / (x * x + y * y) * y * (x * x + y * y)) with ((a * x + b * y) * y) by (field; lra).
    replace (b * (x * x + y * y)) with ((a * x + b * y) * y - (a * y - b * x) * x) by ring. rewrite E. ring.
Qed.
Lemma small K t : 0 <= K -> 0 < t -> exists x, 0 < x /\ forall y, 0 <= y <= x -> K * y < t.
Proof.
  intros HK Ht. exists (t / (K + 1)). split; [apply Rdiv_lt_0_compat; lra|]. intros y [Y0 Y].
  assert (Y2 : y * (K + 1) <= t).
  { apply Rmult_le_compat_r with (r := K + 1) in Y; [|lra]. unfold Rdiv in Y. rewrite Rmult_assoc, Rinv_l in Y by lra. lra. }
  destruct (Req_dec y 0) as [->|]; [lra|]. lra.
Qed.
Definition apart (A : vec) (ws : list wall) (rx : vec) : Prop :=
  forall th, length th = length ws -> Forall (fun u => 0 < norm u) (legs 0 A ws th rx).
Lemma apart_cons A w ws rx t : apart A (w :: ws) rx -> apart (wp w t) ws rx.
Proof. intros H th L. specialize (H (t :: th) ltac:(cbn; lia)). cbn [legs] in H. inversion H; auto. Qed.
Lemma apart_transversal A w ws rx t : apart A (w :: ws) rx -> 0 < norm (wd w) -> cr (vsub (wp w t) A) (wd w) <> 0.
Proof.
  intros H N Z. destruct (cr_zero _ _ N Z) as (l & E). 
  assert (X : exists th : list R, length th = length ws). { exists (repeat 0 (length ws)). apply repeat_length. }
  destruct X as (th & L). specialize (H ((t - l) :: th) ltac:(cbn; lia)). cbn [legs] in H. inversion H; subst.
  assert (E0 : vadd (vsub (wp w (t - l)) A) (0, 0) = (0, 0)).
  { unfold wp, at_, wd, vsub, vadd, vscale in *. cbn [fst snd] in *. injection E as Ea Eb. f_equal; lra. }
  rewrite E0 in H2. unfold norm, dot in H2. cbn [fst snd] in H2. rewrite Rmult_0_l, Rplus_0_l, sqrt_0 in H2. lra.
Qed.
Lemma near M ws : forall A th rx eps, length th = length ws -> 0 < eps -> apart A ws rx ->
  exists g r, 0 < g /\ 0 < r /\ forall A' th', length th' = length ws -> norm (vsub A' A) <= r ->
    total (legs 0 A' ws th' rx) <= M -> over rest (legs 0 A ws th rx) (legs 0 A' ws th' rx) <= g ->
    Forall2 (fun p q => norm (vsub p q) < eps) (points ws th') (points ws th).
Proof.
  induction ws as [|w ws IH]; intros A [|t th] rx eps L He Ap; try discriminate.
  { exists 1, 1. repeat split; try lra. intros A' [|t' th'] L' _ _ _; try discriminate. constructor. }
  cbn [length] in L. destruct (IH (wp w t) th rx eps ltac:(lia) He (apart_cons _ _ _ _ t Ap)) as (g1 & r1 & G1 & R1 & H1).
  set (k := Rmin (eps / 2) r1). assert (K : 0 < k) by (apply Rmin_glb_lt; lra).
  pose proof (Rmin_l (eps / 2) r1) as Km1. pose proof (Rmin_r (eps / 2) r1) as Km2. fold k in Km1, Km2.
  set (u := vadd (vsub (wp w t) A) (0, 0)). set (W := norm (wd w)).
  assert (PosL : Forall (fun u => 0 < norm u) (legs 0 A (w :: ws) (t :: th) rx)) by (apply Ap; cbn; lia).
  cbn [legs] in PosL. inversion PosL as [|? ? Pu Ptl]; subst. fold u in Pu.
  assert (Goal1 : exists g r, 0 < g /\ 0 < r /\ forall A' t', norm (vsub A' A) <= r -> 
    norm (vadd (vsub (wp w t') A') (0, 0)) <= M -> rest u (vadd (vsub (wp w t') A') (0, 0)) <= g -> norm (vsub (wp w t') (wp w t)) <= k).
  { destruct (Req_dec W 0) as [W0|W0].
    - exists 1, 1. repeat split; try lra. intros A' t' _ _ _.
      assert (Z : wd w = (0, 0)) by (apply norm_zero; exact W0).
      assert (E : vsub (wp w t') (wp w t) = (0, 0)).
      { unfold wd, vsub in Z. unfold wp, at_, vsub. cbn [fst snd]. injection Z as Za Zb. rewrite Za, Zb. f_equal; ring. }
      rewrite E. unfold norm, dot. cbn [fst snd]. rewrite Rmult_0_l, Rplus_0_l, sqrt_0. lra.
    - assert (Wp : 0 < W) by (pose proof (norm_nonneg (wd w)); unfold W in *; lra).
      assert (Eu : vsub (wp w t) A = u) by (unfold u, vadd; destruct (vsub (wp w t) A); cbn; f_equal; ring).
      pose proof (apart_transversal A w ws rx t Ap Wp) as Tr. rewrite Eu in Tr.
      set (c := Rabs (cr u (wd w))). assert (C : 0 < c) by (apply Rabs_pos_lt; auto).
      set (t0 := c * k / 2). assert (T0 : 0 < t0) by (unfold t0; nra).
      destruct (small (W * norm u) t0 ltac:(nra) T0) as (r & Rp & Hr).
      destruct (small (W * W * (2 * norm u * norm u * Rabs M)) (t0 * t0)) as (g & Gp & Hg).
      { pose proof (Rabs_pos M). repeat apply Rmult_le_pos; lra. } { nra. }
      exists g, r. repeat split; auto. intros A' t' HA HM HR. set (v := vadd (vsub (wp w t') A') (0, 0)) in *.
      assert (Ed : vsub (wp w t') (wp w t) = vscale (t' - t) (wd w)).
      { unfold wp, at_, wd, vsub, vscale. cbn [fst snd]. f_equal; ring. }
      rewrite Ed. assert (En : norm (vscale (t' - t) (wd w)) = Rabs (t' - t) * W).
      { unfold W, norm, dot, vscale. cbn [fst snd].
        replace ((t' - t) * fst (wd w) * ((t' - t) * fst (wd w)) + (t' - t) * snd (wd w) * ((t' - t) * snd (wd w)))
          with ((t' - t) * (t' - t) * (fst (wd w) * fst (wd w) + snd (wd w) * snd (wd w))) by ring.
        rewrite sqrt_mult; [|exact (Rle_0_sqr (t' - t))|pose proof (Rle_0_sqr (fst (wd w))); pose proof (Rle_0_sqr (snd (wd w))); unfold Rsqr in *; lra].
        f_equal. exact (sqrt_Rsqr_abs (t' - t)). }
      rewrite En.
      assert (Ec : cr u v = (t' - t) * cr u (wd w) - cr u (vsub A' A)).
      { unfold v, u, wp, at_, wd, cr, vsub, vadd. cbn [fst snd]. ring. }
      assert (B1 : Rabs (t' - t) * c <= Rabs (cr u v) + norm u * norm (vsub A' A)).
      { unfold c. rewrite <- Rabs_mult. replace ((t' - t) * cr u (wd w)) with (cr u v + cr u (vsub A' A)) by lra.
        eapply Rle_trans; [apply Rabs_triang|]. pose proof (cr_le u (vsub A' A)). lra. }
      pose proof (rest_lower u v Pu) as RL. pose proof (rest_pos u v Pu) as RP.
      assert (Mv : norm v <= Rabs M) by (pose proof (Rle_abs M); lra).
      assert (B2 : W * Rabs (cr u v) < t0).
      { assert (Sq : (W * Rabs (cr u v)) * (W * Rabs (cr u v)) < t0 * t0).
        { eapply Rle_lt_trans; [|apply (Hg (rest u v)); lra].
          replace ((W * Rabs (cr u v)) * (W * Rabs (cr u v))) with (W * W * (Rabs (cr u v) * Rabs (cr u v))) by ring.
          rewrite <- Rabs_mult, Rabs_pos_eq by exact (Rle_0_sqr (cr u v)).
          rewrite Rmult_assoc with (r1 := W * W). apply Rmult_le_compat_l; [nra|]. eapply Rle_trans; [exact RL|].
          apply Rmult_le_compat_r; auto. apply Rmult_le_compat_l; auto. nra. }
        apply Rnot_le_lt. intro X. assert (0 <= W * Rabs (cr u v)) by (apply Rmult_le_pos; [lra|apply Rabs_pos]). nra. }
      assert (B3 : W * norm u * norm (vsub A' A) < t0) by (apply Hr; split; [apply norm_nonneg|auto]).
      assert (B4 : Rabs (t' - t) * W * c <= k * c).
      { replace (Rabs (t' - t) * W * c) with (W * (Rabs (t' - t) * c)) by ring.
        apply Rle_trans with (W * (Rabs (cr u v) + norm u * norm (vsub A' A))); [apply Rmult_le_compat_l; lra|].
        replace (k * c) with (2 * t0) by (unfold t0; field). lra. }
      apply Rmult_le_reg_r with c; auto. }
  destruct Goal1 as (g2 & r2 & G2 & R2 & H2). exists (Rmin g1 g2), r2.
  pose proof (Rmin_l g1 g2) as Gm1. pose proof (Rmin_r g1 g2) as Gm2.
  split; [apply Rmin_glb_lt; auto|]. split; auto. intros A' [|t' th'] L' HA HT HO; try discriminate. cbn [length] in L'.
  cbn [legs] in HT, HO. rewrite over_cons in HO. fold u in HO. set (v := vadd (vsub (wp w t') A') (0, 0)) in *.
  pose proof (over_pos _ (legs 0 (wp w t') ws th' rx) Ptl) as O1. pose proof (rest_pos u v Pu) as O2.
  assert (Nt : norm (vsub (wp w t') (wp w t)) <= k).
  { apply (H2 A' t'); auto; [|fold v; lra]. apply Rle_trans with (2 := HT). fold v. apply total_in. left. reflexivity. }
  cbn [points]. constructor; [lra|]. apply (H1 (wp w t') th'); auto; try lra.
  unfold total in HT. cbn [map fold_right] in HT. fold (total (legs 0 (wp w t') ws th' rx)) in HT. pose proof (norm_nonneg v). lra.
Qed.
