(** Gradients of the traced code are right in the transitions. *)
From Coq Require Import Reals List Bool ZArith Arith Lia Lra Psatz.
From Verif Require Import Base BaseP LogicM GeometryM SpecGeometry OptimizeM PathM SpecPath SpecImage UtilsM SceneM AdM SpecAd AdPos AdP AdSoundP AdGeomP AdGradP AdRightP SpecTrans AdPosP ImageP PathP.
Import ListNotations.
Open Scope R_scope.
Local Notation length := List.length.

Lemma enum_fst {A} (l : list A) : map fst (enumerate l) = seq 0 (length l).
Proof. unfold enumerate. generalize 0%nat. induction l as [|x l IH]; intro i; cbn; [auto|]. f_equal. apply IH. Qed.

Section Trans.
Variable n : nat.
Variable env : nat -> R.
Notation good := (good n env).
Notation gval := (gval n env).
Notation gvv := (gvv n env).
Notation gvl := (Forall2 (AdGradP.gvv n env)).

(** A subexpression whose value is 0 or 1 with a zero gradient, or between, in [V]. *)
Definition tame (V : R -> Prop) (e : expr) : Prop :=
  exists y, gval e y /\ (((forall i, D env e i = 0) /\ (y = 0 \/ y = 1)) \/ (0 < y < 1 /\ V y)).
Lemma tame_mono (V W : R -> Prop) e : (forall y, V y -> W y) -> tame V e -> tame W e.
Proof. intros H (y & G & [X|[L X]]); exists y; split; auto. Qed.
Lemma gv_min_tie a b x y : gval a x -> gval b y -> (x = y -> forall i, D env a i = D env b i) -> gval (EMin a b) (Rmin x y).
Proof.
  intros [[S F] E] [[S' F'] E'] T. split; [|cbn; rewrite E, E'; reflexivity]. split; [cbn; auto|]. intros.
  apply fol_min; auto. rewrite E, E'. intros Q; inversion Q; auto.
Qed.
Lemma gv_max_tie a b x y : gval a x -> gval b y -> (x = y -> forall i, D env a i = D env b i) -> gval (EMax a b) (Rmax x y).
Proof.
  intros [[S F] E] [[S' F'] E'] T. split; [|cbn; rewrite E, E'; reflexivity]. split; [cbn; auto|]. intros.
  apply fol_max; auto. rewrite E, E'. intros Q; inversion Q; auto.
Qed.
Lemma D_min_zero a b x y i : eval env a = Fin x -> eval env b = Fin y -> (x <= y -> D env a i = 0) -> (y <= x -> D env b i = 0) -> D env (EMin a b) i = 0.
Proof.
  intros E E' A B. cbn [D]. cbv zeta. rewrite E, E'. cbn [xmin]. destruct (Rtotal_order x y) as [L|[->|L]].
  - rewrite Rmin_left by lra. rewrite (shares_lost x y) by lra. rewrite A by lra. ring.
  - rewrite A, B by lra. ring.
  - rewrite Rmin_right by lra. rewrite (shares_lost y x) by lra. rewrite B by lra. ring.
Qed.
Lemma D_max_zero a b x y i : eval env a = Fin x -> eval env b = Fin y -> (y <= x -> D env a i = 0) -> (x <= y -> D env b i = 0) -> D env (EMax a b) i = 0.
Proof.
  intros E E' A B. cbn [D]. cbv zeta. rewrite E, E'. cbn [xmax]. destruct (Rtotal_order x y) as [L|[->|L]].
  - rewrite Rmax_right by lra. rewrite (shares_lost y x) by lra. rewrite B by lra. ring.
  - rewrite A, B by lra. ring.
  - rewrite Rmax_left by lra. rewrite (shares_lost x y) by lra. rewrite A by lra. ring.
Qed.
Lemma tame_tie (V W : R -> Prop) a b x y : (forall z, V z -> W z -> False) ->
  ((forall i, D env a i = 0) /\ (x = 0 \/ x = 1)) \/ (0 < x < 1 /\ V x) ->
  ((forall i, D env b i = 0) /\ (y = 0 \/ y = 1)) \/ (0 < y < 1 /\ W y) ->
  x = y -> forall i, D env a i = D env b i.
Proof.
  intros Dj [[Z C]|[L X]] [[Z' C']|[L' X']] E i.
  - rewrite Z, Z'. auto.
  - exfalso. lra.
  - exfalso. lra.
  - exfalso. subst. eauto.
Qed.
Lemma tame_min (V W U : R -> Prop) a b : tame V a -> tame W b -> (forall z, V z -> W z -> False) ->
  (forall z, V z -> U z) -> (forall z, W z -> U z) -> tame U (EMin a b).
Proof.
  intros (x & G & H) (y & G' & H') Dj VU WU. exists (Rmin x y).
  split; [apply gv_min_tie; auto; eapply tame_tie; eauto|].
  pose proof (proj2 G) as E. pose proof (proj2 G') as E'. unfold Rmin. destruct (Rle_dec x y) as [L|L].
  - destruct H as [[Z C]|[Lx X]]; [|right; auto]. left. split; auto. intro i. apply (D_min_zero a b x y i E E'); auto.
    intro L'. destruct H' as [[Z' _]|[Ly Y]]; auto. exfalso. lra.
  - destruct H' as [[Z C]|[Lx X]]; [|right; auto]. left. split; auto. intro i. apply (D_min_zero a b x y i E E'); auto. intro; lra.
Qed.
Lemma tame_max (V W U : R -> Prop) a b : tame V a -> tame W b -> (forall z, V z -> W z -> False) ->
  (forall z, V z -> U z) -> (forall z, W z -> U z) -> tame U (EMax a b).
Proof.
  intros (x & G & H) (y & G' & H') Dj VU WU. exists (Rmax x y).
  split; [apply gv_max_tie; auto; eapply tame_tie; eauto|].
  pose proof (proj2 G) as E. pose proof (proj2 G') as E'. unfold Rmax. destruct (Rle_dec x y) as [L|L].
  - destruct H' as [[Z C]|[Lx X]]; [|right; auto]. left. split; auto. intro i. apply (D_max_zero a b x y i E E'); auto.
    intro L'. destruct H as [[Z' _]|[Ly Y]]; auto. exfalso. lra.
  - destruct H as [[Z C]|[Lx X]]; [|right; auto]. left. split; auto. intro i. apply (D_max_zero a b x y i E E'); auto. intro; lra.
Qed.
Lemma tame_not (V W : R -> Prop) a : tame V a -> (forall z, V z -> W (1 - z)) -> tame W (ESub (C 1) a).
Proof.
  intros (x & G & H) VW. exists (1 - x). split; [apply gv_sub; auto; apply gv_c|]. destruct H as [[Z C]|[L X]].
  - left. split; [|lra]. intro i. cbn [D]. rewrite Z. ring.
  - right. split; [lra|auto].
Qed.
Lemma tame_c V r : r = 0 \/ r = 1 -> tame V (C r).
Proof. intro H. exists r. split; [apply gv_c|]. left. auto. Qed.
Lemma tame_bflat V e : bflat env e -> tame V e.
Proof.
  intros (c & Hc & F). exists c. split; [apply flat_gval; auto|]. left. split; auto. apply F.
Qed.

(** The activations. *)
Variable a : act.
Variable alpha : R.
Hypothesis Ha : 0 < alpha.
Let k := mkeakw alpha a.
Definition h (x : R) : R := match a with Hard => hs alpha x | Sigm => 1 / (1 + exp (- (alpha * x))) end.
Lemma h_opp x : ~ constant_at a alpha x -> ~ corner_at a alpha x -> h (- x) = 1 - h x.
Proof.
  unfold h, constant_at, corner_at, settled. destruct a; intros N K.
  - unfold hs. assert (-3 < alpha * x < 3) by lra. rewrite !Rmax_left by nra. rewrite !Rmin_left by nra. field.
  - pose proof (exp_pos (- (alpha * x))). replace (- (alpha * - x)) with (alpha * x) by ring.
    replace (exp (alpha * x)) with (/ exp (- (alpha * x))); [field; lra|]. rewrite <- exp_Ropp. f_equal. ring.
Qed.
Lemma h_inj x y : ~ constant_at a alpha x -> ~ constant_at a alpha y -> ~ corner_at a alpha x -> ~ corner_at a alpha y -> h x = h y -> x = y.
Proof.
  unfold h, constant_at, corner_at, settled. destruct a; intros N N' K K' E.
  - unfold hs in E. assert (-3 < alpha * x < 3) by lra. assert (-3 < alpha * y < 3) by lra.
    rewrite !Rmax_left in E by lra. rewrite !Rmin_left in E by lra. apply (Rmult_eq_reg_l alpha); lra.
  - pose proof (exp_pos (- (alpha * x))). pose proof (exp_pos (- (alpha * y))).
    assert (Q : exp (- (alpha * x)) = exp (- (alpha * y))).
    { assert (/ (1 + exp (- (alpha * x))) = / (1 + exp (- (alpha * y)))) by lra.
      assert (/ / (1 + exp (- (alpha * x))) = / / (1 + exp (- (alpha * y)))) by congruence.
      rewrite !Rinv_inv in *. lra. }
    apply exp_inv in Q. apply (Rmult_eq_reg_l alpha); lra.
Qed.
Lemma h_range x : ~ constant_at a alpha x -> ~ corner_at a alpha x -> 0 < h x < 1.
Proof.
  unfold h, constant_at, corner_at, settled. destruct a; intros N K.
  - assert (-3 < alpha * x < 3) by lra. unfold hs. rewrite !Rmax_left by lra. rewrite !Rmin_left by lra. lra.
  - pose proof (exp_pos (- (alpha * x))). split; [apply Rdiv_lt_0_compat; lra|].
    apply (Rmult_lt_reg_r (1 + exp (- (alpha * x)))); [lra|]. unfold Rdiv. rewrite Rmult_assoc, Rinv_l by lra. lra.
Qed.
Lemma act_gval e x : gval e x -> ~ constant_at a alpha x -> ~ corner_at a alpha x -> gval (e_activation k e) (h x).
Proof.
  unfold k, h, constant_at, corner_at, settled. destruct a; intros G N K.
  - apply smooth_act; auto. lra.
  - unfold e_activation. cbn [ek_act ek_alpha].
    assert (M : gval (EMul (C alpha) e) (alpha * x)) by (apply gv_mul; auto; apply gv_c).
    destruct M as [[S F] E]. split; [|change (xlogistic (eval env (EMul (C alpha) e)) = Fin (1 / (1 + exp (- (alpha * x))))); rewrite E; reflexivity].
    split; [right; split; [exact S|rewrite E; discriminate]|].
    intros. apply fol_logistic; auto.
Qed.
Lemma act_const V e x : gval e x -> constant_at a alpha x -> tame V (e_activation k e).
Proof.
  intros G N. apply tame_bflat. unfold k, constant_at in *. destruct a; [|contradiction]. eapply settled_act; eauto.
Qed.
Lemma tame_act e x : gval e x -> ~ corner_at a alpha x -> tame (fun y => ~ constant_at a alpha x /\ y = h x) (e_activation k e).
Proof.
  intros G K.
  assert (Dc : constant_at a alpha x \/ ~ constant_at a alpha x).
  { unfold constant_at, settled. destruct a; [|tauto]. destruct (Rlt_dec (alpha * x) (-3)); [auto|]. destruct (Rlt_dec 3 (alpha * x)); [auto|lra]. }
  destruct Dc as [N|N]; [eapply act_const; eauto|]. exists (h x). split; [apply act_gval; auto|]. right. split; [apply h_range; auto|auto].
Qed.

(** The margins. *)
Variable M : comparison -> R -> Prop.
Hypothesis Huniq : forall c c' z, M c z -> M c' z -> constant_at a alpha z \/ c = c'.
Hypothesis Hcorner : forall c z, M c z -> ~ corner_at a alpha z.
Definition Vset (S : comparison -> Prop) (y : R) : Prop := exists c z, S c /\ M c z /\ ~ constant_at a alpha z /\ y = h z.
Definition Vneg (S : comparison -> Prop) (y : R) : Prop := Vset S (1 - y).
Lemma Vset_mono (S S' : comparison -> Prop) y : (forall c, S c -> S' c) -> Vset S y -> Vset S' y.
Proof. intros H (c & z & X & Y). exists c, z. split; auto. Qed.
Lemma Vset_disj (S S' : comparison -> Prop) : (forall c, S c -> S' c -> False) -> forall y, Vset S y -> Vset S' y -> False.
Proof.
  intros H y (c & z & X & Mz & N & E) (c' & z' & X' & Mz' & N' & E').
  assert (z = z') by (apply h_inj; eauto; congruence). subst z'. destruct (Huniq c c' z Mz Mz') as [Q| ->]; eauto.
Qed.
Lemma corner_opp x : corner_at a alpha (- x) -> corner_at a alpha x.
Proof. unfold corner_at. destruct a; auto. lra. Qed.
Lemma constant_opp x : constant_at a alpha (- x) -> constant_at a alpha x.
Proof. unfold constant_at, settled. destruct a; auto. lra. Qed.
Lemma leaf c e x : gval e x -> M c x -> tame (Vset (eq c)) (e_activation k e).
Proof.
  intros G X. eapply tame_mono; [|apply (tame_act e x G); eauto]. intros y [N ->]. exists c, x. auto.
Qed.
Lemma leafn c e x : gval e x -> M c (- x) -> tame (Vneg (eq c)) (e_activation k e).
Proof.
  intros G X. assert (K : ~ corner_at a alpha x). { intro Q. apply (Hcorner c (- x) X). apply corner_opp. rewrite Ropp_involutive. auto. }
  eapply tame_mono; [|apply (tame_act e x G); eauto]. intros y [N ->]. exists c, (- x). repeat split; auto.
  - intro Q. apply N, constant_opp, Q.
  - symmetry. apply h_opp; auto.
Qed.
Lemma tame_min_s (S S' U : comparison -> Prop) e e' : tame (Vset S) e -> tame (Vset S') e' -> (forall c, S c -> S' c -> False) ->
  (forall c, S c -> U c) -> (forall c, S' c -> U c) -> tame (Vset U) (EMin e e').
Proof.
  intros A B Dj SU SU'. apply (tame_min (Vset S) (Vset S')); auto; [apply Vset_disj; auto| |]; intros z Hz; [apply (Vset_mono S)|apply (Vset_mono S')]; auto.
Qed.
Lemma tame_min_n (S S' U : comparison -> Prop) e e' : tame (Vneg S) e -> tame (Vneg S') e' -> (forall c, S c -> S' c -> False) ->
  (forall c, S c -> U c) -> (forall c, S' c -> U c) -> tame (Vneg U) (EMin e e').
Proof.
  intros A B Dj SU SU'. apply (tame_min (Vneg S) (Vneg S')); auto; unfold Vneg; [intros z; apply Vset_disj; auto| |]; intros z Hz; [apply (Vset_mono S)|apply (Vset_mono S')]; auto.
Qed.
Lemma tame_max_n (S S' U : comparison -> Prop) e e' : tame (Vneg S) e -> tame (Vneg S') e' -> (forall c, S c -> S' c -> False) ->
  (forall c, S c -> U c) -> (forall c, S' c -> U c) -> tame (Vneg U) (EMax e e').
Proof.
  intros A B Dj SU SU'. apply (tame_max (Vneg S) (Vneg S')); auto; unfold Vneg; [intros z; apply Vset_disj; auto| |]; intros z Hz; [apply (Vset_mono S)|apply (Vset_mono S')]; auto.
Qed.

(** Crossing tests. *)
Lemma seg_test_tame num den x y tol c1 c2 : gval num x -> gval den y -> c1 <> c2 ->
  (y = 0 -> a = Hard /\ x <> 0) ->
  (y <> 0 -> M c1 (- (x / y + tol)) /\ M c2 (x / y - (1 + tol))) ->
  tame (Vneg (fun c => c = c1 \/ c = c2)) (e_seg_test k num den tol).
Proof.
  intros A Dd Nc H0 H1. destruct (Req_dec y 0) as [Y|Y].
  - destruct (H0 Y) as [Ea Nx]. apply tame_bflat. unfold k. rewrite Ea. eapply seg_test_flat; eauto.
  - destruct (H1 Y) as [M1 M2]. unfold e_seg_test. cbv zeta.
    assert (W1 : gval (EWhere IsZero den (C 1) den) y) by (apply (gv_where0 n env den (C 1) den y); auto; cbn; auto).
    assert (W2 : gval (EWhere IsZero den (ECst PInf) (EDiv num (EWhere IsZero den (C 1) den))) (x / y)).
    { apply (gv_where0 n env den _ _ y); auto; [apply gv_div; auto|cbn; auto]. }
    apply (tame_min_n (eq c1) (eq c2)); try (intros c <-; auto); try (intro; congruence).
    + apply (leafn c1 _ (x / y - - tol)); [apply gv_sub; auto; apply gv_c|]. replace (x / y - - tol) with (x / y + tol) by ring. auto.
    + apply (leafn c2 _ (1 + tol - x / y)); [apply gv_sub; auto; apply gv_c|]. replace (- (1 + tol - x / y)) with (x / y - (1 + tol)) by ring. auto.
Qed.
Definition of_pair i m (c : comparison) : Prop := exists d, c = Clear i m d.
Definition seg_ok i m P1 P2 P3 P4 tol : Prop :=
  let A := vsub P2 P1 in
  let B := vsub P3 P4 in
  let C := vsub P1 P3 in
  let u := snd B * fst C - fst B * snd C in
  let v := fst A * snd C - snd A * fst C in
  let d := snd A * fst B - fst A * snd B in
  (d = 0 -> a = Hard /\ u <> 0 /\ v <> 0) /\
  (d <> 0 -> M (Clear i m WallStart) (- (u / d + tol)) /\ M (Clear i m WallEnd) (u / d - (1 + tol)) /\
             M (Clear i m LegStart) (- (v / d + tol)) /\ M (Clear i m LegEnd) (v / d - (1 + tol))).
Lemma segments_tame i m P1 P2 P3 P4 p1 p2 p3 p4 tol : gvv P1 p1 -> gvv P2 p2 -> gvv P3 p3 -> gvv P4 p4 ->
  seg_ok i m p1 p2 p3 p4 tol -> tame (Vneg (of_pair i m)) (e_segments_intersect k P1 P2 P3 P4 tol).
Proof.
  intros H1 H2 H3 H4 S. pose proof (gvv_vsub _ _ _ _ _ _ H2 H1) as [A1 A2]. pose proof (gvv_vsub _ _ _ _ _ _ H3 H4) as [B1 B2].
  pose proof (gvv_vsub _ _ _ _ _ _ H1 H3) as [C1 C2]. unfold seg_ok in S. cbv zeta in S. destruct S as [S0 S1].
  unfold e_segments_intersect. cbv zeta.
  apply (tame_min_n (fun c => c = Clear i m WallStart \/ c = Clear i m WallEnd) (fun c => c = Clear i m LegStart \/ c = Clear i m LegEnd)).
  - eapply seg_test_tame; [apply gv_sub; apply gv_mul; eauto|apply gv_sub; apply gv_mul; eauto|discriminate| |]; tauto.
  - eapply seg_test_tame; [apply gv_sub; apply gv_mul; eauto|apply gv_sub; apply gv_mul; eauto|discriminate| |]; tauto.
  - intros c [->| ->] [E|E]; discriminate.
  - intros c [->| ->]; eexists; reflexivity.
  - intros c [->| ->]; eexists; reflexivity.
Qed.
Definition obj_ok i m (o : object) (r0 r1 : vec) (patch : R) : Prop :=
  match o with
  | OWall w | ORIS w _ =>
      seg_ok i m (vsub (w_origin w) (vscale patch (wall_t w))) (vadd (w_dest w) (vscale patch (wall_t w))) r0 r1 SEG_TOL
  | OVertex _ => True
  end.
Lemma obj_intersects_tame i m o r0 r1 p q patch : gvv r0 p -> gvv r1 q -> obj_ok i m o p q patch ->
  tame (Vneg (of_pair i m)) (e_obj_intersects k o r0 r1 patch).
Proof.
  intros A B S. destruct o as [w|w phi|x]; cbn [e_obj_intersects obj_ok] in *; try (apply tame_c; auto);
    (eapply segments_tame; [| |exact A|exact B|exact S];
     [apply gvv_vsub|apply gvv_vadd]; try apply gvv_cvec; apply gvv_vscale; try apply gv_c; apply gvv_t).
Qed.
Lemma contains_tame j e s : gval e s -> M (FromStart j) s -> M (FromEnd j) (1 - s) ->
  tame (Vset (fun c => c = FromStart j \/ c = FromEnd j)) (e_contains k e).
Proof.
  intros G M1 M2. unfold e_contains, e_greater_equal, e_less_equal.
  apply (tame_min_s (eq (FromStart j)) (eq (FromEnd j))); try (intros c <-; auto); try discriminate.
  - apply (leaf _ _ (s - 0)); [apply gv_sub; auto; apply gv_c|]. rewrite Rminus_0_r. auto.
  - apply (leaf _ _ (1 - s)); [apply gv_sub; auto; apply gv_c|]. auto.
Qed.
Definition on_comp (c : comparison) : Prop := match c with FromStart _ | FromEnd _ => True | _ => False end.
Definition comp_j (c : comparison) : nat := match c with FromStart j | FromEnd j => j | _ => 0 end.
Lemma on_objects_tame ws es ps : gvl es ps -> length ps = (length ws + 2)%nat ->
  (forall j w, nth_error ws j = Some w ->
     M (FromStart j) (wall_c2p w (nth (j + 1) ps (0, 0))) /\ M (FromEnd j) (1 - wall_c2p w (nth (j + 1) ps (0, 0)))) ->
  tame (Vset on_comp) (e_on_objects k es (map OWall ws)).
Proof.
  intros L Len St. unfold e_on_objects.
  assert (G : forall m e, NoDup (map fst m) -> (forall i o, In (i, o) m -> (i < length ws)%nat /\ exists w, o = OWall w /\ nth_error ws i = Some w) ->
    tame (Vset (fun c => on_comp c /\ ~ In (comp_j c) (map fst m))) e ->
    tame (Vset on_comp) (fold_left (fun contains '(i, obj) => EMin contains (e_obj_contains k obj (e_row es (i + 1)))) m e)).
  { induction m as [|[i o] m IH]; intros e Nd Hm E; cbn [fold_left].
    { eapply tame_mono; [|exact E]. intros y Hy. eapply Vset_mono; [|exact Hy]. intros c [X _]. exact X. }
    destruct (Hm i o (or_introl eq_refl)) as (Hi & w & -> & Ew). cbn [map fst] in Nd, E. inversion Nd as [|? ? Ni Nd']; subst.
    apply IH; auto; [intros; apply Hm; right; auto|].
    destruct (St i w Ew) as [S1 S2].
    eapply (tame_min_s _ (fun c => c = FromStart i \/ c = FromEnd i)); [exact E| | | |].
    - cbn [e_obj_contains]. eapply contains_tame; [apply gv_c2p; apply gvv_row; eauto| |]; rewrite AdRightP.row_nth by lia; auto.
    - intros c [_ Nc] [->| ->]; apply Nc; left; reflexivity.
    - intros c [X Nc]. split; auto. intro I. apply Nc. right. auto.
    - intros c [->| ->]; (split; [exact I|exact Ni]). }
  apply G; [rewrite enum_fst; apply seq_NoDup| |apply tame_c; auto]. intros i o H. apply AdGradP.in_enumerate in H. rewrite map_length in H. destruct H as [H E]. split; auto.
  rewrite nth_error_map in E. destruct (nth_error ws i) as [w|]; [|discriminate]. cbn in E. inversion E. eauto.
Qed.
Definition clear_comp (c : comparison) : Prop := match c with Clear _ _ _ => True | _ => False end.
Definition comp_i (c : comparison) : nat := match c with Clear i _ _ => i | _ => 0 end.
Definition comp_m (c : comparison) : nat := match c with Clear _ m _ => m | _ => 0 end.
Lemma iwo_tame objs cand es ps patch : gvl es ps ->
  (forall i m o, (i + 1 < length ps)%nat -> nth_error objs m = Some o ->
     Z.of_nat m <> nth i (interacting_object_indices cand) 0%Z ->
     Z.of_nat m <> nth (i + 1) (interacting_object_indices cand) 0%Z ->
     obj_ok i m o (nth i ps (0, 0)) (nth (i + 1) ps (0, 0)) patch) ->
  tame (Vneg clear_comp) (e_intersects_with_objects k es objs cand patch).
Proof.
  intros L St. unfold e_intersects_with_objects. cbv zeta. rewrite (F2_length _ _ L).
  assert (G : forall l e, NoDup l -> (forall i, In i l -> (i + 1 < length ps)%nat) -> tame (Vneg (fun c => clear_comp c /\ ~ In (comp_i c) l)) e ->
    tame (Vneg clear_comp) (fold_left (fun acc i => fold_left (fun acc '(obj_index, obj) =>
            let ignore := (Z.eqb (Z.of_nat obj_index) (nth (i + 0) (interacting_object_indices cand) 0%Z)
                           || Z.eqb (Z.of_nat obj_index) (nth (i + 1) (interacting_object_indices cand) 0%Z))%bool in
            if ignore then acc
            else EMax acc (e_obj_intersects k obj (e_row es i) (e_row es (i + 1)) patch)) (enumerate objs) acc) l e)).
  { induction l as [|i l IH]; intros e Nd Hl E; cbn [fold_left].
    { eapply tame_mono; [|exact E]. intros y Hy. eapply Vset_mono; [|exact Hy]. intros c [X _]. exact X. }
    inversion Nd as [|? ? Ni Nd']; subst. apply IH; auto; [intros; apply Hl; right; auto|].
    assert (Hi : (i + 1 < length ps)%nat) by (apply Hl; left; auto).
    assert (G2 : forall m e, NoDup (map fst m) -> (forall j o, In (j, o) m -> nth_error objs j = Some o) ->
      tame (Vneg (fun c => clear_comp c /\ ~ In (comp_i c) l /\ (comp_i c = i -> ~ In (comp_m c) (map fst m)))) e ->
      tame (Vneg (fun c => clear_comp c /\ ~ In (comp_i c) l)) (fold_left (fun acc '(obj_index, obj) =>
            let ignore := (Z.eqb (Z.of_nat obj_index) (nth (i + 0) (interacting_object_indices cand) 0%Z)
                           || Z.eqb (Z.of_nat obj_index) (nth (i + 1) (interacting_object_indices cand) 0%Z))%bool in
            if ignore then acc
            else EMax acc (e_obj_intersects k obj (e_row es i) (e_row es (i + 1)) patch)) m e)).
    { clear e E. induction m as [|[j o] m IHm]; intros e Ndm Hm E; cbn [fold_left].
      { eapply tame_mono; [|exact E]. intros y Hy. eapply Vset_mono; [|exact Hy]. intros c (X & Y & _). auto. }
      cbn [map fst] in Ndm, E. inversion Ndm as [|? ? Nj Ndm']; subst.
      apply IHm; auto; [intros; apply Hm; right; auto|].
      assert (Ew : tame (Vneg (fun c => clear_comp c /\ ~ In (comp_i c) l /\ (comp_i c = i -> ~ In (comp_m c) (map fst m)))) e).
      { eapply tame_mono; [|exact E]. intros y Hy. eapply Vset_mono; [|exact Hy]. intros c (X & Y & Zc). split; [auto|split; [auto|]].
        intros Q I. apply (Zc Q). right. auto. }
      cbv zeta. rewrite Nat.add_0_r. destruct (Z.eqb_spec (Z.of_nat j) (nth i (interacting_object_indices cand) 0%Z)); cbn [orb]; auto.
      destruct (Z.eqb_spec (Z.of_nat j) (nth (i + 1) (interacting_object_indices cand) 0%Z)); auto.
      eapply (tame_max_n _ (of_pair i j)); [exact E| | | |].
      - eapply obj_intersects_tame; [apply gvv_row; eauto|apply gvv_row; eauto|]. rewrite !AdRightP.row_nth by lia. apply (St i j o); auto. apply Hm. left; auto.
      - intros c (_ & _ & Zc) [d ->]. apply (Zc eq_refl). left. reflexivity.
      - intros c (X & Y & Zc). split; [auto|split; [auto|]]. intros Q I. apply (Zc Q). right. auto.
      - intros c [d ->]. split; [exact I|split; [exact Ni|]]. intros _. exact Nj. }
    apply G2; [rewrite enum_fst; apply seq_NoDup|intros j o H; apply AdGradP.in_enumerate in H; tauto|].
    eapply tame_mono; [|exact E]. intros y Hy. eapply Vset_mono; [|exact Hy]. intros c (X & Y). split; [auto|split].
    - intro I. apply Y. right. auto.
    - intros Q _. apply Y. left. auto. }
  apply G; [apply seq_NoDup| |apply tame_c; auto]. intros i H. apply in_seq in H. lia.
Qed.
Lemma tame_gval V e : tame V e -> exists y, gval e y.
Proof. intros (y & G & _). eauto. Qed.
Lemma tame_min3 (V W U : R -> Prop) e1 e2 e3 : tame V e1 -> tame W e2 -> tame U e3 ->
  (forall z, V z -> W z -> False) -> (forall z, V z -> U z -> False) -> (forall z, W z -> U z -> False) ->
  exists y, gval (EMin3 e1 e2 e3) y.
Proof.
  intros (x & G1 & H1) (y & G2 & H2) (z & G3 & H3) D12 D13 D23. exists (Rmin (Rmin x y) z).
  pose proof (tame_tie _ _ e1 e2 x y D12 H1 H2) as T12. pose proof (tame_tie _ _ e1 e3 x z D13 H1 H3) as T13. pose proof (tame_tie _ _ e2 e3 y z D23 H2 H3) as T23.
  destruct G1 as [[Sa Fa] Ea], G2 as [[Sb Fb] Eb], G3 as [[Sc Fc] Ec].
  split; [|change (xmin (xmin (eval env e1) (eval env e2)) (eval env e3) = Fin (Rmin (Rmin x y) z)); rewrite Ea, Eb, Ec; reflexivity].
  split.
  - right. rewrite Ea, Eb, Ec. repeat split; auto; discriminate.
  - intros t0 curve v Hv H0. apply fol_min3; auto; rewrite ?Ea, ?Eb, ?Ec; intro Q; inversion Q; auto.
Qed.
Lemma gv_is_valid_t es ps le l objs cand ws tol patch : gvl es ps -> length ps = (length ws + 2)%nat -> gval le l ->
  (forall j w, nth_error ws j = Some w ->
     M (FromStart j) (wall_c2p w (nth (j + 1) ps (0, 0))) /\ M (FromEnd j) (1 - wall_c2p w (nth (j + 1) ps (0, 0)))) ->
  (forall i m o, (i + 1 < length ps)%nat -> nth_error objs m = Some o ->
     Z.of_nat m <> nth i (interacting_object_indices cand) 0%Z ->
     Z.of_nat m <> nth (i + 1) (interacting_object_indices cand) 0%Z ->
     obj_ok i m o (nth i ps (0, 0)) (nth (i + 1) ps (0, 0)) patch) ->
  M Loss (tol - l) ->
  exists y, gval (e_is_valid k es le objs cand (map OWall ws) tol patch) y.
Proof.
  intros L Len E S1 S2 S3. unfold e_is_valid.
  pose proof (on_objects_tame ws es ps L Len S1) as T1.
  pose proof (tame_not _ (Vset clear_comp) _ (iwo_tame objs cand es ps patch L S2) ltac:(intros z Hz; exact Hz)) as T2.
  assert (T3 : tame (Vset (eq Loss)) (e_less k le (C tol))).
  { apply (leaf Loss _ (tol - l)); auto. apply gv_sub; auto. apply gv_c. }
  destruct (tame_min3 _ _ _ _ _ _ T1 T2 T3) as [y G]; try (apply Vset_disj; intros [] X Y; cbn in *; try contradiction; discriminate).
  exists y. apply gv_nan_to_num. exact G.
Qed.
End Trans.

Lemma gv_term_t n env a alpha eps rc hh tol patch objs tx rx t r cand ws p : 0 < alpha -> gvv n env tx t -> gvv n env rx r -> hh <> 0 ->
  ImagePath_from t (map OWall ws) r = Ok p -> gradient_position eps t ws p -> path_decided a alpha tol patch objs cand ws p ->
  exists y, gval n env (e_term (mkeakw alpha a) eps rc hh tol patch objs tx rx (cand, ws)) y.
Proof.
  intros Ha T Rr Hh HI GP (Pc & Pu & Pp). pose proof (proj1 GP) as [U _]. rewrite (gradient_position_iff _ _ _ _ _ HI) in GP. destruct GP as (G1 & G2 & G3).
  destruct (image_path_walls _ _ _ _ HI) as [X Ls].
  pose proof (gvl_image_points n env tx t ws rx r T Rr G1) as L.
  assert (V : exists y, gval n env (e_is_valid (mkeakw alpha a) (e_image_points tx ws rx)
     (match ws with [] => C 0 | _ => e_path_loss (map OWall ws) (e_image_points tx ws rx) end) objs cand (map OWall ws) tol patch) y).
  { eapply (gv_is_valid_t n env a alpha Ha (margin tol patch objs cand ws p) Pu Pc _ _ _ (loss_of ws (image_points t ws r))); eauto.
    - apply image_points_length.
    - destruct ws as [|w ws]; [apply gv_c|]. apply gv_path_loss; auto; [apply image_points_length|]. intros v Hv. apply G3; auto. discriminate.
    - intros j w Hw. assert (j < length ws)%nat by (apply nth_error_Some; congruence).
      assert (Eq : nth_error (xys p) (S j) = Some (nth (j + 1) (image_points t ws r) (0, 0))).
      { rewrite X, Nat.add_1_r. apply nth_error_nth'. rewrite pts_length. lia. }
      assert (Pj : projects_at w (nth (j + 1) (image_points t ws r) (0, 0)) (wall_c2p w (nth (j + 1) (image_points t ws r) (0, 0)))).
      { apply c2p_projects; auto. rewrite X in U. eapply unfolds_proper; eauto. }
      split; cbn [margin]; do 2 eexists; (split; [exact Hw|split; [exact Eq|]]); auto.
      replace (1 - (1 - wall_c2p w (nth (j + 1) (image_points t ws r) (0, 0)))) with (wall_c2p w (nth (j + 1) (image_points t ws r) (0, 0))) by ring. auto.
    - intros i m o Hi Ho N1 N2. pose proof (not_touches _ _ _ N1 N2) as Tc.
      assert (SA : segment_at (xys p) i (nth i (image_points t ws r) (0, 0)) (nth (i + 1) (image_points t ws r) (0, 0))).
      { rewrite X. split; [|rewrite <- Nat.add_1_r]; apply nth_error_nth'; lia. }
      set (A := nth i (image_points t ws r) (0, 0)) in *. set (B := nth (i + 1) (image_points t ws r) (0, 0)) in *.
      assert (Go : forall w, wall_of o = Some w -> seg_ok a (margin tol patch objs cand ws p) i m
        (at_ (w_origin w) (w_dest w) (- patch)) (at_ (w_origin w) (w_dest w) (1 + patch)) A B SEG_TOL).
      { intros w Hw. unfold seg_ok. cbv zeta. set (P := at_ (w_origin w) (w_dest w) (- patch)). set (Q := at_ (w_origin w) (w_dest w) (1 + patch)).
        fold (seg_a P Q A B) (seg_b P Q A B) (seg_d P Q A B). split.
        - intro D0. destruct (Pp i m A B o w SA Ho Hw Tc) as (Eh & N1' & N2' & N3').
          { apply par_d. exact D0. }
          split; auto. assert (SS : segments_settled 1 P Q A B SEG_TOL) by (left; split; [apply par_d; exact D0|auto]).
          apply seg_set_iff in SS. unfold seg_set in SS. cbv zeta in SS. fold (seg_a P Q A B) (seg_b P Q A B) (seg_d P Q A B) in SS.
          destruct SS as [(_ & Y)|(Y & _)]; [exact Y|contradiction].
        - intro D0. assert (Me : meet_at P Q A B (seg_a P Q A B / seg_d P Q A B) (seg_b P Q A B / seg_d P Q A B)) by (apply meet_ab; auto).
          assert (Np : ~ parallel P Q A B) by (rewrite par_d; auto).
          repeat split; cbn [margin]; exists A, B, o, w, (seg_a P Q A B / seg_d P Q A B), (seg_b P Q A B / seg_d P Q A B); unfold SEG_TOL;
            (split; [exact SA|split; [exact Ho|split; [exact Hw|split; [exact Tc|]]]]); cbv zeta; auto. }
      unfold obj_ok. destruct o as [w|w phi|q]; auto; destruct (patched_ends w patch) as [-> ->]; apply Go; reflexivity.
    - cbn [margin]. exists (path_loss (map OWall ws) (image_points t ws r)). rewrite <- X, Ls, loss_of_eq, X. auto. }
  destruct V as [y V]. destruct (gv_received_power n env eps _ _ rc hh L G2 Hh) as [z Z].
  exists (y * z). unfold e_term. apply gv_mul; auto.
Qed.
Lemma gv_facc_t n env a alpha eps rc hh tol patch objs work tx rx t r : 0 < alpha -> gvv n env tx t -> gvv n env rx r -> hh <> 0 ->
  (forall cand ws p, In (cand, ws) work -> ImagePath_from t (map OWall ws) r = Ok p -> gradient_position eps t ws p /\ path_decided a alpha tol patch objs cand ws p) ->
  exists y, gval n env (e_facc (mkeakw alpha a) eps rc hh tol patch objs work tx rx) y.
Proof.
  intros Ha T Rr Hh. unfold e_facc. pose proof (gv_c n env 0) as E. revert E. generalize 0 at 2. generalize (C 0).
  induction work as [|[cand ws] work IH]; intros e x E G; cbn [fold_left]; [eauto|].
  pose proof (image_from_ok t ws r) as HI. destruct (G cand ws _ (or_introl eq_refl) HI) as [G1 G2].
  destruct (gv_term_t n env a alpha eps rc hh tol patch objs tx rx t r cand ws _ Ha T Rr Hh HI G1 G2) as [y Y].
  eapply (IH _ (x + y)); [apply gv_add; auto|intros; apply G; auto; right; auto].
Qed.
Lemma settled_decided alpha tol patch objects cand ws p :
  path_settled alpha tol patch objects cand ws p -> path_decided Hard alpha tol patch objects cand ws p.
Proof.
  intros (S1 & S2 & S3).
  assert (K : forall c z, margin tol patch objects cand ws p c z -> (c <> Loss -> settled alpha z) /\ (c = Loss -> alpha * z <> 3 /\ alpha * z <> -3)).
  { intros c z H. destruct c as [j|j|i m d|]; cbn [margin] in H; (split; [intro Nc|intro Ec; try discriminate]).
    - destruct H as (w & q & Hw & Hq & Hp). apply (S1 j w q z); auto.
    - destruct H as (w & q & Hw & Hq & Hp). replace z with (1 - (1 - z)) by ring. apply (S1 j w q (1 - z)); auto.
    - destruct H as (A & B & o & w & s & t & SA & Ho & Hw & Tc & Np & Me & ->). specialize (S2 i m A B o w SA Ho Hw Tc).
      destruct S2 as [[Pa _]|[_ S2]]; [contradiction|]. destruct (S2 s t Me) as (Q1 & Q2 & Q3 & Q4). unfold settled in *. destruct d; lra.
    - congruence.
    - destruct H as (l & El & ->). apply S3. auto. }
  split; [|split].
  - intros c z H. destruct (K c z H) as [K1 K2]. unfold corner_at. destruct c as [j|j|i m d|];
      try (specialize (K1 ltac:(discriminate)); unfold settled in K1; lra). specialize (K2 eq_refl). lra.
  - intros c c' z H H'. destruct (K c z H) as [K1 _]. destruct (K c' z H') as [K1' _]. unfold constant_at.
    destruct c as [j|j|i m d|]; [left; apply K1; discriminate|left; apply K1; discriminate|left; apply K1; discriminate|].
    destruct c' as [j|j|i m d|]; [left; apply K1'; discriminate|left; apply K1'; discriminate|left; apply K1'; discriminate|auto].
  - intros i m A B o w SA Ho Hw Tc P Q Pa. split; auto. destruct (S2 i m A B o w SA Ho Hw Tc) as [[_ Y]|[N _]]; [exact Y|contradiction].
Qed.
