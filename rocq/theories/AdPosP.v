(** The positions of SpecAd are those that the proofs use. *)
From Coq Require Import Reals List Bool ZArith Arith Lia Lra Psatz.
From Verif Require Import Base BaseP LogicM GeometryM OptimizeM PathM UtilsM SceneM SpecGeometry SpecPath SpecImage WallP PathP ImageP.
From Verif Require Import AdM SpecAd AdPos.
Import ListNotations.
Open Scope R_scope.
Local Notation length := List.length.

(** ** Parallel *)
Lemma dot_parallel w I B : dot (vsub B I) (normal w) = 0 <-> parallel (w_origin w) (w_dest w) I B.
Proof.
  rewrite parallel_side. destruct (proper_dec w) as [H|H].
  - destruct (normal_eq w H) as (P & _ & _). rewrite dot_normal by auto.
    assert (U : fst (vsub B I) * tvy w - snd (vsub B I) * tvx w = side w I - side w B).
    { rewrite side_diff. unfold vsub. cbn. ring. }
    rewrite U. split.
    + intro Z. apply (f_equal (fun x => x * norm (wall_t w))) in Z. unfold Rdiv in Z.
      rewrite Rmult_assoc, Rinv_l in Z by lra. lra.
    + intros ->. unfold Rdiv. rewrite Rminus_diag_eq by reflexivity. ring.
  - rewrite normal_improper by auto. rewrite !side_improper by auto. unfold dot. cbn. split; intro; [reflexivity|ring].
Qed.

(** ** Steps *)
Lemma diffs_consecutive (Q : vec -> Prop) pts :
  (forall v, In v (diffs pts) -> Q v) <-> consecutive (fun a b => Q (vsub b a)) pts.
Proof.
  rewrite consecutive_nth. induction pts as [|p pts IH]; [split; [intros _ [|i] a b; discriminate|intros _ v []]|].
  destruct pts as [|q pts]; [split; [intros _ [|[|i]] a b; discriminate|intros _ v []]|].
  cbn [diffs] in *. split.
  - intros H [|i] a b Ha Hb.
    + cbn in Ha, Hb. injection Ha as <-. injection Hb as <-. apply H. left; auto.
    + apply (proj1 IH) with (i := i); auto. intros v Hv. apply H. right. auto.
  - intros H v [<-|Hv]; [apply (H 0%nat); reflexivity|]. revert v Hv. apply IH.
    intros i a b Ha Hb. apply (H (S i)); auto.
Qed.
Lemma consecutive_iff (Q Q' : vec -> vec -> Prop) pts : (forall a b, Q a b <-> Q' a b) ->
  (consecutive Q pts <-> consecutive Q' pts).
Proof. intro H. unfold consecutive. split; intros X l p q r E; apply H, (X l p q r E). Qed.
Lemma step_eps eps a b : vsub b a <> (- eps, - eps) <-> b <> (fst a - eps, snd a - eps).
Proof.
  destruct a as [a1 a2], b as [b1 b2]. unfold vsub. cbn. split; intros H E; apply H; inversion E; f_equal; lra.
Qed.
Lemma steps_off_iff eps pts : steps_off eps pts <-> forall v, In v (diffs pts) -> v <> (- eps, - eps).
Proof. unfold steps_off. rewrite diffs_consecutive. apply consecutive_iff. intros. rewrite step_eps. tauto. Qed.
Lemma distinct_iff pts : consecutive (fun a b => a <> b) pts <-> forall v, In v (diffs pts) -> v <> (0, 0).
Proof.
  rewrite diffs_consecutive. apply consecutive_iff. intros [a1 a2] [b1 b2]. unfold vsub. cbn.
  split; intros H E; apply H; inversion E; f_equal; lra.
Qed.

(** ** The images *)
Lemma unfolds_iff tx ws rx : unfolds tx ws (image_points tx ws rx) <->
  forall j w, nth_error ws j = Some w -> approach tx ws rx j w <> 0.
Proof.
  unfold unfolds, approach. split.
  - intros H i w Hw. assert (i < length ws)%nat by (apply nth_error_Some; congruence).
    specialize (H (imgs_of tx ws) i w (img tx ws (S i)) (pt tx ws rx (S (S i)))).
    intro Z. apply dot_parallel in Z. apply H; auto.
    + apply (chain_eq _ _ ws); auto. apply as_walls_map.
    + apply img_nth. lia.
    + apply pt_nth. lia.
    + rewrite Nat.add_comm in Z. cbn [Nat.add] in Z.
      assert (A1 : nth (S (S i)) (image_points tx ws rx) (0, 0) = pt tx ws rx (S (S i))).
      { apply nth_error_nth with (d := (0,0)). apply pt_nth. lia. }
      assert (A2 : nth i (images tx ws) (0, 0) = img tx ws (S i)) by reflexivity.
      rewrite A1, A2 in Z. exact Z.
  - intros H imgs i w I B HC Hw HI HB P. assert (i < length ws)%nat by (apply nth_error_Some; congruence).
    apply (chain_eq _ _ ws) in HC; [|apply as_walls_map]. subst imgs.
    apply (H i w Hw). apply dot_parallel. rewrite Nat.add_comm. cbn [Nat.add].
    apply nth_error_nth with (d := (0,0)) in HB. rewrite HB.
    unfold imgs_of in HI. cbn [nth_error] in HI. apply nth_error_nth with (d := (0,0)) in HI. rewrite HI. exact P.
Qed.
Lemma length_position_iff eps tx ws rx p : ImagePath_from tx (map OWall ws) rx = Ok p ->
  (length_position eps tx ws p <-> len_pos eps tx ws rx).
Proof.
  intro H. apply image_path_walls in H. destruct H as [X _]. unfold length_position, len_pos.
  rewrite X, unfolds_iff, steps_off_iff. tauto.
Qed.
Lemma gradient_position_iff eps tx ws rx p : ImagePath_from tx (map OWall ws) rx = Ok p ->
  (gradient_position eps tx ws p <-> gen_pos eps tx ws rx).
Proof.
  intro H. unfold gradient_position. rewrite (length_position_iff eps tx ws rx p H).
  apply image_path_walls in H. destruct H as [X _]. unfold len_pos, gen_pos. rewrite X, distinct_iff.
  split; intros; intuition; eauto. 
Qed.
Lemma all_len_pos {A} eps tx rx (bw : list (A * list wall)) :
  (forall b ws p, In (b, ws) bw -> ImagePath_from tx (map OWall ws) rx = Ok p -> length_position eps tx ws p) <->
  (forall b ws, In (b, ws) bw -> len_pos eps tx ws rx).
Proof.
  split.
  - intros H b ws I. rewrite <- (length_position_iff eps tx ws rx _ (image_from_ok tx ws rx)).
    apply (H b); auto. apply image_from_ok.
  - intros H b ws p I E. rewrite (length_position_iff eps tx ws rx p E). eauto.
Qed.
Lemma all_gen_pos {A} eps tx rx (bw : list (A * list wall)) :
  (forall b ws p, In (b, ws) bw -> ImagePath_from tx (map OWall ws) rx = Ok p -> gradient_position eps tx ws p) <->
  (forall b ws, In (b, ws) bw -> gen_pos eps tx ws rx).
Proof.
  split.
  - intros H b ws I. rewrite <- (gradient_position_iff eps tx ws rx _ (image_from_ok tx ws rx)).
    apply (H b); auto. apply image_from_ok.
  - intros H b ws p I E. rewrite (gradient_position_iff eps tx ws rx p E). eauto.
Qed.

(** ** Segments *)
Definition seg_a (P1 P2 P3 P4 : vec) : R :=
  snd (vsub P3 P4) * fst (vsub P1 P3) - fst (vsub P3 P4) * snd (vsub P1 P3).
Definition seg_b (P1 P2 P3 P4 : vec) : R :=
  fst (vsub P2 P1) * snd (vsub P1 P3) - snd (vsub P2 P1) * fst (vsub P1 P3).
Definition seg_d (P1 P2 P3 P4 : vec) : R :=
  snd (vsub P2 P1) * fst (vsub P3 P4) - fst (vsub P2 P1) * snd (vsub P3 P4).
Lemma par_d P1 P2 P3 P4 : parallel P1 P2 P3 P4 <-> seg_d P1 P2 P3 P4 = 0.
Proof. unfold parallel, seg_d, vsub. cbn. split; intro; lra. Qed.
Lemma meet_ab P1 P2 P3 P4 : seg_d P1 P2 P3 P4 <> 0 -> forall s t,
  meet_at P1 P2 P3 P4 s t <-> (s = seg_a P1 P2 P3 P4 / seg_d P1 P2 P3 P4 /\ t = seg_b P1 P2 P3 P4 / seg_d P1 P2 P3 P4).
Proof.
  intros D s t. unfold meet_at. destruct P1 as [x1 y1], P2 as [x2 y2], P3 as [x3 y3], P4 as [x4 y4].
  unfold seg_d, seg_a, seg_b, vsub, at_ in *. cbn [fst snd] in *. split.
  - intro M. injection M as M1 M2.
    assert (S1 : s * ((y2 - y1) * (x3 - x4) - (x2 - x1) * (y3 - y4)) = (y3 - y4) * (x1 - x3) - (x3 - x4) * (y1 - y3)).
    { assert (X : s * ((y2 - y1) * (x3 - x4) - (x2 - x1) * (y3 - y4)) - ((y3 - y4) * (x1 - x3) - (x3 - x4) * (y1 - y3)) =
        (x3 - x4) * ((y1 + s * (y2 - y1)) - (y3 + t * (y4 - y3))) - (y3 - y4) * ((x1 + s * (x2 - x1)) - (x3 + t * (x4 - x3)))) by ring.
      rewrite M1, M2 in X. lra. }
    assert (S2 : t * ((y2 - y1) * (x3 - x4) - (x2 - x1) * (y3 - y4)) = (x2 - x1) * (y1 - y3) - (y2 - y1) * (x1 - x3)).
    { assert (X : t * ((y2 - y1) * (x3 - x4) - (x2 - x1) * (y3 - y4)) - ((x2 - x1) * (y1 - y3) - (y2 - y1) * (x1 - x3)) =
        (y2 - y1) * ((x1 + s * (x2 - x1)) - (x3 + t * (x4 - x3))) - (x2 - x1) * ((y1 + s * (y2 - y1)) - (y3 + t * (y4 - y3)))) by ring.
      rewrite M1, M2 in X. lra. }
    rewrite <- S1, <- S2. split; field; auto.
  - intros [-> ->]. f_equal; field; auto.
Qed.
Lemma on_line_a P1 P2 P3 P4 : P3 <> P4 -> (seg_a P1 P2 P3 P4 = 0 <-> on_line P3 P4 P1).
Proof.
  destruct P1 as [x1 y1], P3 as [x3 y3], P4 as [x4 y4]. intros N.
  unfold seg_a, on_line, at_, vsub. cbn [fst snd]. split.
  - intro Z. destruct (Req_dec x3 x4) as [Ex|Ex].
    + assert (Ey : y3 <> y4) by (intro; apply N; subst; auto).
      exists ((y1 - y3) / (y4 - y3)). f_equal; [|field; lra]. subst x4.
      assert (x1 - x3 = 0). { apply Rmult_eq_reg_l with (y3 - y4); [|lra]. lra. } 
      replace (x3 - x3) with 0 by ring. lra.
    + exists ((x1 - x3) / (x4 - x3)). f_equal; [field; lra|].
      apply Rmult_eq_reg_l with (x4 - x3); [|lra]. field_simplify; [|lra]. nra.
  - intros [t E]. injection E as -> ->. ring.
Qed.
Lemma on_line_b P1 P2 P3 P4 : P1 <> P2 -> (seg_b P1 P2 P3 P4 = 0 <-> on_line P1 P2 P3).
Proof.
  intro N. rewrite <- (on_line_a P3 P4 P1 P2 N). unfold seg_a, seg_b, vsub. cbn. split; intro; lra.
Qed.
Lemma seg_set_iff alpha P1 P2 P3 P4 tol : segments_settled alpha P1 P2 P3 P4 tol <-> seg_set alpha P1 P2 P3 P4 tol.
Proof.
  unfold segments_settled, seg_set. cbn zeta. rewrite par_d.
  fold (seg_a P1 P2 P3 P4) (seg_b P1 P2 P3 P4) (seg_d P1 P2 P3 P4).
  assert (X : seg_d P1 P2 P3 P4 = 0 -> (P1 <> P2 /\ P3 <> P4 /\ ~ on_line P1 P2 P3 <-> seg_a P1 P2 P3 P4 <> 0 /\ seg_b P1 P2 P3 P4 <> 0)).
  { intro D. split.
    - intros (N1 & N3 & L). rewrite <- (on_line_b P1 P2 P3 P4 N1) in L. split; auto. intro Z. apply L.
      rewrite (on_line_a P1 P2 P3 P4 N3) in Z. destruct Z as [t Z].
      destruct P1 as [x1 y1], P2 as [x2 y2], P3 as [x3 y3], P4 as [x4 y4].
      unfold seg_b, seg_d, vsub, at_ in *. cbn [fst snd] in *. injection Z as -> ->.
      assert (Y : forall u v w : R, u = v * w -> w = 0 -> u = 0) by (intros; subst; ring).
      eapply Y; [|exact D]. instantiate (1 := t). ring.
    - intros [Na Nb]. split; [|split].
      + intros ->. apply Nb. unfold seg_b, vsub. cbn. ring.
      + intros ->. apply Na. unfold seg_a, vsub. cbn. ring.
      + intros [t Z]. apply Nb. subst P3. unfold seg_b, vsub, at_. cbn. ring. }
  split.
  - intros [[D H]|[D H]]; [left; tauto|right]. split; auto. apply H, meet_ab; auto.
  - intros [[D H]|[D H]]; [left; tauto|right]. split; auto. intros s t M. apply meet_ab in M; auto.
    destruct M as [-> ->]. exact H.
Qed.
Lemma decid_iff alpha P1 P2 P3 P4 tol : deciding alpha P1 P2 P3 P4 tol <-> decid alpha P1 P2 P3 P4 tol.
Proof.
  unfold deciding, decid. cbn zeta. rewrite par_d.
  fold (seg_a P1 P2 P3 P4) (seg_b P1 P2 P3 P4) (seg_d P1 P2 P3 P4). split.
  - intros [D H]. split; auto. apply H, meet_ab; auto.
  - intros [D H]. split; auto. intros s t M. apply meet_ab in M; auto. destruct M as [-> ->]. exact H.
Qed.

(** ** Settled paths *)
Lemma unfolds_proper tx ws rx j w : unfolds tx ws (image_points tx ws rx) -> nth_error ws j = Some w -> proper w.
Proof.
  rewrite unfolds_iff. intros H Hw E. apply (H j w Hw). unfold approach. apply dot_parallel.
  unfold parallel. rewrite E. ring.
Qed.
Lemma nth_ge_0 i (cand : list Z) : ~ (i < length (interacting_object_indices cand))%nat ->
  nth i (interacting_object_indices cand) 0%Z = 0%Z.
Proof. intro H. apply nth_overflow. lia. Qed.
Lemma not_touches cand i m :
  Z.of_nat m <> nth i (interacting_object_indices cand) 0%Z ->
  Z.of_nat m <> nth (i + 1) (interacting_object_indices cand) 0%Z -> ~ touches cand i m.
Proof.
  unfold interacting_object_indices. rewrite Nat.add_1_r. intros H1 H2 [T|(i' & -> & T)].
  - apply H2. cbn [nth]. symmetry. apply nth_error_nth. rewrite nth_error_app1; auto. apply nth_error_Some. congruence.
  - apply H1. cbn [nth]. symmetry. apply nth_error_nth. rewrite nth_error_app1; auto. apply nth_error_Some. congruence.
Qed.
Lemma touches_indices cand i m : (i <= length cand)%nat -> ~ touches cand i m ->
  Z.of_nat m <> nth i (interacting_object_indices cand) 0%Z /\
  Z.of_nat m <> nth (i + 1) (interacting_object_indices cand) 0%Z.
Proof.
  intros L T. rewrite <- ignored_touches in T by auto. unfold ignored in T.
  rewrite orb_true_iff, !Z.eqb_eq, Nat.add_0_r in T. tauto.
Qed.
Lemma patched_ends w patch :
  vsub (w_origin w) (vscale patch (wall_t w)) = at_ (w_origin w) (w_dest w) (- patch) /\
  vadd (w_dest w) (vscale patch (wall_t w)) = at_ (w_origin w) (w_dest w) (1 + patch).
Proof.
  rewrite wall_t_eq. unfold vsub, vadd, vscale, at_, tvx, tvy. cbn. split; f_equal; ring.
Qed.
Definition loss_of (ws : list wall) (pts : list vec) : R :=
  match ws with [] => 0 | _ => path_loss (map OWall ws) pts end.
Lemma loss_of_eq ws pts : loss_of ws pts = path_loss (map OWall ws) pts.
Proof. destruct ws; reflexivity. Qed.
Lemma path_settled_set alpha tol patch objects cand tx ws rx p :
  ImagePath_from tx (map OWall ws) rx = Ok p -> unfolds tx ws (xys p) ->
  path_settled alpha tol patch objects cand ws p ->
  path_set alpha tol patch objects cand ws (image_points tx ws rx) (loss_of ws (image_points tx ws rx)).
Proof.
  intros H U (S1 & S2 & S3). destruct (image_path_walls _ _ _ _ H) as [X L]. rewrite X in *.
  split; [|split; [|rewrite loss_of_eq; apply S3; auto]].
  - intros j w Hw. assert (j < length ws)%nat by (apply nth_error_Some; congruence).
    apply (S1 j w (nth (j + 1) (image_points tx ws rx) (0, 0))); auto.
    + rewrite Nat.add_1_r. apply nth_error_nth'. rewrite pts_length. lia.
    + apply c2p_projects; auto. eapply unfolds_proper; eauto.
  - intros i m o Hi Ho N1 N2. pose proof (not_touches _ _ _ N1 N2) as T.
    assert (SA : segment_at (image_points tx ws rx) i (nth i (image_points tx ws rx) (0, 0)) (nth (i + 1) (image_points tx ws rx) (0, 0))).
    { split; [|rewrite <- Nat.add_1_r]; apply nth_error_nth'; lia. }
    unfold obj_set. destruct o as [w|w phi|q]; auto; destruct (patched_ends w patch) as [-> ->]; apply seg_set_iff;
      apply (S2 i m _ _ _ w SA Ho); auto.
Qed.
Lemma path_set_settled alpha tol patch objects cand tx ws rx p :
  length cand = length ws ->
  ImagePath_from tx (map OWall ws) rx = Ok p -> unfolds tx ws (xys p) ->
  path_set alpha tol patch objects cand ws (image_points tx ws rx) (loss_of ws (image_points tx ws rx)) ->
  path_settled alpha tol patch objects cand ws p.
Proof.
  intros LC H U (S1 & S2 & S3). destruct (image_path_walls _ _ _ _ H) as [X L]. unfold path_settled. rewrite X, L in *.
  split; [|split].
  - intros j w q t Hw Hq P. apply c2p_projects in P; [|eapply unfolds_proper; eauto]. subst t.
    specialize (S1 j w Hw). rewrite Nat.add_1_r in S1. rewrite (nth_error_nth _ _ _ Hq) in S1. exact S1.
  - intros i m A B o w [HA HB] Ho Hw T.
    assert (i + 1 < length (image_points tx ws rx))%nat by (rewrite Nat.add_1_r; apply nth_error_Some; congruence).
    assert (I : (i <= length cand)%nat) by (rewrite pts_length in H0; lia).
    destruct (touches_indices _ _ _ I T) as [N1 N2]. specialize (S2 i m o H0 Ho N1 N2).
    rewrite Nat.add_1_r in S2. rewrite (nth_error_nth _ _ _ HA), (nth_error_nth _ _ _ HB) in S2.
    destruct (patched_ends w patch) as [E1 E2]. rewrite <- E1, <- E2. apply seg_set_iff.
    destruct o; cbn in Hw; inversion Hw; subst; exact S2.
  - intros l E. injection E as <-. rewrite loss_of_eq in S3. exact S3.
Qed.
Lemma all_settled alpha eps tol patch objects tx rx (work : list (list Z * list wall)) :
  (forall cand ws p, In (cand, ws) work -> ImagePath_from tx (map OWall ws) rx = Ok p ->
     gradient_position eps tx ws p /\ path_settled alpha tol patch objects cand ws p) ->
  forall cand ws, In (cand, ws) work -> gen_pos eps tx ws rx /\
     path_set alpha tol patch objects cand ws (image_points tx ws rx)
       (match ws with [] => 0 | _ => path_loss (map OWall ws) (image_points tx ws rx) end).
Proof.
  intros H cand ws I. pose proof (image_from_ok tx ws rx) as E. destruct (H cand ws _ I E) as [G S].
  split; [apply (gradient_position_iff _ _ _ _ _ E); auto|].
  change (match ws with [] => 0 | _ => path_loss (map OWall ws) (image_points tx ws rx) end) with (loss_of ws (image_points tx ws rx)).
  eapply path_settled_set; eauto. apply G.
Qed.
Lemma not_steps_off eps pts l p r : pts = l ++ p :: (fst p - eps, snd p - eps) :: r -> In (- eps, - eps) (diffs pts).
Proof.
  intros ->. induction l as [|a l IH]; cbn [app].
  - cbn [diffs]. left. unfold vsub. cbn. f_equal; ring.
  - destruct l as [|b l]; [right; exact IH|]. cbn [app diffs]. right. exact IH.
Qed.
