(** Proofs: the valid paths of the image method are the specular unobstructed paths. *)
From Coq Require Import Reals List Bool ZArith String Lia Lra Psatz.
From Verif Require Import Base BaseP LogicM SpecLogic LogicP GeometryM SpecGeometry SegP VecP WallP OptimizeM PathM SpecPath PathP PathSmoothP PathShapeP
  SpecImage ImageP ImageExP CandidatesM SceneM SpecCandidates SpecScene SpecRun CandidatesP SceneP SceneOpsP SceneRunP
  SceneAccP SceneGridP SpecPower PowerP ApproxP OrderP RecipP SpecComplete.
Import ListNotations.
Local Notation length := List.length.
Open Scope R_scope.

Lemma specular_visits ends tx ws rx pts : specular_path ends tx ws rx pts -> visits tx ws rx pts.
Proof.
  intros (L & H0 & HN & H). destruct pts as [|a pts]; [discriminate|]. cbn in H0. injection H0 as ->.
  destruct (exists_last (l := pts)) as (qs & z & ->); [destruct pts; [cbn in L; lia|discriminate]|].
  cbn [length] in L. rewrite app_length in L. cbn [length] in L.
  rewrite Nat.add_1_r in HN. cbn [nth_error] in HN. rewrite nth_error_app2 in HN by lia.
  replace (length ws - length qs)%nat with 0%nat in HN by lia. cbn in HN. injection HN as ->.
  exists qs. split; [reflexivity|]. apply Forall2_nth'; [lia|]. intros i w q Hw Hq.
  assert (i < length qs)%nat by (apply nth_error_Some; congruence).
  destruct (nth_error (tx :: qs ++ [rx]) i) as [A|] eqn:EA.
  2:{ apply nth_error_None in EA. cbn [length] in EA. rewrite app_length in EA. cbn in EA. lia. }
  destruct (nth_error (tx :: qs ++ [rx]) (i + 2)) as [B|] eqn:EB.
  2:{ apply nth_error_None in EB. cbn [length] in EB. rewrite app_length in EB. cbn in EB. lia. }
  destruct (H i w A q B Hw EA) as ((t & _ & ->) & _); auto.
  - rewrite Nat.add_1_r. cbn [nth_error]. rewrite nth_error_app1 by lia. exact Hq.
  - exists t. reflexivity.
Qed.
Lemma specular_image ends tx ws rx p pts : ImagePath_from tx (map OWall ws) rx = Ok p -> specular_path ends tx ws rx pts ->
  p = mkpath pts (Fin 0).
Proof.
  intros HP S. destruct (C64_lemma tx ws rx p pts HP (specular_visits _ _ _ _ _ S)) as [X Y].
  - destruct S as (_ & _ & _ & H). intros i w A Q B Hw HA HQ HB.
    destruct (H i w A Q B Hw HA) as ((t & T & EQ) & _ & SS & SP); rewrite ?Nat.add_1_r; auto.
    { replace (i + 2)%nat with (S (S i)) by lia. exact HB. }
    unfold same_side in SS. split; [intro Z; rewrite Z in SS; lra|]. split; auto.
    intro Z. subst B. assert (side_of w Q = 0).
    { rewrite EQ. unfold side_of, at_. cbn. ring. }
    rewrite H0 in SS. lra.
  - destruct p; cbn in *. congruence.
Qed.

Lemma at_strict w t : proper w -> at_ (w_origin w) (w_dest w) t <> w_origin w -> at_ (w_origin w) (w_dest w) t <> w_dest w -> 0 <= t <= 1 -> 0 < t < 1.
Proof.
  intros Pw H0 H1 T. split.
  - destruct (Req_dec t 0) as [->|]; [|lra]. exfalso. apply H0. unfold at_. destruct (w_origin w). cbn. f_equal; ring.
  - destruct (Req_dec t 1) as [->|]; [|lra]. exfalso. apply H1. unfold at_. destruct (w_dest w), (w_origin w). cbn. f_equal; ring.
Qed.
Lemma proj_unique w t t' : proper w -> projects_at w (at_ (w_origin w) (w_dest w) t) t' -> t = t'.
Proof.
  intros Pw H. unfold projects_at, at_ in H. cbn [fst snd] in H. destruct w as [[a b] [c d]]. cbn [w_origin w_dest fst snd] in *.
  assert (N : (c - a) * (c - a) + (d - b) * (d - b) <> 0).
  { intro Z. apply Pw. cbn. destruct (Rplus_sqr_eq_0 (c - a) (d - b) Z). f_equal; lra. }
  assert ((t - t') * ((c - a) * (c - a) + (d - b) * (d - b)) = 0) by lra.
  apply Rmult_integral in H0. destruct H0; [lra|contradiction].
Qed.
Lemma proj_self w t : projects_at w (at_ (w_origin w) (w_dest w) t) t.
Proof. unfold projects_at, at_. cbn. ring. Qed.

(** What is accepted, in both modes. *)
Lemma accepted g p objects cand interacting tol patch a k t : (resolve g a = true -> shipped k /\ 0 < ak_alpha k) ->
  (length (xys p) <= length cand + 2)%nat -> (length interacting < length (xys p))%nat ->
  is_valid g p objects cand interacting tol patch a k = Ok t ->
  (is_true g t DEFAULT_TRUTH_TOL a = Ok true <->
   loss_below (loss p) tol /\
   (if resolve g a then projects_strictly_inside (xys p) interacting else projects_inside (xys p) interacting) /\
   ~ obstructed (xys p) objects cand patch (5 / 1000)).
Proof.
  intros Hk L1 L2 E. rewrite resolve_valid in E. replace (is_true g t DEFAULT_TRUTH_TOL a) with (is_true g t DEFAULT_TRUTH_TOL (Some (resolve g a))) by reflexivity.
  destruct (resolve g a).
  - destruct (Hk eq_refl) as [Hs Ha]. destruct (C40_lemma g k Hs Ha p objects cand interacting tol patch L1 L2) as (t' & b & E' & B & H).
    assert (t' = t) by congruence. subst t'. rewrite B. rewrite <- H. split; [congruence|intros ->; reflexivity].
  - destruct (C38_lemma g p objects cand interacting tol patch k L1 L2) as (b & E' & H).
    assert (t = TB b) by congruence. subst t. rewrite <- H. cbn. split; [congruence|intros ->; reflexivity].
Qed.

Lemma loss_pos_below tx ws rx p tol : ImagePath_from tx (map OWall ws) rx = Ok p -> tx <> rx -> tol <= 1 -> loss_below (loss p) tol ->
  general_position tx ws (xys p).
Proof.
  intros HP N T L. rewrite image_from_ok in HP. injection HP as <-. cbn [loss xys] in *. cbn [loss_below] in L.
  apply gp_iff. destruct (gp_or_repeated tx ws rx) as [G|(j & K & E)]; auto. exfalso.
  pose proof (collapse ws (image_points tx ws rx) j K E ltac:(lra)) as C. destruct (collapsed tx ws rx C) as [Er _]. auto.
Qed.

Lemma core g tx ws rx p objects cand tol patch a k t : ImagePath_from tx (map OWall ws) rx = Ok p -> length cand = length ws ->
  0 < tol <= 1 -> (resolve g a = true -> shipped k /\ 0 < ak_alpha k) -> tx <> rx ->
  is_valid g p objects cand (map OWall ws) tol patch a k = Ok t ->
  (is_true g t DEFAULT_TRUTH_TOL a = Ok true <->
   loss p = Fin 0 /\ specular_path (negb (resolve g a)) tx ws rx (xys p) /\ ~ obstructed (xys p) objects cand patch (5 / 1000)).
Proof.
  intros HP LC T Hk N V. destruct (image_path_walls _ _ _ _ HP) as [X _].
  assert (LP : length (xys p) = (length ws + 2)%nat) by (rewrite X; apply pts_length).
  rewrite (accepted g p objects cand (map OWall ws) tol patch a k t Hk ltac:(lia) ltac:(rewrite map_length; lia) V).
  split.
  - intros (L & PI & NO). assert (G := loss_pos_below _ _ _ _ _ HP N (proj2 T) L).
    assert (PI' : projects_inside (xys p) (map OWall ws)).
    { destruct (resolve g a); auto. intros i o w q Ho Hw Hq. destruct (PI i o w q Ho Hw Hq) as (_ & s & S1 & S2). exists s. split; [lra|auto]. }
    destruct (C38_lemma g p objects cand (map OWall ws) tol patch k ltac:(lia) ltac:(rewrite map_length; lia)) as (b & Eb & Hb).
    assert (b = true) by (apply Hb; auto). subst b.
    destruct (C63_lemma g tx ws rx p objects cand tol patch k HP G LC ltac:(lra) Eb) as (H & _ & _).
    assert (SPEC : specular_path (negb (resolve g a)) tx ws rx (xys p)).
    { split; auto. split; [rewrite X; rewrite pt_nth by lia; rewrite pt_0; reflexivity|].
      split; [rewrite X; rewrite Nat.add_1_r, pt_nth by lia; rewrite pt_last; reflexivity|].
      intros i w A Q B Hw HA HQ HB. rewrite Nat.add_1_r in HQ. replace (i + 2)%nat with (S (S i)) in HB by lia.
      destruct (H i w A Q B Hw HA HQ HB) as (S1 & S2 & S3). split; [auto|]. split; [|auto].
      intro En. destruct (resolve g a); [|discriminate]. destruct S1 as (s & S1 & EQ).
      destruct (PI i (OWall w) w Q) as (Pw & s' & T' & Pj); [rewrite nth_error_map, Hw; reflexivity|reflexivity|auto|].
      rewrite EQ in Pj. apply proj_unique in Pj; auto. subst s'. rewrite EQ. split; intro Z.
      - assert (s = 0); [|lra]. apply (proj_unique w s 0 Pw). rewrite Z.
        replace (w_origin w) with (at_ (w_origin w) (w_dest w) 0) at 1 by apply at_zero. apply proj_self.
      - assert (s = 1); [|lra]. apply (proj_unique w s 1 Pw). rewrite Z.
        replace (w_dest w) with (at_ (w_origin w) (w_dest w) 1) at 1; [apply proj_self|]. apply at_end. right. reflexivity. }
    split; [|split; auto]. rewrite (specular_image _ _ _ _ _ _ HP SPEC). reflexivity.
  - intros (L & SP & NO). split; [rewrite L; cbn; lra|]. split; [|auto].
    destruct SP as (_ & _ & _ & H).
    assert (Q0 : forall i w q, nth_error ws i = Some w -> nth_error (xys p) (S i) = Some q -> proper w /\
      exists s, 0 <= s <= 1 /\ projects_at w q s /\ (resolve g a = true -> 0 < s < 1)).
    { intros i w q Hw Hq. assert (i < length ws)%nat by (apply nth_error_Some; congruence).
      destruct (nth_error (xys p) i) as [A|] eqn:EA; [|apply nth_error_None in EA; lia].
      destruct (nth_error (xys p) (i + 2)) as [B|] eqn:EB; [|apply nth_error_None in EB; lia].
      destruct (H i w A q B Hw EA) as ((s & S1 & ->) & S2 & S3 & _); [rewrite Nat.add_1_r; auto|auto|].
      assert (Pw : proper w).
      { unfold same_side in S3. apply (side_proper w A). rewrite <- side_of_side. intro Z. rewrite Z in S3. lra. }
      split; auto. exists s. split; auto. split; [apply proj_self|]. intro R. rewrite R in S2. destruct (S2 eq_refl) as [Z0 Z1].
      apply at_strict with (w := w); auto. }
    destruct (resolve g a); intros i o w q Ho Hw Hq; apply map_nth_error_inv in Ho; destruct Ho as (w' & Hw' & Eo); subst o; cbn in Hw; injection Hw as ->;
      destruct (Q0 i w q Hw' Hq) as (Pw & s & S1 & S2 & S3).
    + split; auto. exists s. auto.
    + exists s. auto.
Qed.

(** No wall twice in a row: automatic. *)
Lemma specular_no_repeat ends tx ws rx pts i w : specular_path ends tx ws rx pts -> nth_error ws i = Some w -> nth_error ws (S i) = Some w -> False.
Proof.
  intros (L & _ & _ & H) H1 H2. assert (S i < length ws)%nat by (apply nth_error_Some; congruence).
  destruct (nth_error pts i) as [A|] eqn:EA; [|apply nth_error_None in EA; lia].
  destruct (nth_error pts (i + 1)) as [Q|] eqn:EQ; [|apply nth_error_None in EQ; lia].
  destruct (nth_error pts (i + 2)) as [B|] eqn:EB; [|apply nth_error_None in EB; lia].
  destruct (nth_error pts (i + 3)) as [D|] eqn:ED; [|apply nth_error_None in ED; lia].
  destruct (H i w A Q B H1 EA EQ EB) as ((s & _ & E1) & _).
  destruct (H (S i) w Q B D H2) as (_ & _ & S3 & _).
  { rewrite <- Nat.add_1_r. auto. } { rewrite <- EB. f_equal. lia. } { rewrite <- ED. f_equal. lia. }
  unfold same_side in S3. assert (side_of w Q = 0) by (rewrite E1; unfold side_of, at_; cbn; ring).
  rewrite H3 in S3. lra.
Qed.

Lemma objects_at_walls s filt idx ws : Forall2 (fun j w => nth_error (objects s) j = Some (OWall w) /\ accepts filt (OWall w)) idx ws -> objects_at s idx = map OWall ws.
Proof.
  unfold objects_at. induction 1 as [|j w idx ws [E _] F IH]; [reflexivity|]. cbn [flat_map map]. rewrite E, IH. reflexivity.
Qed.
Lemma walls_of_indices s filt idx : (forall o, In o (objects s) -> accepts filt o -> exists w, o = OWall w) ->
  (forall j, In j idx -> exists o, nth_error (objects s) j = Some o /\ accepts filt o) ->
  exists ws, Forall2 (fun j w => nth_error (objects s) j = Some (OWall w) /\ accepts filt (OWall w)) idx ws.
Proof.
  intros H. induction idx as [|j idx IH]; intro B; [exists []; constructor|].
  destruct (IH (fun k K => B k (or_intror K))) as [ws F]. destruct (B j (or_introl eq_refl)) as (o & E & Ac).
  destruct (H o (nth_error_In _ _ E) Ac) as [w ->]. exists (w :: ws). constructor; auto.
Qed.

Lemma in_triples {A B C} (ts : list A) (rs : list B) (cs : list C) a b c : In (a, b, c) (triples ts rs cs) <-> In a ts /\ In b rs /\ In c cs.
Proof.
  unfold triples. rewrite in_flat_map. split.
  - intros (x & Hx & I). apply in_flat_map in I. destruct I as (y & Hy & I). apply in_map_iff in I. destruct I as (z & E & Hz). injection E as <- <- <-. auto.
  - intros (Ha & Hb & Hc). exists a. split; auto. apply in_flat_map. exists b. split; auto. apply in_map. auto.
Qed.
Lemma F2_in_l {A B} (R : A -> B -> Prop) l l' a : Forall2 R l l' -> In a l -> exists b, In b l' /\ R a b.
Proof. induction 1 as [|x y l l' H F IH]; intros []; [subst; eauto using in_eq|]. destruct IH as (b & Hb & Rb); auto. exists b. split; [right; auto|auto]. Qed.
Lemma F2_in_r {A B} (R : A -> B -> Prop) l l' b : Forall2 R l l' -> In b l' -> exists a, In a l /\ R a b.
Proof. induction 1 as [|x y l l' H F IH]; intros []; [subst; eauto using in_eq|]. destruct IH as (a & Ha & Ra); auto. exists a. split; [right; auto|auto]. Qed.

Lemma is_item_image P g s va key k trc it : is_item P g s ClsImage va key trc it -> is_item P g s ClsImage va k trc it.
Proof. destruct trc as [[tx rx] c]. exact (fun H => H). Qed.
Lemma image_items P g s va ca key t r : good_split P ->
  represents (transmitters s) t -> represents (receivers s) r -> raised (all_paths P g s ClsImage ca va key) = None ->
  Forall2 (fun trc it => is_item P g s ClsImage va None trc it) (triples t r (scene_candidates s ca)) (yielded (all_paths P g s ClsImage ca va key)).
Proof.
  intros G T R N. destruct (C51_lemma P g s ClsImage va ca key t r G T R) as (H & H0 & _).
  rename N into Ra.
  apply Forall2_nth'; [symmetry; auto|]. intros n trc it E1 E2. destruct (H n it E2) as (trc' & E3 & I).
  assert (trc' = trc) by congruence. subst. apply (is_item_image _ _ _ _ _ _ _ _ I).
Qed.

Lemma dict_fun {V} (l : list (string * V)) k v v' : NoDup (map fst l) -> In (k, v) l -> In (k, v') l -> v = v'.
Proof.
  induction l as [|[a b] l IH]; intros D [] []; cbn in D; inversion D; subst.
  - congruence.
  - injection H as -> ->. exfalso. apply H3. apply in_map_iff. exists (k, v'). auto.
  - injection H0 as -> ->. exfalso. apply H3. apply in_map_iff. exists (k, v). auto.
  - eauto.
Qed.
Lemma of_nat_inj l l' : map Z.of_nat l = map Z.of_nat l' -> l = l'.
Proof. revert l'. induction l as [|a l IH]; intros [|b l'] E; try discriminate; auto. cbn in E. injection E as E1 E2. f_equal; [lia|auto]. Qed.

Lemma valid_iff P g s lo hi filt va key t r : good_split P -> represents (transmitters s) t -> represents (receivers s) r ->
  (forall o, In o (objects s) -> accepts filt o -> exists w, o = OWall w) ->
  0 < va_tol va <= 1 -> (resolve g (va_approx va) = true -> shipped (va_kw va) /\ 0 < ak_alpha (va_kw va)) ->
  let v := all_valid_paths P g s ClsImage (mkcandargs lo hi None filt) va key in
  raised v = None /\
  forall tn tx rn rx p cand, In (tn, tx) t -> In (rn, rx) r -> tx <> rx ->
  (In (tn, rn, p, cand) (yielded v) <->
   exists idx ws, cand = map Z.of_nat idx /\ (lo <= length idx <= hi)%nat /\
     Forall2 (fun j w => nth_error (objects s) j = Some (OWall w) /\ accepts filt (OWall w)) idx ws /\
     specular_path (negb (resolve g (va_approx va))) tx ws rx (xys p) /\ loss p = Fin 0 /\
     ~ obstructed (xys p) (objects s) cand (va_patch va) (5 / 1000)).
Proof.
  intros G T R W Tol Hk. cbn zeta. set (ca := mkcandargs lo hi None filt).
  assert (CA : forall c, In c (scene_candidates s ca) <->
    admissible (length (objects s)) (fun i => keepf ca (nth i (objects s) (OVertex (0, 0)))) lo hi c).
  { intro c. apply (in_scene_candidates s ca (OVertex (0, 0)) c). }
  assert (AC : forall o, keepf ca o = true <-> accepts filt o).
  { intro o. unfold keepf, ca, accepts. cbn [ca_filter]. destruct filt; tauto. }
  assert (WI : forall c, In c (scene_candidates s ca) ->
    exists ws, Forall2 (fun j w => nth_error (objects s) j = Some (OWall w) /\ accepts filt (OWall w)) c ws).
  { intros c Hc. apply CA in Hc. destruct Hc as (_ & Bd & _). apply (walls_of_indices s filt c W). intros j Hj. destruct (Bd j Hj) as [B1 B2].
    exists (nth j (objects s) (OVertex (0, 0))). split; [apply nth_error_nth'; auto|apply AC; auto]. }
  assert (N : raised (all_paths P g s ClsImage ca va key) = None).
  { destruct (raised (all_paths P g s ClsImage ca va key)) as [e|] eqn:E; auto. exfalso.
    destruct (C51_lemma P g s ClsImage va ca key t r G T R) as (_ & _ & H). destruct (H e E) as (tx & rx & c & Hn & He).
    apply nth_error_In in Hn. destruct tx as [tn tx], rx as [rn rx]. apply in_triples in Hn. destruct Hn as (_ & _ & Hc).
    destruct (WI c Hc) as [ws Fw]. rewrite (objects_at_walls s filt c ws Fw) in He. cbn [from_tx_objects_rx snd] in He.
    destruct (image_ok_walls tx ws rx) as [p Ep]. congruence. }
  destruct (C52_lemma P g s ClsImage va ca key t r G T R) as (_ & Y & Ra). rewrite Ra, Y. clear Y Ra.
  split; [auto|]. intros tn tx rn rx p cand It Ir Nq.
  pose proof (image_items P g s va ca key t r G T R N) as F. set (its := yielded (all_paths P g s ClsImage ca va key)) in *.
  change (In (tn, rn, p, cand) (map tell (filter (keepit g (va_approx va)) its)) <-> 
    exists idx ws, cand = map Z.of_nat idx /\ (lo <= length idx <= hi)%nat /\
     Forall2 (fun j w => nth_error (objects s) j = Some (OWall w) /\ accepts filt (OWall w)) idx ws /\
     specular_path (negb (resolve g (va_approx va))) tx ws rx (xys p) /\ loss p = Fin 0 /\
     ~ obstructed (xys p) (objects s) cand (va_patch va) (5 / 1000)).
  apply represents_items in T, R. destruct T as [_ T], R as [_ R].
  rewrite in_map_iff. split.
  - intros (it & E & I). apply filter_In in I. destruct I as [I K].
    destruct (F2_in_r _ _ _ _ F I) as ([[[tn' tx'] [rn' rx']] idx] & In3 & It3). apply in_triples in In3. destruct In3 as (I1 & I2 & I3).
    destruct It3 as (A1 & A2 & A3 & A4 & A5 & A6). cbn [fst snd] in *. unfold tell in E. rewrite A1, A2, A3 in E.
    injection E as E1 E2 E3 E4. subst tn' rn' p cand.
    assert (tx' = tx) by (exact (dict_fun t tn tx' tx T I1 It)). assert (rx' = rx) by (exact (dict_fun r rn rx' rx R I2 Ir)). subst tx' rx'.
    destruct (WI idx I3) as [ws Fw]. apply CA in I3. destruct I3 as (Ln & Bd & Nr).
    rewrite (objects_at_walls s filt idx ws Fw) in *. cbn [from_tx_objects_rx] in A5.
    assert (Lw := Forall2_len _ _ _ Fw).
    exists idx, ws. split; auto. split; [lia|]. split; auto.
    assert (Kt : is_true g (it_valid it) DEFAULT_TRUTH_TOL (va_approx va) = Ok true).
    { unfold keepit in K. destruct (is_true g (it_valid it) DEFAULT_TRUTH_TOL (va_approx va)); [congruence|discriminate]. }
    apply (core g tx ws rx (it_path it) (objects s) (map Z.of_nat idx) (va_tol va) (va_patch va) (va_approx va) (va_kw va) (it_valid it)) in Kt;
      auto; [tauto|rewrite map_length; lia].
  - intros (idx & ws & -> & Ln & Fw & SP & L0 & NO). assert (Lw := Forall2_len _ _ _ Fw).
    assert (Ic : In idx (scene_candidates s ca)).
    { apply CA. split; auto. split.
      - intros j Hj. destruct (F2_in_l _ _ _ _ Fw Hj) as (w & _ & E & Ac). split; [apply nth_error_Some; congruence|].
        rewrite (nth_error_nth _ _ _ E). apply AC. auto.
      - intros l a b rr E -> . subst idx.
        assert (X : forall (l0 : list nat) r0 ws0, Forall2 (fun j w => nth_error (objects s) j = Some (OWall w) /\ accepts filt (OWall w)) (l0 ++ b :: b :: r0) ws0 ->
          exists i w, nth_error ws0 i = Some w /\ nth_error ws0 (S i) = Some w).
        { clear. induction l0 as [|x l0 IH]; intros r0 ws0 F; cbn [app] in F; inversion F; subst.
          - match goal with H : Forall2 _ (b :: r0) _ |- _ => inversion H; subst end.
            match goal with H1 : nth_error (objects s) b = Some (OWall ?y) /\ _, H2 : nth_error (objects s) b = Some (OWall ?z) /\ _ |- _ =>
              assert (y = z) by (destruct H1, H2; congruence); subst; exists 0%nat, z; split; reflexivity end.
          - match goal with H : Forall2 _ (l0 ++ _) _ |- _ => destruct (IH _ _ H) as (i & w & Q1 & Q2) end. exists (S i), w. auto. }
        destruct (X _ _ _ Fw) as (i & w & Q1 & Q2). exact (specular_no_repeat _ _ _ _ _ i w SP Q1 Q2). }
    destruct (F2_in_l _ _ _ ((tn, tx), (rn, rx), idx) F) as (it & Hit & It3); [apply in_triples; auto|].
    destruct It3 as (A1 & A2 & A3 & A4 & A5 & A6). cbn [fst snd] in *.
    rewrite (objects_at_walls s filt idx ws Fw) in *. cbn [from_tx_objects_rx] in A5.
    assert (Ep : it_path it = p).
    { rewrite (specular_image _ _ _ _ _ _ A5 SP). destruct p; cbn in *. congruence. }
    exists it. split; [unfold tell; rewrite A1, A2, A3, Ep; reflexivity|]. apply filter_In. split; auto. unfold keepit.
    assert (Kt : is_true g (it_valid it) DEFAULT_TRUTH_TOL (va_approx va) = Ok true).
    { apply (core g tx ws rx (it_path it) (objects s) (map Z.of_nat idx) (va_tol va) (va_patch va) (va_approx va) (va_kw va) (it_valid it)); auto.
      - rewrite map_length; lia.
      - rewrite Ep. auto. }
    rewrite Kt. reflexivity.
Qed.

Lemma in_valid_of_pair tn rn l p c : In (p, c) (valid_of_pair tn rn l) <-> In (tn, rn, p, c) l.
Proof.
  unfold valid_of_pair. rewrite in_map_iff. split.
  - intros ([[[a b] p'] c'] & E & I). cbn in E. injection E as -> ->. apply filter_In in I. destruct I as [I K]. cbn in K.
    apply andb_true_iff in K. destruct K as [K1 K2]. apply String.eqb_eq in K1, K2. subst. auto.
  - intro I. exists (tn, rn, p, c). split; auto. apply filter_In. split; auto. cbn. rewrite !String.eqb_refl. reflexivity.
Qed.
Lemma nodup_filter_map {A B C} (f : A -> B) (h : A -> C) (q : A -> bool) l : NoDup (map h l) ->
  (forall x y, f x = f y -> h x = h y) -> NoDup (map f (filter q l)).
Proof.
  intros D H. induction l as [|a l IH]; cbn; [constructor|]. cbn in D. inversion D; subst. destruct (q a); auto.
  cbn. constructor; auto. intro I. apply in_map_iff in I. destruct I as (y & E & Iy). apply filter_In in Iy. destruct Iy as [Iy _].
  apply H2. apply in_map_iff. exists y. split; auto.
Qed.

Lemma sums_specular P g s lo hi filt tol patch kw key f t r : good_split P -> represents (transmitters s) t -> represents (receivers s) r ->
  (forall o, In o (objects s) -> accepts filt o -> exists w, o = OWall w) -> 0 < tol <= 1 ->
  scene_candidates s (mkcandargs lo hi None filt) <> [] -> (forall tx rx p os, exists x, f tx rx p os = Fin x) ->
  forall tn tx rn rx, In (tn, tx) t -> In (rn, rx) r -> tx <> rx ->
  exists L : list (list vec * list nat), NoDup L /\
    (forall pts idx, In (pts, idx) L <-> (lo <= length idx <= hi)%nat /\ exists ws,
       Forall2 (fun j w => nth_error (objects s) j = Some (OWall w) /\ accepts filt (OWall w)) idx ws /\
       specular_path true tx ws rx pts /\ ~ obstructed pts (objects s) (map Z.of_nat idx) patch (5 / 1000)) /\
    In (tn, rn, xsum (map (fun '(pts, idx) => f tx rx (mkpath pts (Fin 0)) (objects_at s idx)) L))
      (yielded (accumulate_over_paths P g s ClsImage (mkcandargs lo hi None filt) (mkvalidargs tol patch (Some false) kw) key f)).
Proof.
  intros G T R W Tol Cn Ff tn tx rn rx It Ir N. set (ca := mkcandargs lo hi None filt) in *. set (va := mkvalidargs tol patch (Some false) kw).
  destruct (valid_iff P g s lo hi filt va key t r G T R W Tol ltac:(discriminate)) as (Ra & H). fold ca in Ra, H.
  specialize (H tn tx rn rx).
  pose proof (C62_exact P g s ClsImage tol patch kw ca key f t r G T R Cn Ff Ra) as E. fold va in E.
  set (v := all_valid_paths P g s ClsImage ca va key) in *.
  exists (map (fun pc => (xys (fst pc), map Z.to_nat (snd pc))) (valid_of_pair tn rn (yielded v))).
  assert (Q : forall p c, In (p, c) (valid_of_pair tn rn (yielded v)) -> p = mkpath (xys p) (Fin 0) /\ c = map Z.of_nat (map Z.to_nat c)).
  { intros p c I. apply in_valid_of_pair in I. apply H in I; auto. destruct I as (idx & ws & -> & _ & _ & _ & L & _).
    split; [destruct p; cbn in *; congruence|]. rewrite !map_map. apply map_ext. intro; rewrite Nat2Z.id; reflexivity. }
  split; [|split].
  - (* distinct *)
    assert (D : NoDup (map (fun x : string * string * path * list Z => (fst (fst (fst x)), snd (fst (fst x)), snd x)) (yielded v))).
    { destruct (C52_lemma P g s ClsImage va ca key t r G T R) as (_ & Y & _). fold v in Y. rewrite Y, map_map. cbn [fst snd].
      apply (nodup_filter_map (fun it => (it_tx it, it_rx it, it_cand it)) (fun it => (it_tx it, it_rx it, it_cand it))); auto.
      apply (C51_once_lemma P g s ClsImage va ca key t r G T R). apply scene_candidates_NoDup. }
    unfold valid_of_pair in *. rewrite map_map. cbn [fst snd].
    assert (D1 := NoDup_map_inv _ _ D).
    set (l := filter _ _) in *.
    assert (D2 : NoDup (map (fun x : string * string * path * list Z => (fst (fst (fst x)), snd (fst (fst x)), snd x)) l)).
    { apply (nodup_filter_map _ (fun x : string * string * path * list Z => (fst (fst (fst x)), snd (fst (fst x)), snd x))); auto. }
    assert (Sm : forall x, In x l -> fst (fst (fst x)) = tn /\ snd (fst (fst x)) = rn /\ snd x = map Z.of_nat (map Z.to_nat (snd x))).
    { intros [[[a b] p] c] I. pose proof I as I0. apply filter_In in I. destruct I as [_ K]. cbn in K. apply andb_true_iff in K. destruct K as [K1 K2].
      apply String.eqb_eq in K1, K2. cbn. split; auto. split; auto. apply (Q p c). apply in_map_iff. exists (a, b, p, c). auto. }
    clearbody l. clear -D2 Sm. induction l as [|x l IH]; cbn; [constructor|]. cbn in D2. inversion D2; subst. constructor.
    + intro I. apply in_map_iff in I. destruct I as (y & Ey & Iy). apply H1. apply in_map_iff. exists y. split; auto.
      destruct (Sm x (or_introl eq_refl)) as (X1 & X2 & X3). destruct (Sm y (or_intror Iy)) as (Y1 & Y2 & Y3).
      injection Ey as _ Ec. rewrite X1, X2, Y1, Y2. f_equal. rewrite X3, Y3, Ec. reflexivity.
    + apply IH; auto. intros z Hz. apply Sm. right. auto.
  - intros pts idx. rewrite in_map_iff. split.
    + intros ([p c] & E0 & I). cbn in E0. injection E0 as <- <-. apply in_valid_of_pair in I. apply H in I; auto.
      destruct I as (idx & ws & -> & Ln & Fw & SP & L0 & NO). assert (Z : map Z.to_nat (map Z.of_nat idx) = idx).
      { rewrite map_map. rewrite <- (map_id idx) at 2. apply map_ext. intro; apply Nat2Z.id. }
      rewrite Z. split; auto. exists ws. auto.
    + intros (Ln & ws & Fw & SP & NO). exists (mkpath pts (Fin 0), map Z.of_nat idx). cbn [fst snd xys]. split.
      * f_equal. rewrite map_map. rewrite <- (map_id idx) at 2. apply map_ext. intro; apply Nat2Z.id.
      * apply in_valid_of_pair. apply H; auto. exists idx, ws. auto 10.
  - rewrite E. cbn [yielded]. apply in_map_iff. exists ((tn, tx), (rn, rx)). cbn [fst snd]. split; [|apply in_prod; auto].
    do 2 f_equal. rewrite map_map. cbn [fst snd]. apply map_ext_in. intros [p c] I. cbn [fst snd]. destruct (Q p c I) as [-> _]. reflexivity.
Qed.
