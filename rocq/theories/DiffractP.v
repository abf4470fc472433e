(** Proofs: paths through vertices. *)
From Coq Require Import Reals List Bool ZArith String Lia Lra.
From Verif Require Import Base BaseP LogicM SpecLogic LogicP GeometryM SpecGeometry VecP OptimizeM OptimizeP PathM SpecPath PathP PathSmoothP PathShapeP
  SpecImage ImageP CandidatesM SceneM SpecCandidates SpecScene SpecRun CandidatesP SceneP SceneOpsP SceneRunP
  SceneAccP SceneGridP OrderP RecipP CompleteP SpecOrder SpecRoom RoomP.
Import ListNotations.
Local Notation length := List.length.
Open Scope R_scope.

Lemma vertex_points vs th : forall j, param_points (map OVertex vs) th j = vs.
Proof. induction vs as [|v vs IH]; intro j; cbn [map param_points]; [reflexivity|]. rewrite IH. reflexivity. Qed.
Lemma vertex_p2c vs th tx rx : parametric_to_cartesian (map OVertex vs) th (length (map OVertex vs)) tx rx = tx :: vs ++ [rx].
Proof. rewrite p2c_eq, vertex_points. reflexivity. Qed.
Lemma vertex_loss_fold pts vs : forall n, fold_left
    (fun l '(i, obj) => l + obj_evaluate obj (row pts i) (row pts (i + 1)) (row pts (i + 2)))
    (combine (seq n (length vs)) (map OVertex vs)) 0 = 0.
Proof.
  induction vs as [|v vs IH]; intro n; cbn [length seq map combine fold_left obj_evaluate]; [reflexivity|].
  rewrite Rplus_0_l. apply IH.
Qed.
Lemma vertex_loss pts vs : path_loss (map OVertex vs) pts = 0.
Proof. unfold path_loss, enumerate. rewrite map_length. apply vertex_loss_fold. Qed.
Lemma min_last f grad o steps x0 r : minimize f grad o steps x0 = Ok r -> exists x, snd r = f x.
Proof.
  intro E. destruct steps as [|n]; [discriminate|].
  destruct (C43_lemma f grad o (S n) x0 ltac:(lia)) as [(x & st & E0 & T) H].
  specialize (H x st E0 T). exists (x (S n - 1)%nat). rewrite H in E. injection E as <-. reflexivity.
Qed.

Lemma vertex_path P cls key tx vs rx p : cls <> ClsImage ->
  from_tx_objects_rx P cls key tx (map OVertex vs) rx = Ok p -> p = mkpath (tx :: vs ++ [rx]) (Fin 0).
Proof.
  intros N E. destruct cls as [| |eps s|s]; cbn [from_tx_objects_rx] in E.
  - injection E as <-. unfold Path_from, path_default. rewrite map_map. cbn [obj_p2c]. rewrite map_id. reflexivity.
  - contradiction.
  - assert (F : forall k, FermatPath_from eps s P k tx (map OVertex vs) rx = Ok p -> p = mkpath (tx :: vs ++ [rx]) (Fin 0)).
    { intro k. unfold FermatPath_from. destruct vs as [|v vs]; [cbn; intro Q; injection Q as <-; reflexivity|].
      cbn [map]. change (OVertex v :: map OVertex vs) with (map OVertex (v :: vs)).
      destruct (minimize_many_random_uniform _ _ _ _ _ _ _ _) as [[th l]|]; cbn [rbind]; [|discriminate].
      rewrite vertex_p2c, vertex_loss. intro Q. injection Q as <-. reflexivity. }
    destruct key as [k|]; [eauto|]. destruct vs; [|discriminate]. injection E as <-. reflexivity.
  - assert (F : forall k, MinPath_from s P k tx (map OVertex vs) rx = Ok p -> p = mkpath (tx :: vs ++ [rx]) (Fin 0)).
    { intro k. unfold MinPath_from. destruct vs as [|v vs]; [cbn; intro Q; injection Q as <-; reflexivity|].
      cbn [map]. change (OVertex v :: map OVertex vs) with (map OVertex (v :: vs)).
      destruct (minimize_many_random_uniform _ _ _ _ _ _ _ _) as [[th l]|] eqn:M; cbn [rbind]; [|discriminate].
      apply many_is_trial in M. destruct M as [k' M]. apply min_last in M. destruct M as [x M]. cbn [snd] in M. subst l.
      unfold min_objective. rewrite !vertex_p2c. rewrite vertex_loss. intro Q. injection Q as <-. reflexivity. }
    destruct key as [k|]; [eauto|]. destruct vs; [|discriminate]. injection E as <-. reflexivity.
Qed.

Lemma vertex_path_ok P cls key tx vs rx s : good_split P -> cls <> ClsImage -> never_fails cls key s ->
  from_tx_objects_rx P cls key tx (map OVertex vs) rx = Ok (mkpath (tx :: vs ++ [rx]) (Fin 0)).
Proof.
  intros G N F. assert (exists p, from_tx_objects_rx P cls key tx (map OVertex vs) rx = Ok p) as [p E].
  { destruct cls as [| |eps sv|sv]; cbn [never_fails] in F; [cbn; eauto|contradiction| |];
      destruct F as (K & S & M); destruct key as [k|]; try contradiction.
    - apply solver_ok with (s := sv); eauto.
    - apply solver_ok with (s := sv); eauto. }
  rewrite E. f_equal. eapply vertex_path; eauto.
Qed.

Lemma objects_at_vertices s (Q : vec -> Prop) idx vs : Forall2 (fun j v => nth_error (objects s) j = Some (OVertex v) /\ Q v) idx vs ->
  objects_at s idx = map OVertex vs.
Proof.
  unfold objects_at. induction 1 as [|j w idx ws [E _] F IH]; [reflexivity|]. cbn [flat_map map]. rewrite E, IH. reflexivity.
Qed.

Lemma vertex_inside pts vs : projects_strictly_inside pts (map OVertex vs) /\ projects_inside pts (map OVertex vs).
Proof.
  split; intros i o w q Ho Hw _; apply map_nth_error_inv in Ho; destruct Ho as (v & _ & ->); discriminate.
Qed.

Lemma vertex_valid_iff P g s lo hi keep va key cls t r : good_split P -> represents (transmitters s) t -> represents (receivers s) r ->
  cls <> ClsImage -> never_fails cls key s ->
  (forall o, In o (objects s) -> keep o = true -> exists v, o = OVertex v) ->
  0 < va_tol va -> (resolve g (va_approx va) = true -> shipped (va_kw va) /\ 0 < ak_alpha (va_kw va)) ->
  let v := all_valid_paths P g s cls (mkcandargs lo hi None (Some keep)) va key in
  raised v = None /\
  forall tn tx rn rx p cand, In (tn, tx) t -> In (rn, rx) r ->
  (In (tn, rn, p, cand) (yielded v) <->
   exists idx vs, cand = map Z.of_nat idx /\ (lo <= length idx <= hi)%nat /\ no_immediate_repeat idx /\
     Forall2 (fun j v => nth_error (objects s) j = Some (OVertex v) /\ keep (OVertex v) = true) idx vs /\
     p = mkpath (tx :: vs ++ [rx]) (Fin 0) /\
     ~ obstructed (tx :: vs ++ [rx]) (objects s) cand (va_patch va) (5 / 1000)).
Proof.
  intros G T R NI N W Tol Hk. cbn zeta. set (ca := mkcandargs lo hi None (Some keep)).
  destruct (C52_lemma P g s cls va ca key t r G T R) as (_ & Y & Ra). rewrite Ra, Y. clear Y Ra.
  pose proof (C51_total_lemma P g s cls va ca key t r G T R N) as NR.
  split; auto. intros tn tx rn rx p cand It Ir.
  assert (F : Forall2 (fun trc it => exists key', never_fails cls key' s /\ is_item P g s cls va key' trc it)
    (triples t r (scene_candidates s ca)) (yielded (all_paths P g s cls ca va key))).
  { destruct (C51_lemma P g s cls va ca key t r G T R) as (H & H0 & _).
    apply Forall2_nth'; [symmetry; auto|]. intros n trc it E1 E2. destruct (H n it E2) as (trc' & E3 & I).
    assert (trc' = trc) by congruence. subst. exists (nth_key P key n). split; auto. apply never_fails_nth; auto. }
  set (its := yielded (all_paths P g s cls ca va key)) in *.
  change (In (tn, rn, p, cand) (map tell (filter (keepit g (va_approx va)) its)) <->
   exists idx vs, cand = map Z.of_nat idx /\ (lo <= length idx <= hi)%nat /\ no_immediate_repeat idx /\
     Forall2 (fun j v => nth_error (objects s) j = Some (OVertex v) /\ keep (OVertex v) = true) idx vs /\
     p = mkpath (tx :: vs ++ [rx]) (Fin 0) /\
     ~ obstructed (tx :: vs ++ [rx]) (objects s) cand (va_patch va) (5 / 1000)).
  assert (CA : forall c, In c (scene_candidates s ca) <->
    admissible (length (objects s)) (fun i => keep (nth i (objects s) (OVertex (0, 0)))) lo hi c).
  { intro c. apply (in_scene_candidates s ca (OVertex (0, 0)) c). }
  apply represents_items in T, R. destruct T as [_ T], R as [_ R].
  assert (core : forall it idx vs key', never_fails cls key' s -> is_item P g s cls va key' ((tn, tx), (rn, rx), idx) it ->
    Forall2 (fun j v => nth_error (objects s) j = Some (OVertex v) /\ keep (OVertex v) = true) idx vs ->
    tell it = (tn, rn, mkpath (tx :: vs ++ [rx]) (Fin 0), map Z.of_nat idx) /\
    (keepit g (va_approx va) it = true <-> ~ obstructed (tx :: vs ++ [rx]) (objects s) (map Z.of_nat idx) (va_patch va) (5 / 1000))).
  { intros it idx vs key' Nk (A1 & A2 & A3 & A4 & A5 & A6) Fw. cbn [fst snd] in *.
    rewrite (objects_at_vertices s (fun v => keep (OVertex v) = true) idx vs Fw) in *. assert (Lw := Forall2_len _ _ _ Fw).
    assert (Ep := vertex_path P cls key' tx vs rx (it_path it) NI A5). rewrite Ep in A6.
    split; [unfold tell; rewrite A1, A2, A3, Ep; reflexivity|].
    apply accepted in A6; auto.
    2:{ cbn [xys length]. rewrite app_length, map_length. cbn. lia. }
    2:{ cbn [xys length]. rewrite app_length, map_length. cbn. lia. }
    cbn [xys loss loss_below] in A6. unfold keepit.
    assert (B : is_true g (it_valid it) DEFAULT_TRUTH_TOL (va_approx va) = Ok true <->
      ~ obstructed (tx :: vs ++ [rx]) (objects s) (map Z.of_nat idx) (va_patch va) (5 / 1000)).
    { rewrite A6. destruct (vertex_inside (tx :: vs ++ [rx]) vs). split; [tauto|]. intro O. split; auto. split; auto. destruct (resolve g (va_approx va)); auto. }
    rewrite <- B. destruct (is_true _ _ _ _) as [b|]; split; try congruence; intro Q; try discriminate; injection Q as <-; reflexivity. }
  rewrite in_map_iff. split.
  - intros (it & E & I). apply filter_In in I. destruct I as [I K].
    destruct (F2_in_r _ _ _ _ F I) as ([[[tn' tx'] [rn' rx']] idx] & In3 & key' & Nk & It3). apply in_triples in In3. destruct In3 as (I1 & I2 & I3).
    assert (tn' = tn /\ rn' = rn) as [-> ->].
    { destruct It3 as (A1 & A2 & _). cbn [fst snd] in *. unfold tell in E. rewrite A1, A2 in E. injection E as -> -> _ _. auto. }
    assert (tx' = tx) by (exact (dict_fun t tn tx' tx T I1 It)). assert (rx' = rx) by (exact (dict_fun r rn rx' rx R I2 Ir)). subst tx' rx'.
    apply CA in I3. destruct I3 as (Ln & Bd & Nr).
    assert (exists vs, Forall2 (fun j v => nth_error (objects s) j = Some (OVertex v) /\ keep (OVertex v) = true) idx vs) as [vs Fw].
    { clear -Bd W. induction idx as [|j idx IH]; [exists []; constructor|].
      destruct (IH (fun k K => Bd k (or_intror K))) as [ws F]. destruct (Bd j (or_introl eq_refl)) as [B1 B2].
      destruct (nth_error (objects s) j) as [o|] eqn:E; [|apply nth_error_None in E; lia].
      rewrite (nth_error_nth _ _ _ E) in B2. destruct (W o (nth_error_In _ _ E) B2) as [v ->].
      exists (v :: ws). constructor; auto. }
    destruct (core it idx vs key' Nk It3 Fw) as [C1 C2]. rewrite C1 in E. injection E as <- <-.
    exists idx, vs. split; [auto|]. split; [auto|]. split; [auto|]. split; [auto|]. split; [auto|]. apply C2. auto.
  - intros (idx & vs & -> & Ln & Nr & Fw & -> & NO).
    assert (Ic : In idx (scene_candidates s ca)).
    { apply CA. split; auto. split; auto. intros j Hj. destruct (F2_in_l _ _ _ _ Fw Hj) as (w & _ & E & Kp).
      split; [apply nth_error_Some; congruence|]. rewrite (nth_error_nth _ _ _ E). auto. }
    destruct (F2_in_l _ _ _ ((tn, tx), (rn, rx), idx) F) as (it & Hit & key' & Nk & It3); [apply in_triples; auto|].
    destruct (core it idx vs key' Nk It3 Fw) as [C1 C2]. exists it. split; auto. apply filter_In. split; auto. apply C2. auto.
Qed.

(** ** The wall a vertex comes from *)
Lemma own_wall w patch A v tol : 0 <= tol -> side_of w A <> 0 -> v = w_origin w \/ v = w_dest w -> - (1 / 2) < patch ->
  (crosses w patch tol A v <-> - tol * (1 + 2 * patch) <= patch) /\
  (crosses w patch tol v A <-> - tol * (1 + 2 * patch) <= patch).
Proof.
  intros T N V Hp. destruct w as [[a b] [c d]], A as [x y]. unfold side_of in N. cbn [w_origin w_dest fst snd] in *.
  set (D := 1 + 2 * patch). assert (HD : 0 < D) by (unfold D; lra).
  assert (Nz : (c - a) <> 0 \/ (d - b) <> 0).
  { destruct (Req_dec (c - a) 0) as [E|]; [|auto]. right. intro E'. apply N. rewrite E, E'. ring. }
  assert (Key : forall k (B1 B2 : vec) tv, (k = 0 \/ k = 1) ->
    (B1 = (x, y) /\ B2 = (a + k * (c - a), b + k * (d - b)) /\ tv = 1 \/ B2 = (x, y) /\ B1 = (a + k * (c - a), b + k * (d - b)) /\ tv = 0) ->
    (crosses (mkwall (a, b) (c, d)) patch tol B1 B2 <-> - tol * D <= patch)).
  { intros k B1 B2 tv Hk HB. unfold crosses. cbn [w_origin w_dest]. cbn zeta.
    set (P := at_ (a, b) (c, d) (- patch)). set (Q := at_ (a, b) (c, d) (1 + patch)).
    assert (EP : P = (a - patch * (c - a), b - patch * (d - b))) by (unfold P, at_; cbn; f_equal; ring).
    assert (EQ : Q = (a + (1 + patch) * (c - a), b + (1 + patch) * (d - b))) by (unfold Q, at_; cbn; f_equal; ring).
    assert (NP : ~ parallel P Q B1 B2).
    { unfold parallel. rewrite EP, EQ. cbn [fst snd]. intro E. apply N.
      assert (D * ((c - a) * (y - b) - (d - b) * (x - a)) = 0); [|apply Rmult_integral in H; destruct H; [lra|auto]].
      unfold D. destruct HB as [(-> & -> & _)|(-> & -> & _)]; cbn [fst snd] in E; lra. }
    set (s0 := (k + patch) / D).
    assert (M0 : meet_at P Q B1 B2 s0 tv).
    { unfold meet_at, at_, s0. rewrite EP, EQ. cbn [fst snd]. destruct HB as [(-> & -> & ->)|(-> & -> & ->)]; cbn [fst snd]; f_equal; unfold D in *; field; lra. }
    assert (U : forall s t, meet_at P Q B1 B2 s t -> s = s0).
    { intros s t M. unfold meet_at, at_ in M, M0. apply pair_equal_spec in M, M0. destruct M as [M1 M2], M0 as [M3 M4].
      unfold parallel in NP.
      assert (Z : (s - s0) * ((fst Q - fst P) * (snd B2 - snd B1) - (snd Q - snd P) * (fst B2 - fst B1)) = 0).
      { assert (Z1 : (s - s0) * (fst Q - fst P) = (t - tv) * (fst B2 - fst B1)) by lra.
        assert (Z2 : (s - s0) * (snd Q - snd P) = (t - tv) * (snd B2 - snd B1)) by lra.
        replace ((s - s0) * ((fst Q - fst P) * (snd B2 - snd B1) - (snd Q - snd P) * (fst B2 - fst B1)))
          with (((s - s0) * (fst Q - fst P)) * (snd B2 - snd B1) - ((s - s0) * (snd Q - snd P)) * (fst B2 - fst B1)) by ring.
        rewrite Z1, Z2. ring. }
      apply Rmult_integral in Z. destruct Z; [lra|exfalso; apply NP; lra]. }
    assert (Rg : - tol <= s0 <= 1 + tol <-> - tol * D <= patch).
    { unfold s0. assert (L : forall z, z <= (k + patch) / D <-> z * D <= k + patch).
      { intro z. split; intro H.
        - apply Rmult_le_compat_r with (r := D) in H; [|lra]. unfold Rdiv in H. rewrite Rmult_assoc, Rinv_l in H by lra. lra.
        - apply Rmult_le_reg_r with D; auto. unfold Rdiv. rewrite Rmult_assoc, Rinv_l by lra. lra. }
      assert (L' : forall z, (k + patch) / D <= z <-> k + patch <= z * D).
      { intro z. split; intro H.
        - apply Rmult_le_compat_r with (r := D) in H; [|lra]. unfold Rdiv in H. rewrite Rmult_assoc, Rinv_l in H by lra. lra.
        - apply Rmult_le_reg_r with D; auto. unfold Rdiv. rewrite Rmult_assoc, Rinv_l by lra. lra. }
      rewrite L, L'. assert (0 <= tol * D) by (apply Rmult_le_pos; lra). unfold D in *. destruct Hk; subst k; lra. }
    split.
    - intros (_ & s & t & M & S1 & _). apply Rg. rewrite <- (U s t M). auto.
    - intro H. split; auto. exists s0, tv. split; auto. split; [apply Rg; auto|].
      destruct HB as [(_ & _ & ->)|(_ & _ & ->)]; lra. }
  destruct V as [->| ->].
  - split; [apply (Key 0 (x, y) (a, b) 1)|apply (Key 0 (a, b) (x, y) 0)]; auto.
    + left. split; auto. split; auto. f_equal; ring.
    + right. split; auto. split; auto. f_equal; ring.
  - split; [apply (Key 1 (x, y) (c, d) 1)|apply (Key 1 (c, d) (x, y) 0)]; auto.
    + left. split; auto. split; auto. f_equal; ring.
    + right. split; auto. split; auto. f_equal; ring.
Qed.

Lemma own_wall_default w patch A v : side_of w A <> 0 -> v = w_origin w \/ v = w_dest w -> - (1 / 2) < patch ->
  (crosses w patch (5 / 1000) A v <-> - (1 / 202) <= patch) /\
  (crosses w patch (5 / 1000) v A <-> - (1 / 202) <= patch).
Proof.
  intros N V Hp. destruct (own_wall w patch A v (5 / 1000) ltac:(lra) N V Hp) as [H1 H2]. rewrite H1, H2. split; split; lra.
Qed.

(** Whatever the class, a valid path is not obstructed. *)
Lemma valid_not_obstructed P g s cls ca va key t r : good_split P -> represents (transmitters s) t -> represents (receivers s) r ->
  (resolve g (va_approx va) = true -> shipped (va_kw va) /\ 0 < ak_alpha (va_kw va)) ->
  forall tn rn p cand, In (tn, rn, p, cand) (yielded (all_valid_paths P g s cls ca va key)) ->
  ~ obstructed (xys p) (objects s) cand (va_patch va) (5 / 1000).
Proof.
  intros G T R Hk tn rn p cand I.
  destruct (C52_lemma P g s cls va ca key t r G T R) as (_ & Y & _). rewrite Y in I. clear Y.
  apply in_map_iff in I. destruct I as (it & E & I). injection E as E1 E2 E3 E4. apply filter_In in I. destruct I as [I K].
  destruct (In_nth_error _ _ I) as [n En]. destruct (C51_lemma P g s cls va ca key t r G T R) as (H & _ & _).
  destruct (H n it En) as ([[tx rx] c] & _ & It). destruct It as (A1 & A2 & A3 & A4 & A5 & A6).
  assert (Kt : is_true g (it_valid it) DEFAULT_TRUTH_TOL (va_approx va) = Ok true).
  { destruct (is_true g (it_valid it) DEFAULT_TRUTH_TOL (va_approx va)); [congruence|discriminate]. }
  destruct (C29_lemma _ _ _ _ _ _ _ A5) as ((mid & Xp & Lm) & _).
  assert (Lp : length (xys (it_path it)) = (length mid + 2)%nat) by (rewrite Xp; cbn [length]; rewrite app_length; cbn; lia).
  apply accepted in A6; auto.
  2:{ rewrite map_length. rewrite A4 in Lm. lia. }
  2:{ lia. }
  apply A6 in Kt. destruct Kt as (_ & _ & NO). rewrite <- A3, E3, E4 in NO. exact NO.
Qed.

Lemma never_around_own_wall P g s cls ca va key t r : good_split P -> represents (transmitters s) t -> represents (receivers s) r ->
  (resolve g (va_approx va) = true -> shipped (va_kw va) /\ 0 < ak_alpha (va_kw va)) -> - (1 / 202) <= va_patch va ->
  forall tn rn p cand j o w i A B, In (tn, rn, p, cand) (yielded (all_valid_paths P g s cls ca va key)) ->
  nth_error (objects s) j = Some o -> wall_of o = Some w -> ~ In (Z.of_nat j) cand ->
  nth_error (xys p) i = Some A -> nth_error (xys p) (S i) = Some B ->
  ~ ((A = w_origin w \/ A = w_dest w) /\ side_of w B <> 0) /\ ~ ((B = w_origin w \/ B = w_dest w) /\ side_of w A <> 0).
Proof.
  intros G T R Hk Hp tn rn p cand j o w i A B I Hj Hw Nc HA HB.
  pose proof (valid_not_obstructed P g s cls ca va key t r G T R Hk tn rn p cand I) as NO.
  assert (NC : ~ crosses w (va_patch va) (5 / 1000) A B).
  { intro C. apply NO. exists i, j, A, B, o, w. split; [split; auto|]. split; auto. split; auto. split; auto.
    intros [Q|(i' & _ & Q)]; apply Nc; eapply nth_error_In; eauto. }
  split; intros [Q1 Q2]; apply NC.
  - apply (own_wall_default w (va_patch va) B A); auto; lra.
  - apply (own_wall_default w (va_patch va) A B); auto; lra.
Qed.

(** ** Rooms *)
Lemma room_wall_at room objects w : walls_present room objects -> In w room ->
  exists j w', nth_error objects j = Some (OWall w') /\ (w' = w \/ w' = drawn_backwards w).
Proof.
  intros H I. destruct (H w I) as [Q|Q]; apply In_nth_error in Q; destruct Q as [j E]; exists j; eauto.
Qed.
Lemma leg_stays room objects cand patch pts i A B : encloses room -> walls_present room objects -> 0 <= patch ->
  ~ obstructed pts objects cand patch (5 / 1000) -> nth_error pts i = Some A -> nth_error pts (S i) = Some B ->
  (forall j w', nth_error objects j = Some (OWall w') -> In w' room \/ In (drawn_backwards w') room -> ~ touches cand i j) ->
  (inside room A <-> inside room B).
Proof.
  intros E W HP NO HA HB NT.
  assert (X : forall X Y, (X = A /\ Y = B \/ X = B /\ Y = A) -> inside room X -> inside room Y).
  { intros X Y XY IX. destruct (inside_dec room Y) as [|N]; auto. exfalso.
    destruct (exit_wall room X Y E IX N) as (w & u & v & Iw & SY & SX & U & V & M).
    destruct (room_wall_at room objects w W Iw) as (j & w' & Hj & Ew).
    assert (C : crosses w' patch (5 / 1000) X Y) by (apply (exit_crosses w w' patch (5 / 1000) X Y u v); auto; lra).
    apply NO. exists i, j, A, B, (OWall w'), w'. split; [split; auto|]. split; auto. split; [reflexivity|]. split.
    { apply (NT j w'); auto. destruct Ew as [->| ->]; [left; auto|right]. destruct w; exact Iw. }
    destruct XY as [[-> ->]|[-> ->]]; auto.
    destruct C as (NP & p & q & Mt & Pr & Qr). split.
    - intro Pl. apply NP. unfold parallel in *. lra.
    - exists p, (1 - q). split; [|lra]. unfold meet_at in *. rewrite Mt. unfold at_. f_equal; ring. }
  split; apply X; auto.
Qed.
Lemma avoiding_stays P g s cls ca va key room t r : good_split P -> represents (transmitters s) t -> represents (receivers s) r ->
  (resolve g (va_approx va) = true -> shipped (va_kw va) /\ 0 < ak_alpha (va_kw va)) -> 0 <= va_patch va ->
  encloses room -> walls_present room (objects s) ->
  forall tn rn p cand, In (tn, rn, p, cand) (yielded (all_valid_paths P g s cls ca va key)) ->
  (forall j w, nth_error (objects s) j = Some (OWall w) -> In w room \/ In (drawn_backwards w) room -> ~ In (Z.of_nat j) cand) ->
  forall q q', In q (xys p) -> In q' (xys p) -> inside room q -> inside room q'.
Proof.
  intros G T R Hk HP E W tn rn p cand I AV q q' Iq Iq' IN.
  pose proof (valid_not_obstructed P g s cls ca va key t r G T R Hk tn rn p cand I) as NO.
  assert (L : forall i A B, nth_error (xys p) i = Some A -> nth_error (xys p) (S i) = Some B -> (inside room A <-> inside room B)).
  { intros i A B HA HB. apply (leg_stays room (objects s) cand (va_patch va) (xys p) i A B); auto.
    intros j w' Hj Hw [Q|(i' & _ & Q)]; apply (AV j w' Hj Hw); eapply nth_error_In; eauto. }
  assert (Z : forall A, nth_error (xys p) 0 = Some A -> forall i B, nth_error (xys p) i = Some B -> (inside room A <-> inside room B)).
  { intros A HA i. induction i as [|i IH]; intros B HB; [assert (A = B) by congruence; subst; tauto|].
    destruct (nth_error (xys p) i) as [C|] eqn:EC.
    - rewrite (IH C eq_refl). eauto.
    - apply nth_error_None in EC. assert (S i < length (xys p))%nat by (apply nth_error_Some; congruence). lia. }
  apply In_nth_error in Iq, Iq'. destruct Iq as [n Hn], Iq' as [m Hm].
  destruct (nth_error (xys p) 0) as [A|] eqn:E0.
  - apply (Z A eq_refl m q' Hm). apply (Z A eq_refl n q Hn). auto.
  - apply nth_error_None in E0. assert (n < length (xys p))%nat by (apply nth_error_Some; congruence). lia.
Qed.
