(** Continuity of the accumulated values of a scene. *)
From Coq Require Import Reals List Bool ZArith String Lra Lia.
From Verif Require Import Base BaseP LogicM SpecLogic LogicP GeometryM SpecGeometry VecP ShapeP WallP SegP OptimizeM PathM SpecPath SpecImage
  PathP PathSmoothP PathShapeP ImageP CandidatesM SceneM SpecScene SpecRun SceneP SceneOpsP SceneRunP SceneAccP SpecPower UtilsM SpecCont ContP ContPathP ContImageP.
Import ListNotations.
Local Notation length := List.length.
Open Scope R_scope.

Lemma lconv_prod {A B} (cv : (nat -> A) -> A -> Prop) (cv' : (nat -> B) -> B -> Prop) u l v m :
  lconv cv u l -> lconv cv' v m ->
  lconv (fun s x => cv (fun n => fst (s n)) (fst x) /\ cv' (fun n => snd (s n)) (snd x)) (fun n => list_prod (u n) (v n)) (list_prod l m).
Proof.
  intros (us & H & F) HV. revert u H. induction F as [|s x us l S1 F IH]; intros u H.
  - eapply lconv_ext; [|apply lconv_nil]. intro n. cbv beta. rewrite H. reflexivity.
  - apply (lconv_ext _ (fun n => map (fun y => (s n, y)) (v n) ++ list_prod (map (fun s => s n) us) (v n))).
    + intro n. rewrite H. reflexivity.
    + cbn [list_prod]. apply lconv_app.
      * eapply (lconv_map cv'); [exact HV|]. intros s' y _ S2. cbn. split; auto.
      * apply (IH (fun n => map (fun s => s n) us)). auto.
Qed.
Lemma lconv_const {A} (cv : (nat -> A) -> A -> Prop) l : (forall x, cv (fun _ => x) x) -> lconv cv (fun _ => l) l.
Proof.
  intro C. exists (map (fun x _ => x) l). split.
  - intro n. rewrite map_map, map_id. reflexivity.
  - induction l; cbn; constructor; auto.
Qed.
Lemma objects_at_cv us s c : lconv oconv (fun n => objects (us n)) (objects s) ->
  lconv oconv (fun n => objects_at (us n) c) (objects_at s c).
Proof.
  intro H. unfold objects_at. apply lconv_flat. intros i _. pose proof (lconv_length _ _ _ H) as L.
  destruct (nth_error (objects s) i) as [o|] eqn:E.
  - destruct (lconv_nth _ _ _ _ _ H E) as (u & U1 & U2). exists [u]. split; [|constructor; auto].
    intro n. rewrite U2. reflexivity.
  - eapply lconv_ext; [|apply lconv_nil]. intro n. apply nth_error_None in E. rewrite <- (L n) in E. apply nth_error_None in E.
    cbv beta. rewrite E. reflexivity.
Qed.

(** ** Items *)
Definition icv (u : nat -> pathitem) (it : pathitem) : Prop :=
  (forall n, it_tx (u n) = it_tx it /\ it_rx (u n) = it_rx it /\ it_cand (u n) = it_cand it) /\
  path_conv (fun n => it_path (u n)) (it_path it) /\ tconv (fun n => it_valid (u n)) (it_valid it).
Definition trcv (u : nat -> ((string * vec) * (string * vec)) * list nat) (x : ((string * vec) * (string * vec)) * list nat) : Prop :=
  (nconv (fun n => fst (fst (u n))) (fst (fst x)) /\ nconv (fun n => snd (fst (u n))) (snd (fst x))) /\ (forall n, snd (u n) = snd x).

Section Scene.
  Variables (P : prng) (g : bool) (us : nat -> scene) (s : scene) (ca : candargs) (tol patch : R) (k : akw).
  Hypotheses (Hk : shipped k) (Ha : 0 < ak_alpha k).
  Let va := mkvalidargs tol patch (Some true) k.
  Hypotheses (HO : lconv oconv (fun n => objects (us n)) (objects s))
    (HC : forall n, scene_candidates (us n) ca = scene_candidates s ca).
  Definition nsp (tx rx : vec) (c : list nat) := exists ws p, map wall_of (objects_at s c) = map Some ws /\
    ImagePath_from tx (objects_at s c) rx = Ok p /\
    (c <> [] -> general_position tx ws (xys p)) /\
    ~ grazes (xys p) (objects s) (map Z.of_nat c) patch.

  Lemma item_cv u x key : trcv u x -> In (snd x) (scene_candidates s ca) -> nsp (snd (fst (fst x))) (snd (snd (fst x))) (snd x) ->
    exists its it key', icv its it /\
      (forall n, one_path P g (us n) ClsImage va (fst (fst (u n))) (snd (fst (u n))) (map Z.of_nat (snd (u n))) key = Ok (its n, key')) /\
      one_path P g s ClsImage va (fst (fst x)) (snd (fst x)) (map Z.of_nat (snd x)) key = Ok (it, key').
  Proof.
    destruct x as [[tx rx] c]. cbn [fst snd]. intros ((T & R) & C) I (ws & p & EW & EP & GP & GR). cbn [fst snd] in *.
    destruct (interacting_ok s ca c I) as [E L].
    assert (EN : forall n, get_interacting_objects (us n) (map Z.of_nat c) = Ok (objects_at (us n) c)).
    { intro n. apply (interacting_ok (us n) ca c). rewrite HC. auto. }
    pose proof (objects_at_cv us s c HO) as HI.
    assert (GP' : objects_at s c <> [] -> general_position (snd tx) ws (xys p)).
    { intro N. apply GP. intros ->. apply N. reflexivity. }
    destruct (C68_lemma _ _ _ _ _ _ p ws (proj2 T) HI (proj2 R) EP EW GP') as (ps & p' & P1 & P2 & P3).
    assert (p' = p) by congruence. subst p'.
    assert (LP : (length (xys p) <= length (map Z.of_nat c) + 2)%nat).
    { rewrite map_length, <- L. pose proof (C29_lemma P ClsImage None (snd tx) (objects_at s c) (snd rx) p EP) as ((mid & X & Lm) & _).
      rewrite X. cbn [length]. rewrite app_length, Lm. cbn. lia. }
    assert (Pr : forall o w, In o (objects_at s c) -> wall_of o = Some w -> proper w).
    { intros o w Io Ow. assert (N : objects_at s c <> []) by (intro Z; rewrite Z in Io; destruct Io).
      specialize (GP' N). destruct (In_nth_error _ _ Io) as [i Hi].
      assert (Hw : nth_error ws i = Some w).
      { apply (f_equal (fun l => nth_error l i)) in EW. rewrite !nth_error_map, Hi in EW. cbn in EW. rewrite Ow in EW.
        destruct (nth_error ws i); cbn in EW; congruence. }
      destruct (objects_at s c) as [|o0 os0] eqn:EO; [contradiction|]. pose proof (as_walls_of _ _ EW) as AW.
      assert (X1 : xys p = image_points (snd tx) ws (snd rx)).
      { unfold ImagePath_from in EP. destruct (stack_leaves (o0 :: os0)); cbn [rbind] in EP; [|discriminate]. rewrite AW in EP. injection EP as <-. reflexivity. }
      rewrite X1 in GP'. apply gp_iff in GP'. apply (gp_step (snd tx) ws (snd rx) i w GP' Hw). }
    destruct (C67_lemma g ps p _ _ _ _ (map Z.of_nat c) tol patch k Hk Ha P3 HO HI LP Pr GR) as (vs & v & V1 & V2 & V3).
    exists (fun n => mkitem (fst tx) (fst rx) (vs n) (ps n) (map Z.of_nat c)), (mkitem (fst tx) (fst rx) v p (map Z.of_nat c)).
    destruct (match key with
      | Some k => match rsplit P k 2 with
                  | k1 :: k2 :: _ => (Some k1, Some k2)
                  | _ => (Some k, None)
                  end
      | None => (None, None)
      end) as [key1 key2] eqn:EK.
    exists key1. split; [|split].
    - split; [|split]; cbn; auto.
    - intro n. rewrite C. unfold one_path. rewrite EN. cbn [rbind]. rewrite EK. cbn [from_tx_objects_rx]. rewrite P1. cbn [rbind].
      unfold va. cbn [va_tol va_patch va_approx va_kw]. rewrite V1. cbn [rbind]. rewrite (proj1 T n), (proj1 R n). reflexivity.
    - unfold one_path. rewrite E. cbn [rbind]. rewrite EK. cbn [from_tx_objects_rx]. rewrite P2. cbn [rbind].
      unfold va. cbn [va_tol va_patch va_approx va_kw]. rewrite V2. reflexivity.
  Qed.
  Lemma run_cv u l : lconv trcv u l -> (forall x, In x l -> In (snd x) (scene_candidates s ca) /\ nsp (snd (fst (fst x))) (snd (snd (fst x))) (snd x)) ->
    forall key,
    let w := map (fun trc => (fst trc, map Z.of_nat (snd trc))) in
    (forall n, raised (run_paths P g (us n) ClsImage va (w (u n)) key) = None) /\ raised (run_paths P g s ClsImage va (w l) key) = None /\
    lconv icv (fun n => yielded (run_paths P g (us n) ClsImage va (w (u n)) key)) (yielded (run_paths P g s ClsImage va (w l) key)).
  Proof.
    intros (ss & H & F) Hx. cbv zeta. revert u H Hx. induction F as [|x0 x ss l S1 F IH]; intros u H Hx key.
    - split; [intro n; rewrite H; reflexivity|]. split; [reflexivity|].
      eapply lconv_ext; [|apply lconv_nil]. intro n. cbv beta. rewrite H. reflexivity.
    - destruct (Hx x (or_introl eq_refl)) as [I N].
      destruct (item_cv x0 x key S1 I N) as (its & it & key' & I1 & I2 & I3).
      destruct (IH (fun n => map (fun s => s n) ss) ltac:(auto) (fun y J => Hx y (or_intror J)) key') as (R1 & R2 & R3).
      assert (E : forall n, run_paths P g (us n) ClsImage va (map (fun trc => (fst trc, map Z.of_nat (snd trc))) (u n)) key =
        mkgen (its n :: yielded (run_paths P g (us n) ClsImage va (map (fun trc => (fst trc, map Z.of_nat (snd trc))) (map (fun s => s n) ss)) key'))
          (raised (run_paths P g (us n) ClsImage va (map (fun trc => (fst trc, map Z.of_nat (snd trc))) (map (fun s => s n) ss)) key'))).
      { intro n. rewrite H. cbn [map]. specialize (I2 n). destruct (x0 n) as [[tx rx] c]. cbn [fst snd run_paths] in *. rewrite I2. reflexivity. }
      assert (E' : run_paths P g s ClsImage va (map (fun trc => (fst trc, map Z.of_nat (snd trc))) (x :: l)) key =
        mkgen (it :: yielded (run_paths P g s ClsImage va (map (fun trc => (fst trc, map Z.of_nat (snd trc))) l) key'))
          (raised (run_paths P g s ClsImage va (map (fun trc => (fst trc, map Z.of_nat (snd trc))) l) key'))).
      { cbn [map]. destruct x as [[tx rx] c]. cbn [fst snd run_paths] in *. rewrite I3. reflexivity. }
      rewrite E'. cbn [raised yielded]. split; [intro n; rewrite E; cbn; apply R1|]. split; [exact R2|].
      destruct R3 as (vs & V & G'). exists (its :: vs). split; [|constructor; auto].
      intro n. rewrite E. cbn [yielded map]. rewrite V. reflexivity.
  Qed.
End Scene.

Lemma xconv_mul u x v y : tconv u x -> xconv v y -> xconv (fun n => xmul (to_f (u n)) (v n)) (xmul (to_f x) y).
Proof.
  intros (a & b & A1 & -> & A2) (c & d & C1 & -> & C2). exists (fun n => a n * c n), (b * d). split; [|split]; auto.
  - intro n. rewrite A1, C1. reflexivity.
  - apply cv_mult; auto.
Qed.
Lemma xconv_add u x v y : xconv u x -> xconv v y -> xconv (fun n => xadd (u n) (v n)) (xadd x y).
Proof.
  intros (a & b & A1 & -> & A2) (c & d & C1 & -> & C2). exists (fun n => a n + c n), (b + d). split; [|split]; auto.
  - intro n. rewrite A1, C1. reflexivity.
  - apply cv_plus; auto.
Qed.
Lemma xsum_cv u l : lconv xconv u l -> xconv (fun n => xsum (u n)) (xsum l).
Proof.
  intro H. unfold xsum. apply (lconv_fold xconv xconv xadd (fun s s' a b => xconv_add s s' a b) (fun s s1 s' => xconv_ext s s1 s') u l (fun _ => Fin 0) (Fin 0) H).
  exists (fun _ => 0), 0. split; auto. split; auto. apply cv_const.
Qed.

Lemma C69_lemma P g us s ca tol patch k key f : good_split P -> shipped k -> 0 < ak_alpha k -> scene_conv us s ->
  (forall n, scene_candidates (us n) ca = scene_candidates s ca) -> no_singular_path s ca patch -> continuous_fun f ->
  let va := mkvalidargs tol patch (Some true) k in
  let acc s := accumulate_over_paths P g s ClsImage ca va key f in
  (forall n, raised (acc (us n)) = None) /\ raised (acc s) = None /\ lconv vconv (fun n => yielded (acc (us n))) (yielded (acc s)).
Proof.
  intros GS Hk Ha ((ts & t & T1 & T2 & T3) & (rs & r & R1 & R2 & R3) & HO) HC NS CF va acc.
  assert (W : lconv trcv (fun n => triples (ts n) (rs n) (scene_candidates (us n) ca)) (triples t r (scene_candidates s ca))).
  { rewrite <- list_prod_triples. apply (lconv_ext _ (fun n => list_prod (list_prod (ts n) (rs n)) (scene_candidates s ca))).
    - intro n. rewrite HC, list_prod_triples. reflexivity.
    - exact (lconv_prod _ (fun u x => forall n, u n = x) _ _ (fun _ => scene_candidates s ca) (scene_candidates s ca)
        (lconv_prod nconv nconv _ _ _ _ T3 R3) (lconv_const (fun u x => forall n, u n = x) _ (fun x n => eq_refl))). }
  destruct (run_cv P g us s ca tol patch k Hk Ha HO HC _ _ W) with (key := key) as (A1 & A2 & A3).
  { intros [[tx rx] c] I. apply in_triples in I. destruct I as (I1 & I2 & I3). cbn [fst snd]. split; auto.
    apply (NS t r tx rx c); auto. }
  cbv zeta in *. fold va in A1, A2, A3.
  assert (B : forall n, all_paths P g (us n) ClsImage ca va key = run_paths P g (us n) ClsImage va (map (fun trc => (fst trc, map Z.of_nat (snd trc))) (triples (ts n) (rs n) (scene_candidates (us n) ca))) key).
  { intro n. unfold all_paths. rewrite (all_paths_work _ _ _ _ (T1 n) (R1 n)). reflexivity. }
  assert (B' : all_paths P g s ClsImage ca va key = run_paths P g s ClsImage va (map (fun trc => (fst trc, map Z.of_nat (snd trc))) (triples t r (scene_candidates s ca))) key).
  { unfold all_paths. rewrite (all_paths_work _ _ _ _ T2 R2). reflexivity. }
  destruct (scene_candidates s ca) as [|c0 cs0] eqn:EC.
  { assert (Z : acc s = mkgen [] None) by (apply C53_none; auto).
    assert (Zn : forall n, acc (us n) = mkgen [] None) by (intro n; apply C53_none; rewrite HC; auto).
    rewrite Z. split; [intro n; rewrite Zn; auto|]. split; auto. eapply lconv_ext; [|apply lconv_nil]. intro n. cbv beta. rewrite Zn. reflexivity. }
  assert (D : raised (acc s) = None /\ yielded (acc s) = map (pair_result s f (yielded (all_paths P g s ClsImage ca va key))) (list_prod t r)).
  { destruct (C53_lemma P g s ClsImage va ca key f t r GS T2 R2 ltac:(rewrite EC; discriminate)) as (X1 & X2).
    rewrite B', A2 in X1, X2. rewrite B'. auto. }
  assert (Dn : forall n, raised (acc (us n)) = None /\ yielded (acc (us n)) = map (pair_result (us n) f (yielded (all_paths P g (us n) ClsImage ca va key))) (list_prod (ts n) (rs n))).
  { intro n. destruct (C53_lemma P g (us n) ClsImage va ca key f (ts n) (rs n) GS (T1 n) (R1 n) ltac:(rewrite HC; discriminate)) as (X1 & X2).
    rewrite B, A1 in X1, X2. rewrite B. auto. }
  split; [intro n; apply Dn|]. split; [apply D|]. rewrite (proj2 D).
  eapply lconv_ext; [intro n; symmetry; apply (proj2 (Dn n))|].
  eapply (lconv_map _ vconv); [eapply lconv_prod; [exact T3|exact R3]|].
  intros x [[n1 p] [n2 q]] _ [[X1 X2] [Y1 Y2]]. cbn [fst snd] in *. unfold vconv, pair_result. cbn [fst snd]. split.
  - intro n. rewrite X1, Y1. reflexivity.
  - apply xsum_cv.
    apply (lconv_ext _ (fun n => map (contribution (us n) f (snd (fst (x n))) (snd (snd (x n)))) (of_pair n1 n2 (yielded (all_paths P g (us n) ClsImage ca va key))))).
    { intro n. rewrite X1, Y1. reflexivity. }
    apply (lconv_map icv xconv).
    + unfold of_pair. apply lconv_filter.
      * rewrite B'. eapply lconv_ext; [|exact A3]. intro n. cbv beta. rewrite B. reflexivity.
      * intros u it (U & _) n. destruct (U n) as (-> & -> & _). reflexivity.
    + intros u it _ (U & UP & UV). unfold contribution. apply xconv_mul; auto.
      apply (xconv_ext (fun n => f (snd (fst (x n))) (snd (snd (x n))) (it_path (u n)) (objects_at (us n) (map Z.to_nat (it_cand it))))).
      { intro n. destruct (U n) as (_ & _ & ->). reflexivity. }
      apply CF; auto. apply objects_at_cv. auto.
Qed.
Lemma C69_reduced_lemma P g us s ca tol patch k key f : good_split P -> shipped k -> 0 < ak_alpha k -> scene_conv us s ->
  (forall n, scene_candidates (us n) ca = scene_candidates s ca) -> no_singular_path s ca patch -> continuous_fun f ->
  let va := mkvalidargs tol patch (Some true) k in
  rconv xconv (fun n => accumulate_over_paths_reduced P g (us n) ClsImage ca va key f) (accumulate_over_paths_reduced P g s ClsImage ca va key f).
Proof.
  intros GS Hk Ha SC HC NS CF va. destruct (C69_lemma P g us s ca tol patch k key f GS Hk Ha SC HC NS CF) as (A & B & C). fold va in A, B, C.
  eexists _, _. split; [|split].
  - intro n. pose proof (C53_reduced P g (us n) ClsImage va ca key f) as X. cbv zeta in X. rewrite A in X. exact X.
  - pose proof (C53_reduced P g s ClsImage va ca key f) as X. cbv zeta in X. rewrite B in X. exact X.
  - cbv beta. apply xsum_cv. apply (lconv_map vconv xconv _ _ _ _ C). intros u x _ [_ H]. exact H.
Qed.

(** The received power is a continuous path function. *)
Lemma length_cv eps us l : lconv pconv us l -> Un_cv (fun n => path_length eps (us n)) (path_length eps l).
Proof.
  intros (ss & H & F). unfold path_length. revert us H. induction F as [|p0 p ss l S1 F IH]; intros us H.
  - eapply cv_ext; [|apply cv_const]. intro n. cbv beta. rewrite H. reflexivity.
  - destruct F as [|q0 q ss l S2 F].
    + eapply cv_ext; [|apply cv_const]. intro n. cbv beta. rewrite H. reflexivity.
    + cbn [diffs map fold_right] in *. specialize (IH (fun n => map (fun s => s n) (q0 :: ss)) ltac:(auto)).
      eapply cv_ext; [|apply cv_plus; [|exact IH]].
      * intro n. rewrite H. cbn [map diffs fold_right]. reflexivity.
      * apply (cv_norm (fun n => (fst (vsub (q0 n) (p0 n)) + eps, snd (vsub (q0 n) (p0 n)) + eps))).
        pose proof (pconv_sub _ _ _ _ S2 S1) as [D1 D2]. apply pconv_pair; apply cv_plus; auto; apply cv_const.
Qed.
Lemma power_cont eps rc h : h <> 0 -> continuous_fun (power eps rc h).
Proof.
  intros H txs tx rxs rx ps p oss os _ _ [P1 _] _. unfold power, received_power, Path_length.
  pose proof (length_cv eps _ _ P1) as L. pose proof (lconv_length _ _ _ P1) as LN. cbv beta in LN.
  assert (D : forall r, h * h + r * r <> 0) by (intro r; nra).
  assert (E : forall m r, fdiv (rc ^ m) (h * h + r * r) = Fin (rc ^ m / (h * h + r * r))).
  { intros m r. unfold fdiv, Reqb. destruct (Req_EM_T _ 0) as [Z|Z]; [destruct (D r Z)|reflexivity]. }
  eexists _, _. split; [intro n; rewrite LN; apply E|]. split; [apply E|].
  apply cv_div; [apply cv_const| |apply D]. apply cv_plus; [apply cv_const|]. apply cv_mult; auto.
Qed.
