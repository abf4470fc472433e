(** Short lemmas and examples for PropertiesCont. *)
From Coq Require Import Reals List Bool ZArith String Lra Lia Psatz.
From Verif Require Import Base BaseP LogicM SpecLogic LogicP GeometryM SpecGeometry VecP ShapeP WallP SegP OptimizeM PathM SpecPath SpecImage
  PathP PathSmoothP PathShapeP ImageP CandidatesM SceneM SpecScene SpecRun SceneP SceneOpsP SceneRunP SceneAccP SpecPower UtilsM RunExP SpecCont ContP ContPathP ContImageP ContSceneP.
Import ListNotations.
Local Notation length := List.length.
Open Scope R_scope.

(** ** C65 *)
Definition cmp_diff (c : cmpfun) (x y : R) : R := match c with Gt | Ge => x - y | Lt | Le => y - x end.
Lemma cmp_value c g x y k : shipped k -> run_cmp c g (Fin x) (Fin y) (Some true) k = fl (act k (cmp_diff c x y)).
Proof.
  intro H. destruct c; unfold run_cmp, greater, greater_equal, less, less_equal; cbn [resolve xsub xadd xopp];
    rewrite act_eq by auto; reflexivity.
Qed.
Lemma cmp_diff_lip c x y x' y' : Rabs (cmp_diff c x y - cmp_diff c x' y') <= Rabs (x - x') + Rabs (y - y').
Proof. destruct c; cbn; unfold Rabs; repeat destruct (Rcase_abs _); lra. Qed.
Lemma C65_cmp c g k x y x' y' : shipped k -> exists v v',
  run_cmp c g (Fin x) (Fin y) (Some true) k = fl v /\ run_cmp c g (Fin x') (Fin y') (Some true) k = fl v' /\
  Rabs (v - v') <= Rabs (ak_alpha k) / 4 * (Rabs (x - x') + Rabs (y - y')) /\
  (ak_function k = hard_sigmoid -> Rabs (v - v') <= Rabs (ak_alpha k) / 6 * (Rabs (x - x') + Rabs (y - y'))).
Proof.
  intro H. do 2 eexists. split; [apply cmp_value; auto|]. split; [apply cmp_value; auto|].
  pose proof (cmp_diff_lip c x y x' y'). pose proof (Rabs_pos (ak_alpha k)). split; [|intro E].
  - eapply Rle_trans; [apply act_lip; auto|]. apply Rmult_le_compat_l; lra.
  - eapply Rle_trans; [apply act_lip_hard; auto|]. apply Rmult_le_compat_l; lra.
Qed.
Lemma min_lip a b a' b' d : Rabs (a - a') <= d -> Rabs (b - b') <= d -> Rabs (Rmin a b - Rmin a' b') <= d.
Proof. unfold Rabs, Rmin. repeat destruct (Rcase_abs _); repeat destruct (Rle_dec _ _); lra. Qed.
Lemma max_lip a b a' b' d : Rabs (a - a') <= d -> Rabs (b - b') <= d -> Rabs (Rmax a b - Rmax a' b') <= d.
Proof. unfold Rabs, Rmax. repeat destruct (Rcase_abs _); repeat destruct (Rle_dec _ _); lra. Qed.
(** Two float truth values at distance at most [d]. *)
Lemma C65_connectives g a b a' b' d : Rabs (a - a') <= d -> Rabs (b - b') <= d ->
  within d (logical_and g (fl a) (fl b) (Some true)) (logical_and g (fl a') (fl b') (Some true)) /\
  within d (logical_or g (fl a) (fl b) (Some true)) (logical_or g (fl a') (fl b') (Some true)) /\
  within d (logical_not g (fl a) (Some true)) (logical_not g (fl a') (Some true)).
Proof.
  intros A B. unfold within. split; [|split].
  - exists (Rmin a b), (Rmin a' b'). split; auto. split; auto. apply min_lip; auto.
  - exists (Rmax a b), (Rmax a' b'). split; auto. split; auto. apply max_lip; auto.
  - exists (1 + - a), (1 + - a'). split; auto. split; auto. replace (1 + - a - (1 + - a')) with (- (a - a')) by ring. rewrite Rabs_Ropp. auto.
Qed.
Lemma C65_all_any g xs ys d : xs <> [] -> Forall2 (fun a b => Rabs (a - b) <= d) xs ys ->
  (exists t u, logical_all g (map fl xs) (Some true) = Ok t /\ logical_all g (map fl ys) (Some true) = Ok u /\ within d t u) /\
  (exists t u, logical_any g (map fl xs) (Some true) = Ok t /\ logical_any g (map fl ys) (Some true) = Ok u /\ within d t u).
Proof.
  intros N F. destruct F as [|a b xs ys A F]; [contradiction|]. clear N. unfold logical_all, logical_any. cbn [resolve map all_bools forallb andb fl to_f].
  assert (Gm : forall l z, fold_left (fun m u => xmin m (to_f u)) (map fl l) (Fin z) = Fin (fold_left Rmin l z)).
  { induction l as [|x l IH]; intro z; [reflexivity|]. cbn. rewrite IH. reflexivity. }
  assert (GM : forall l z, fold_left (fun m u => xmax m (to_f u)) (map fl l) (Fin z) = Fin (fold_left Rmax l z)).
  { induction l as [|x l IH]; intro z; [reflexivity|]. cbn. rewrite IH. reflexivity. }
  split; do 2 eexists; (split; [reflexivity|]); (split; [reflexivity|]); unfold within; do 2 eexists;
    (split; [rewrite ?Gm, ?GM; reflexivity|]); (split; [rewrite ?Gm, ?GM; reflexivity|]).
  - revert a b A. induction F as [|x y xs ys X F IH]; intros a b A; cbn; auto. apply IH, min_lip; auto.
  - revert a b A. induction F as [|x y xs ys X F IH]; intros a b A; cbn; auto. apply IH, max_lip; auto.
Qed.

(** ** Sequences *)
Lemma cv_inv_n : Un_cv (fun n => / (INR n + 1)) 0.
Proof.
  intros e He. destruct (archimed_cor1 e He) as (N & HN & NP). exists N. intros n Hn. unfold R_dist.
  rewrite Rminus_0_r, Rabs_pos_eq.
  2:{ left. apply Rinv_0_lt_compat. pose proof (pos_INR n). lra. }
  eapply Rle_lt_trans; [|exact HN]. apply Rinv_le_contravar; [apply lt_0_INR; auto|]. apply le_INR in Hn. lra.
Qed.
Lemma C66_jump g tol : 0 <= tol ->
  let P3 n := (1 / 4, - / (INR n + 1)) in let P4 n := (3 / 4, / (INR n + 1)) in
  pconv P3 (1 / 4, 0) /\ pconv P4 (3 / 4, 0) /\
  (forall n, segments_intersect g (0, 0) (1, 0) (P3 n) (P4 n) tol (Some true) default_akw = fl 1) /\
  segments_intersect g (0, 0) (1, 0) (1 / 4, 0) (3 / 4, 0) tol (Some true) default_akw = fl 0.
Proof.
  intros T P3 P4. assert (H : shipped default_akw) by (right; reflexivity).
  assert (A : 0 < ak_alpha default_akw) by (cbn; unfold DEFAULT_ALPHA; lra).
  split; [|split; [|split]].
  - apply pconv_pair; [apply cv_const|]. rewrite <- Ropp_0. apply cv_opp, cv_inv_n.
  - apply pconv_pair; [apply cv_const|apply cv_inv_n].
  - intro n. rewrite seg_value by auto. f_equal. f_equal. unfold segv, P3, P4.
    assert (E : 0 < / (INR n + 1)) by (apply Rinv_0_lt_compat; pose proof (pos_INR n); lra). set (e := / (INR n + 1)) in *.
    assert (D : seg_d (0, 0) (1, 0) (1 / 4, - e) (3 / 4, e) = 2 * e) by (unfold seg_d, vsub; cbn; field).
    assert (Ea : seg_a (0, 0) (1 / 4, - e) (3 / 4, e) = e) by (unfold seg_a, vsub; cbn; field).
    assert (Eb : seg_b (0, 0) (1, 0) (1 / 4, - e) = e) by (unfold seg_b, vsub; cbn; field).
    rewrite D, Ea, Eb. destruct (Reqb_spec (2 * e) 0) as [Z|Z]; [lra|].
    assert (X : forall x, 1 / 2 <= x -> act default_akw x = 1).
    { intros x Hx. rewrite act_hard by reflexivity. apply hs_sat_hi. cbn. unfold DEFAULT_ALPHA. lra. }
    replace (e / (2 * e)) with (1 / 2) by (field; lra).
    unfold smin4. rewrite !X by lra. rewrite !Rmin_left; lra.
  - rewrite seg_value by auto. f_equal. f_equal. unfold segv.
    assert (Z : seg_d (0, 0) (1, 0) (1 / 4, 0) (3 / 4, 0) = 0) by (unfold seg_d, vsub; cbn; ring). rewrite Z.
    rewrite (proj2 (Reqb_true 0 0)) by auto. reflexivity.
Qed.

(** ** C68: a path that runs away *)
Definition floor_ : wall := mkwall (0, 0) (1, 0).
Lemma floor_proper : proper floor_.
Proof. unfold proper, floor_. cbn. intro X. apply (f_equal fst) in X. cbn in X. lra. Qed.
Lemma floor_image x y : image_of floor_ (x, y) = (x, - y).
Proof.
  rewrite (image_eq _ _ floor_proper). unfold floor_, len2, side, tvx, tvy, wall_t, origin, dest, vsub, cross, dot. cbn.
  apply vec_eq; cbn; field; lra.
Qed.
Lemma floor_side x y : side floor_ (x, y) = y.
Proof. unfold side, floor_, wall_t, origin, dest, vsub, cross. cbn. ring. Qed.
Lemma floor_path tx rx : ImagePath_from tx [OWall floor_] rx =
  Ok (mkpath [tx; backward rx (floor_, image_of floor_ tx); rx] (Fin (path_loss [OWall floor_] [tx; backward rx (floor_, image_of floor_ tx); rx]))).
Proof. reflexivity. Qed.
Lemma C68_run_away :
  let rx n := (1, -1 + / (INR n + 1)) in
  pconv rx (1, -1) /\
  (forall n, exists p, ImagePath_from (0, 1) [OWall floor_] (rx n) = Ok p /\ nth_error (xys p) 1 = Some (INR n + 1, 0)) /\
  (exists p, ImagePath_from (0, 1) [OWall floor_] (1, -1) = Ok p /\ nth_error (xys p) 1 = Some (1, -1)).
Proof.
  intros rx. split; [|split].
  - apply pconv_pair; [apply cv_const|]. replace (-1) with (-1 + 0) at 1 by ring. apply cv_plus; [apply cv_const|apply cv_inv_n].
  - intro n. eexists. split; [apply floor_path|]. cbn [xys nth_error]. f_equal. rewrite floor_image. unfold rx.
    pose proof (pos_INR n). assert (0 < / (INR n + 1)) by (apply Rinv_0_lt_compat; lra).
    rewrite backward_eq; rewrite !floor_side; [|lra]. unfold at_. apply vec_eq; cbn [fst snd]; field; lra.
  - eexists. split; [apply floor_path|]. cbn [xys nth_error]. f_equal. rewrite floor_image.
    apply backward_degenerate. rewrite !floor_side. reflexivity.
Qed.

(** ** A scene that moves *)
Definition ex_moving (x : R) : scene := Scene_make [("tx"%string, (0, 1))] [("rx"%string, (1, x))] [OWall floor_].
Definition ex_ca : candargs := mkcandargs 0 1 None None.
Lemma ex_nodes name p : represents (transmitters (Scene_make [(name, p)] [] [])) [(name, p)].
Proof. apply C48_lemma. repeat constructor; cbn; intuition. Qed.
Lemma ex_nodes_t x : represents (transmitters (ex_moving x)) [("tx"%string, (0, 1))].
Proof. apply C48_lemma. repeat constructor; cbn; intuition. Qed.
Lemma ex_nodes_r x : represents (receivers (ex_moving x)) [("rx"%string, (1, x))].
Proof. apply C48_lemma. repeat constructor; cbn; intuition. Qed.
Lemma floor_gp tx rx : 0 < snd tx -> 0 < snd rx -> gp tx [floor_] rx.
Proof.
  destruct tx as [a b], rx as [c d]. cbn [snd]. intros B D.
  assert (P1 : pt (a, b) [floor_] (c, d) 1 = backward (c, d) (floor_, image_of floor_ (a, b))) by reflexivity.
  assert (P2 : pt (a, b) [floor_] (c, d) 2 = (c, d)) by reflexivity.
  assert (P0 : pt (a, b) [floor_] (c, d) 0 = (a, b)) by reflexivity.
  assert (I1 : img (a, b) [floor_] 1 = image_of floor_ (a, b)) by reflexivity.
  assert (N : side floor_ (image_of floor_ (a, b)) <> side floor_ (c, d)) by (rewrite floor_image, !floor_side; lra).
  assert (S1 : side floor_ (pt (a, b) [floor_] (c, d) 1) = 0) by (rewrite P1; apply backward_side; auto).
  split.
  - intros i w Hw. destruct i as [|[|i]]; try discriminate. cbn in Hw. injection Hw as <-. rewrite I1, P2. auto.
  - intros i Hi. cbn in Hi. destruct i as [|[|i]]; [| |lia].
    + rewrite P0. intro X. apply (f_equal (side floor_)) in X. rewrite S1, floor_side in X. lra.
    + rewrite P2. intro X. apply (f_equal (side floor_)) in X. rewrite S1, floor_side in X. lra.
Qed.
Lemma ex_moving_ok : 
  scene_conv (fun n => ex_moving (2 + / (INR n + 1))) (ex_moving 2) /\
  (forall n, scene_candidates (ex_moving (2 + / (INR n + 1))) ex_ca = scene_candidates (ex_moving 2) ex_ca) /\
  scene_candidates (ex_moving 2) ex_ca = [[]; [0%nat]] /\
  no_singular_path (ex_moving 2) ex_ca DEFAULT_PATCH.
Proof.
  split; [|split; [|split]].
  - split; [|split].
    + exists (fun _ => [("tx"%string, (0, 1))]), [("tx"%string, (0, 1))]. split; [intro; apply ex_nodes_t|]. split; [apply ex_nodes_t|].
      apply lconv_const. intros [m v]. split; auto. apply pconv_const.
    + exists (fun n => [("rx"%string, (1, 2 + / (INR n + 1)))]), [("rx"%string, (1, 2))]. split; [intro; apply ex_nodes_r|]. split; [apply ex_nodes_r|].
      exists [fun n => ("rx"%string, (1, 2 + / (INR n + 1)))]. split; auto. constructor; [|constructor]. split; auto. cbn [snd].
      apply pconv_pair; [apply cv_const|]. replace 2 with (2 + 0) at 1 by ring. apply cv_plus; [apply cv_const|apply cv_inv_n].
    + cbn [objects ex_moving Scene_make]. apply lconv_const. intros [w|w phi|q]; cbn.
      * exists (fun _ => w). split; auto. split; apply pconv_const.
      * exists (fun _ => w), (fun _ => phi). split; auto. split; [split; apply pconv_const|apply cv_const].
      * exists (fun _ => q). split; auto. apply pconv_const.
  - intro n. reflexivity.
  - reflexivity.
  - intros t r tx rx c HT HR It Ir Ic.
    assert (Et : t = [("tx"%string, (0, 1))]).
    { pose proof (represents_items _ _ HT) as [A _]. pose proof (represents_items _ _ (ex_nodes_t 2)) as [B _]. congruence. }
    assert (Er : r = [("rx"%string, (1, 2))]).
    { pose proof (represents_items _ _ HR) as [A _]. pose proof (represents_items _ _ (ex_nodes_r 2)) as [B _]. congruence. }
    subst t r. destruct It as [<-|[]]. destruct Ir as [<-|[]]. cbn [snd].
    assert (Ic' : In c [[]; [0%nat]]) by exact Ic. destruct Ic' as [<-|[<-|[]]].
    + exists [], (mkpath [(0, 1); (1, 2)] (Fin 0)). split; [reflexivity|]. split; [reflexivity|]. split; [contradiction|].
      intros (i & j & A & B & o & w & (SA & SB) & HO & HW & _ & OL). cbn [xys] in SA, SB.
      destruct i as [|[|[|i]]]; try discriminate. cbn in SA, SB. injection SA as <-. injection SB as <-.
      destruct j as [|[|j]]; try discriminate. cbn in HO. injection HO as <-. cbn in HW. injection HW as <-.
      apply one_line_iff in OL. destruct OL as (_ & _ & D). revert D. unfold seg_d, vsub, at_, floor_, DEFAULT_PATCH. cbn. lra.
    + eexists [floor_], _. split; [reflexivity|]. split; [apply floor_path|]. split.
      * intros _. apply (proj2 (gp_iff (0, 1) [floor_] (1, 2))). apply floor_gp; cbn; lra.
      * intros (i & j & A & B & o & w & (SA & SB) & HO & HW & NT & OL). cbn [xys] in SA, SB.
        destruct j as [|[|j]]; try discriminate. apply NT. unfold touches.
        destruct i as [|[|[|i]]]; try discriminate; cbn; [auto|]. right. exists 0%nat. auto.
Qed.

(** With the exact test, the accumulated value jumps: a receiver crosses a wall. *)
Definition ex_los (y : R) : scene := Scene_make [("tx"%string, (1 / 2, 1))] [("rx"%string, (1 / 2, y))] [OWall floor_].
Definition ex_ca0 : candargs := mkcandargs 0 0 None None.
Definition ex_va0 : validargs := mkvalidargs DEFAULT_TOL DEFAULT_PATCH (Some false) default_akw.
Lemma los_acc P g y b : is_valid g (mkpath [(1 / 2, 1); (1 / 2, y)] (Fin 0)) [OWall floor_] [] [] DEFAULT_TOL DEFAULT_PATCH (Some false) default_akw = Ok (TB b) ->
  accumulate_over_paths P g (ex_los y) ClsImage ex_ca0 ex_va0 None (fun _ _ _ _ => Fin 1) = 
  mkgen [("tx"%string, "rx"%string, Fin (if b then 1 else 0))] None.
Proof.
  intro H. unfold accumulate_over_paths.
  assert (A : all_paths P g (ex_los y) ClsImage ex_ca0 ex_va0 None = mkgen [mkitem "tx" "rx" (TB b) (mkpath [(1 / 2, 1); (1 / 2, y)] (Fin 0)) []] None).
  { unfold all_paths.
    change (list_prod (all_transmitter_receiver_pairs (ex_los y)) (cands_z (ex_los y) ex_ca0)) with [(("tx"%string, (1 / 2, 1)), ("rx"%string, (1 / 2, y)), @nil Z)].
    cbn [run_paths]. unfold one_path. change (get_interacting_objects (ex_los y) []) with (@Ok (list object) []). cbn [rbind from_tx_objects_rx snd ImagePath_from].
    change (objects (ex_los y)) with [OWall floor_]. cbn [ex_va0 va_tol va_patch va_approx va_kw].
    match goal with |- context [rbind ?X _] => assert (E : X = Ok (TB b)) by exact H; rewrite E end. reflexivity. }
  rewrite A. cbn [yielded raised group_runs]. unfold acc_groups, acc_group. cbn [it_tx it_rx].
  change (pd_get (transmitters (ex_los y)) "tx") with (@Ok vec (1 / 2, 1)). change (pd_get (receivers (ex_los y)) "rx") with (@Ok vec (1 / 2, y)).
  cbn [rbind fold_left it_cand it_valid]. change (get_interacting_objects (ex_los y) []) with (@Ok (list object) []). cbn [rbind xadd xmul].
  destruct b; cbn; repeat f_equal; ring.
Qed.

Lemma los_valid g y : 1 / 2 <= 1 - y -> exists b,
  is_valid g (mkpath [(1 / 2, 1); (1 / 2, y)] (Fin 0)) [OWall floor_] [] [] DEFAULT_TOL DEFAULT_PATCH (Some false) default_akw = Ok (TB b) /\
  (b = true <-> 1 + 5 / 1000 < 1 / (1 - y)).
Proof.
  intro Y. destruct (C38_lemma g (mkpath [(1 / 2, 1); (1 / 2, y)] (Fin 0)) [OWall floor_] [] [] DEFAULT_TOL DEFAULT_PATCH default_akw) as (b & E & H); [cbn; lia..|].
  exists b. split; auto. rewrite H. clear E H.
  assert (X : obstructed [(1 / 2, 1); (1 / 2, y)] [OWall floor_] [] DEFAULT_PATCH (5 / 1000) <-> 1 / (1 - y) <= 1 + 5 / 1000).
  { split.
    - intros (i & j & A & B & o & w & (SA & SB) & HO & HW & _ & _ & s & t & M & S1 & T1).
      destruct i as [|[|[|i]]]; try discriminate. cbn in SA, SB. injection SA as <-. injection SB as <-.
      destruct j as [|[|j]]; try discriminate. cbn in HO. injection HO as <-. cbn in HW. injection HW as <-.
      unfold meet_at, at_, floor_, DEFAULT_PATCH in M. cbn [fst snd w_origin w_dest] in M.
      assert (E : 1 + t * (y - 1) = 0) by (apply (f_equal snd) in M; cbn [fst snd] in M; lra).
      assert (t = 1 / (1 - y)) by (field_simplify_eq; lra). subst t. apply T1.
    - intro T. exists 0%nat, 0%nat, (1 / 2, 1), (1 / 2, y), (OWall floor_), floor_. split; [split; reflexivity|]. split; [reflexivity|]. split; [reflexivity|]. split.
      + intros [Z|(i & Z & _)]; discriminate.
      + split.
        * unfold parallel, at_, floor_, DEFAULT_PATCH. cbn [fst snd w_origin w_dest]. lra.
        * exists (1 / 2), (1 / (1 - y)). split; [|split; [lra|]].
          -- unfold meet_at, at_, floor_, DEFAULT_PATCH. cbn [fst snd w_origin w_dest]. apply vec_eq; cbn [fst snd]; field; lra.
          -- split; auto. assert (0 < 1 / (1 - y)) by (apply Rdiv_lt_0_compat; lra). lra. }
  cbn [loss xys]. rewrite X. split.
  - intros (_ & _ & N). lra.
  - intro N. split; [cbn; unfold DEFAULT_TOL; lra|]. split; [|lra]. intros i o w q Hi. destruct i; discriminate.
Qed.
Lemma C69_exact_jump P g : let y n := 1 / 201 + / (4 * (INR n + 1)) in
  scene_conv (fun n => ex_los (y n)) (ex_los (1 / 201)) /\ no_singular_path (ex_los (1 / 201)) ex_ca0 DEFAULT_PATCH /\
  continuous_fun (fun _ _ _ _ => Fin 1) /\
  (forall n, accumulate_over_paths P g (ex_los (y n)) ClsImage ex_ca0 ex_va0 None (fun _ _ _ _ => Fin 1) = mkgen [("tx"%string, "rx"%string, Fin 1)] None) /\
  accumulate_over_paths P g (ex_los (1 / 201)) ClsImage ex_ca0 ex_va0 None (fun _ _ _ _ => Fin 1) = mkgen [("tx"%string, "rx"%string, Fin 0)] None.
Proof.
  intro y. assert (NT : forall x, represents (transmitters (ex_los x)) [("tx"%string, (1 / 2, 1))]) by (intro; apply C48_lemma; repeat constructor; cbn; intuition).
  assert (NR : forall x, represents (receivers (ex_los x)) [("rx"%string, (1 / 2, x))]) by (intro; apply C48_lemma; repeat constructor; cbn; intuition).
  split; [|split; [|split; [|split]]].
  - split; [|split].
    + exists (fun _ => [("tx"%string, (1 / 2, 1))]), [("tx"%string, (1 / 2, 1))]. split; [intro; apply NT|]. split; [apply NT|].
      apply lconv_const. intros [m v]. split; auto. apply pconv_const.
    + exists (fun n => [("rx"%string, (1 / 2, y n))]), [("rx"%string, (1 / 2, 1 / 201))]. split; [intro; apply NR|]. split; [apply NR|].
      exists [fun n => ("rx"%string, (1 / 2, y n))]. split; auto. constructor; [|constructor]. split; auto. cbn [snd].
      apply pconv_pair; [apply cv_const|]. unfold y. replace (1 / 201) with (1 / 201 + / 4 * 0) at 1 by ring. apply cv_plus; [apply cv_const|].
      apply (cv_ext (fun n => / 4 * / (INR n + 1))); [|apply cv_mult; [apply cv_const|apply cv_inv_n]].
      intro n. rewrite Rinv_mult. reflexivity.
    + apply (lconv_const oconv [OWall floor_]). intros [w|w phi|q]; cbn.
      * exists (fun _ => w). split; auto. split; apply pconv_const.
      * exists (fun _ => w), (fun _ => phi). split; auto. split; [split; apply pconv_const|apply cv_const].
      * exists (fun _ => q). split; auto. apply pconv_const.
  - intros t r tx rx c HT HR It Ir Ic.
    assert (Et : t = [("tx"%string, (1 / 2, 1))]).
    { pose proof (represents_items _ _ HT) as [A _]. pose proof (represents_items _ _ (NT (1 / 201))) as [B _]. congruence. }
    assert (Er : r = [("rx"%string, (1 / 2, 1 / 201))]).
    { pose proof (represents_items _ _ HR) as [A _]. pose proof (represents_items _ _ (NR (1 / 201))) as [B _]. congruence. }
    subst t r. destruct It as [<-|[]]. destruct Ir as [<-|[]]. cbn [snd].
    assert (Ic' : In c [[]]) by exact Ic. destruct Ic' as [<-|[]].
    exists [], (mkpath [(1 / 2, 1); (1 / 2, 1 / 201)] (Fin 0)). split; [reflexivity|]. split; [reflexivity|]. split; [contradiction|].
    intros (i & j & A & B & o & w & (SA & SB) & HO & HW & _ & OL). cbn [xys] in SA, SB.
    destruct i as [|[|[|i]]]; try discriminate. cbn in SA, SB. injection SA as <-. injection SB as <-.
    destruct j as [|[|j]]; try discriminate. cbn in HO. injection HO as <-. cbn in HW. injection HW as <-.
    apply one_line_iff in OL. destruct OL as (_ & _ & D). revert D. unfold seg_d, vsub, at_, floor_, DEFAULT_PATCH. cbn. lra.
  - intros txs tx rxs rx ps p oss os _ _ _ _. exists (fun _ => 1), 1. split; auto. split; auto. apply cv_const.
  - intro n. pose proof (pos_INR n). assert (B : 0 < / (4 * (INR n + 1)) <= 1 / 4).
    { split; [apply Rinv_0_lt_compat; lra|]. rewrite Rinv_mult. assert (/ (INR n + 1) <= / 1) by (apply Rinv_le_contravar; lra). lra. }
    destruct (los_valid g (y n)) as (b & E & H1); [unfold y; lra|].
    assert (b = true).
    { apply H1. apply (Rmult_lt_reg_r (1 - y n)); [unfold y; lra|]. unfold Rdiv. rewrite Rmult_assoc, Rinv_l by (unfold y; lra). unfold y. lra. }
    subst b. rewrite (los_acc P g (y n) true E). reflexivity.
  - destruct (los_valid g (1 / 201)) as (b & E & H1); [lra|].
    assert (b = false).
    { destruct b; auto. exfalso. pose proof (proj1 H1 eq_refl) as Z. replace (1 / (1 - 1 / 201)) with (201 / 200) in Z by field. lra. }
    subst b. rewrite (los_acc P g _ false E). reflexivity.
Qed.
