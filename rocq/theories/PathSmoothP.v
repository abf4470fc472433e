(** Proofs about the validity of paths, smoothed mode and structural laws. *)
From Coq Require Import Reals List Bool ZArith Arith Lia Lra Permutation.
From Verif Require Import Base BaseP LogicM LogicP GeometryM OptimizeM PathM SpecLogic SpecGeometry SpecPath SegP VecP WallP ShapeP PathP.
Import ListNotations.
Open Scope R_scope.
Local Notation length := List.length.

Definition ok01 (t : truthy) : Prop := t = TF NaN \/ exists r, t = fl r /\ 0 <= r <= 1.
Lemma ok01_or g x y : ok01 x -> ok01 y -> ok01 (logical_or g x y (Some true)).
Proof.
  intros [->|(r & -> & R)] [->|(s & -> & S)]; unfold logical_or; cbn; [left; auto..|].
  right. exists (Rmax r s). split; auto. mmcase; lra.
Qed.
Lemma ok01_and g x y : ok01 x -> ok01 y -> ok01 (logical_and g x y (Some true)).
Proof.
  intros [->|(r & -> & R)] [->|(s & -> & S)]; unfold logical_and; cbn; [left; auto..|].
  right. exists (Rmin r s). split; auto. mmcase; lra.
Qed.
Lemma ok01_not g x : ok01 x -> ok01 (logical_not g x (Some true)).
Proof.
  intros [->|(r & -> & R)]; unfold logical_not; cbn; [left; auto|]. right. exists (1 + - r). split; auto. lra.
Qed.
Lemma ok01_act x k : shipped k -> ok01 (TF (activation x k)).
Proof.
  intro H. destruct (activation_range k x H) as [(v & -> & V)|[-> _]]; [right|left; auto].
  exists v. auto.
Qed.
Lemma ok01_seg g P1 P2 P3 P4 tol k : shipped k -> ok01 (segments_intersect g P1 P2 P3 P4 tol (Some true) k).
Proof.
  intro H. rewrite seg_unfold. unfold ttest. repeat apply ok01_and; apply ok01_act; auto.
Qed.
Lemma ok01_inter g o A B patch k : shipped k -> ok01 (obj_intersects g o A B patch (Some true) k).
Proof.
  intro H. destruct o; cbn [obj_intersects]; try (apply ok01_seg; auto).
  right. exists 0. split; [reflexivity|lra].
Qed.
Lemma ok01_contains g o ps k : shipped k -> ok01 (obj_contains g o ps (Some true) k).
Proof.
  intro H. destruct o; cbn [obj_contains]; try (apply ok01_and; apply ok01_act; auto).
  right. exists 1. split; [reflexivity|lra].
Qed.
Lemma ok01_fold_or g ts : (forall t, In t ts -> ok01 t) -> forall a, ok01 a ->
  ok01 (fold_left (fun x y => logical_or g x y (Some true)) ts a).
Proof.
  induction ts as [|t ts IH]; intros H a A; cbn [fold_left]; auto.
  apply IH; [intros; apply H; right; auto|]. apply ok01_or; auto. apply H; left; auto.
Qed.
Lemma ok01_fold_and g ts : (forall t, In t ts -> ok01 t) -> forall a, ok01 a ->
  ok01 (fold_left (fun x y => logical_and g x y (Some true)) ts a).
Proof.
  induction ts as [|t ts IH]; intros H a A; cbn [fold_left]; auto.
  apply IH; [intros; apply H; right; auto|]. apply ok01_and; auto. apply H; left; auto.
Qed.
Lemma ok01_false g : ok01 (false_value g (Some true)).
Proof. right. exists 0. split; [reflexivity|lra]. Qed.
Lemma ok01_true g : ok01 (true_value g (Some true)).
Proof. right. exists 1. split; [reflexivity|lra]. Qed.
Lemma ok01_tests g pts objects cand patch k t : shipped k ->
  In t (inter_tests g pts objects cand patch (Some true) k) -> ok01 t.
Proof.
  intros H T. unfold inter_tests in T. apply in_flat_map in T. destruct T as (i & _ & T).
  apply in_map_iff in T. destruct T as ([j o] & <- & _). apply ok01_inter; auto.
Qed.
Lemma ok01_on g p os k : shipped k -> ok01 (on_objects g p os (Some true) k).
Proof.
  intro H. rewrite on_objects_fold. apply ok01_fold_and; [|apply ok01_true].
  intros t T. apply in_map_iff in T. destruct T as ([i o] & <- & _). apply ok01_contains; auto.
Qed.
Lemma all3 g a b c : (exists x, a = TF x) ->
  logical_all g [a; b; c] (Some true) = Ok (TF (xmin (xmin (to_f a) (to_f b)) (to_f c))).
Proof. intros [x ->]. reflexivity. Qed.
Lemma ok01_tf t : ok01 t -> exists x, t = TF x.
Proof. intros [->|(r & -> & _)]; unfold fl; eauto. Qed.
Lemma ok01_min3 a b c : ok01 a -> ok01 b -> ok01 c -> ok01 (TF (xmin (xmin (to_f a) (to_f b)) (to_f c))).
Proof.
  intros [->|(x & -> & X)] [->|(y & -> & Y)] [->|(z & -> & Z)]; cbn; try (left; reflexivity).
  right. exists (Rmin (Rmin x y) z). split; auto. repeat mmcase; lra.
Qed.
Lemma valid_smooth_eq g p objects cand interacting tol patch k inter : shipped k ->
  intersects_with_objects g p objects cand patch (Some true) k = Ok inter ->
  is_valid g p objects cand interacting tol patch (Some true) k =
  Ok (TF (xnan_to_num (xmin (xmin (to_f (on_objects g p interacting (Some true) k))
     (to_f (logical_not g inter (Some true)))) (activation (xsub (Fin tol) (loss p)) k)))).
Proof.
  intros H E. unfold is_valid. rewrite E. cbn [rbind]. rewrite all3 by (apply ok01_tf, ok01_on; auto).
  reflexivity.
Qed.
Lemma C39_lemma g p objects cand interacting tol patch k t : shipped k ->
  is_valid g p objects cand interacting tol patch (Some true) k = Ok t ->
  exists r, t = fl r /\ 0 <= r <= 1.
Proof.
  intros H E. destruct (intersects_with_objects g p objects cand patch (Some true) k) as [inter|e] eqn:I;
    [|unfold is_valid in E; rewrite I in E; discriminate].
  rewrite (valid_smooth_eq _ _ _ _ _ _ _ _ inter H I) in E.
  apply (f_equal (fun r => match r with Ok x => x | Err _ => t end)) in E. cbv beta iota in E. subst t.
  assert (OI : ok01 inter).
  { rewrite inter_fold in I. destruct (_ && _)%bool; [discriminate|]. inversion I; subst.
    apply ok01_fold_or; [|apply ok01_false]. intros t T. eapply ok01_tests; eauto. }
  pose proof (ok01_min3 _ _ _ (ok01_on g p interacting k H) (ok01_not g inter OI)
    (ok01_act (xsub (Fin tol) (loss p)) k H)) as M. cbn [to_f] in M.
  revert M. generalize (xmin (xmin (to_f (on_objects g p interacting (Some true) k))
    (to_f (logical_not g inter (Some true)))) (activation (xsub (Fin tol) (loss p)) k)).
  intros z M. destruct M as [M|(r & M & R)]; inversion M; subst z.
  - exists 0. split; [reflexivity|lra].
  - exists r. split; [reflexivity|auto].
Qed.
Lemma valid_total g p objects cand interacting tol patch a k :
  (length (xys p) <= length cand + 2)%nat \/ objects = [] ->
  exists t, is_valid g p objects cand interacting tol patch a k = Ok t.
Proof.
  intro L. unfold is_valid. rewrite inter_fold.
  assert (X : (Nat.ltb (length cand + 1) (length (xys p) - 1) && negb (Nat.eqb (length objects) 0))%bool = false).
  { apply andb_false_iff. destruct L as [L| ->]; [left; apply Nat.ltb_ge; lia|right; reflexivity]. }
  rewrite X. cbn [rbind]. unfold logical_all. destruct (resolve g a); [destruct (all_bools _)|]; cbn [rbind]; eauto.
Qed.

(** ** C40 *)
Section Smooth.
  Variables (g : bool) (k : akw).
  Hypotheses (Hs : shipped k) (Ha : 0 < ak_alpha k).
  Lemma smin4_low s t tol : smin4 k s t tol < 1 / 2 <-> ~ (- tol <= s <= 1 + tol /\ - tol <= t <= 1 + tol).
  Proof.
    unfold smin4.
    pose proof (act_lt k (s + tol) Hs Ha). pose proof (act_lt k (1 + tol - s) Hs Ha).
    pose proof (act_lt k (t + tol) Hs Ha). pose proof (act_lt k (1 + tol - t) Hs Ha).
    set (a := act k (s + tol)) in *. set (b := act k (1 + tol - s)) in *.
    set (c := act k (t + tol)) in *. set (d := act k (1 + tol - t)) in *.
    split.
    - intros L [X Y]. assert (~ a < 1/2) by (rewrite H; lra). assert (~ b < 1/2) by (rewrite H0; lra).
      assert (~ c < 1/2) by (rewrite H1; lra). assert (~ d < 1/2) by (rewrite H2; lra).
      revert L. repeat mmcase; lra.
    - intro N. destruct (Rlt_dec a (1/2)); [repeat mmcase; lra|]. destruct (Rlt_dec b (1/2)); [repeat mmcase; lra|].
      destruct (Rlt_dec c (1/2)); [repeat mmcase; lra|]. destruct (Rlt_dec d (1/2)); [repeat mmcase; lra|].
      exfalso. apply N. rewrite H in n. rewrite H0 in n0. rewrite H1 in n1. rewrite H2 in n2. lra.
  Qed.
  Lemma seg_smooth P1 P2 P3 P4 tol : exists r, segments_intersect g P1 P2 P3 P4 tol (Some true) k = fl r /\ 0 <= r <= 1 /\
    (r < 1 / 2 <-> segments_intersect g P1 P2 P3 P4 tol (Some false) k = TB false).
  Proof.
    destruct (Req_dec (seg_d P1 P2 P3 P4) 0) as [D|D].
    - exists 0. destruct (C13_lemma g P1 P2 P3 P4 tol k) as [E1 E2]; [apply parallel_d; auto|].
      rewrite E1, E2 by (auto; lra). split; auto. split; [lra|]. split; [auto|intros; lra].
    - destruct (seg_exact g P1 P2 P3 P4 tol k) as (b & E & B). rewrite seg_approx by auto.
      eexists. split; [reflexivity|]. split.
      + destruct (seg_in01 g P1 P2 P3 P4 tol k Hs ltac:(lra)) as (r & Er & R). rewrite seg_approx in Er by auto.
        inversion Er as [X]. rewrite X. auto.
      + rewrite smin4_low, E. split.
        * intro N. f_equal. destruct b; auto. exfalso. apply N. tauto.
        * intros X Y. inversion X; subst b. assert (false = true) by (apply B; auto). discriminate.
  Qed.
  Lemma obj_inter_smooth o A B patch : exists r, obj_intersects g o A B patch (Some true) k = fl r /\ 0 <= r <= 1 /\
    (r < 1 / 2 <-> obj_intersects g o A B patch (Some false) k = TB false).
  Proof.
    destruct o; cbn [obj_intersects]; try apply seg_smooth. exists 0. split; [reflexivity|]. split; [lra|].
    split; [reflexivity|intros; lra].
  Qed.
  Lemma or_fold_smooth ts : (forall t, In t ts -> exists r, t = fl r) -> forall a,
    exists m, fold_left (fun x y => logical_or g x y (Some true)) ts (fl a) = fl m /\
    (m < 1 / 2 <-> a < 1 / 2 /\ forall r, In (fl r) ts -> r < 1 / 2).
  Proof.
    induction ts as [|t ts IH]; intros H a; cbn [fold_left In].
    - exists a. intuition.
    - destruct (H t (or_introl eq_refl)) as [c ->].
      change (logical_or g (fl a) (fl c) (Some true)) with (fl (Rmax a c)).
      destruct (IH (fun t T => H t (or_intror T)) (Rmax a c)) as (m & E & Q). exists m. split; auto.
      rewrite Q. split.
      + intros [X Y]. assert (a < 1/2 /\ c < 1/2) by (revert X; mmcase; lra). split; [tauto|].
        intros r [Z|Z]; [inversion Z; subst; tauto|auto].
      + intros [X Y]. split; [|intros; auto]. specialize (Y c (or_introl eq_refl)). mmcase; lra.
  Qed.
  Lemma and_fold_smooth ts : (forall t, In t ts -> exists r, t = fl r) -> forall a,
    exists m, fold_left (fun x y => logical_and g x y (Some true)) ts (fl a) = fl m /\
    (1 / 2 < m <-> 1 / 2 < a /\ forall r, In (fl r) ts -> 1 / 2 < r).
  Proof.
    induction ts as [|t ts IH]; intros H a; cbn [fold_left In].
    - exists a. intuition.
    - destruct (H t (or_introl eq_refl)) as [c ->].
      change (logical_and g (fl a) (fl c) (Some true)) with (fl (Rmin a c)).
      destruct (IH (fun t T => H t (or_intror T)) (Rmin a c)) as (m & E & Q). exists m. split; auto.
      rewrite Q. split.
      + intros [X Y]. assert (1/2 < a /\ 1/2 < c) by (revert X; mmcase; lra). split; [tauto|].
        intros r [Z|Z]; [inversion Z; subst; tauto|auto].
      + intros [X Y]. split; [|intros; auto]. specialize (Y c (or_introl eq_refl)). mmcase; lra.
  Qed.
  Lemma inter_smooth p objects cand patch : (length (xys p) <= length cand + 2)%nat ->
    exists m, intersects_with_objects g p objects cand patch (Some true) k = Ok (fl m) /\
    (m < 1 / 2 <-> ~ obstructed (xys p) objects cand patch SEG_TOL).
  Proof.
    intro L. rewrite inter_ok by auto.
    destruct (or_fold_smooth (inter_tests g (xys p) objects cand patch (Some true) k)) with (a := 0) as (m & E & H).
    { intros t T. apply in_inter_tests in T; auto. destruct T as (i & j & A & B & o & _ & _ & _ & ->).
      destruct (obj_inter_smooth o A B patch) as (r & E & _). eauto. }
    exists m. split; [rewrite <- E; reflexivity|]. rewrite H. split.
    - intros [_ Q] (i & j & A & B & o & w & S & O & W & T & C).
      destruct (obj_inter_smooth o A B patch) as (r & Er & _ & R).
      assert (X : r < 1 / 2). { apply Q. rewrite <- Er. apply in_inter_tests; auto. exists i, j, A, B, o. auto. }
      apply R in X. destruct (obj_inter_exact g o A B patch k) as (b & Eb & Hb). rewrite Eb in X. inversion X; subst b.
      assert (false = true); [|discriminate]. apply Hb. eauto.
    - intro N. split; [lra|]. intros r T. apply in_inter_tests in T; auto.
      destruct T as (i & j & A & B & o & S & O & T & Er).
      destruct (obj_inter_smooth o A B patch) as (r' & Er' & _ & R). rewrite Er' in Er. inversion Er; subst r'.
      apply R. destruct (obj_inter_exact g o A B patch k) as (b & Eb & Hb). rewrite Eb. f_equal.
      destruct b; auto. exfalso. apply N. destruct (proj1 Hb eq_refl) as (w & W & C). exists i, j, A, B, o, w. auto.
  Qed.
  Lemma contains_smooth s : exists r, wall_contains g s (Some true) k = fl r /\ (1 / 2 < r <-> 0 < s < 1).
  Proof.
    unfold wall_contains, greater_equal, less_equal. cbn [resolve xsub xadd xopp].
    rewrite !act_eq by auto. unfold logical_and. cbn [resolve]. cbn [to_f xmin]. eexists. split; [reflexivity|].
    pose proof (act_gt k (s + - 0) Hs Ha) as X. pose proof (act_gt k (1 + - s) Hs Ha) as Y.
    set (u := act k (s + - 0)) in *. set (v := act k (1 + - s)) in *. split.
    - intro H. assert (1/2 < u /\ 1/2 < v) as [Z1 Z2] by (revert H; mmcase; lra). apply X in Z1. apply Y in Z2. lra.
    - intro H. assert (1/2 < u) by (apply X; lra). assert (1/2 < v) by (apply Y; lra). mmcase; lra.
  Qed.
  Lemma obj_contains_smooth o q : exists r, obj_contains g o (obj_c2p o q) (Some true) k = fl r /\
    (1 / 2 < r <-> forall w, wall_of o = Some w -> proper w /\ exists t, 0 < t < 1 /\ projects_at w q t).
  Proof.
    destruct o as [w|w phi|v]; cbn [obj_contains obj_c2p wall_of nth].
    - destruct (contains_smooth (wall_c2p w q)) as (r & E & H). exists r. split; auto. rewrite H, <- strictly_inside_iff.
      split; [intros X w' Y; inversion Y; subst; auto|auto].
    - destruct (contains_smooth (wall_c2p w q)) as (r & E & H). exists r. split; auto. rewrite H, <- strictly_inside_iff.
      split; [intros X w' Y; inversion Y; subst; auto|auto].
    - exists 1. split; [reflexivity|]. split; [discriminate|intros; lra].
  Qed.
  Lemma on_smooth p os : (length os < length (xys p))%nat ->
    exists r, on_objects g p os (Some true) k = fl r /\ (1 / 2 < r <-> projects_strictly_inside (xys p) os).
  Proof.
    intro L. rewrite on_objects_fold.
    destruct (and_fold_smooth (on_tests g (xys p) os (Some true) k)) with (a := 1) as (m & E & H).
    { intros t T. apply in_on_tests in T; auto. destruct T as (i & o & q & _ & _ & ->).
      destruct (obj_contains_smooth o q) as (r & E & _). eauto. }
    exists m. split; [rewrite <- E; reflexivity|]. rewrite H. unfold projects_strictly_inside. split.
    - intros [_ N] i o w q O W Q. destruct (obj_contains_smooth o q) as (r & Er & Hr).
      apply Hr; auto. apply N. rewrite <- Er. apply in_on_tests; auto. exists i, o, q. auto.
    - intro X. split; [lra|]. intros r T. apply in_on_tests in T; auto. destruct T as (i & o & q & O & Q & N).
      destruct (obj_contains_smooth o q) as (r' & Er & Hr). rewrite Er in N. inversion N; subst r'.
      apply Hr. intros w W. eapply X; eauto.
  Qed.
  Lemma less_smooth l tol : exists x, activation (xsub (Fin tol) l) k = x /\
    (x = NaN /\ ~ loss_below l tol \/ exists r, x = Fin r /\ (1 / 2 < r <-> loss_below l tol)).
  Proof.
    eexists. split; [reflexivity|]. destruct l as [l| | |]; cbn [xsub xopp xadd loss_below].
    - right. rewrite act_eq by auto. eexists. split; [reflexivity|]. rewrite act_gt by auto. lra.
    - right. rewrite activation_ninf by auto. exists 0. split; auto. split; [lra|tauto].
    - right. rewrite activation_pinf by auto. exists 1. split; auto. split; [auto|intros; lra].
    - left. split; auto. destruct Hs as [E|E]; unfold activation; rewrite E; reflexivity.
  Qed.
  Lemma C40_lemma p objects cand interacting tol patch :
    (length (xys p) <= length cand + 2)%nat -> (length interacting < length (xys p))%nat ->
    exists t b, is_valid g p objects cand interacting tol patch (Some true) k = Ok t /\
    is_true g t DEFAULT_TRUTH_TOL (Some true) = Ok b /\
    (b = true <-> loss_below (loss p) tol /\ projects_strictly_inside (xys p) interacting /\
                  ~ obstructed (xys p) objects cand patch SEG_TOL).
  Proof.
    intros L1 L2. destruct (inter_smooth p objects cand patch L1) as (m & Em & Hm).
    destruct (on_smooth p interacting L2) as (o & Eo & Ho).
    destruct (less_smooth (loss p) tol) as (x & Ex & Hx).
    rewrite (valid_smooth_eq _ _ _ _ _ _ _ _ (fl m) Hs Em). rewrite Eo, Ex.
    unfold logical_not. cbn [resolve to_f fl xsub xadd xopp xmin].
    eexists _, _. split; [reflexivity|]. split; [reflexivity|]. unfold DEFAULT_TRUTH_TOL.
    rewrite <- Ho, <- Hm. destruct Hx as [[-> N]|(r & -> & Hr)]; cbn [to_f xmin xnan_to_num xltb].
    - rewrite Rltb_true. split; [lra|tauto].
    - rewrite Rltb_true, <- Hr. split.
      + intro H. revert H. repeat mmcase; lra.
      + intros (A & B & C). repeat mmcase; lra.
  Qed.
End Smooth.

Lemma strict_inside pts os : projects_strictly_inside pts os -> projects_inside pts os.
Proof.
  intros H i o w q O W Q. destruct (H i o w q O W Q) as (_ & t & T & X). exists t. split; [lra|auto].
Qed.

(** ** C41 *)
Lemma obstructed_mono pts objects extra cand patch tol :
  obstructed pts objects cand patch tol -> obstructed pts (objects ++ extra) cand patch tol.
Proof.
  intros (i & j & A & B & o & w & S & O & R). exists i, j, A, B, o, w. split; auto. split; auto.
  rewrite nth_error_app1; auto. apply nth_error_Some. congruence.
Qed.
Lemma at_at P Q u v t : at_ (at_ P Q u) (at_ P Q v) t = at_ P Q (u + t * (v - u)).
Proof. unfold at_. apply vec_eq; cbn; ring. Qed.
Lemma crosses_param w patch tol A B : 0 <= patch -> (crosses w patch tol A B <->
  ~ parallel (w_origin w) (w_dest w) A B /\
  exists u t, meet_at (w_origin w) (w_dest w) A B u t /\
    - patch - tol * (1 + 2 * patch) <= u <= 1 + patch + tol * (1 + 2 * patch) /\ - tol <= t <= 1 + tol).
Proof.
  intro P. unfold crosses. cbv zeta.
  assert (PP : parallel (at_ (w_origin w) (w_dest w) (- patch)) (at_ (w_origin w) (w_dest w) (1 + patch)) A B <->
    parallel (w_origin w) (w_dest w) A B).
  { unfold parallel, at_. cbn [fst snd]. set (x := fst (w_dest w) - fst (w_origin w)).
    set (y := snd (w_dest w) - snd (w_origin w)). set (c := snd B - snd A). set (d := fst B - fst A). split; intro H.
    - assert (Z : (1 + 2 * patch) * (x * c - y * d) = 0) by lra.
      apply Rmult_integral in Z. destruct Z; lra.
    - transitivity ((1 + 2 * patch) * (x * c)); [ring|]. rewrite H. ring. }
  rewrite PP. split; intros [N (s & t & M & S & T)]; split; auto.
  - exists (- patch + s * (1 + 2 * patch)), t. split; [|split; [nra|auto]].
    unfold meet_at in *. rewrite at_at in M. rewrite <- M. f_equal. ring.
  - exists ((s + patch) / (1 + 2 * patch)), t. split; [|split; [|auto]].
    + unfold meet_at in *. rewrite at_at. rewrite <- M. f_equal. field. lra.
    + split.
      * apply (Rmult_le_reg_r (1 + 2 * patch)); [lra|]. unfold Rdiv. rewrite Rmult_assoc, Rinv_l by lra. nra.
      * apply (Rmult_le_reg_r (1 + 2 * patch)); [lra|]. unfold Rdiv. rewrite Rmult_assoc, Rinv_l by lra. nra.
Qed.
Lemma crosses_mono w patch patch' tol A B : 0 <= tol -> 0 <= patch <= patch' -> crosses w patch tol A B -> crosses w patch' tol A B.
Proof.
  intros T P. rewrite !crosses_param by lra. intros [N (u & t & M & U & X)]. split; auto. exists u, t.
  split; auto. split; auto. nra.
Qed.
Lemma seg_tol_pos : 0 <= SEG_TOL.
Proof. unfold SEG_TOL. lra. Qed.
Lemma C41_exact g p objects extra cand interacting tol tol' patch patch' k :
  (length (xys p) <= length cand + 2)%nat -> (length interacting < length (xys p))%nat ->
  0 <= patch <= patch' -> tol' <= tol ->
  is_valid g p (objects ++ extra) cand interacting tol' patch' (Some false) k = Ok (TB true) ->
  is_valid g p objects cand interacting tol patch (Some false) k = Ok (TB true).
Proof.
  intros L1 L2 P T H.
  destruct (C38_lemma g p (objects ++ extra) cand interacting tol' patch' k L1 L2) as (b & E & B).
  rewrite E in H. inversion H; subst b. destruct (proj1 B eq_refl) as (X & Y & Z).
  destruct (C38_lemma g p objects cand interacting tol patch k L1 L2) as (c & -> & C). do 2 f_equal. apply C.
  split; [|split; auto].
  - unfold loss_below in *. destruct (loss p); try tauto. lra.
  - intro O. apply Z. apply obstructed_mono. destruct O as (i & j & U & V & o & w & S & Q & W & N & K).
    exists i, j, U, V, o, w. split; auto. split; auto. split; auto. split; auto.
    eapply crosses_mono; eauto. apply seg_tol_pos.
Qed.
Lemma in_tests_app g pts objects extra cand patch a k t :
  In t (inter_tests g pts objects cand patch a k) -> In t (inter_tests g pts (objects ++ extra) cand patch a k).
Proof.
  unfold inter_tests. rewrite !in_flat_map. intros (i & I & T). exists i. split; auto.
  apply in_map_iff in T. destruct T as ([j o] & E & T). apply in_map_iff. exists (j, o). split; auto.
  apply filter_In in T. destruct T as [T N]. apply filter_In. split; auto. apply in_enumerate in T. apply in_enumerate.
  rewrite nth_error_app1; auto. apply nth_error_Some. congruence.
Qed.
Lemma typed_tests g pts objects cand patch a k t : In t (inter_tests g pts objects cand patch a k) -> typed g a t.
Proof.
  unfold inter_tests. intro T. apply in_flat_map in T. destruct T as (i & _ & T).
  apply in_map_iff in T. destruct T as ([j o] & <- & _). apply typed_inter.
Qed.
Definition orf g a := fun x y => logical_or g x y a.
Lemma fold_or_absorb g a ts ts' : (forall t, In t ts -> In t ts') -> (forall t, In t ts' -> typed g a t) ->
  logical_or g (fold_left (orf g a) ts' (false_value g a)) (fold_left (orf g a) ts (false_value g a)) a =
  fold_left (orf g a) ts' (false_value g a).
Proof.
  intros I T. set (M' := fold_left (orf g a) ts' (false_value g a)).
  assert (A : forall l, (forall t, In t l -> In t ts') -> forall m, logical_or g M' m a = M' ->
    logical_or g M' (fold_left (orf g a) l m) a = M').
  { induction l as [|t l IH]; intros J m E; cbn [fold_left]; auto. apply IH; [intros; apply J; right; auto|].
    unfold orf at 1. rewrite or_assoc_t, E. apply (fold_absorb (orf g a)).
    - intros; apply or_comm_t.
    - intros; apply or_assoc_t.
    - apply J. left; auto.
    - apply or_idem. apply T. apply J. left; auto. }
  apply A; auto. unfold M'. change (logical_or g ?x ?y a) with (orf g a x y).
  rewrite <- (fold_push (orf g a)) by (intros; first [apply or_comm_t|apply or_assoc_t]).
  unfold orf at 2. rewrite or_idem by apply typed_false. reflexivity.
Qed.
Lemma nan_min_mono x y z w : (x = NaN \/ exists r, x = Fin r /\ 0 <= r <= 1) ->
  (w = NaN \/ exists r, w = Fin r /\ 0 <= r <= 1) ->
  (z = NaN \/ exists s, z = Fin s /\ 0 <= s <= 1 /\ exists r, y = Fin r /\ 0 <= r <= 1 /\ s <= r) ->
  (y = NaN \/ exists r, y = Fin r /\ 0 <= r <= 1) ->
  exists a b, xnan_to_num (xmin (xmin x z) w) = Fin a /\ xnan_to_num (xmin (xmin x y) w) = Fin b /\ a <= b.
Proof.
  intros [->|(r & -> & R)] [->|(q & -> & Q)] [->|(s & -> & S & y' & -> & Y & L)] Y2; cbn;
    try (eexists _, _; split; [reflexivity|split; [reflexivity|]]; lra).
  - destruct Y2 as [->|(u & -> & U)]; cbn; eexists _, _; (split; [reflexivity|split; [reflexivity|]]); lra.
  - destruct Y2 as [->|(u & -> & U)]; cbn; eexists _, _; (split; [reflexivity|split; [reflexivity|]]); try lra.
    repeat mmcase; lra.
  - eexists _, _. split; [reflexivity|split; [reflexivity|]]. repeat mmcase; lra.
Qed.
Lemma ok01_x t : ok01 t -> to_f t = NaN \/ exists r, to_f t = Fin r /\ 0 <= r <= 1.
Proof. intros [->|(r & -> & R)]; [left; auto|right; exists r; auto]. Qed.
Lemma C41_smooth g p objects extra cand interacting tol patch k :
  shipped k -> (length (xys p) <= length cand + 2)%nat ->
  exists a b, is_valid g p (objects ++ extra) cand interacting tol patch (Some true) k = Ok (fl a) /\
    is_valid g p objects cand interacting tol patch (Some true) k = Ok (fl b) /\ a <= b.
Proof.
  intros H L.
  rewrite (valid_smooth_eq _ _ _ _ _ _ _ _ _ H (inter_ok g p (objects ++ extra) cand patch (Some true) k L)).
  rewrite (valid_smooth_eq _ _ _ _ _ _ _ _ _ H (inter_ok g p objects cand patch (Some true) k L)).
  set (ts := inter_tests g (xys p) objects cand patch (Some true) k).
  set (ts' := inter_tests g (xys p) (objects ++ extra) cand patch (Some true) k).
  assert (O1 : ok01 (fold_left (orf g (Some true)) ts (false_value g (Some true)))).
  { apply ok01_fold_or; [|apply ok01_false]. intros t T. eapply ok01_tests; eauto. }
  assert (O2 : ok01 (fold_left (orf g (Some true)) ts' (false_value g (Some true)))).
  { apply ok01_fold_or; [|apply ok01_false]. intros t T. eapply ok01_tests; eauto. }
  assert (AB := fold_or_absorb g (Some true) ts ts' (fun t T => in_tests_app g _ _ extra _ _ _ _ t T)
    (fun t T => typed_tests g _ _ _ _ _ _ t T)).
  change (fun x y => logical_or g x y (Some true)) with (orf g (Some true)).
  set (M := fold_left (orf g (Some true)) ts (false_value g (Some true))) in *.
  set (M' := fold_left (orf g (Some true)) ts' (false_value g (Some true))) in *.
  destruct (nan_min_mono (to_f (on_objects g p interacting (Some true) k))
    (to_f (logical_not g M (Some true))) (to_f (logical_not g M' (Some true)))
    (activation (xsub (Fin tol) (loss p)) k)) as (a & b & Ea & Eb & AB').
  - apply ok01_x, ok01_on; auto.
  - apply (ok01_x (TF _)), ok01_act; auto.
  - destruct O2 as [E|(s & E & S)]; rewrite E in *; [left; reflexivity|].
    destruct O1 as [F|(r & F & R)]; rewrite F in *; [discriminate AB|].
    right. unfold logical_or in AB. cbn in AB.
    assert (X : Rmax s r = s) by (unfold fl in AB; congruence). clear AB.
    exists (1 + - s). split; [reflexivity|]. split; [lra|]. exists (1 + - r). split; [reflexivity|]. split; [lra|].
    revert X. mmcase; lra.
  - apply ok01_x, ok01_not; auto.
  - rewrite Ea, Eb. exists a, b. auto.
Qed.

(** ** Equality of validity from equality of the sets of tests *)
Lemma inter_ext g p p' objects objects' cand cand' patch a k :
  (length (xys p) <= length cand + 2)%nat -> (length (xys p') <= length cand' + 2)%nat ->
  (forall t, In t (inter_tests g (xys p) objects cand patch a k) ->
     t = false_value g a \/ In t (inter_tests g (xys p') objects' cand' patch a k)) ->
  (forall t, In t (inter_tests g (xys p') objects' cand' patch a k) ->
     t = false_value g a \/ In t (inter_tests g (xys p) objects cand patch a k)) ->
  intersects_with_objects g p objects cand patch a k = intersects_with_objects g p' objects' cand' patch a k.
Proof.
  intros L L' I I'. rewrite !inter_ok by auto. f_equal. apply (fold_incl (orf g a)); auto.
  - intros; apply or_comm_t.
  - intros; apply or_assoc_t.
  - intros x X. apply or_idem. eapply typed_tests; eauto.
  - intros x X. apply or_idem. eapply typed_tests; eauto.
  - apply or_idem, typed_false.
Qed.

(** ** C24: vertices never matter *)
Definition shift (j : nat) (z : Z) : Z := if (Z.of_nat j <=? z)%Z then (z + 1)%Z else z.
Definition up (j i : nat) : nat := if (j <=? i)%nat then S i else i.
Lemma shift_up j i : shift j (Z.of_nat i) = Z.of_nat (up j i).
Proof. unfold shift, up. destruct (Z.leb_spec (Z.of_nat j) (Z.of_nat i)), (Nat.leb_spec j i); lia. Qed.
Lemma shift_inj j z z' : shift j z = shift j z' -> z = z'.
Proof. unfold shift. destruct (Z.leb_spec (Z.of_nat j) z), (Z.leb_spec (Z.of_nat j) z'); lia. Qed.
Lemma nth_insert {A} (l : list A) v j i : (j <= length l)%nat -> nth_error (firstn j l ++ v :: skipn j l) (up j i) = nth_error l i.
Proof.
  intro L. unfold up. destruct (Nat.leb_spec j i).
  - rewrite nth_error_app2 by (rewrite firstn_length; lia). rewrite firstn_length, Nat.min_l by lia.
    replace (S i - j)%nat with (S (i - j)) by lia. cbn. rewrite <- (firstn_skipn j l) at 2.
    rewrite nth_error_app2 by (rewrite firstn_length; lia). rewrite firstn_length, Nat.min_l by lia. reflexivity.
  - rewrite nth_error_app1 by (rewrite firstn_length; lia). rewrite <- (firstn_skipn j l) at 2.
    rewrite nth_error_app1 by (rewrite firstn_length; lia). reflexivity.
Qed.
Lemma nth_insert_here {A} (l : list A) v j : (j <= length l)%nat -> nth_error (firstn j l ++ v :: skipn j l) j = Some v.
Proof.
  intro L. rewrite nth_error_app2 by (rewrite firstn_length; lia). rewrite firstn_length, Nat.min_l by lia.
  rewrite Nat.sub_diag. reflexivity.
Qed.
Lemma up_or j i : i = j \/ exists i', i = up j i'.
Proof.
  destruct (Nat.lt_trichotomy i j) as [H|[H|H]]; auto; right.
  - exists i. unfold up. destruct (Nat.leb_spec j i); lia.
  - exists (i - 1)%nat. unfold up. destruct (Nat.leb_spec j (i - 1)); lia.
Qed.
Lemma touches_shift j cand i m : touches (map (shift j) cand) i (up j m) <-> touches cand i m.
Proof.
  assert (X : forall n, nth_error (map (shift j) cand) n = Some (Z.of_nat (up j m)) <-> nth_error cand n = Some (Z.of_nat m)).
  { intro n. rewrite nth_error_map. rewrite <- shift_up. destruct (nth_error cand n) as [z|]; cbn; [|split; discriminate].
    split; intro H; inversion H as [E]; [apply shift_inj in E; congruence|congruence]. }
  unfold touches. rewrite X. split; (intros [H|(i' & -> & H)]; [auto|right; exists i'; split; auto; apply X; auto]).
Qed.
Lemma C24_insert_vertex g p objects cand interacting tol patch a k v j :
  (length (xys p) <= length cand + 2)%nat -> (j <= length objects)%nat ->
  is_valid g p (firstn j objects ++ OVertex v :: skipn j objects) (map (shift j) cand) interacting tol patch a k =
  is_valid g p objects cand interacting tol patch a k /\
  intersects_with_objects g p (firstn j objects ++ OVertex v :: skipn j objects) (map (shift j) cand) patch a k =
  intersects_with_objects g p objects cand patch a k.
Proof.
  intros L J.
  assert (E : intersects_with_objects g p (firstn j objects ++ OVertex v :: skipn j objects) (map (shift j) cand) patch a k =
    intersects_with_objects g p objects cand patch a k).
  { apply inter_ext; rewrite ?map_length; auto.
    - intros t T. apply in_inter_tests in T; [|rewrite map_length; auto].
      destruct T as (i & m & A & B & o & S & O & N & ->). destruct (up_or j m) as [->|(m' & ->)].
      + rewrite nth_insert_here in O by auto. inversion O; subst o. left. reflexivity.
      + right. rewrite nth_insert in O by auto. rewrite touches_shift in N. apply in_inter_tests; auto.
        exists i, m', A, B, o. auto.
    - intros t T. right. apply in_inter_tests in T; auto. destruct T as (i & m & A & B & o & S & O & N & ->).
      apply in_inter_tests; [rewrite map_length; auto|]. exists i, (up j m), A, B, o.
      rewrite nth_insert, touches_shift by auto. auto. }
  split; auto. unfold is_valid. rewrite E. reflexivity.
Qed.

(** ** Reversal *)
Lemma nth_error_rev {A} (l : list A) i : (i < length l)%nat -> nth_error (rev l) i = nth_error l (length l - S i).
Proof.
  intro H. destruct l as [|d l']; [cbn in H; lia|]. set (l := d :: l') in *.
  rewrite (nth_error_nth' (rev l) d) by (rewrite rev_length; auto).
  rewrite (nth_error_nth' l d) by lia. f_equal. apply rev_nth. auto.
Qed.
Lemma nth_error_rev_iff {A} (l : list A) i x : nth_error (rev l) i = Some x <-> (i < length l)%nat /\ nth_error l (length l - S i) = Some x.
Proof.
  split.
  - intro H. assert (L : (i < length l)%nat) by (rewrite <- rev_length; apply nth_error_Some; congruence).
    rewrite nth_error_rev in H by auto. auto.
  - intros [L H]. rewrite nth_error_rev; auto.
Qed.
Lemma segment_rev pts i A B : segment_at (rev pts) i A B <-> (i + 2 <= length pts)%nat /\ segment_at pts (length pts - 2 - i) B A.
Proof.
  unfold segment_at. rewrite !nth_error_rev_iff. split.
  - intros [[L X] [L' Y]]. split; [lia|]. replace (length pts - 2 - i)%nat with (length pts - S (S i))%nat by lia.
    split; auto. replace (S (length pts - S (S i))) with (length pts - S i)%nat by lia. auto.
  - intros [L [X Y]]. replace (length pts - 2 - i)%nat with (length pts - S (S i))%nat in * by lia.
    replace (S (length pts - S (S i))) with (length pts - S i)%nat in Y by lia. repeat split; auto; lia.
Qed.
Lemma touches_rev cand i j : (i <= length cand)%nat -> (touches (rev cand) i j <-> touches cand (length cand - i) j).
Proof.
  intro L. unfold touches. setoid_rewrite nth_error_rev_iff. split.
  - intros [[H X]|(i' & -> & H & X)].
    + right. exists (length cand - S i)%nat. split; [lia|auto].
    + left. replace (length cand - S i')%nat with (length cand - S i')%nat by lia. auto.
  - intros [X|(i' & E & X)].
    + right. assert (length cand - i < length cand)%nat by (apply nth_error_Some; congruence).
      exists (i - 1)%nat. split; [lia|]. split; [lia|]. replace (length cand - S (i - 1))%nat with (length cand - i)%nat by lia. auto.
    + left. split; [lia|]. replace (length cand - S i)%nat with i' by lia. auto.
Qed.
Lemma obj_inter_swap g o A B patch a k : obj_intersects g o B A patch a k = obj_intersects g o A B patch a k.
Proof. destruct o; cbn; try reflexivity; apply seg_swap_second. Qed.
Lemma tests_rev g pts objects cand patch a k t : length pts = (length cand + 2)%nat ->
  In t (inter_tests g (rev pts) objects (rev cand) patch a k) -> In t (inter_tests g pts objects cand patch a k).
Proof.
  intros L T. apply in_inter_tests in T; [|rewrite !rev_length; lia].
  destruct T as (i & j & A & B & o & S & O & N & ->). apply segment_rev in S. destruct S as [Li S].
  apply in_inter_tests; [lia|]. exists (length pts - 2 - i)%nat, j, B, A, o. split; auto. split; auto. split.
  - rewrite touches_rev in N by lia. replace (length pts - 2 - i)%nat with (length cand - i)%nat by lia. auto.
  - apply eq_sym, obj_inter_swap.
Qed.
Lemma C34_inter g p l objects cand patch a k : length (xys p) = (length cand + 2)%nat ->
  intersects_with_objects g (mkpath (rev (xys p)) l) objects (rev cand) patch a k =
  intersects_with_objects g p objects cand patch a k.
Proof.
  intro L. apply inter_ext; cbn [xys]; rewrite ?rev_length; try lia.
  - intros t T. right. apply tests_rev; auto.
  - intros t T. right. rewrite <- (rev_involutive (xys p)), <- (rev_involutive cand) in T.
    apply tests_rev in T; auto. rewrite !rev_length. auto.
Qed.
Lemma C34_on g p l os a k : length (xys p) = (length os + 2)%nat ->
  on_objects g (mkpath (rev (xys p)) l) (rev os) a k = on_objects g p os a k.
Proof.
  intro L. rewrite !on_objects_fold. cbn [xys].
  assert (I : forall pts os t, length pts = (length os + 2)%nat -> In t (on_tests g (rev pts) (rev os) a k) -> In t (on_tests g pts os a k)).
  { clear. intros pts os t L T. apply in_on_tests in T; [|rewrite !rev_length; lia].
    destruct T as (i & o & q & O & Q & ->). apply nth_error_rev_iff in O, Q. destruct O as [Lo O], Q as [Lq Q].
    apply in_on_tests; [lia|]. exists (length os - S i)%nat, o, q. split; auto. split; auto.
    replace (S (length os - S i)) with (length pts - S (S i))%nat by lia. auto. }
  assert (T : forall pts os t, In t (on_tests g pts os a k) -> typed g a t).
  { clear. intros pts os t T. apply in_map_iff in T. destruct T as ([i o] & <- & _). apply typed_contains. }
  apply (fold_incl (fun x y => logical_and g x y a)).
  - intros; apply and_comm_t.
  - intros; apply and_assoc_t.
  - intros x X. apply and_idem. eapply T; eauto.
  - intros x X. apply and_idem. eapply T; eauto.
  - apply and_idem, typed_true.
  - intros x X. right. apply I; auto.
  - intros x X. right. rewrite <- (rev_involutive (xys p)), <- (rev_involutive os) in X. apply I in X; auto.
    rewrite !rev_length; auto.
Qed.
Lemma C34_valid g p objects cand interacting tol patch a k :
  length (xys p) = (length cand + 2)%nat -> length interacting = length cand ->
  is_valid g (mkpath (rev (xys p)) (loss p)) objects (rev cand) (rev interacting) tol patch a k =
  is_valid g p objects cand interacting tol patch a k.
Proof.
  intros L L'. unfold is_valid. rewrite C34_inter by auto. rewrite C34_on by lia. reflexivity.
Qed.
