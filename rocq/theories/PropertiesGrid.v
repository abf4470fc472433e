(** Single precision: properties C89 and C90 (the validity test). *)
From Coq Require Import Reals List Bool ZArith Lra Lia.
From Flocq Require Import Core.Core IEEE754.BinarySingleNaN.
From Verif Require Import Base BaseP LogicM GeometryM PathM FloatM SpecFloat32 SpecGrid FloatP FloatLogicP FloatCmpP FloatAccP FloatGeomP FloatSegP FloatGridP FloatAgreeP FloatBoundP.
Import ListNotations.
Open Scope R_scope.

(** C89: the exact validity test in single precision, on scenes and paths drawn on a grid
    of 2049 x 2049 positions: it never fails, the projection and loss tests are decided
    exactly, every obstruction within the tolerance is seen, and what is taken for an
    obstruction is one up to [2^-22]. *)
Theorem C89_exact_validity_on_a_grid :
  exists t, Rabs (t - 5 / 1000) <= bpow radix2 (-32) /\
  forall e p qs objects shapes cand interacting faces tol patch k l bound, (-74 <= e <= 51)%Z ->
  Forall2 (on_grid e) (f_xys p) qs -> Forall2 (object_on_grid e) objects shapes -> Forall2 (object_on_grid e) interacting faces ->
  length qs = (length cand + 2)%nat -> length faces = length cand -> fval patch = Fin 0 ->
  fval (f_loss p) = Fin l -> fval tol = Fin bound ->
  exists v, f_is_valid false p objects cand interacting tol patch k = Ok (FB v) /\
    (v = true -> points_face_their_objects qs faces /\ l < bound /\ ~ obstructed (- t) (1 + t) qs shapes cand) /\
    (points_face_their_objects qs faces -> l < bound ->
       ~ obstructed (- (t + bpow radix2 (-22))) (1 + t + bpow radix2 (-22)) qs shapes cand -> v = true).
Proof.
  destruct val_seg_tol as (t & T & Ht & Err). exists t. split; [exact Err|].
  intros e p qs objects shapes cand interacting faces tol patch k l bound E F G I Lq Lf Z Lo Bo.
  assert (Lp : length (f_xys p) = length qs) by (clear -F; induction F; cbn; auto).
  assert (Li : length interacting = length faces) by (clear -I; induction I; cbn; auto).
  destruct (f_intersects_with_objects false p objects cand patch k) as [r|] eqn:R; [|rewrite f_inter_fold in R by lia; discriminate].
  destruct (grid_obstruction e p qs objects shapes cand patch k t r E F G ltac:(lia) Z T Ht R) as [O1 O2].
  pose proof (grid_on_objects e p qs interacting faces k E F I ltac:(lia)) as On.
  unfold f_is_valid. rewrite R. cbn [rbind]. rewrite all3_exact. eexists. split; [reflexivity|].
  cbn [f_to_b f_not f_less]. rewrite val_ltb, Lo, Bo. cbn [xltb]. rewrite !andb_true_iff, On, negb_true_iff, Rltb_true. split.
  - intros (H1 & H2 & H3 & _). split; [auto|]. split; [auto|]. intro K. apply O1 in K. congruence.
  - intros H1 H2 H3. split; [auto|]. split; [destruct (f_to_b r); auto; elim H3; auto|]. auto.
Qed.
Print Assumptions C89_exact_validity_on_a_grid.
Lemma grid_int i j : (Z.abs i <= 1024)%Z -> (Z.abs j <= 1024)%Z -> on_grid 0 (f_int i, f_int j) (IZR i * bpow radix2 0, IZR j * bpow radix2 0).
Proof. intros I J. exists i, j. cbn [fst snd]. repeat split; auto; apply val_scaled; lia. Qed.
(** A reflection on a wall, with another wall beside it or in the way. *)
Example C89_ex :
  let w := mkfwall (f_int 0, f_int 0) (f_int 4, f_int 0) in
  let away := mkfwall (f_int 7, f_int 1) (f_int 9, f_int 1) in
  let across := mkfwall (f_int 0, f_int 1) (f_int 4, f_int 1) in
  let p := mkfpath [(f_int 0, f_int 2); (f_int 2, f_int 0); (f_int 4, f_int 2)] f_zero in
  let z i j := (IZR i * bpow radix2 0, IZR j * bpow radix2 0) in
  f_is_valid false p [FWall w; FWall away] [0%Z] [FWall w] (f_lit 1 100) f_zero default_fkw = Ok (FB true) /\
  f_is_valid false p [FWall w; FWall across] [0%Z] [FWall w] (f_lit 1 100) f_zero default_fkw = Ok (FB false) /\
  Forall2 (on_grid 0) (f_xys p) [z 0 2; z 2 0; z 4 2]%Z /\
  Forall2 (object_on_grid 0) [FWall w; FWall across] [Segment (z 0 0) (z 4 0); Segment (z 0 1) (z 4 1)]%Z /\
  obstructed 0 1 [z 0 2; z 2 0; z 4 2]%Z [Segment (z 0 0) (z 4 0); Segment (z 0 1) (z 4 1)]%Z [0%Z].
Proof.
  cbv zeta. split; [vm_compute; reflexivity|]. split; [vm_compute; reflexivity|]. split; [|split].
  - repeat constructor; apply grid_int; cbn; lia.
  - constructor; [|constructor; [|constructor]]; split; apply grid_int; cbn; lia.
  - exists 0%nat, 1%nat, (IZR 0 * bpow radix2 0, IZR 1 * bpow radix2 0), (IZR 4 * bpow radix2 0, IZR 1 * bpow radix2 0).
    exists (IZR 0 * bpow radix2 0, IZR 2 * bpow radix2 0), (IZR 2 * bpow radix2 0, IZR 0 * bpow radix2 0).
    cbn [nth_error]. repeat (split; [reflexivity|]). split; [|split].
    + intros [H|(i & H & _)]; [discriminate H|discriminate H].
    + unfold parallel. cbn. lra.
    + exists (1 / 4), (1 / 2). cbn. lra.
Qed.

(** C90: the smoothed validity test in single precision never contradicts the exact one,
    for any floats whatever: a score above one half is only given to paths the exact test
    accepts, a score strictly between 0 and one half only to paths it rejects. *)
Lemma like_hs' h : hard_sigmoid_like h -> exists inv, h = hs_fun inv.
Proof. intros [->| ->]; [exists false|exists true]; reflexivity. Qed.
Theorem C90_score_never_contradicts :
  forall p objects cand inter tol patch alpha h a v, hard_sigmoid_like h -> fval alpha = Fin a -> 0 < a ->
  f_is_valid true p objects cand inter tol patch (mkfkw alpha h) = Ok v ->
  exists x r e, v = FF x /\ fval x = Fin r /\ 0 <= r <= 1 /\
    f_is_valid false p objects cand inter tol patch (mkfkw alpha h) = Ok (FB e) /\
    (/ 2 < r -> e = true) /\ (0 < r < / 2 -> e = false).
Proof.
  intros p objects cand inter tol patch alpha h a v H A P E. destruct (like_hs' h H) as [inv ->].
  destruct (agree_valid inv alpha a A P _ _ _ _ _ _ _ E) as (r & s & e & _ & _ & -> & Ex & [G1 G2] & M).
  destruct (smooth_cases s M) as [N|(q & Q & B)].
  - rewrite (nan_num _ N) in *. exists f_zero, 0, e. split; [reflexivity|]. split; [reflexivity|]. split; [lra|]. split; [exact Ex|]. split; intro; lra.
  - assert (K : f_nan_to_num (f_to_f s) = f_to_f s) by (destruct (f_to_f s); cbn in Q; try discriminate; try reflexivity; destruct s0; discriminate).
    rewrite K. exists (f_to_f s), q, e. repeat split; auto; try lra; [intro L; exact (G1 q Q L)|intros [_ L]; exact (G2 q Q L)].
Qed.
Print Assumptions C90_score_never_contradicts.

(** When no coordinate exceeds [2^50] and the patch does not exceed 1, a score of 0 also
    means that the exact test rejects the path: only a score of exactly one half does not
    decide. *)
Theorem C90_score_decides_moderate_scenes :
  forall p objects cand inter tol patch alpha h a v, hard_sigmoid_like h -> fval alpha = Fin a -> 0 < a ->
  Forall (point_up_to 50) (f_xys p) -> Forall (object_up_to 50) objects -> Forall (object_up_to 50) inter -> up_to 0 patch ->
  not_nan (f_loss p) -> finite tol ->
  f_is_valid true p objects cand inter tol patch (mkfkw alpha h) = Ok v ->
  exists x r e, v = FF x /\ fval x = Fin r /\
    f_is_valid false p objects cand inter tol patch (mkfkw alpha h) = Ok (FB e) /\
    (/ 2 < r -> e = true) /\ (r < / 2 -> e = false).
Proof.
  intros p objects cand inter tol patch alpha h a v H A P Fp Fo Fi Bp Lo To E. destruct (like_hs' h H) as [inv ->].
  assert (W : forall l, Forall (object_up_to 50) l -> Forall (bdo 50) l).
  { intros l F. eapply Forall_impl; [|exact F]. intros [w|w phi|q]; cbn; auto. }
  destruct (valid_sound inv alpha a A P p objects cand inter tol patch v Fp (W _ Fo) (W _ Fi) Bp Lo To E) as (x & e & -> & Ex & [G1 G2] & (r & R)).
  exists x, r, e. repeat split; auto; [intro L; exact (G1 r R L)|intro L; exact (G2 r R L)].
Qed.
Print Assumptions C90_score_decides_moderate_scenes.

(** Beyond, it can be wrong: for a direct path and one wall far away, the products of the
    crossing test overflow, the smoothed obstruction is NaN and the score is 0, although
    the exact test accepts the path. *)
Theorem C90_overflow_rejects_a_valid_path :
  exists p objects, Forall finite_point (f_xys p) /\ fval (f_loss p) = Fin 0 /\
    Forall (fun o => match o with FWall w => finite_point (fw_origin w) /\ finite_point (fw_dest w) | _ => False end) objects /\
    f_is_valid true p objects [] [] (f_lit 1 100) f_zero default_fkw = Ok (FF f_zero) /\
    f_is_valid false p objects [] [] (f_lit 1 100) f_zero default_fkw = Ok (FB true) /\
    f_is_valid true p [] [] [] (f_lit 1 100) f_zero default_fkw <> Ok (FF f_zero).
Proof.
  exists (mkfpath [(f_int 0, f_int 0); (f_scaled 1 60, f_scaled 1 60)] f_zero), [FWall (mkfwall (f_scaled 1 100, f_scaled 1 100) (f_scaled 1 100, f_scaled 1 101))].
  assert (Fi : forall m e, (Z.abs m <= 2 ^ 24)%Z -> (-149 <= e <= 103)%Z -> finite (f_scaled m e)) by (intros m e M X; eexists; apply val_scaled; lia).
  split; [repeat constructor; apply Fi; cbn; lia|]. split; [reflexivity|]. split; [repeat constructor; apply Fi; cbn; lia|].
  split; [vm_compute; reflexivity|]. split; [vm_compute; reflexivity|]. intro K.
  apply (f_equal (fun r => match r with Ok (FF x) => B2SF x | _ => SpecFloat.S754_nan end)) in K. vm_compute in K. discriminate K.
Qed.
Print Assumptions C90_overflow_rejects_a_valid_path.

(** Scores on both sides of one half for the same path, with and without an obstacle. *)
Example C90_ex :
  let w := mkfwall (f_int 0, f_int 0) (f_int 4, f_int 0) in
  let across := mkfwall (f_int 0, f_int 1) (f_int 4, f_int 1) in
  let p := mkfpath [(f_int 0, f_int 2); (f_int 2, f_int 0); (f_int 4, f_int 2)] f_zero in
  match f_is_valid true p [FWall w] [0%Z] [FWall w] (f_lit 1 100) f_zero default_fkw with
  | Ok (FF x) => f_ltb (f_lit 1 2) x = true
  | _ => False
  end /\
  f_is_valid true p [FWall w; FWall across] [0%Z] [FWall w] (f_lit 1 100) f_zero default_fkw = Ok (FF f_zero) /\
  object_up_to 50 (FWall across).
Proof.
  cbv zeta. split; [|split].
  - vm_compute. reflexivity.
  - vm_compute. reflexivity.
  - assert (K : forall m, (Z.abs m <= 4)%Z -> up_to 50 (f_int m)).
    { intros m M. exists (IZR m). split; [apply val_int; lia|]. apply Rle_trans with 4; [rewrite <- abs_IZR; apply IZR_le; auto|cbn; lra]. }
    repeat split; apply K; cbn; lia.
Qed.
