(** Single precision, any coordinates: properties C77 and C89 (exact tests). *)
From Coq Require Import Reals List Bool ZArith Lra Lia.
From Flocq Require Import Core.Core IEEE754.BinarySingleNaN.
From Verif Require Import Base BaseP LogicM GeometryM PathM FloatM SpecFloat32 SpecGrid SpecImage32 SpecAnywhere FloatP FloatLogicP FloatCmpP FloatAccP FloatGeomP FloatSegP FloatGridP FloatImageErrP FloatAnyP.
Import ListNotations.
Open Scope R_scope.

(** C77, for coordinates that need not be on a grid: two segments that are not nearly
    parallel, or are along the same axis, or well off one another, are tested rightly up to
    [2^-18 / s], [s] being the fraction of the square of their size that they span. *)
Theorem C77_segments_anywhere :
  forall s P1 P2 P3 P4 a b p q tol k t, / 1024 <= s ->
  stands_for P1 a -> stands_for P2 b -> stands_for P3 p -> stands_for P4 q -> fval tol = Fin t -> 0 <= t <= 1 ->
  clear_cut s a b p q ->
  let m := bpow radix2 (-18) / s in
  (~ parallel a b p q -> crosses (- t + m) (1 + t - m) a b p q -> f_segments_intersect false P1 P2 P3 P4 tol k = FB true) /\
  (f_segments_intersect false P1 P2 P3 P4 tol k = FB true -> ~ parallel a b p q /\ crosses (- (t + m)) (1 + t + m) a b p q).
Proof. intros. apply any_segments; auto. Qed.
Print Assumptions C77_segments_anywhere.

(** One third, as a float, and what it is exactly. *)
Definition f_third : f32 := f_scaled 11184811 (-25).
Definition third : R := 11184811 / 33554432.
Lemma val_third : fval f_third = Fin third.
Proof. unfold f_third. rewrite val_scaled by lia. reflexivity. Qed.
Lemma val_i i : (Z.abs i <= 2 ^ 24)%Z -> fval (f_int i) = Fin (IZR i).
Proof. intro H. unfold f_int. rewrite val_scaled by (auto; lia). f_equal. cbn. lra. Qed.
Lemma ordinary_4 : ordinary 4.
Proof.
  unfold ordinary. split.
  - apply Rle_trans with (bpow radix2 0); [apply bpow_le; lia|cbn; lra].
  - apply Rle_trans with (bpow radix2 2); [cbn; lra|apply bpow_le; lia].
Qed.
Example C77_anywhere_ex :
  stands_for (f_third, f_third) (third, third) /\ stands_for (f_int 3, f_int 2) (3, 2) /\
  stands_for (f_third, f_int 2) (third, 2) /\ stands_for (f_int 2, f_third) (2, third) /\
  clear_cut (1 / 4) (third, third) (3, 2) (third, 2) (2, third) /\
  ~ parallel (third, third) (3, 2) (third, 2) (2, third) /\ crosses (1 / 4) (3 / 4) (third, third) (3, 2) (third, 2) (2, third) /\
  f_segments_intersect false (f_third, f_third) (f_int 3, f_int 2) (f_third, f_int 2) (f_int 2, f_third) F_SEG_TOL default_fkw = FB true.
Proof.
  split; [split; apply val_third|]. split; [split; apply val_i; lia|]. split; [split; [apply val_third|apply val_i; lia]|].
  split; [split; [apply val_i; lia|apply val_third]|]. split; [|split; [|split]].
  - exists 4. split; [apply ordinary_4|]. unfold close_by. cbn [fst snd]. repeat (split; [split; apply Rabs_le; unfold third; lra|]).
    left. unfold transverse, det. cbn [fst snd]. rewrite Rabs_left by (unfold third; lra). unfold third. lra.
  - unfold parallel, third. cbn. lra.
  - unfold crosses, third. cbn [fst snd]. exists (55924053 / 145402538), (89478485 / 145402538). lra.
  - vm_compute. reflexivity.
Qed.

(** C89, for coordinates that need not be on a grid. *)
Theorem C89_exact_validity_anywhere :
  exists t, Rabs (t - 5 / 1000) <= bpow radix2 (-32) /\
  forall s p qs objects shapes cand interacting faces tol patch k l bound, / 1024 <= s ->
  Forall2 stands_for (f_xys p) qs -> Forall2 object_stands_for objects shapes -> Forall2 object_stands_for interacting faces ->
  length qs = (length cand + 2)%nat -> length faces = length cand -> fval patch = Fin 0 ->
  fval (f_loss p) = Fin l -> fval tol = Fin bound ->
  well_conditioned s qs shapes cand faces ->
  let m := bpow radix2 (-18) / s in
  exists v, f_is_valid false p objects cand interacting tol patch k = Ok (FB v) /\
    (v = true -> points_face_with_margin (- m) qs faces /\ l < bound /\ ~ obstructed (- t + m) (1 + t - m) qs shapes cand) /\
    (points_face_with_margin m qs faces -> l < bound -> ~ obstructed (- (t + m)) (1 + t + m) qs shapes cand -> v = true).
Proof.
  destruct val_seg_tol as (t & T & Ht & Err). exists t. split; [exact Err|].
  intros s p qs objects shapes cand interacting faces tol patch k l bound E F G I Lq Lf Z Lo Bo [W1 W2] m.
  assert (Lp : length (f_xys p) = length qs) by (clear -F; induction F; cbn; auto).
  assert (Li : length interacting = length faces) by (clear -I; induction I; cbn; auto).
  destruct (f_intersects_with_objects false p objects cand patch k) as [r|] eqn:R; [|rewrite f_inter_fold in R by lia; discriminate].
  destruct (any_obstruction s p qs objects shapes cand patch k t r E F G ltac:(lia) Z T Ht W1 R) as [O1 O2].
  destruct (any_on_objects s p qs interacting faces k E F I ltac:(lia) W2) as [On1 On2].
  unfold f_is_valid. rewrite R. cbn [rbind]. rewrite all3_exact. eexists. split; [reflexivity|].
  cbn [f_to_b f_not f_less]. rewrite val_ltb, Lo, Bo. cbn [xltb]. rewrite !andb_true_iff, negb_true_iff, Rltb_true. split.
  - intros (H1 & H2 & H3 & _). split; [apply On2; auto|]. split; [auto|]. intro K. apply O1 in K. congruence.
  - intros H1 H2 H3. split; [apply On1; auto|]. split; [destruct (f_to_b r); auto; elim H3; auto|]. auto.
Qed.
Print Assumptions C89_exact_validity_anywhere.

(** A reflection on an oblique wall, with another oblique wall beside it or in the way. *)
Definition any_wall : fwall := mkfwall (f_third, f_zero) (f_int 3, f_third).
Definition any_away : fwall := mkfwall (f_int 3, f_int 1) (f_int 4, f_int 3).
Definition any_across : fwall := mkfwall (f_third, f_int 2) (f_int 2, f_third).
Definition any_path : fpath := mkfpath [(f_third, f_int 1); (f_int 1, f_scaled 1 (-4)); (f_int 2, f_int 1)] f_zero.
Definition any_pts : list (R * R) := [(third, 1); (1, / 16); (2, 1)].
Definition any_faces : list shape2 := [Segment (third, 0) (3, third)].
Definition any_scene1 : list shape2 := [Segment (third, 0) (3, third); Segment (3, 1) (4, 3)].
Definition any_scene2 : list shape2 := [Segment (third, 0) (3, third); Segment (third, 2) (2, third)].

Lemma any_size : ordinary 2 /\ ordinary 4.
Proof.
  split; [|apply ordinary_4]. unfold ordinary. split.
  - apply Rle_trans with (bpow radix2 0); [apply bpow_le; lia|cbn; lra].
  - apply Rle_trans with (bpow radix2 1); [cbn; lra|apply bpow_le; lia].
Qed.
Ltac any_cut L := exists L; (split; [apply any_size|]); unfold close_by, transverse, det, third; cbn [fst snd];
  repeat (split; [split; apply Rabs_le; lra|]); left; first [rewrite Rabs_left by lra; lra | rewrite Rabs_right by lra; lra].
Lemma any_clear : clear_cut (1 / 16) (3, 1) (4, 3) (third, 1) (1, / 16) /\ clear_cut (1 / 16) (3, 1) (4, 3) (1, / 16) (2, 1) /\
  clear_cut (1 / 16) (third, 2) (2, third) (third, 1) (1, / 16) /\ clear_cut (1 / 16) (third, 2) (2, third) (1, / 16) (2, 1).
Proof. split; [any_cut 4|]. split; [any_cut 4|]. split; [any_cut 2|any_cut 2]. Qed.
Lemma any_conditions shapes c d : shapes = [Segment (third, 0) (3, third); Segment c d] ->
  clear_cut (1 / 16) c d (third, 1) (1, / 16) -> clear_cut (1 / 16) c d (1, / 16) (2, 1) ->
  well_conditioned (1 / 16) any_pts shapes [0%Z] any_faces.
Proof.
  intros -> C1 C2. split.
  - intros i j a b p q J I I' N. destruct j as [|[|j]]; cbn in J; [|injection J as <- <-|destruct j; discriminate].
    + exfalso. apply N. destruct i as [|[|i]]; cbn in I'; [left; reflexivity|right; exists 0%nat; split; reflexivity|destruct i; discriminate].
    + destruct i as [|[|i]]; cbn in I, I'; [injection I as <-; injection I' as <-; auto|injection I as <-; injection I' as <-; auto|destruct i; discriminate].
  - intros i a b q I I'. destruct i as [|i]; cbn in I, I'; [|destruct i; discriminate]. injection I as <- <-. injection I' as <-.
    exists 4. split; [apply any_size|]. unfold close_by, third. cbn [fst snd]. repeat (split; [split; apply Rabs_le; lra|]). lra.
Qed.
Example C89_anywhere_ex :
  Forall2 stands_for (f_xys any_path) any_pts /\ Forall2 object_stands_for [FWall any_wall] any_faces /\
  Forall2 object_stands_for [FWall any_wall; FWall any_away] any_scene1 /\ Forall2 object_stands_for [FWall any_wall; FWall any_across] any_scene2 /\
  well_conditioned (1 / 16) any_pts any_scene1 [0%Z] any_faces /\ well_conditioned (1 / 16) any_pts any_scene2 [0%Z] any_faces /\
  points_face_with_margin (1 / 10) any_pts any_faces /\
  obstructed (1 / 10) (9 / 10) any_pts any_scene2 [0%Z] /\
  f_is_valid false any_path [FWall any_wall; FWall any_away] [0%Z] [FWall any_wall] (f_lit 1 100) f_zero default_fkw = Ok (FB true) /\
  f_is_valid false any_path [FWall any_wall; FWall any_across] [0%Z] [FWall any_wall] (f_lit 1 100) f_zero default_fkw = Ok (FB false).
Proof.
  assert (V16 : fval (f_scaled 1 (-4)) = Fin (/ 16)) by (rewrite val_scaled by lia; f_equal; cbn; lra).
  assert (Z : fval f_zero = Fin 0) by apply val_zero.
  assert (SW : object_stands_for (FWall any_wall) (Segment (third, 0) (3, third))).
  { split; split; try apply val_third; try apply Z; apply val_i; lia. }
  split; [|split; [|split; [|split; [|split; [|split; [|split; [|split; [|split]]]]]]]].
  - repeat constructor; try apply val_third; try exact V16; apply val_i; lia.
  - repeat constructor; auto; apply SW.
  - constructor; [exact SW|]. constructor; [|constructor]. repeat split; apply val_i; lia.
  - constructor; [exact SW|]. constructor; [|constructor]. repeat split; try apply val_third; apply val_i; lia.
  - apply (any_conditions _ (3, 1) (4, 3)); auto; apply any_clear.
  - apply (any_conditions _ (third, 2) (2, third)); auto; apply any_clear.
  - intros i a b q I I'. destruct i as [|i]; cbn in I, I'; [|destruct i; discriminate]. injection I as <- <-. injection I' as <-.
    unfold projects_with_margin, third. cbn [fst snd]. lra.
  - exists 1%nat, 1%nat, (third, 2), (2, third), (1, / 16), (2, 1). cbn [nth_error any_scene2 any_pts]. repeat (split; [reflexivity|]). split; [|split].
    + intros [H|(i & H & K)]; [discriminate H|]. injection H as <-. discriminate K.
    + unfold parallel, third. cbn [fst snd]. lra.
    + exists (1375731707 / 1733645643), (42642091 / 65011712). unfold third. cbn [fst snd]. lra.
  - vm_compute. reflexivity.
  - vm_compute. reflexivity.
Qed.
