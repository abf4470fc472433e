(** C96, for a whole scene: the power received by a pair in single precision. *)
From Coq Require Import Reals List Bool ZArith Lra Lia.
From Flocq Require Import Core.Core IEEE754.BinarySingleNaN.
From Verif Require Import Base BaseP LogicM GeometryM OptimizeM PathM CandidatesM SceneM FloatM FloatImageM FloatSceneM SpecGeometry SpecFloat32 SpecGrid SpecImage32 SpecAnywhere SpecAccuracy SpecScene32
  FloatP FloatLogicP FloatCmpP FloatAccP FloatGeomP FloatSegP FloatGridP FloatImageP FloatImageErrP FloatImageLossP FloatAnyP FloatObliqueP FloatShiftP FloatLenP FloatCrossP FloatSceneP PropertiesAnywhere PropertiesOblique.
Import ListNotations.
Open Scope R_scope.
Local Notation length := List.length.

(** A wall that is between the nodes reflects nothing: whatever the objects and the patch,
    the reflection is rejected for its loss, that is above 1. *)
Theorem C96_no_reflection_on_a_wall_between_the_nodes :
  forall L w tx rx a b p r objs i tol patch k tl,
  wall_stands_for w (a, b) -> stands_for tx p -> stands_for rx r -> opposite_sides L a b p r ->
  fval tol = Fin tl -> tl <= 1 ->
  f_is_valid false (f_ImagePath_from tx [w] rx) objs [i] [FWall w] tol patch k = Ok (FB false).
Proof.
  intros L w tx rx a b p r objs i tol patch k tl [Oa Ob] Op Or On Tv T1. cbn [fst snd] in Oa, Ob.
  destruct (opposite_any L w tx rx a b p r Oa Ob Op Or On) as [_ (lo & Lo & Lo1)].
  destruct (one_path tx w rx) as [Xs Ls].
  unfold f_is_valid. rewrite f_inter_fold by (rewrite Xs; cbn; lia). cbn [rbind]. rewrite all3_exact. do 2 f_equal.
  assert (Lt : f_to_b (f_less false (f_loss (f_ImagePath_from tx [w] rx)) tol k) = false).
  { cbn [f_to_b f_less]. rewrite Ls, val_ltb, (zero_add_val _ _ val_zero), Lo, Tv. cbn [xltb]. apply Rltb_false. lra. }
  rewrite Lt, !andb_false_r. reflexivity.
Qed.
Print Assumptions C96_no_reflection_on_a_wall_between_the_nodes.

(** Up to one reflection, in a scene of up to 999 walls, everything in a square of size
    [L].  Each wall has both nodes clearly on the same side, and then its reflection is
    clearly valid or clearly not, or clearly on opposite sides, and then there is none.
    Exactly the valid paths are counted, and the power is right up to a relative error
    (with respect to the power without losses). *)
Theorem C96_power_of_a_scene :
  exists t, Rabs (t - 5 / 1000) <= bpow radix2 (-32) /\
  forall tau s L ws walls tx rx p r qs tol patch k tl r_coef height c h v0 vs acc,
  / 12 <= tau <= 1 -> / 128 <= s -> ordinary (8 * L) ->
  Forall2 wall_stands_for ws walls -> stands_for tx p -> stands_for rx r -> walls <> [] -> (length walls <= 999)%nat ->
  fval patch = Fin 0 -> fval tol = Fin tl -> / 10000000 / (tau * tau * (tau * tau)) < tl <= 1 ->
  fval r_coef = Fin c -> 0 <= c <= 1 -> fval height = Fin h -> / 256 <= h <= 1048576 ->
  (forall a b a' b', In (a, b) walls -> In (a', b') walls -> close_by L a a') ->
  let m := bpow radix2 (-14) / (tau * tau) in
  let M := bpow radix2 (-11) / (tau * s) in
  legs_clear s L [p; r] (segments walls) [] -> settled t m M [p; r] (segments walls) [] [] v0 ->
  length qs = length walls -> length vs = length walls ->
  (forall j a b q v, nth_error walls j = Some (a, b) -> nth_error qs j = Some q -> nth_error vs j = Some v ->
    (one_reflection tau L a b p r /\ reflection_point a b p r q /\
     legs_clear s L [p; q; r] (segments walls) [Z.of_nat j] /\ settled t m M [p; q; r] (segments walls) [Z.of_nat j] [Segment a b] v) \/
    (opposite_sides L a b p r /\ v = false)) ->
  f_accumulated false tx rx ws 0 1 tol patch k r_coef height acc ->
  exists x, fval acc = Fin x /\ 0 <= x /\
    Rabs (x - scene_power c h (scene_paths p r qs) (v0 :: vs)) <=
      (bpow radix2 (-14) / (tau * tau) + bpow radix2 (-21) * (6 + 4 / h) + bpow radix2 (-23) * (INR (length walls) + 1)) *
        scene_power 1 h (scene_paths p r qs) (v0 :: vs).
Proof.
  destruct val_seg_tol as (t & T & Ht & Err). exists t. split; [exact Err|].
  intros tau s L ws walls tx rx p r qs tol patch k tl rc H c h v0 vs acc Et Es HL W Op Or Ne N Z Tv [Tl Tl1] Rc C0 Hv H0 Size m M Cl0 S0 Lq Lv All (terms & F & ->).
  assert (Lw : length ws = length walls) by (clear -W; induction W; cbn; auto).
  assert (Near : forall a b, In (a, b) walls -> one_reflection tau L a b p r \/ opposite_sides L a b p r).
  { intros a b I. apply In_nth_error in I. destruct I as [j J]. assert (Jl : (j < length walls)%nat) by (apply nth_error_Some; congruence).
    destruct (nth_error qs j) as [q|] eqn:Q; [|apply nth_error_None in Q; lia]. destruct (nth_error vs j) as [v|] eqn:V; [|apply nth_error_None in V; lia].
    destruct (All j a b q v J Q V) as [(A & _)|(A & _)]; auto. }
  rewrite Lw, first_candidates in F. inversion F as [|? t0 ? ts F0 Fs]; subst. clear F.
  assert (Lt : length ts = length walls) by (clear -Fs; pose proof (map_length (fun j => [Z.of_nat j]) (seq 0 (length walls))) as A; rewrite seq_length in A; rewrite <- A; symmetry; clear A; induction Fs; cbn; auto).
  destruct (kappa_facts tau h Et H0) as (_ & _ & K).
  assert (G : forall i ts' qs' vs', length qs' = length ts' -> length vs' = length ts' -> Forall2 (f_path_term false tx rx ws tol patch k rc H) (map (fun j => [Z.of_nat j]) (seq i (length ts'))) ts' ->
    (forall n, nth_error qs' n = nth_error qs (i + n)) -> (forall n, nth_error vs' n = nth_error vs (i + n)) ->
    exists paths, Forall2 (fun term pv => good_term c h (kappa tau h) term (fst pv) (snd pv)) ts' (combine paths vs') /\ length paths = length ts' /\
      forall c, map (power_of c h) (combine paths vs') = map (power_of c h) (combine (map (fun q => [p; q; r]) qs') vs')).
  { intros i ts'. revert i. induction ts' as [|t1 ts' IH]; intros i [|q qs'] [|v vs'] L1 L2 G Nq Nv; try discriminate; [exists []; repeat split; constructor|].
    cbn [length seq map] in G. inversion G as [|? ? ? ? G0 G1]; subst.
    pose proof (Nq 0%nat) as Q0. pose proof (Nv 0%nat) as V0. rewrite Nat.add_0_r in Q0, V0. cbn [nth_error] in Q0, V0.
    assert (Hi : (i < length walls)%nat) by (rewrite <- Lq; apply nth_error_Some; congruence).
    destruct (nth_error walls i) as [[a b]|] eqn:Wi; [|apply nth_error_None in Wi; lia]. destruct (nth_error ws i) as [w|] eqn:Wf; [|apply nth_error_None in Wf; lia].
    destruct (IH (S i) qs' vs') as (paths & P1 & P2 & P3); [cbn in L1; lia|cbn in L2; lia|exact G1|intro n; specialize (Nq (S n)); rewrite Nat.add_succ_r in Nq; exact Nq|intro n; specialize (Nv (S n)); rewrite Nat.add_succ_r in Nv; exact Nv|].
    destruct (All i a b q v Wi (eq_sym Q0) (eq_sym V0)) as [(On & Rq & C1 & C2)|(On & ->)].
    - exists ([p; q; r] :: paths). cbn [combine map length]. split; [constructor; auto|].
      + cbn [fst snd]. eapply reflected_term with (tol := tol) (H := H); eauto.
      + split; [lia|]. intro c'. rewrite P3. reflexivity.
    - destruct (opposite_term tau L tx rx p r ws walls tol patch k tl rc H c h Et Op Or W HL Tv Rc C0 Hv H0 Tl1 t1 i w a b Wf Wi On G0) as [q' Gq].
      exists ([p; q'; r] :: paths). cbn [combine map length]. split; [constructor; auto|]. split; [lia|]. intro c'. rewrite P3. reflexivity. }
  destruct (G 0%nat ts qs vs) as (paths & P1 & P2 & P3); [congruence|congruence|rewrite Lt; exact Fs|reflexivity|reflexivity|].
  assert (SP : forall c, scene_power c h ([p; r] :: paths) (v0 :: vs) = scene_power c h (scene_paths p r qs) (v0 :: vs)).
  { intro c'. specialize (P3 c'). unfold scene_power, scene_paths. f_equal. cbn [combine map]. f_equal. exact P3. }
  destruct (sum_accurate c h (kappa tau h) (t0 :: ts) ([p; r] :: paths) (v0 :: vs) C0 ltac:(lra) K ltac:(cbn; lia)) as (x & X & X0 & E).
  - cbn [combine]. constructor; [|exact P1]. cbn [fst snd]. eapply direct_term with (tol := tol) (H := H); eauto.
  - exists x. split; [exact X|]. split; [auto|]. rewrite !SP in E. assert (LN : INR (length (t0 :: ts)) = INR (length walls) + 1) by (cbn [length]; rewrite Lt; apply S_INR).
    rewrite LN in E. exact E.
Qed.
Print Assumptions C96_power_of_a_scene.

(** It always has a value. *)
Lemma sum_exists l : exists x, f_sum l x.
Proof.
  induction l as [|x l [y S]]; [eexists; constructor|]. exists (f_add x y). apply (f_sum_add [x] l); [constructor|auto].
Qed.
Lemma power_exists x n : exists y, f_power x n y.
Proof. induction n as [|n [y P]]; [eexists; constructor|]. exists (f_mul x y). apply (f_power_mul x 1 n); [constructor|auto]. Qed.
Lemma received_exists pts rc H : exists x, f_received_power pts rc H x.
Proof.
  destruct (sum_exists (f_lengths pts)) as [y S]. destruct (power_exists rc (length pts - 2)) as [z P].
  eexists. exists y, z. split; [exact S|]. split; [exact P|reflexivity].
Qed.
Lemma term_exists tx rx ws tol patch k rc H cand :
  cand = [] \/ (exists j, (j < length ws)%nat /\ cand = [Z.of_nat j]) -> exists term, f_path_term false tx rx ws tol patch k rc H cand term.
Proof.
  intro C. assert (I : exists inter, rseq (map (py_index ws) cand) = Ok inter /\ (length (f_xys (f_ImagePath_from tx inter rx)) <= length cand + 2)%nat).
  { destruct C as [->|(j & J & ->)]; [exists []; cbn; auto|]. destruct (nth_error ws j) as [w|] eqn:N; [|apply nth_error_None in N; lia].
    exists [w]. split; [|destruct (one_path tx w rx) as [-> _]; cbn; lia]. cbn [map rseq]. unfold py_index.
    replace (Z.of_nat j <? 0)%Z with false by (symmetry; apply Z.ltb_ge; lia). replace ((0 <=? Z.of_nat j) && (Z.of_nat j <? Z.of_nat (length ws)))%Z%bool with true.
    - rewrite Nat2Z.id, N. reflexivity.
    - symmetry. apply andb_true_intro. split; [apply Z.leb_le; lia|apply Z.ltb_lt; lia]. }
  destruct I as (inter & I & Le). destruct (received_exists (f_xys (f_ImagePath_from tx inter rx)) rc H) as [x P].
  assert (V : exists v, f_is_valid false (f_ImagePath_from tx inter rx) (map FWall ws) cand (map FWall inter) tol patch k = Ok v).
  { unfold f_is_valid. rewrite f_inter_fold by exact Le. cbn [rbind]. eexists. reflexivity. }
  destruct V as [v V]. exists (v, x), inter, v, x. auto.
Qed.
Theorem C96_a_scene_has_a_power :
  forall tx rx ws tol patch k r_coef height, exists acc, f_accumulated false tx rx ws 0 1 tol patch k r_coef height acc.
Proof.
  intros tx rx ws tol patch k rc H. unfold f_accumulated. rewrite first_candidates.
  assert (T : exists terms, Forall2 (f_path_term false tx rx ws tol patch k rc H) ([] :: map (fun j => [Z.of_nat j]) (seq 0 (length ws))) terms).
  { destruct (term_exists tx rx ws tol patch k rc H []) as [t0 T0]; [auto|].
    assert (G : forall l, (forall j, In j l -> (j < length ws)%nat) -> exists ts, Forall2 (f_path_term false tx rx ws tol patch k rc H) (map (fun j => [Z.of_nat j]) l) ts).
    { induction l as [|j l IH]; intro B; [exists []; constructor|]. destruct IH as [ts F]; [intros i J; apply B; right; auto|].
      destruct (term_exists tx rx ws tol patch k rc H [Z.of_nat j]) as [t1 T1]; [right; exists j; split; [apply B; left; auto|auto]|].
      exists (t1 :: ts). constructor; auto. }
    destruct (G (seq 0 (length ws))) as [ts F]; [intros j J; apply in_seq in J; lia|]. exists (t0 :: ts). constructor; auto. }
  destruct T as [terms F]. exists (f_accumulate terms), terms. auto.
Qed.
Print Assumptions C96_a_scene_has_a_power.

(** The node at (1/3, 1) and the one at (2, 1), between the wall from (1/3, 0) to (3, 1/3)
    and the ones from (3, 1) to (4, 3) and from (3/2, 3) to (3/2, 2): the direct path is
    valid and so is the reflection on the first wall; the second one is met beyond its end,
    and the nodes are on opposite sides of the third one. *)
Definition sc_walls : list ((R * R) * (R * R)) := [((third, 0), (3, third)); ((3, 1), (4, 3)); ((3 / 2, 3), (3 / 2, 2))].
Definition sc_upper : fwall := mkfwall (f_scaled 3 (-1), f_int 3) (f_scaled 3 (-1), f_int 2).
Definition sc_image : R * R := (154350387 / 33554432, - 9507089 / 8388608).
Definition sc_point : R * R := (333307357 / 123032917, 51450129 / 123032917).
Lemma sc_reflection : one_reflection (/ 4) 3 (3, 1) (4, 3) (third, 1) (2, 1) /\ reflection_point (3, 1) (4, 3) (third, 1) (2, 1) sc_point.
Proof.
  split.
  - split; [apply any_ordinary'; lra|]. split; [apply any_ordinary'; lra|]. unfold within, close_by. cbn [fst snd].
    repeat (split; [split; apply Rabs_le; unfold third; lra|]). split; [lra|].
    set (l := hyp 1 2). pose proof (hyp_sq 1 2) as Q. fold l in Q. pose proof (hyp_pos 1 2) as P. fold l in P.
    assert (l0 : 0 < l) by nra. assert (l1 : l <= 5 / 2) by nra.
    exists (- 2 / l, 1 / l). unfold height. cbn [fst snd]. split; [|split; [|split]].
    + apply Rmult_eq_reg_r with (l * l); [|nra]. rewrite Rmult_1_l. rewrite Q at 2. field. lra.
    + field. lra.
    + apply Rmult_le_reg_r with l; [auto|]. replace (((third - 3) * (- 2 / l) + (1 - 1) * (1 / l)) * l) with ((third - 3) * - 2) by (field; lra). unfold third. lra.
    + apply Rmult_le_reg_r with l; [auto|]. replace (((2 - 3) * (- 2 / l) + (1 - 1) * (1 / l)) * l) with 2 by (field; lra). lra.
  - split; [unfold det, sc_point; cbn [fst snd]; lra|]. exists sc_image, (1 - 33554432 / 123032917). split; [unfold mirror_image, det, sc_image, third; cbn [fst snd]; split; lra|].
    unfold between, sc_point, sc_image. cbn [fst snd]. f_equal; lra.
Qed.
Example sc_opposite : opposite_sides 3 (3 / 2, 3) (3 / 2, 2) (third, 1) (2, 1).
Proof.
  split; [apply any_ordinary'; lra|]. split; [apply any_ordinary'; lra|]. unfold within, close_by. cbn [fst snd].
  repeat (split; [split; apply Rabs_le; unfold third; lra|]). split; [lra|].
  exists (-1, 0). unfold height, third. cbn [fst snd]. repeat split; try lra. rewrite Rabs_right; lra.
Qed.
Ltac sc_spans := unfold transverse, det, any_point, sc_point, third; cbn [fst snd]; first [rewrite Rabs_left by lra; lra | rewrite Rabs_right by lra; lra].
Ltac sc_legs := intros i j a b p q J I I' N; left; destruct j as [|[|[|j]]]; cbn in J;
  [injection J as <- <-|injection J as <- <-|injection J as <- <-|destruct j; discriminate]; destruct i as [|[|i]]; cbn in I, I'; try (destruct i; discriminate); try discriminate;
  injection I as <-; injection I' as <-;
  solve [exfalso; apply N; first [left; reflexivity | right; exists 0%nat; split; reflexivity] | sc_spans].
Ltac sc_free := intros (i & j & a & b & p & q & J & P & Q & T & N & u & v & S1 & S2 & E1 & E2);
  destruct j as [|[|[|j]]]; cbn in J; [injection J as <- <-|injection J as <- <-|injection J as <- <-|destruct j; discriminate]; destruct i as [|[|i]]; cbn in P, Q; try (destruct i; discriminate); try discriminate;
  injection P as <-; injection Q as <-;
  solve [apply T; first [left; reflexivity | right; exists 0%nat; split; reflexivity] | unfold any_point, third in *; cbn [fst snd] in *; lra].
Example C96_power_ex :
  Forall2 wall_stands_for [any_wall; any_away; sc_upper] sc_walls /\ stands_for (f_third, f_int 1) (third, 1) /\ stands_for (f_int 2, f_int 1) (2, 1) /\ ordinary (8 * 3) /\
  (exists tl, fval (f_lit 1 100) = Fin tl /\ / 10000000 / (/ 4 * / 4 * (/ 4 * / 4)) < tl <= 1) /\ (exists c, fval (f_lit 1 2) = Fin c /\ 0 <= c <= 1) /\
  (forall a b a' b', In (a, b) sc_walls -> In (a', b') sc_walls -> close_by 3 a a') /\
  (forall t, Rabs (t - 5 / 1000) <= bpow radix2 (-32) ->
   forall j a b q v, nth_error sc_walls j = Some (a, b) -> nth_error [any_point; sc_point; (0, 0)] j = Some q -> nth_error [true; false; false] j = Some v ->
    (one_reflection (/ 4) 3 a b (third, 1) (2, 1) /\ reflection_point a b (third, 1) (2, 1) q /\ legs_clear (/ 33) 3 [(third, 1); q; (2, 1)] (segments sc_walls) [Z.of_nat j] /\
     settled t (bpow radix2 (-14) / (/ 4 * / 4)) (bpow radix2 (-11) / (/ 4 * / 33)) [(third, 1); q; (2, 1)] (segments sc_walls) [Z.of_nat j] [Segment a b] v) \/
    (opposite_sides 3 a b (third, 1) (2, 1) /\ v = false)) /\
  legs_clear (/ 33) 3 [(third, 1); (2, 1)] (segments sc_walls) [] /\
  (forall t, Rabs (t - 5 / 1000) <= bpow radix2 (-32) ->
   settled t (bpow radix2 (-14) / (/ 4 * / 4)) (bpow radix2 (-11) / (/ 4 * / 33)) [(third, 1); (2, 1)] (segments sc_walls) [] [] true).
Proof.
  assert (Z : fval f_zero = Fin 0) by apply val_zero.
  assert (U : fval (f_scaled 3 (-1)) = Fin (3 / 2)) by (rewrite val_scaled by lia; f_equal; cbn; lra).
  split; [repeat constructor; try apply val_third; try apply Z; try exact U; apply val_i; lia|]. split; [split; [apply val_third|apply val_i; lia]|]. split; [split; apply val_i; lia|].
  split; [apply any_ordinary'; lra|]. split; [destruct (C96_default_tolerance_anywhere (/ 4)) as (tl & V & B); [lra|]; exists tl; split; [exact V|split; [exact B|]]|].
  { rewrite val_lit in V by (cbn; lia). injection V as <-.
    assert (K : Rabs (rnd (1 * / 100) - 1 * / 100) <= bpow radix2 (-6 - 25)) by (apply rnd_err; [lia|]; rewrite Rabs_pos_eq by lra; cbn; lra).
    assert (K2 : bpow radix2 (-6 - 25) <= / 1000000) by (cbn; lra). apply Rabs_le_inv in K. lra. }
  split; [exists (/ 2); split; [rewrite (fval_of_SF _ false 8388608 (-24)) by (vm_compute; reflexivity); f_equal; cbn; lra|lra]|].
  split; [intros a b a' b' [I|[I|[I|[]]]] [J|[J|[J|[]]]]; injection I as <- <-; injection J as <- <-; unfold close_by, third; cbn [fst snd]; split; apply Rabs_le; lra|].
  assert (Bounds : forall t, Rabs (t - 5 / 1000) <= bpow radix2 (-32) -> 0 <= t <= 6 / 1000).
  { intros t Ht. apply Rabs_le_inv in Ht. assert (bpow radix2 (-32) <= / 1000) by (cbn; lra). lra. }
  set (m := bpow radix2 (-14) / (/ 4 * / 4)). set (M := bpow radix2 (-11) / (/ 4 * / 33)).
  assert (Bm : 0 < m <= / 500) by (unfold m; cbn; lra). assert (BM : 0 < M <= 7 / 100) by (unfold M; cbn; lra).
  split; [|split].
  - intros t Ht j a b q v A B C. apply Bounds in Ht. destruct j as [|[|[|j]]]; cbn [nth_error] in A, B, C; [| | |destruct j; discriminate];
      injection A as <- <-; injection B as <-; injection C as <-.
    + left. split; [apply any_reflection|]. split; [apply any_reflection|]. split; [sc_legs|]. cbn [settled]. split.
      * intros i a b q I I'. destruct i as [|i]; cbn in I, I'; [|destruct i; discriminate]. injection I as <- <-. injection I' as <-.
        unfold projects_with_margin, any_point, third in *. cbn [fst snd]. lra.
      * intro O. assert (K : obstructed (- (1 / 10)) (11 / 10) [(third, 1); any_point; (2, 1)] (segments sc_walls) [0%Z]) by (eapply obstructed_wider; [| |exact O]; lra). revert K. sc_free.
    + left. split; [apply sc_reflection|]. split; [apply sc_reflection|]. split; [sc_legs|]. cbn [settled]. left.
      intro P. specialize (P 0%nat (3, 1) (4, 3) sc_point eq_refl eq_refl). unfold projects_with_margin, sc_point in P. cbn [fst snd] in P. lra.
    + right. split; [apply sc_opposite|reflexivity].
  - sc_legs.
  - intros t Ht. apply Bounds in Ht. cbn [settled].
    split; [intros i a b q J; destruct i; discriminate|]. intro O. assert (K : obstructed (- (1 / 10)) (11 / 10) [(third, 1); (2, 1)] (segments sc_walls) []) by (eapply obstructed_wider; [| |exact O]; lra). revert K. sc_free.
Qed.
