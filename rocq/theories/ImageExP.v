(** Consequences for validity, completeness of the image method, and examples. *)
From Coq Require Import Reals List Bool Lra Psatz ZArith Lia.
From Verif Require Import Base BaseP LogicM SpecLogic LogicP GeometryM SpecGeometry SegP VecP WallP
  OptimizeM PathM SpecPath PathP PathSmoothP PathShapeP SpecImage ImageP.
Import ListNotations.
Open Scope R_scope.

Lemma valid_loss g p objects cand interacting tol patch k : 
  is_valid g p objects cand interacting tol patch (Some false) k = Ok (TB true) -> loss_below (loss p) tol.
Proof.
  unfold is_valid. destruct (intersects_with_objects g p objects cand patch (Some false) k) as [t|] eqn:E; cbn [rbind]; [|discriminate].
  destruct (less_exact g (loss p) tol k) as (b3 & E3 & H3). rewrite E3. cbn.
  intro H. apply H3. destruct b3; auto. exfalso.
  assert (X : forall a b : bool, (a && (b && (false && true)))%bool = false) by (intros; rewrite !andb_false_r; auto).
  revert H. match goal with |- Ok (TB ?b) = _ -> _ => replace b with false; [discriminate|] end.
  rewrite ?andb_false_r. cbn. rewrite ?andb_false_r. reflexivity.
Qed.
Lemma C35_invalid tx ws rx p imgs i w I B :
  ImagePath_from tx (map OWall ws) rx = Ok p -> image_chain tx (map OWall ws) imgs ->
  nth_error ws i = Some w -> nth_error imgs (S i) = Some I -> nth_error (xys p) (S (S i)) = Some B ->
  parallel (w_origin w) (w_dest w) I B -> tx <> rx ->
  forall g objects cand interacting tol patch k, tol <= 1 ->
  is_valid g p objects cand interacting tol patch (Some false) k <> Ok (TB true).
Proof.
  intros HP HC Hw HI HB HPar N g objects cand interacting tol patch k T V.
  apply valid_loss in V. destruct (C35_lemma _ _ _ _ _ _ _ _ _ HP HC Hw HI HB HPar) as [_ [(l & E & L)|[F _]]].
  - rewrite E in V. cbn in V. lra.
  - apply N. destruct (image_path_walls _ _ _ _ HP) as [X _].
    rewrite Forall_forall in F. apply F. rewrite X. apply (nth_error_In _ (S (length ws))).
    rewrite pt_nth by lia. f_equal. apply pt_last.
Qed.

(** ** A valid image path is physical *)
Lemma projects_on_segment w q : proper w -> side w q = 0 -> (exists t, 0 <= t <= 1 /\ projects_at w q t) ->
  on_segment (w_origin w) (w_dest w) q.
Proof.
  intros H S (t & Ht & P). apply on_line_side in S; auto. destruct S as [t' ->].
  exists t'. split; auto. assert (t' = t); [|subst; auto].
  unfold projects_at, at_ in P. cbn [fst snd] in P. fold (tvx w) (tvy w) in P.
  pose proof (proper_len w H) as L. rewrite len2_eq in L.
  assert (E : (t' - t) * (tvx w * tvx w + tvy w * tvy w) = 0) by (rewrite <- P; ring).
  apply Rmult_integral in E. lra.
Qed.
Lemma C63_lemma g tx ws rx p objects cand tol patch k :
  ImagePath_from tx (map OWall ws) rx = Ok p -> general_position tx ws (xys p) ->
  length cand = length ws -> 0 < tol <= 4 ->
  is_valid g p objects cand (map OWall ws) tol patch (Some false) k = Ok (TB true) ->
  (forall i w A Q B, nth_error ws i = Some w -> nth_error (xys p) i = Some A ->
     nth_error (xys p) (S i) = Some Q -> nth_error (xys p) (S (S i)) = Some B ->
     on_segment (w_origin w) (w_dest w) Q /\ same_side w A B /\
     forall u v, is_direction (vsub Q A) u -> is_direction (vsub B Q) v -> specular w u v) /\
  ~ obstructed (xys p) objects cand patch (5 / 1000) /\
  forall pts, visits tx ws rx pts -> polyline (xys p) <= polyline pts.
Proof.
  intros HP HG LC HT V. destruct (image_path_walls _ _ _ _ HP) as [X L].
  assert (LP : length (xys p) = (length ws + 2)%nat) by (rewrite X; apply pts_length).
  destruct (C38_lemma g p objects cand (map OWall ws) tol patch k) as (b & Eb & Hb).
  { lia. } { rewrite map_length. lia. }
  rewrite V in Eb. injection Eb as <-. destruct (proj1 Hb eq_refl) as (H1 & H2 & H3). clear Hb V.
  pose proof (proj1 (C32_test tx ws rx p tol HP HG HT) H1) as T. split; [|split; [exact H3|]].
  - rewrite X in *. apply gp_iff in HG. intros i w A Q B Hw HA HQ HB.
    assert (Hi : (i < length ws)%nat) by (apply nth_error_Some; congruence).
    destruct (gp_step tx ws rx i w HG Hw) as (PW & SA & SB & EV).
    destruct (pt_fixed tx ws rx i w HG Hw) as [SQ _].
    pose proof (proj1 (true_refl_side tx ws rx i w Hw) (T i w Hw)) as SS.
    rewrite pt_nth in HA by lia. rewrite pt_nth in HB by lia.
    assert (HQ' := HQ). rewrite pt_nth in HQ' by lia.
    injection HA as <-. injection HB as <-. injection HQ' as <-.
    split; [|split].
    + apply projects_on_segment; auto. apply (H2 i (OWall w) w); auto. rewrite nth_error_map, Hw. reflexivity.
    + exact SS.
    + intros u v Hu Hv. apply (evaluate_zero w _ _ _ u v PW Hu Hv). rewrite EV.
      destruct (Rlt_dec _ _); auto. contradiction.
  - destruct (proj1 (chain_eq tx (map OWall ws) ws (imgs_of tx ws) (as_walls_map ws))) as [].
    { apply chain_eq with (ws := ws); [apply as_walls_map|reflexivity]. }
    apply (C33_lemma tx ws rx p (imgs_of tx ws) (img tx ws (length ws))); auto.
    + apply chain_eq with (ws := ws); [apply as_walls_map|reflexivity].
    + apply img_nth. lia.
Qed.

(** ** Completeness: every specular polyline is found *)
Definition prow (tx : vec) (qs : list vec) (rx : vec) (i : nat) : vec := row (tx :: qs ++ [rx]) i.
Lemma direction_exists v : exists u, is_direction v u.
Proof. exists (fst (normalize v)). apply normalize_direction. Qed.
Lemma C64_lemma tx ws rx p pts :
  ImagePath_from tx (map OWall ws) rx = Ok p -> visits tx ws rx pts ->
  (forall i w A Q B, nth_error ws i = Some w -> nth_error pts i = Some A ->
     nth_error pts (S i) = Some Q -> nth_error pts (S (S i)) = Some B ->
     side_of w A <> 0 /\ Q <> B /\
     forall u v, is_direction (vsub Q A) u -> is_direction (vsub B Q) v -> specular w u v) ->
  xys p = pts /\ loss p = Fin 0.
Proof.
  intros HP (qs & EP & F) HS. destruct (image_path_walls _ _ _ _ HP) as [X L]. rewrite L, X. clear HP X L.
  pose proof (Forall2_len _ _ _ F) as LQ.
  assert (LP : length pts = (length ws + 2)%nat) by (subst pts; cbn; rewrite app_length; cbn; lia).
  assert (R0 : row pts 0 = tx) by (apply row_some; subst pts; reflexivity).
  assert (RN : row pts (S (length ws)) = rx).
  { apply row_some. subst pts. cbn [nth_error]. rewrite nth_error_app2 by lia. rewrite LQ, Nat.sub_diag. reflexivity. }
  assert (ON : forall i w, nth_error ws i = Some w -> on_line (w_origin w) (w_dest w) (row pts (S i))).
  { intros i w Hw. assert (Hi : (i < length ws)%nat) by (apply nth_error_Some; congruence).
    destruct (nth_error qs i) as [q|] eqn:Eq; [|apply nth_error_None in Eq; lia].
    replace (row pts (S i)) with q; [apply (Forall2_nth _ _ _ F i); auto|].
    symmetry. apply row_some. subst pts. cbn [nth_error]. rewrite nth_error_app1 by lia. auto. }
  assert (HS' : forall i w, nth_error ws i = Some w ->
    proper w /\ side w (row pts i) <> 0 /\ row pts (S i) <> row pts (S (S i)) /\
    wall_evaluate w (row pts i) (row pts (S i)) (row pts (S (S i))) = 0 /\
    exists l, 0 < l /\ vsub (row pts (S (S i))) (row pts (S i)) = vscale l (mir w (vsub (row pts (S i)) (row pts i)))).
  { intros i w Hw. assert (Hi : (i < length ws)%nat) by (apply nth_error_Some; congruence).
    destruct (HS i w (row pts i) (row pts (S i)) (row pts (S (S i)))) as (S1 & S2 & S3); auto;
      try (apply row_nth; lia).
    assert (PW : proper w) by (eapply side_proper; exact S1).
    destruct (direction_exists (vsub (row pts (S i)) (row pts i))) as [u Hu].
    destruct (direction_exists (vsub (row pts (S (S i))) (row pts (S i)))) as [v Hv].
    pose proof (S3 u v Hu Hv) as SP. repeat (split; [assumption|]).
    split; [apply (evaluate_zero w _ _ _ u v PW Hu Hv); auto|].
    apply mir_specular in SP; auto. subst v.
    destruct Hv as [[Z _]|[U (lb & Hlb & Eb)]].
    { exfalso. apply S2. symmetry. apply vsub_zero. auto. }
    destruct Hu as [[Z _]|[U' (la & Hla & Ea)]].
    { exfalso. apply S1. apply (proj1 (vsub_zero _ _)) in Z. rewrite <- Z. apply on_line_side; auto. }
    exists (lb / la). split; [apply Rdiv_lt_0_compat; auto|]. rewrite Eb, Ea.
    change (la * fst u, la * snd u) with (vscale la u).
    assert (M : mir w (vscale la u) = vscale la (mir w u)) by (unfold mir, vsub, vscale, dot; apply vec_eq; cbn; ring).
    rewrite M. unfold vscale. apply vec_eq; cbn [fst snd]; field; lra. }
  assert (LN : forall k, (k <= length ws)%nat -> exists s, 0 <= s < 1 /\ row pts k = at_ (img tx ws k) (row pts (S k)) s).
  { induction k as [|k IH]; intro K.
    - exists 0. split; [lra|]. rewrite at_zero, R0, img_0. reflexivity.
    - destruct IH as (s & Hs & Es); [lia|].
      destruct (nth_error ws k) as [w|] eqn:Ew; [|apply nth_error_None in Ew; lia].
      destruct (HS' k w Ew) as (PW & SA & NB & _ & l & Hl & El). pose proof (ON k w Ew) as OQ.
      pose proof (on_line_fixed w _ OQ) as FQ.
      rewrite (img_S tx ws k w Ew).
      set (Q := row pts (S k)) in *. set (A := row pts k) in *. set (B := row pts (S (S k))) in *.
      set (I := img tx ws k) in *. set (J := image_of w I).
      assert (QJ : vsub Q J = mir w (vsub Q I)) by (rewrite <- FQ at 1; apply image_vsub).
      assert (QA : vsub Q A = vscale (1 - s) (vsub Q I)).
      { rewrite Es. unfold vsub, vscale, at_. apply vec_eq; cbn; ring. }
      assert (M : mir w (vscale (1 - s) (vsub Q I)) = vscale (1 - s) (mir w (vsub Q I)))
        by (unfold mir, vsub, vscale, dot; apply vec_eq; cbn; ring).
      rewrite QA, M, <- QJ in El.
      assert (E1 := f_equal fst El). assert (E2 := f_equal snd El). unfold vsub, vscale in E1, E2. cbn [fst snd] in E1, E2.
      set (m := l * (1 - s)) in *. assert (Hm : 0 < m) by (unfold m; apply Rmult_lt_0_compat; lra).
      exists (1 / (1 + m)). split.
      + split; [apply Rlt_le, Rdiv_lt_0_compat; lra|]. apply (Rmult_lt_reg_r (1 + m)); [lra|].
        unfold Rdiv. rewrite Rmult_assoc, Rinv_l by lra. lra.
      + clearbody Q J B. apply vec_eq; rewrite ?at_fst, ?at_snd; apply (Rmult_eq_reg_r (1 + m)); try lra.
        * transitivity (fst Q + m * (fst Q - fst J) + m * fst J); [ring|].
          replace (m * (fst Q - fst J)) with (fst B - fst Q) by (rewrite E1; unfold m; ring). 
          field_simplify; [lra|lra].
        * transitivity (snd Q + m * (snd Q - snd J) + m * snd J); [ring|].
          replace (m * (snd Q - snd J)) with (snd B - snd Q) by (rewrite E2; unfold m; ring).
          field_simplify; [lra|lra]. }
  assert (EQ : image_points tx ws rx = pts).
  { assert (P : forall d k, (k + d = S (length ws))%nat -> (1 <= k)%nat -> pt tx ws rx k = row pts k).
    { induction d as [|d IH]; intros k E K1.
      - replace k with (S (length ws)) by lia. rewrite pt_last, RN. reflexivity.
      - destruct k as [|k]; [lia|]. 
        destruct (nth_error ws k) as [w|] eqn:Ew; [|apply nth_error_None in Ew; lia].
        rewrite (pt_S tx ws rx k w Ew), (IH (S (S k))) by lia.
        destruct (HS' k w Ew) as (PW & SA & NB & _). pose proof (ON k w Ew) as OQ. apply on_line_side in OQ; auto.
        destruct (LN k ltac:(lia)) as (s0 & Hs0 & Es0). destruct (LN (S k) ltac:(lia)) as (s & Hs & Es).
        assert (SI : side w (img tx ws (S k)) <> 0).
        { rewrite (img_S tx ws k w Ew), side_image by auto. intro Z. apply SA. rewrite Es0, side_at, OQ.
          replace (side w (img tx ws k)) with 0 by lra. ring. }
        symmetry. apply backward_unique; auto.
        + rewrite Es. unfold col, cross, vsub, at_. cbn [fst snd]. ring.
        + intro Z. apply SI. rewrite Es, side_at, <- Z in OQ. lra. }
    apply nth_error_ext'. intro i. destruct (Nat.le_gt_cases i (S (length ws))) as [H|H].
    - rewrite pt_nth, row_nth by lia. f_equal. destruct i as [|i]; [rewrite pt_0, R0; auto|].
      apply (P (length ws - i)%nat); lia.
    - transitivity (@None vec); [|symmetry]; apply nth_error_None; rewrite ?pts_length; lia. }
  split; auto. rewrite EQ. f_equal. rewrite path_loss_eq. apply sumR_all0. intros y Hy.
  apply In_nth_error in Hy. destruct Hy as [j Hj]. rewrite evals_nth, nth_error_map in Hj.
  destruct (nth_error ws j) as [v|] eqn:Ej; cbn [option_map] in Hj; [|discriminate].
  cbn [obj_evaluate] in Hj. rewrite Nat.add_1_r in Hj. replace (j + 2)%nat with (S (S j)) in Hj by lia.
  destruct (HS' j v Ej) as (_ & _ & _ & Z & _). congruence.
Qed.

(** ** Examples *)
Lemma image_known w a b : mirrored w a b -> image_of w a = b.
Proof. intro H. symmetry. apply mirrored_eq. auto. Qed.
Ltac proper_tac := let H := fresh in intro H; injection H; lra.
Lemma img_h x y : image_of (mkwall (0, 0) (2, 0)) (x, y) = (x, - y).
Proof.
  apply image_known. left. split; [proper_tac|]. cbn [fst snd w_origin w_dest]. split; [|ring].
  exists (x / 2). unfold at_. apply vec_eq; cbn; field.
Qed.
Lemma img_v x y : image_of (mkwall (3, 0) (3, 4)) (x, y) = (6 - x, y).
Proof.
  apply image_known. left. split; [proper_tac|]. cbn [fst snd w_origin w_dest]. split; [|ring].
  exists (y / 4). unfold at_. apply vec_eq; cbn; field.
Qed.
Ltac side_num := unfold side, cross, wall_t, dest, origin, vsub; cbn [fst snd w_origin w_dest]; lra.
Lemma points_one tx w rx : image_points tx [w] rx = [tx; backward rx (w, image_of w tx); rx].
Proof. reflexivity. Qed.
Lemma points_two tx w1 w2 rx : image_points tx [w1; w2] rx =
  let I1 := image_of w1 tx in let I2 := image_of w2 I1 in let Q2 := backward rx (w2, I2) in
  [tx; backward Q2 (w1, I1); Q2; rx].
Proof. reflexivity. Qed.
Lemma two_wall_points : image_points (1, 1) [mkwall (0, 0) (2, 0); mkwall (3, 0) (3, 4)] (2, 3) =
  [(1, 1); (7 / 4, 0); (3, 5 / 3); (2, 3)].
Proof.
  rewrite points_two. cbn zeta. rewrite img_h, img_v.
  assert (E2 : backward (2, 3) (@pair wall vec (mkwall (3, 0) (3, 4)) (6 - 1, - (1))) = (3, 5 / 3)).
  { symmetry. apply backward_unique; [side_num|unfold col, cross, vsub; cbn; lra|side_num]. }
  rewrite E2.
  assert (E1 : backward (3, 5 / 3) (@pair wall vec (mkwall (0, 0) (2, 0)) (1, - (1))) = (7 / 4, 0)).
  { symmetry. apply backward_unique; [side_num|unfold col, cross, vsub; cbn; lra|side_num]. }
  rewrite E1. reflexivity.
Qed.
Lemma two_wall_chain imgs : image_chain (1, 1) (map OWall [mkwall (0, 0) (2, 0); mkwall (3, 0) (3, 4)]) imgs ->
  imgs = [(1, 1); (1, - (1)); (6 - 1, - (1))].
Proof.
  intro H. apply (chain_eq _ _ [mkwall (0, 0) (2, 0); mkwall (3, 0) (3, 4)]) in H; [|reflexivity].
  subst. unfold imgs_of. cbn [images]. rewrite img_h, img_v. reflexivity.
Qed.
Lemma two_walls_example :
  exists p, ImagePath_from (1, 1) (map OWall [mkwall (0, 0) (2, 0); mkwall (3, 0) (3, 4)]) (2, 3) = Ok p /\
  xys p = [(1, 1); (7 / 4, 0); (3, 5 / 3); (2, 3)] /\
  general_position (1, 1) [mkwall (0, 0) (2, 0); mkwall (3, 0) (3, 4)] (xys p) /\
  (forall i w, nth_error [mkwall (0, 0) (2, 0); mkwall (3, 0) (3, 4)] i = Some w -> true_reflection (xys p) i w).
Proof.
  eexists. split; [apply image_from_ok|]. cbn [xys]. rewrite two_wall_points. split; [reflexivity|]. split; [split|].
  - intros imgs i w I B HC Hw HI HB. apply two_wall_chain in HC. subst imgs.
    destruct i as [|[|i]]; cbn in Hw; [| |destruct i; discriminate];
      injection Hw as <-; cbn in HI, HB; injection HI as <-; injection HB as <-; unfold parallel; cbn; lra.
  - apply consecutive_nth. intros [|[|[|[|i]]]] a b Ha Hb; cbn in Ha, Hb; try (destruct i; discriminate); try discriminate;
      injection Ha as <-; injection Hb as <-; intro X; injection X; lra.
  - intros [|[|i]] w Hw; cbn in Hw; [| |destruct i; discriminate]; injection Hw as <-;
      eexists; eexists; (split; [reflexivity|]); (split; [reflexivity|]); unfold same_side, side_of; cbn; lra.
Qed.
(** The path crosses the wall: loss 4. *)
Lemma crossing_example :
  exists p, ImagePath_from (0, 1) (map OWall [mkwall (0, 0) (2, 0)]) (2, - 3) = Ok p /\
  xys p = [(0, 1); (- 1, 0); (2, - 3)] /\
  general_position (0, 1) [mkwall (0, 0) (2, 0)] (xys p) /\
  crossing (xys p) 0 (mkwall (0, 0) (2, 0)).
Proof.
  assert (P : image_points (0, 1) [mkwall (0, 0) (2, 0)] (2, - 3) = [(0, 1); (- 1, 0); (2, - 3)]).
  { rewrite points_one. rewrite img_h.
    assert (E : backward (2, - 3) (@pair wall vec (mkwall (0, 0) (2, 0)) (0, - (1))) = (- 1, 0)).
    { symmetry. apply backward_unique; [side_num|unfold col, cross, vsub; cbn; lra|side_num]. }
    rewrite E. reflexivity. }
  eexists. split; [apply image_from_ok|]. cbn [xys]. rewrite P. split; [reflexivity|]. split; [split|].
  - intros imgs i w I B HC Hw HI HB.
    apply (chain_eq _ _ [mkwall (0, 0) (2, 0)]) in HC; [|reflexivity]. subst imgs. unfold imgs_of in HI. cbn [images] in HI.
    rewrite img_h in HI.
    destruct i as [|i]; cbn in Hw; [|destruct i; discriminate].
    injection Hw as <-; cbn in HI, HB; injection HI as <-; injection HB as <-; unfold parallel; cbn; lra.
  - apply consecutive_nth. intros [|[|[|i]]] a b Ha Hb; cbn in Ha, Hb; try (destruct i; discriminate); try discriminate;
      injection Ha as <-; injection Hb as <-; intro X; injection X; lra.
  - eexists; eexists; (split; [reflexivity|]); (split; [reflexivity|]); unfold opposite_sides, side_of; cbn; lra.
Qed.
(** A degenerate step with loss 1, and the collapse on a zero-length wall. *)
Lemma degenerate_example :
  exists p, ImagePath_from (0, 1) (map OWall [mkwall (0, 0) (2, 0)]) (5, - 1) = Ok p /\
  xys p = [(0, 1); (5, - 1); (5, - 1)] /\ loss p = Fin 1 /\
  parallel (0, 0) (2, 0) (0, - 1) (5, - 1).
Proof.
  assert (P : image_points (0, 1) [mkwall (0, 0) (2, 0)] (5, - 1) = [(0, 1); (5, - 1); (5, - 1)]).
  { rewrite points_one. rewrite img_h.
    rewrite backward_degenerate; [reflexivity|]. side_num. }
  eexists. split; [apply image_from_ok|]. cbn [xys loss]. rewrite P. split; [reflexivity|]. split.
  - f_equal. rewrite path_loss_eq. unfold evals, enumerate, sumR. cbn [length map seq combine fold_right ev fst snd obj_evaluate].
    change (row [(0, 1); (5, - (1)); (5, - (1))] 0) with (0, 1).
    change (row [(0, 1); (5, - (1)); (5, - (1))] (0 + 1)) with (5, - (1)).
    change (row [(0, 1); (5, - (1)); (5, - (1))] (0 + 2)) with (5, - (1)).
    rewrite evaluate_repeat_next. destruct (Req_EM_T _ 0) as [Z|Z]; [|ring].
    apply dist_zero in Z. injection Z. lra.
  - unfold parallel. cbn. lra.
Qed.
Lemma collapse_example w q : ~ proper w ->
  exists p, ImagePath_from q (map OWall [w]) q = Ok p /\ xys p = [q; q; q] /\ loss p = Fin 0.
Proof.
  intro H. assert (P : image_points q [w] q = [q; q; q]).
  { rewrite points_one.
    rewrite backward_degenerate; [reflexivity|]. rewrite !side_improper; auto. }
  eexists. split; [apply image_from_ok|]. cbn [xys loss]. rewrite P. split; [reflexivity|].
  f_equal. rewrite path_loss_eq. unfold evals, enumerate, sumR. cbn [length map seq combine fold_right ev fst snd obj_evaluate].
  change (row [q; q; q] 0) with q. change (row [q; q; q] (0 + 1)) with q. change (row [q; q; q] (0 + 2)) with q.
  rewrite evaluate_repeat_next. destruct (Req_EM_T _ 0) as [Z|Z]; [ring|]. exfalso. apply Z, dist_refl.
Qed.
Lemma two_walls_valid : forall g k,
  let ws := [mkwall (0, 0) (2, 0); mkwall (3, 0) (3, 4)] in
  exists p, ImagePath_from (1, 1) (map OWall ws) (2, 3) = Ok p /\ general_position (1, 1) ws (xys p) /\
  is_valid g p (map OWall ws) [0%Z; 1%Z] (map OWall ws) DEFAULT_TOL DEFAULT_PATCH (Some false) k = Ok (TB true).
Proof.
  intros g k ws. destruct two_walls_example as (p & HP & X & G & T). fold ws in HP, G, T. exists p. split; auto. split; auto.
  destruct (C38_lemma g p (map OWall ws) [0%Z; 1%Z] (map OWall ws) DEFAULT_TOL DEFAULT_PATCH k) as (b & Eb & Hb).
  { rewrite X. cbn. lia. } { rewrite X. cbn. lia. }
  rewrite Eb. f_equal. f_equal. apply Hb. split; [|split].
  - apply (C32_test _ _ _ _ DEFAULT_TOL HP G); [unfold DEFAULT_TOL; lra|auto].
  - rewrite X. intros i o w q Ho Hw Hq. destruct i as [|[|i]]; cbn in Ho; [| |destruct i; discriminate];
      injection Ho as <-; cbn in Hw; injection Hw as <-; cbn in Hq; injection Hq as <-.
    + exists (7 / 8). split; [lra|]. unfold projects_at, at_. cbn. lra.
    + exists (5 / 12). split; [lra|]. unfold projects_at, at_. cbn. lra.
  - rewrite X. unfold DEFAULT_PATCH. intros (i & j & A & B & o & w & [HA HB] & Ho & Hw & NT & NP & s & t & M & Hs & Ht).
    unfold SEG_TOL in *.
    destruct j as [|[|j]]; cbn in Ho; [| |destruct j; discriminate]; injection Ho as <-; cbn in Hw; injection Hw as <-;
      destruct i as [|[|[|i]]]; cbn in HA, HB; try discriminate; try (destruct i; discriminate);
      injection HA as <-; injection HB as <-;
      try (apply NT; left; reflexivity); try (apply NT; right; eexists; split; reflexivity);
      unfold meet_at, at_ in M; cbn [fst snd w_origin w_dest] in M; injection M as M1 M2; lra.
Qed.
Lemma two_walls_specular :
  let ws := [mkwall (0, 0) (2, 0); mkwall (3, 0) (3, 4)] in
  let pts := [(1, 1); (7 / 4, 0); (3, 5 / 3); (2, 3)] in
  visits (1, 1) ws (2, 3) pts /\
  (forall i w A Q B, nth_error ws i = Some w -> nth_error pts i = Some A ->
     nth_error pts (S i) = Some Q -> nth_error pts (S (S i)) = Some B ->
     side_of w A <> 0 /\ Q <> B /\
     forall u v, is_direction (vsub Q A) u -> is_direction (vsub B Q) v -> specular w u v).
Proof.
  intros ws pts. destruct two_walls_example as (p & HP & X & G & T). fold ws in HP, G, T. fold pts in X.
  destruct (two_walls_valid false default_akw) as (p' & HP' & _ & V). fold ws in HP', V.
  rewrite HP in HP'. injection HP' as <-.
  split.
  - exists [(7 / 4, 0); (3, 5 / 3)]. split; [reflexivity|]. constructor; [|constructor; [|constructor]].
    + exists (7 / 8). unfold at_. cbn. f_equal; lra.
    + exists (5 / 12). unfold at_. cbn. f_equal; lra.
  - rewrite <- X. intros i w A Q B Hw HA HQ HB.
    assert (HT : 0 < DEFAULT_TOL <= 4) by (unfold DEFAULT_TOL; lra).
    destruct (C63_lemma false (1, 1) ws (2, 3) p (map OWall ws) [0%Z; 1%Z] DEFAULT_TOL DEFAULT_PATCH default_akw HP G eq_refl HT V) as (H & _ & _).
    destruct (H i w A Q B Hw HA HQ HB) as (_ & S & SP). split; [|split; auto].
    + intro Z. unfold same_side in S. rewrite Z in S. lra.
    + apply (proj1 (consecutive_nth _ _) (proj2 G) (Datatypes.S i)); auto.
Qed.
