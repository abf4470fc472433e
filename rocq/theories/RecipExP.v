(** Received power, counterexamples and an example for PropertiesRecip. *)
From Coq Require Import Reals List Bool ZArith String Lia Lra Psatz Permutation.
From Verif Require Import Base BaseP LogicM SpecLogic GeometryM SpecGeometry VecP WallP OptimizeM PathM SpecPath PathP SpecImage ImageP ImageExP
  CandidatesM SceneM UtilsM SpecScene SpecRun SpecRecip SceneP SceneOpsP SceneRunP ShapeP RunExP RecipP.
Import ListNotations.
Local Notation length := List.length.
Open Scope R_scope.

Lemma step_sym (p q : vec) : norm (fst (vsub p q) + 0, snd (vsub p q) + 0) = norm (fst (vsub q p) + 0, snd (vsub q p) + 0).
Proof. unfold norm. f_equal. unfold dot, vsub. cbn [fst snd]. ring. Qed.
Lemma path_length_app eps l p q : path_length eps (l ++ [p; q]) = path_length eps (l ++ [p]) + norm (fst (vsub q p) + eps, snd (vsub q p) + eps).
Proof.
  induction l as [|a l IH].
  - cbn [app]. rewrite path_length_cons. unfold path_length. cbn. ring.
  - destruct l as [|b l].
    + cbn [app] in *. rewrite !path_length_cons. unfold path_length, vsub. cbn. ring.
    + cbn [app] in *. rewrite !path_length_cons. rewrite IH. ring.
Qed.
Lemma path_length_rev pts : path_length 0 (rev pts) = path_length 0 pts.
Proof.
  induction pts as [|p pts IH]; [reflexivity|]. cbn [rev]. destruct pts as [|q pts]; [reflexivity|].
  rewrite path_length_cons, <- IH. cbn [rev]. rewrite <- app_assoc. cbn [app]. rewrite path_length_app, Rplus_comm. f_equal.
  rewrite step_sym. reflexivity.
Qed.
Lemma power_mirror rc h : h <> 0 ->
  mirror_functions (fun tx rx p os => received_power 0 tx rx p os rc h) (fun tx rx p os => received_power 0 tx rx p os rc h) /\
  always_finite (fun tx rx p os => received_power 0 tx rx p os rc h).
Proof.
  intro Hh. split.
  - intros tx rx p os. unfold received_power, Path_length, backwards. cbn [xys]. rewrite path_length_rev, rev_length. reflexivity.
  - intros tx rx p os. unfold received_power, fdiv.
    destruct (Reqb_spec (h * h + Path_length 0 p * Path_length 0 p) 0) as [E|E]; [|eexists; reflexivity].
    exfalso. apply Hh. assert (h * h = 0); [|nra]. pose proof (Rle_0_sqr h). pose proof (Rle_0_sqr (Path_length 0 p)). unfold Rsqr in *. lra.
Qed.

(** The step added inside [path_length] is not symmetric. *)
Definition bare (a b : vec) : scene := Scene_make [("tx"%string, a)] [("rx"%string, b)] [].
Definition los_ca : candargs := mkcandargs 0 0 None None.
Definition exact_va : validargs := mkvalidargs DEFAULT_TOL DEFAULT_PATCH (Some false) default_akw.
Lemma bare_value P g a b f : accumulate_over_paths P g (bare a b) ClsImage los_ca exact_va None f =
  mkgen [("tx"%string, "rx"%string, xadd (Fin 0) (xmul (Fin 1) (f a b (mkpath [a; b] (Fin 0)) [])))] None.
Proof.
  assert (V : is_valid g (mkpath [a; b] (Fin 0)) [] [] [] DEFAULT_TOL DEFAULT_PATCH (Some false) default_akw = Ok (TB true)).
  { unfold is_valid. cbn. unfold DEFAULT_TOL. destruct (Rltb_spec 0 (1 / 100)); [reflexivity|exfalso; lra]. }
  unfold accumulate_over_paths.
  assert (A : all_paths P g (bare a b) ClsImage los_ca exact_va None = mkgen [mkitem "tx" "rx" (TB true) (mkpath [a; b] (Fin 0)) []] None).
  { unfold all_paths. change (list_prod _ _) with [((("tx"%string, a), ("rx"%string, b)), @nil Z)].
    cbn [run_paths]. unfold one_path. cbn [get_interacting_objects]. 
    change (get_interacting_objects (bare a b) []) with (@Ok (list object) []). cbn [rbind].
    change (from_tx_objects_rx P ClsImage None (snd ("tx"%string, a)) [] (snd ("rx"%string, b))) with (Ok (mkpath [a; b] (Fin 0))). cbn [rbind].
    change (objects (bare a b)) with (@nil object). cbn [exact_va va_tol va_patch va_approx va_kw]. rewrite V. reflexivity. }
  rewrite A. reflexivity.
Qed.
Lemma two_points_length eps p q : path_length eps [p; q] = norm (fst (vsub q p) + eps, snd (vsub q p) + eps).
Proof. unfold path_length. cbn. ring. Qed.
Lemma power_step_matters P g eps : 0 < eps -> exists a b,
  accumulate_over_paths P g (bare (0, 0) (1, 0)) ClsImage los_ca exact_va None (fun tx rx p os => received_power eps tx rx p os DEFAULT_R_COEF DEFAULT_HEIGHT) =
    mkgen [("tx"%string, "rx"%string, Fin a)] None /\
  accumulate_over_paths P g (bare (1, 0) (0, 0)) ClsImage los_ca exact_va None (fun tx rx p os => received_power eps tx rx p os DEFAULT_R_COEF DEFAULT_HEIGHT) =
    mkgen [("tx"%string, "rx"%string, Fin b)] None /\ a < b.
Proof.
  intro He. rewrite !bare_value. unfold received_power, Path_length. cbn [xys length Nat.sub pow].
  rewrite !two_points_length. unfold vsub. cbn [fst snd].
  assert (N : forall v, norm v * norm v = fst v * fst v + snd v * snd v).
  { intro v. unfold norm. rewrite sqrt_sqrt; [reflexivity|]. unfold dot. nra. }
  rewrite !N. cbn [fst snd]. unfold DEFAULT_HEIGHT.
  set (A := 1 / 10 * (1 / 10) + _). set (B := 1 / 10 * (1 / 10) + ((0 - 1 + eps) * _ + _)).
  assert (HB : 0 < B) by (unfold B; nra). assert (HA : B < A) by (unfold A, B; nra).
  unfold fdiv. destruct (Reqb_spec A 0) as [X|X]; [exfalso; lra|]. destruct (Reqb_spec B 0) as [Y|Y]; [exfalso; lra|].
  cbn [xmul xadd]. eexists. eexists. split; [reflexivity|]. split; [reflexivity|].
  assert (1 / A < 1 / B); [|lra]. unfold Rdiv. rewrite !Rmult_1_l. apply Rinv_lt_contravar; [nra|lra].
Qed.

(** A RIS is not reciprocal. *)
Definition tile : wall := mkwall (0, 0) (2, 0).
Lemma tile_points x : 0 < x -> image_points (1 - x, 1) [tile] (1 + x, 1) = [(1 - x, 1); (1, 0); (1 + x, 1)] /\
  image_points (1 + x, 1) [tile] (1 - x, 1) = [(1 + x, 1); (1, 0); (1 - x, 1)].
Proof.
  intro H. unfold tile. rewrite !points_one, !img_h.
  assert (E : forall a b, a + b = 2 -> backward (b, 1) (@pair wall vec (mkwall (0, 0) (2, 0)) (a, - (1))) = (1, 0)).
  { intros a b S. symmetry. apply backward_unique; [side_num|unfold col, cross, vsub; cbn; lra|side_num]. }
  rewrite !E by lra. auto.
Qed.
Lemma tile_normal : normal tile = (0, -1).
Proof.
  unfold tile, normal, normalize, wall_t, vsub, norm, dot, origin, dest. cbn [fst snd w_origin w_dest].
  replace ((0 - 0) * (0 - 0) + - (2 - 0) * - (2 - 0)) with (2 * 2) by ring. rewrite sqrt_square by lra.
  destruct (Reqb_spec 2 0); [lra|]. f_equal; field.
Qed.
Lemma tile_dir x : x = 1 \/ x = -1 -> fst (normalize (vsub (1 + x, 1) (1, 0))) = (x / sqrt 2, 1 / sqrt 2).
Proof.
  intro H. unfold normalize, vsub, norm, dot. cbn [fst snd].
  replace ((1 + x - 1) * (1 + x - 1) + (1 - 0) * (1 - 0)) with 2 by (destruct H; subst; ring).
  assert (0 < sqrt 2) by (apply sqrt_lt_R0; lra). destruct (Reqb_spec (sqrt 2) 0); [lra|]. f_equal; field; lra.
Qed.
Lemma tile_eval x a : x = 1 \/ x = -1 -> ris_evaluate tile (PI / 4) a (1, 0) (1 + x, 1) = (x - 1) * (x - 1) / 2.
Proof.
  intro H. unfold ris_evaluate. rewrite tile_dir, tile_normal, cos_PI4, sin_PI4 by auto. unfold cross, dot, vopp. cbn [fst snd].
  assert (0 < sqrt 2) by (apply sqrt_lt_R0; lra). assert (E : sqrt 2 * sqrt 2 = 2) by (apply sqrt_sqrt; lra).
  cbn [pow].
  transitivity ((x - 1) * (x - 1) / (sqrt 2 * sqrt 2)); [field; lra|rewrite E; reflexivity].
Qed.
Lemma ris_one_way g k :
  exists p p', ImagePath_from (0, 1) [ORIS tile (PI / 4)] (2, 1) = Ok p /\ ImagePath_from (2, 1) [ORIS tile (PI / 4)] (0, 1) = Ok p' /\
  xys p' = rev (xys p) /\ loss p = Fin 0 /\ loss p' = Fin 2 /\
  is_valid g p [ORIS tile (PI / 4)] [0%Z] [ORIS tile (PI / 4)] DEFAULT_TOL DEFAULT_PATCH (Some false) k = Ok (TB true) /\
  is_valid g p' [ORIS tile (PI / 4)] [0%Z] [ORIS tile (PI / 4)] DEFAULT_TOL DEFAULT_PATCH (Some false) k = Ok (TB false).
Proof.
  destruct (tile_points 1 ltac:(lra)) as [P1 P2].
  replace (1 - 1) with 0 in * by ring. replace (1 + 1) with 2 in * by ring.
  assert (L : forall a x, x = 1 \/ x = -1 -> path_loss [ORIS tile (PI / 4)] [a; (1, 0); (1 + x, 1)] = (x - 1) * (x - 1) / 2).
  { intros a x H. unfold path_loss. change (enumerate [ORIS tile (PI / 4)]) with [(0%nat, ORIS tile (PI / 4))]. cbn [fold_left].
    change (row [a; (1, 0); (1 + x, 1)] 0) with a. change (row [a; (1, 0); (1 + x, 1)] (0 + 1)) with (1, 0).
    change (row [a; (1, 0); (1 + x, 1)] (0 + 2)) with (1 + x, 1). cbn [obj_evaluate]. rewrite tile_eval by auto. ring. }
  assert (L1 := L (0, 1) 1 (or_introl eq_refl)). assert (L2 := L (2, 1) (-1) (or_intror eq_refl)).
  replace (1 + 1) with 2 in * by ring. replace (1 + -1) with 0 in * by ring.
  exists (mkpath [(0, 1); (1, 0); (2, 1)] (Fin 0)), (mkpath [(2, 1); (1, 0); (0, 1)] (Fin 2)).
  split; [|split; [|split; [reflexivity|split; [reflexivity|split; [reflexivity|]]]]].
  - unfold ImagePath_from. cbn [stack_leaves forallb kind_of kind_eqb andb rbind as_walls as_wall]. rewrite P1, L1. do 3 f_equal. lra.
  - unfold ImagePath_from. cbn [stack_leaves forallb kind_of kind_eqb andb rbind as_walls as_wall]. rewrite P2, L2. do 3 f_equal. lra.
  - assert (V : forall p, length (xys p) = 3%nat -> exists b,
      is_valid g p [ORIS tile (PI / 4)] [0%Z] [ORIS tile (PI / 4)] DEFAULT_TOL DEFAULT_PATCH (Some false) k = Ok (TB b) /\
      (b = true <-> loss_below (loss p) DEFAULT_TOL /\ projects_inside (xys p) [ORIS tile (PI / 4)] /\
         ~ obstructed (xys p) [ORIS tile (PI / 4)] [0%Z] DEFAULT_PATCH SEG_TOL)).
    { intros p H. apply C38_lemma; rewrite H; cbn; lia. }
    split.
    + destruct (V (mkpath [(0, 1); (1, 0); (2, 1)] (Fin 0)) eq_refl) as (b & -> & Hb). do 2 f_equal. apply Hb. cbn [loss xys]. split; [|split].
      * cbn. unfold DEFAULT_TOL. lra.
      * intros i o w q Ho Hw Hq. destruct i as [|i]; cbn in Ho; [|destruct i; discriminate]. injection Ho as <-. cbn in Hw. injection Hw as <-.
        cbn in Hq. injection Hq as <-. exists (1 / 2). split; [lra|]. unfold projects_at, at_. cbn. lra.
      * intros (i & j & A & B & o & w & [HA HB] & Ho & Hw & NT & _).
        destruct j as [|j]; cbn in Ho; [|destruct j; discriminate].
        destruct i as [|[|i]]; cbn in HA, HB; try discriminate; try (destruct i; discriminate); apply NT;
          [left; reflexivity|right; eexists; split; reflexivity].
    + destruct (V (mkpath [(2, 1); (1, 0); (0, 1)] (Fin 2)) eq_refl) as (b & -> & Hb). do 2 f_equal. destruct b; [exfalso|reflexivity].
      destruct (proj1 Hb eq_refl) as (X & _). cbn in X. unfold DEFAULT_TOL in X. lra.
Qed.
