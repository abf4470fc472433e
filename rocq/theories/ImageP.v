(** Proofs about the image method. *)
From Coq Require Import Reals List Bool Lra Psatz ZArith Lia.
From Verif Require Import Base BaseP LogicM SpecLogic LogicP GeometryM SpecGeometry SegP VecP WallP
  OptimizeM PathM SpecPath PathP PathSmoothP PathShapeP SpecImage.
Import ListNotations.
Open Scope R_scope.

Lemma side_of_side w q : side_of w q = side w q.
Proof. reflexivity. Qed.
Lemma parallel_side w I B : parallel (w_origin w) (w_dest w) I B <-> side w I = side w B.
Proof.
  pose proof (side_diff w I B) as D. unfold parallel. fold (tvx w) (tvy w). split; intro H; lra.
Qed.
Lemma side_improper w q : ~ proper w -> side w q = 0.
Proof. intro H. unfold side. rewrite improper_t by auto. unfold cross. cbn. ring. Qed.
Lemma side_proper w q : side w q <> 0 -> proper w.
Proof. intro H. destruct (proper_dec w) as [|N]; auto. exfalso. apply H, side_improper; auto. Qed.
Lemma side_at w A B t : side w (at_ A B t) = (1 - t) * side w A + t * side w B.
Proof. unfold side, cross, at_, vsub. cbn [fst snd]. ring. Qed.

Lemma mirrored_eq w a b : mirrored w a b <-> b = image_of w a.
Proof.
  unfold mirrored. split.
  - intros [(H & M & O)|[H ->]]; [|rewrite image_improper; auto].
    pose proof (proper_len w H) as L. apply on_line_side in M; auto.
    pose proof (image_eq w a H) as IE.
    set (e := side w a / len2 w) in *.
    assert (D : side w a = e * len2 w) by (unfold e; field; lra).
    rewrite IE. clear IE. clearbody e. rewrite len2_eq in *.
    unfold side, cross in M, D. rewrite !wall_t_eq in *. unfold vsub, origin in M, D. cbn [fst snd] in M, D.
    fold (tvx w) (tvy w) in O.
    set (x := tvx w) in *. set (y := tvy w) in *.
    set (dx := fst b - fst a). set (dy := snd b - snd a).
    assert (O' : dx * x + dy * y = 0) by (unfold dx, dy; lra).
    assert (M' : x * dy - y * dx = - 2 * e * (x * x + y * y)) by (unfold dx, dy; lra).
    assert (X : dx = 2 * e * y).
    { apply (Rmult_eq_reg_r (x * x + y * y)); [|lra].
      transitivity (x * (dx * x + dy * y) - y * (x * dy - y * dx)); [ring|]. rewrite O', M'. ring. }
    assert (Y : dy = - 2 * e * x).
    { apply (Rmult_eq_reg_r (x * x + y * y)); [|lra].
      transitivity (y * (dx * x + dy * y) + x * (x * dy - y * dx)); [ring|]. rewrite O', M'. ring. }
    unfold dx, dy in X, Y. apply vec_eq; cbn [fst snd]; lra.
  - intros ->. destruct (proper_dec w) as [H|H].
    + left. split; auto. apply image_midpoint; auto.
    + right. split; auto. apply image_improper; auto.
Qed.

Lemma nth_error_ext' {A} (l l' : list A) : (forall k, nth_error l k = nth_error l' k) -> l = l'.
Proof.
  revert l'. induction l as [|x l IH]; intros [|y l'] H; auto; try (specialize (H O); discriminate).
  f_equal; [specialize (H O); cbn in H; congruence|]. apply IH. intro k. apply (H (S k)).
Qed.

(** The images, by index. *)
Definition imgs_of (tx : vec) (ws : list wall) : list vec := tx :: images tx ws.
Lemma images_nth ws : forall tx i w, nth_error ws i = Some w ->
  nth_error (imgs_of tx ws) (S i) = option_map (image_of w) (nth_error (imgs_of tx ws) i).
Proof.
  unfold imgs_of. induction ws as [|w0 ws IH]; intros tx i w H; [destruct i; discriminate|].
  cbn [images]. destruct i as [|i].
  - cbn in H. injection H as ->. reflexivity.
  - cbn [nth_error] in H. specialize (IH (image_of w0 tx) i w H). cbn [nth_error] in *. exact IH.
Qed.
Lemma as_walls_nth os : forall ws i o, as_walls os = Some ws -> nth_error os i = Some o ->
  exists w, wall_of o = Some w /\ nth_error ws i = Some w.
Proof.
  induction os as [|o0 os IH]; intros ws i o A H; [destruct i; discriminate|].
  cbn in A. destruct (as_wall o0) eqn:E; [|discriminate]. destruct (as_walls os) eqn:E2; [|discriminate].
  injection A as <-. destruct i as [|i].
  - cbn in H. injection H as <-. exists w. split; [exact E|reflexivity].
  - apply (IH l i o); auto.
Qed.
Lemma chain_eq tx os ws imgs : as_walls os = Some ws -> (image_chain tx os imgs <-> imgs = imgs_of tx ws).
Proof.
  intro A. pose proof (as_walls_length _ _ A) as LW. split.
  - intros (L & H0 & HS). apply nth_error_ext'. intro k.
    induction k as [|k IH]; [rewrite H0; reflexivity|].
    destruct (nth_error os k) as [o|] eqn:Eo.
    + destruct (as_walls_nth os ws k o A Eo) as (w & Hw & Hn).
      rewrite (images_nth ws tx k w Hn), <- IH.
      assert (k < length os)%nat by (apply nth_error_Some; congruence).
      destruct (nth_error imgs k) as [a|] eqn:Ea; [|apply nth_error_None in Ea; lia].
      destruct (nth_error imgs (S k)) as [b|] eqn:Eb; [|apply nth_error_None in Eb; lia].
      cbn. f_equal. apply mirrored_eq. apply (HS k o w a b); auto.
    + apply nth_error_None in Eo. transitivity (@None vec); [|symmetry]; apply nth_error_None; [lia|].
      unfold imgs_of. cbn [length]. rewrite images_length. lia.
  - intros ->. split; [|split; [reflexivity|]].
    + unfold imgs_of. cbn [length]. rewrite images_length. lia.
    + intros i o w a b Ho Hw Ha Hb. destruct (as_walls_nth os ws i o A Ho) as (w' & Hw' & Hn).
      rewrite Hw in Hw'. injection Hw' as <-.
      rewrite (images_nth ws tx i w Hn), Ha in Hb. cbn in Hb. injection Hb as <-. apply mirrored_eq. reflexivity.
Qed.

(** One backward step. *)
Lemma backward_degenerate w I B : side w I = side w B -> backward B (w, I) = B.
Proof.
  intro E. unfold backward.
  assert (Z : dot (vsub B I) (normal w) = 0).
  { destruct (proper_dec w) as [H|H].
    - rewrite dot_normal by auto. unfold vsub. cbn [fst snd]. pose proof (side_diff w I B).
      replace ((fst B - fst I) * tvy w - (snd B - snd I) * tvx w)
        with (tvx w * (snd I - snd B) - tvy w * (fst I - fst B)) by ring.
      rewrite <- H0, E. unfold Rdiv. rewrite Rminus_diag_eq by reflexivity. ring.
    - rewrite normal_improper by auto. unfold dot. cbn. ring. }
  rewrite Z. destruct (Reqb_spec 0 0); [|lra]. unfold vadd. apply vec_eq; cbn; ring.
Qed.
Lemma backward_eq w I B : side w I <> side w B ->
  backward B (w, I) = at_ I B (side w I / (side w I - side w B)).
Proof.
  intro N.
  assert (H : proper w).
  { destruct (proper_dec w) as [|X]; auto. exfalso. apply N. rewrite !side_improper; auto. }
  destruct (normal_eq w H) as (P & _ & _). unfold backward. rewrite !dot_normal by auto.
  set (n := norm (wall_t w)) in *.
  assert (U : fst (vsub B I) * tvy w - snd (vsub B I) * tvx w = side w I - side w B).
  { rewrite side_diff. unfold vsub. cbn. ring. }
  assert (V : fst (vsub (origin w) B) * tvy w - snd (vsub (origin w) B) * tvx w = side w B).
  { unfold side, cross. rewrite wall_t_eq. unfold vsub. cbn. ring. }
  rewrite U, V. 
  destruct (Reqb_spec ((side w I - side w B) / n) 0) as [Z|Z].
  - exfalso. apply N. apply (f_equal (fun x => x * n)) in Z. unfold Rdiv in Z.
    rewrite Rmult_assoc, Rinv_l in Z by lra. lra.
  - unfold vadd, at_, vsub. apply vec_eq; cbn [fst snd]; field; split; lra.
Qed.
Lemma backward_side w I B : side w I <> side w B -> side w (backward B (w, I)) = 0.
Proof. intro N. rewrite backward_eq by auto. rewrite side_at. field. lra. Qed.

Lemma scan_hd rx xs : fst (backward_scan rx xs) = hd rx (snd (backward_scan rx xs)).
Proof. destruct xs as [|x xs]; [reflexivity|]. cbn. destruct (backward_scan rx xs). reflexivity. Qed.

(** The points after the transmitter satisfy the backward recurrence. *)
Lemma scan_nth rx xs : forall i x, nth_error xs i = Some x ->
  exists B, nth_error (snd (backward_scan rx xs) ++ [rx]) (S i) = Some B /\
    nth_error (snd (backward_scan rx xs) ++ [rx]) i = Some (backward B x).
Proof.
  induction xs as [|x0 xs IH]; intros i x H; [destruct i; discriminate|].
  cbn [backward_scan]. pose proof (scan_hd rx xs) as E. destruct (backward_scan rx xs) as [c ys].
  cbn [fst snd] in *. destruct i as [|i].
  - cbn in H. injection H as ->. exists c. subst c. split; [|reflexivity]. destruct ys; reflexivity.
  - apply (IH i x H).
Qed.
Lemma combine_nth_error {A B} (l : list A) (l' : list B) : forall i a b,
  nth_error l i = Some a -> nth_error l' i = Some b -> nth_error (combine l l') i = Some (a, b).
Proof.
  revert l'. induction l as [|x l IH]; intros [|y l'] [|i] a b; cbn; try discriminate; auto.
  intros; congruence.
Qed.
Lemma image_points_nth tx ws rx i w : nth_error ws i = Some w ->
  exists I B, nth_error (imgs_of tx ws) (S i) = Some I /\ nth_error (image_points tx ws rx) (S (S i)) = Some B /\
    nth_error (image_points tx ws rx) (S i) = Some (backward B (w, I)).
Proof.
  intro H. unfold imgs_of, image_points. cbn [nth_error].
  assert (i < length ws)%nat by (apply nth_error_Some; congruence).
  destruct (nth_error (images tx ws) i) as [I|] eqn:E; [|apply nth_error_None in E; rewrite images_length in E; lia].
  destruct (scan_nth rx (combine ws (images tx ws)) i (w, I)) as (B & HB & HQ).
  { apply combine_nth_error; auto. }
  exists I, B. auto.
Qed.

Lemma image_path_inv tx os rx p : ImagePath_from tx os rx = Ok p ->
  exists ws, as_walls os = Some ws /\ xys p = image_points tx ws rx /\ loss p = Fin (path_loss os (xys p)).
Proof.
  unfold ImagePath_from. destruct os as [|o os].
  - intro H. injection H as <-. exists []. repeat split.
  - cbn [rbind]. destruct (stack_leaves (o :: os)); cbn [rbind]; [|discriminate].
    destruct (as_walls (o :: os)) as [ws|] eqn:E; [|discriminate].
    intro H. injection H as <-. exists ws. repeat split.
Qed.
Lemma as_walls_map ws : as_walls (map OWall ws) = Some ws.
Proof. induction ws as [|w ws IH]; [reflexivity|]. cbn. rewrite IH. reflexivity. Qed.
Lemma image_path_walls tx ws rx p : ImagePath_from tx (map OWall ws) rx = Ok p ->
  xys p = image_points tx ws rx /\ loss p = Fin (path_loss (map OWall ws) (xys p)).
Proof.
  intro H. destruct (image_path_inv _ _ _ _ H) as (ws' & A & X & L). rewrite as_walls_map in A.
  injection A as <-. auto.
Qed.

(** C31, C35 (first half) *)
Lemma C31_lemma tx os rx p imgs i o w I Q B :
  ImagePath_from tx os rx = Ok p -> image_chain tx os imgs ->
  nth_error os i = Some o -> wall_of o = Some w ->
  nth_error imgs (S i) = Some I -> nth_error (xys p) (S i) = Some Q -> nth_error (xys p) (S (S i)) = Some B ->
  (~ parallel (w_origin w) (w_dest w) I B ->
     on_line (w_origin w) (w_dest w) Q /\ on_line I B Q) /\
  (parallel (w_origin w) (w_dest w) I B -> Q = B).
Proof.
  intros HP HC Ho Hw HI HQ HB. destruct (image_path_inv _ _ _ _ HP) as (ws & A & X & _).
  apply (chain_eq tx os ws imgs A) in HC. subst imgs.
  destruct (as_walls_nth os ws i o A Ho) as (w' & Hw' & Hn). rewrite Hw in Hw'. injection Hw' as <-.
  destruct (image_points_nth tx ws rx i w Hn) as (I' & B' & HI' & HB' & HQ').
  rewrite X in *. rewrite HI in HI'. injection HI' as <-. rewrite HB in HB'. injection HB' as <-.
  assert (EQ : Q = backward B (w, I)) by congruence. rewrite EQ. rewrite parallel_side. split.
  - intro N. split.
    + apply on_line_side; [|apply backward_side; auto].
      destruct (proper_dec w) as [|Y]; auto. exfalso. apply N. rewrite !side_improper; auto.
    + rewrite backward_eq by auto. eexists; reflexivity.
  - intro E. apply backward_degenerate; auto.
Qed.

(** ** The loss as a sum *)
Definition sumR (l : list R) : R := fold_right Rplus 0 l.
Definition ev (pts : list vec) (x : nat * object) : R :=
  obj_evaluate (snd x) (row pts (fst x)) (row pts (fst x + 1)) (row pts (fst x + 2)).
Definition evals (os : list object) (pts : list vec) : list R := map (ev pts) (enumerate os).
Lemma sumR_app l l' : sumR (l ++ l') = sumR l + sumR l'.
Proof. induction l as [|x l IH]; cbn [sumR app fold_right]; [unfold sumR; cbn; ring|]. unfold sumR in *. rewrite IH. ring. Qed.
Lemma sumR_rev l : sumR (rev l) = sumR l.
Proof. induction l as [|x l IH]; [reflexivity|]. cbn [rev]. rewrite sumR_app, IH. unfold sumR. cbn. ring. Qed.
Lemma path_loss_eq os pts : path_loss os pts = sumR (evals os pts).
Proof.
  unfold path_loss, evals. generalize (enumerate os) as l. intro l.
  assert (G : forall a, fold_left (fun l '(i, obj) => l + obj_evaluate obj (row pts i) (row pts (i + 1)) (row pts (i + 2))) l a
     = a + sumR (map (ev pts) l)).
  { induction l as [|[i o] l IH]; intro a; [cbn; ring|]. cbn [fold_left map]. rewrite IH.
    change (sumR (ev pts (i, o) :: map (ev pts) l)) with (ev pts (i, o) + sumR (map (ev pts) l)).
    change (ev pts (i, o)) with (obj_evaluate o (row pts i) (row pts (i + 1)) (row pts (i + 2))). ring. }
  rewrite G. ring.
Qed.
Lemma enumerate_nth {A} (l : list A) i : nth_error (enumerate l) i = option_map (fun x => (i, x)) (nth_error l i).
Proof.
  unfold enumerate.
  assert (G : forall s, nth_error (combine (seq s (length l)) l) i = option_map (fun x => ((s + i)%nat, x)) (nth_error l i)).
  { revert i. induction l as [|x l IH]; intros [|i] s; cbn; auto; [rewrite Nat.add_0_r; auto|].
    rewrite IH. rewrite Nat.add_succ_r. reflexivity. }
  apply (G O).
Qed.
Lemma enumerate_length {A} (l : list A) : length (enumerate l) = length l.
Proof. unfold enumerate. rewrite combine_length, seq_length. lia. Qed.
Lemma evals_nth os pts i : nth_error (evals os pts) i =
  option_map (fun o => obj_evaluate o (row pts i) (row pts (i + 1)) (row pts (i + 2))) (nth_error os i).
Proof. unfold evals. rewrite nth_error_map, enumerate_nth. destruct (nth_error os i); reflexivity. Qed.
Lemma evals_length os pts : length (evals os pts) = length os.
Proof. unfold evals. rewrite map_length. apply enumerate_length. Qed.
Lemma row_some pts i q : nth_error pts i = Some q -> row pts i = q.
Proof.
  intro H. assert (i < length pts)%nat by (apply nth_error_Some; congruence).
  rewrite row_nth in H by auto. congruence.
Qed.
Lemma row_rev pts i : (i < length pts)%nat -> row (rev pts) i = row pts (length pts - S i).
Proof.
  intro H. apply row_some. rewrite nth_error_rev by auto. apply row_nth. lia.
Qed.
Lemma map_nth_error_inv {A B} (f : A -> B) l i b : nth_error (map f l) i = Some b ->
  exists a, nth_error l i = Some a /\ b = f a.
Proof. rewrite nth_error_map. destruct (nth_error l i); cbn; [|discriminate]. intro H. injection H as <-. eauto. Qed.

(** Reversing path and walls keeps the loss. *)
Lemma path_loss_rev ws pts : length pts = (length ws + 2)%nat ->
  path_loss (map OWall (rev ws)) (rev pts) = path_loss (map OWall ws) pts.
Proof.
  intro L. rewrite !path_loss_eq. rewrite <- (sumR_rev (evals (map OWall ws) pts)). f_equal.
  apply nth_error_ext'. intro i. rewrite evals_nth. rewrite map_rev.
  destruct (Nat.lt_ge_cases i (length ws)) as [H|H].
  - rewrite !nth_error_rev by (rewrite ?evals_length, ?map_length; lia).
    rewrite evals_nth, evals_length, !map_length, nth_error_map.
    destruct (nth_error ws (length ws - S i)) as [w|] eqn:E; [|apply nth_error_None in E; lia]. cbn [option_map obj_evaluate].
    f_equal. rewrite !row_rev by lia. rewrite evaluate_reverse. f_equal; f_equal; lia.
  - transitivity (@None R).
    + replace (nth_error (rev (map OWall ws)) i) with (@None object); [reflexivity|].
      symmetry. apply nth_error_None. rewrite rev_length, map_length. lia.
    + symmetry. apply nth_error_None. rewrite rev_length, evals_length, map_length. lia.
Qed.

(** ** One interaction *)
Lemma evaluate_sides w A Q B c : proper w -> side w Q = 0 -> side w A <> 0 -> c <> 0 ->
  vsub (image_of w B) Q = vscale c (vsub Q A) ->
  wall_evaluate w A Q B = if Rlt_dec 0 c then 0 else 4.
Proof.
  intros H SQ SA C E.
  assert (NA : A <> Q) by (intro X; subst; contradiction).
  assert (FQ : image_of w Q = Q) by (apply image_fixed; auto; apply on_line_side; auto).
  assert (MB : mir w (vsub B Q) = vsub (image_of w B) Q).
  { transitivity (vsub (image_of w B) (image_of w Q)); [|rewrite FQ; reflexivity].
    unfold mir, image_of, vsub, vscale, dot. apply vec_eq; cbn; ring. }
  assert (BQ : vsub B Q = mir w (vscale c (vsub Q A))) by (rewrite <- E, <- MB, mir_mir; reflexivity).
  assert (D : vsub Q A <> (0, 0)) by (intro X; apply NA; symmetry; apply vsub_zero; auto).
  destruct (normalize_direction (vsub Q A)) as [[X _]|[U (l & Hl & EI)]]; [contradiction|].
  set (i := fst (normalize (vsub Q A))) in *.
  assert (DI : is_direction (vsub Q A) i) by (right; split; [auto|exists l; auto]).
  assert (U' : fst (mir w i) ^ 2 + snd (mir w i) ^ 2 = 1) by (rewrite <- dot_self, mir_norm, dot_self; auto).
  assert (MS : forall k, mir w (vscale k i) = vscale k (mir w i)).
  { intro k. unfold mir, vsub, vscale, dot. apply vec_eq; cbn; ring. }
  assert (BQ' : vsub B Q = vscale (c * l) (mir w i)).
  { rewrite BQ. change (l * fst i, l * snd i) with (vscale l i) in EI. rewrite EI. rewrite <- MS. f_equal.
    unfold vscale. cbn. apply vec_eq; cbn; ring. }
  destruct (Rlt_dec 0 c) as [P|P].
  - assert (DR : is_direction (vsub B Q) (mir w i)).
    { right. split; auto. exists (c * l). split; [nra|exact BQ']. }
    apply (evaluate_zero w A Q B _ _ H DI DR). apply mir_specular; auto.
  - assert (DR : is_direction (vsub B Q) (vopp (mir w i))).
    { right. split; [unfold vopp; cbn [fst snd]; lra|]. exists (- c * l). split; [nra|].
      rewrite BQ'. unfold vscale, vopp. cbn. apply vec_eq; cbn; ring. }
    apply (evaluate_four w A Q B _ _ H DI DR). split; auto. split.
    + intro X. subst B. assert (Z : vsub Q Q = (0, 0)) by (apply vsub_zero; auto). rewrite Z in DR.
      destruct DR as [[_ Y]|[Y _]].
      * rewrite <- MS in *. unfold vopp in Y. assert (Y1 := f_equal fst Y). assert (Y2 := f_equal snd Y). cbn [fst snd] in Y1, Y2.
        assert (fst (mir w i) = 0 /\ snd (mir w i) = 0) as [Z1 Z2] by lra. rewrite Z1, Z2 in U'. lra.
      * rewrite Z in BQ'. assert (Y1 := f_equal fst BQ'). assert (Y2 := f_equal snd BQ'). unfold vscale in Y1, Y2. cbn [fst snd] in Y1, Y2.
        assert (N : c * l <> 0) by nra. symmetry in Y1, Y2. apply Rmult_integral in Y1. apply Rmult_integral in Y2.
        assert (fst (mir w i) = 0 /\ snd (mir w i) = 0) as [Z1 Z2] by (split; lra). rewrite Z1, Z2 in U'. lra.
    + apply mir_specular; auto. unfold vopp. apply vec_eq; cbn; ring.
Qed.

Lemma at_ext A B s : at_ A B s = vadd A (vscale s (vsub B A)).
Proof. reflexivity. Qed.
Lemma at_end A B s : at_ A B s = B <-> A = B \/ s = 1.
Proof.
  unfold at_. split.
  - intro E. assert (E1 := f_equal fst E). assert (E2 := f_equal snd E). cbn [fst snd] in E1, E2.
    destruct (Req_dec s 1) as [|N]; auto. left.
    assert (X : (1 - s) * (fst A - fst B) = 0) by lra. assert (Y : (1 - s) * (snd A - snd B) = 0) by lra.
    apply Rmult_integral in X. apply Rmult_integral in Y. apply vec_eq; lra.
  - intros [->| ->]; apply vec_eq; cbn; ring.
Qed.
Lemma at_zero A B : at_ A B 0 = A.
Proof. unfold at_. apply vec_eq; cbn; ring. Qed.
Lemma at_fst A B s : fst (at_ A B s) = fst A + s * (fst B - fst A).
Proof. reflexivity. Qed.
Lemma at_snd A B s : snd (at_ A B s) = snd A + s * (snd B - snd A).
Proof. reflexivity. Qed.
Lemma image_at w A B s : image_of w (at_ A B s) = at_ (image_of w A) (image_of w B) s.
Proof. unfold image_of, at_, vsub, vscale, dot. apply vec_eq; cbn; ring. Qed.

Lemma wall_step w I A B s : side w (image_of w I) <> side w B -> 
  let J := image_of w I in let Q := backward B (w, J) in
  A = at_ I Q s -> A <> Q -> Q <> B ->
  proper w /\ side w A <> 0 /\ side w B <> 0 /\
  wall_evaluate w A Q B = if Rlt_dec 0 (side w A * side w B) then 0 else 4.
Proof.
  cbn zeta. set (J := image_of w I). set (Q := backward B (w, J)). intros N EA NA NQ.
  assert (H : proper w).
  { destruct (proper_dec w) as [|X]; auto. exfalso. apply N. rewrite !side_improper; auto. }
  assert (SQ : side w Q = 0) by (apply backward_side; auto).
  assert (EQ : Q = at_ J B (side w J / (side w J - side w B))) by (apply backward_eq; auto).
  set (s' := side w J / (side w J - side w B)) in *.
  assert (SJ : side w J <> 0).
  { intro Z. assert (Q = J) by (rewrite EQ; unfold s'; rewrite Z; replace (0 / (0 - side w B)) with 0 by (unfold Rdiv; ring); apply at_zero).
    assert (I = J).
    { rewrite <- (image_involutive w I). apply image_fixed; auto. apply on_line_side; auto. }
    apply NA. rewrite EA, H0, H1. unfold at_. apply vec_eq; cbn; ring. }
  assert (SI : side w I = - side w J) by (unfold J; rewrite side_image by auto; ring).
  assert (Ns' : s' <> 0) by (unfold s'; apply Rmult_integral_contrapositive_currified; [auto|apply Rinv_neq_0_compat; lra]).
  assert (N1' : s' <> 1) by (intro Z; apply NQ; rewrite EQ; apply at_end; auto).
  assert (N1 : s <> 1) by (intro Z; apply NA; rewrite EA; apply at_end; auto).
  assert (SB : side w B <> 0).
  { intro Z. apply N1'. unfold s'. rewrite Z. field. auto. }
  assert (FQ : image_of w Q = Q) by (apply image_fixed; auto; apply on_line_side; auto).
  assert (RQ : Q = at_ I (image_of w B) s').
  { rewrite <- FQ at 1. rewrite EQ at 1. rewrite image_at. unfold J. rewrite image_involutive. reflexivity. }
  set (c := (1 - s') / (s' * (1 - s))).
  assert (C : c <> 0).
  { unfold c. apply Rmult_integral_contrapositive_currified; [lra|]. apply Rinv_neq_0_compat.
    apply Rmult_integral_contrapositive_currified; lra. }
  assert (SA : side w A = (1 - s) * side w I) by (rewrite EA, side_at, SQ; ring).
  assert (SA0 : side w A <> 0) by (rewrite SA, SI; apply Rmult_integral_contrapositive_currified; lra).
  assert (E : vsub (image_of w B) Q = vscale c (vsub Q A)).
  { assert (F1 := f_equal fst RQ). assert (F2 := f_equal snd RQ). rewrite at_fst in F1. rewrite at_snd in F2.
    assert (G1 := f_equal fst EA). assert (G2 := f_equal snd EA). rewrite at_fst in G1. rewrite at_snd in G2.
    set (m := image_of w B) in *. clearbody Q m.
    assert (c * (s' * (1 - s)) = 1 - s').
    { unfold c. field. lra. }
    assert (X : forall q i a m, q = i + s' * (m - i) -> a = i + s * (q - i) -> m - q = c * (q - a)).
    { intros q i a m0 Hq Ha. rewrite Ha. replace (q - (i + s * (q - i))) with ((1 - s) * (q - i)) by ring.
      assert (q - i = s' * (m0 - i)) by lra. rewrite H1.
      replace (c * ((1 - s) * (s' * (m0 - i)))) with (c * (s' * (1 - s)) * (m0 - i)) by ring. rewrite H0. lra. }
    unfold vsub, vscale. apply vec_eq; cbn [fst snd]; eapply X; eauto. }
  split; auto. split; auto. split; auto.
  rewrite (evaluate_sides w A Q B c H SQ SA0 C E).
  assert (SC : side w B = c * side w A).
  { pose proof (side_diff w (image_of w B) Q) as D1. pose proof (side_diff w Q A) as D2.
    assert (E1 := f_equal fst E). assert (E2 := f_equal snd E). unfold vsub, vscale in E1, E2. cbn [fst snd] in E1, E2.
    rewrite E1, E2 in D1. rewrite side_image in D1 by auto. rewrite SQ in *.
    replace (tvx w * (c * (snd Q - snd A)) - tvy w * (c * (fst Q - fst A))) with
      (c * (tvx w * (snd Q - snd A) - tvy w * (fst Q - fst A))) in D1 by ring.
    rewrite <- D2 in D1. lra. }
  rewrite SC. assert (0 < side w A * side w A) by nra.
  destruct (Rlt_dec 0 c), (Rlt_dec 0 (side w A * (c * side w A))); auto; exfalso; nra.
Qed.

(** ** The path by index *)
Definition img (tx : vec) (ws : list wall) (i : nat) : vec := nth i (imgs_of tx ws) (0, 0).
Definition pt (tx : vec) (ws : list wall) (rx : vec) (i : nat) : vec := row (image_points tx ws rx) i.

Lemma pts_length tx ws rx : length (image_points tx ws rx) = (length ws + 2)%nat.
Proof.
  destruct (image_points_shape tx ws rx) as (m & -> & L). cbn. rewrite app_length. cbn. lia.
Qed.
Lemma imgs_length tx ws : length (imgs_of tx ws) = S (length ws).
Proof. unfold imgs_of. cbn. rewrite images_length. reflexivity. Qed.
Lemma pt_nth tx ws rx i : (i <= S (length ws))%nat -> nth_error (image_points tx ws rx) i = Some (pt tx ws rx i).
Proof. intro H. apply row_nth. rewrite pts_length. lia. Qed.
Lemma img_nth tx ws i : (i <= length ws)%nat -> nth_error (imgs_of tx ws) i = Some (img tx ws i).
Proof. intro H. apply nth_error_nth'. rewrite imgs_length. lia. Qed.
Lemma pt_0 tx ws rx : pt tx ws rx 0 = tx.
Proof. apply row_some. reflexivity. Qed.
Lemma img_0 tx ws : img tx ws 0 = tx.
Proof. reflexivity. Qed.
Lemma pt_last tx ws rx : pt tx ws rx (S (length ws)) = rx.
Proof.
  apply row_some. destruct (image_points_shape tx ws rx) as (m & -> & L). cbn [nth_error].
  rewrite nth_error_app2 by lia. rewrite L, Nat.sub_diag. reflexivity.
Qed.
Lemma img_S tx ws i w : nth_error ws i = Some w -> img tx ws (S i) = image_of w (img tx ws i).
Proof.
  intro H. assert (i < length ws)%nat by (apply nth_error_Some; congruence).
  pose proof (images_nth ws tx i w H) as E. rewrite !img_nth in E by lia. cbn [option_map] in E. congruence.
Qed.
Lemma pt_S tx ws rx i w : nth_error ws i = Some w ->
  pt tx ws rx (S i) = backward (pt tx ws rx (S (S i))) (w, img tx ws (S i)).
Proof.
  intro H. assert (i < length ws)%nat by (apply nth_error_Some; congruence).
  destruct (image_points_nth tx ws rx i w H) as (I & B & HI & HB & HQ).
  rewrite img_nth in HI by lia. rewrite pt_nth in HB by lia. rewrite pt_nth in HQ by lia. congruence.
Qed.
Definition gp (tx : vec) (ws : list wall) (rx : vec) : Prop :=
  (forall i w, nth_error ws i = Some w -> side w (img tx ws (S i)) <> side w (pt tx ws rx (S (S i)))) /\
  (forall i, (i <= length ws)%nat -> pt tx ws rx i <> pt tx ws rx (S i)).
Lemma consecutive_nth (R : vec -> vec -> Prop) pts :
  consecutive R pts <-> forall i a b, nth_error pts i = Some a -> nth_error pts (S i) = Some b -> R a b.
Proof.
  unfold consecutive. split.
  - intros H i a b Ha Hb. apply (H (firstn i pts) a b (skipn (S (S i)) pts)).
    clear H. revert i Ha Hb. induction pts as [|x pts IH]; intros [|i] Ha Hb; try discriminate.
    + cbn in Ha. injection Ha as ->. destruct pts; [discriminate|]. cbn in Hb. injection Hb as ->. reflexivity.
    + cbn [nth_error] in Ha, Hb. cbn [firstn app]. f_equal. rewrite (IH i Ha Hb) at 1. reflexivity.
  - intros H l p q r ->. apply (H (length l)).
    + rewrite nth_error_app2, Nat.sub_diag by lia. reflexivity.
    + rewrite nth_error_app2 by lia. replace (S (length l) - length l)%nat with 1%nat by lia. reflexivity.
Qed.
Lemma gp_iff tx ws rx : general_position tx ws (image_points tx ws rx) <-> gp tx ws rx.
Proof.
  unfold general_position, gp. rewrite consecutive_nth. split; intros [H1 H2]; split.
  - intros i w Hw E. assert (i < length ws)%nat by (apply nth_error_Some; congruence).
    apply (H1 (imgs_of tx ws) i w (img tx ws (S i)) (pt tx ws rx (S (S i)))).
    + apply (chain_eq _ _ ws); auto. apply as_walls_map.
    + auto.
    + apply img_nth. lia.
    + apply pt_nth. lia.
    + apply parallel_side. exact E.
  - intros i Hi. apply (H2 i); apply pt_nth; lia.
  - intros imgs i w I B HC Hw HI HB P. assert (i < length ws)%nat by (apply nth_error_Some; congruence).
    apply (chain_eq _ _ ws) in HC; [|apply as_walls_map]. subst imgs.
    rewrite img_nth in HI by lia. rewrite pt_nth in HB by lia. injection HI as <-. injection HB as <-.
    apply parallel_side in P. apply (H1 i w Hw P).
  - intros i a b Ha Hb.
    assert (S i < length (image_points tx ws rx))%nat by (apply nth_error_Some; congruence). rewrite pts_length in H.
    rewrite pt_nth in Ha, Hb by lia. injection Ha as <-. injection Hb as <-. apply H2. lia.
Qed.
Lemma line_k tx ws rx k : gp tx ws rx -> (k <= length ws)%nat ->
  exists s, pt tx ws rx k = at_ (img tx ws k) (pt tx ws rx (S k)) s.
Proof.
  intros [G _] K. destruct k as [|k].
  - exists 0. rewrite at_zero, pt_0, img_0. reflexivity.
  - destruct (nth_error ws k) as [w|] eqn:E; [|apply nth_error_None in E; lia].
    rewrite (pt_S tx ws rx k w E). eexists. apply backward_eq. apply G. auto.
Qed.
Lemma gp_step tx ws rx i w : gp tx ws rx -> nth_error ws i = Some w ->
  proper w /\ side w (pt tx ws rx i) <> 0 /\ side w (pt tx ws rx (S (S i))) <> 0 /\
  wall_evaluate w (pt tx ws rx i) (pt tx ws rx (S i)) (pt tx ws rx (S (S i))) =
    if Rlt_dec 0 (side w (pt tx ws rx i) * side w (pt tx ws rx (S (S i)))) then 0 else 4.
Proof.
  intros G H. assert (L : (i < length ws)%nat) by (apply nth_error_Some; congruence).
  destruct (line_k tx ws rx i G) as [s Es]; [lia|].
  pose proof (proj1 G i w H) as N. rewrite (img_S tx ws i w H) in N.
  pose proof (pt_S tx ws rx i w H) as EQ. rewrite (img_S tx ws i w H) in EQ.
  pose proof (wall_step w (img tx ws i) (pt tx ws rx i) (pt tx ws rx (S (S i))) s N) as W. cbn zeta in W.
  rewrite <- EQ in W. apply W; auto; apply (proj2 G); lia.
Qed.

(** C32 *)
Definition flag (tx : vec) (ws : list wall) (rx : vec) (x : nat * wall) : bool :=
  if Rlt_dec 0 (side (snd x) (pt tx ws rx (fst x)) * side (snd x) (pt tx ws rx (S (S (fst x))))) then false else true.
Lemma evals_walls tx ws rx : gp tx ws rx ->
  evals (map OWall ws) (image_points tx ws rx) = map (fun x => if flag tx ws rx x then 4 else 0) (enumerate ws).
Proof.
  intro G. apply nth_error_ext'. intro i. rewrite evals_nth, !nth_error_map, enumerate_nth.
  destruct (nth_error ws i) as [w|] eqn:E; [|reflexivity]. cbn [option_map obj_evaluate]. f_equal.
  destruct (gp_step tx ws rx i w G E) as (_ & _ & _ & V). unfold flag. cbn [fst snd].
  change (row (image_points tx ws rx) i) with (pt tx ws rx i).
  rewrite Nat.add_1_r. replace (i + 2)%nat with (S (S i)) by lia.
  change (row (image_points tx ws rx) (S i)) with (pt tx ws rx (S i)).
  change (row (image_points tx ws rx) (S (S i))) with (pt tx ws rx (S (S i))).
  rewrite V. destruct (Rlt_dec _ _); reflexivity.
Qed.
Lemma sum_flags (f : nat * wall -> bool) l :
  sumR (map (fun x => if f x then 4 else 0) l) = 4 * INR (count_occ Bool.bool_dec (map f l) true).
Proof.
  induction l as [|x l IH]; [cbn; ring|]. cbn [map count_occ].
  match goal with |- sumR (?a :: ?m) = _ => change (sumR (a :: m)) with (a + sumR m) end. rewrite IH.
  destruct (f x), (Bool.bool_dec _ true); try congruence; rewrite ?S_INR; ring.
Qed.
Lemma C32_lemma tx ws rx p : ImagePath_from tx (map OWall ws) rx = Ok p -> general_position tx ws (xys p) ->
  exists flags : list bool, length flags = length ws /\
    (forall i w, nth_error ws i = Some w ->
       nth_error flags i = Some true /\ crossing (xys p) i w \/
       nth_error flags i = Some false /\ true_reflection (xys p) i w) /\
    loss p = Fin (4 * INR (count_occ Bool.bool_dec flags true)).
Proof.
  intros HP HG. destruct (image_path_walls _ _ _ _ HP) as [X L]. rewrite X in *. apply gp_iff in HG.
  exists (map (flag tx ws rx) (enumerate ws)). split; [|split].
  - rewrite map_length. apply enumerate_length.
  - intros i w H. assert (Li : (i < length ws)%nat) by (apply nth_error_Some; congruence).
    destruct (gp_step tx ws rx i w HG H) as (_ & SA & SB & _).
    rewrite nth_error_map, enumerate_nth, H. cbn [option_map]. unfold flag. cbn [fst snd].
    unfold crossing, true_reflection, same_side, opposite_sides.
    destruct (Rlt_dec _ _) as [P|P]; [right|left]; (split; [reflexivity|]);
      exists (pt tx ws rx i), (pt tx ws rx (S (S i))); rewrite !pt_nth by lia; split; auto; split; auto;
      rewrite !side_of_side; auto.
    assert (side w (pt tx ws rx i) * side w (pt tx ws rx (S (S i))) <> 0) by (apply Rmult_integral_contrapositive_currified; auto).
    rewrite (side_of_side w (pt tx ws rx (S (S i)))). lra.
  - rewrite L. f_equal. rewrite path_loss_eq, evals_walls, sum_flags by auto. reflexivity.
Qed.
Lemma true_not_crossing pts i w : true_reflection pts i w -> crossing pts i w -> False.
Proof.
  intros (A & B & HA & HB & S1) (A' & B' & HA' & HB' & S2).
  assert (A = A') by congruence. assert (B = B') by congruence. subst. unfold same_side, opposite_sides in *. lra.
Qed.
Lemma C32_test tx ws rx p tol : ImagePath_from tx (map OWall ws) rx = Ok p -> general_position tx ws (xys p) ->
  0 < tol <= 4 ->
  (loss_below (loss p) tol <-> forall i w, nth_error ws i = Some w -> true_reflection (xys p) i w).
Proof.
  intros HP HG HT. destruct (C32_lemma _ _ _ _ HP HG) as (flags & LF & HF & ->). cbn [loss_below]. split.
  - intros HL i w Hw. destruct (HF i w Hw) as [[F C]|[F T]]; auto. exfalso.
    assert (In true flags) by (eapply nth_error_In; eauto).
    apply (count_occ_In Bool.bool_dec) in H.
    assert (1 <= INR (count_occ Bool.bool_dec flags true)); [|lra].
    change 1 with (INR 1). apply le_INR. lia.
  - intro HT'. assert (Z : count_occ Bool.bool_dec flags true = O).
    { apply count_occ_not_In. intro HI. apply In_nth_error in HI. destruct HI as [i Hi].
      assert (i < length flags)%nat by (apply nth_error_Some; congruence).
      destruct (nth_error ws i) as [w|] eqn:E; [|apply nth_error_None in E; lia].
      destruct (HF i w E) as [[_ C]|[F _]]; [|congruence]. eapply true_not_crossing; eauto. }
    rewrite Z. cbn. lra.
Qed.

(** C33 *)
Lemma on_line_fixed w q : on_line (w_origin w) (w_dest w) q -> image_of w q = q.
Proof.
  intro H. destruct (proper_dec w) as [P|P]; [apply image_fixed; auto|apply image_improper; auto].
Qed.
Lemma dist_between A B s : 0 <= s <= 1 -> dist A B = dist A (at_ A B s) + dist (at_ A B s) B.
Proof.
  intro H.
  assert (X : dist A (at_ A B s) = s * dist A B).
  { apply sq_eq; [apply dist_nonneg|apply Rmult_le_pos; [lra|apply dist_nonneg]|].
    replace (s * dist A B * (s * dist A B)) with (s * s * (dist A B * dist A B)) by ring.
    rewrite !dist_sq, at_fst, at_snd. ring. }
  assert (Y : dist (at_ A B s) B = (1 - s) * dist A B).
  { apply sq_eq; [apply dist_nonneg|apply Rmult_le_pos; [lra|apply dist_nonneg]|].
    replace ((1 - s) * dist A B * ((1 - s) * dist A B)) with ((1 - s) * (1 - s) * (dist A B * dist A B)) by ring.
    rewrite !dist_sq, at_fst, at_snd. ring. }
  rewrite X, Y. ring.
Qed.
Lemma seq_S_map {A} (f : nat -> A) n : map f (seq 0 (S n)) = map f (seq 0 n) ++ [f n].
Proof. rewrite seq_S, map_app. reflexivity. Qed.
Lemma sumR_snoc l x : sumR (l ++ [x]) = sumR l + x.
Proof. rewrite sumR_app. unfold sumR at 2. cbn. ring. Qed.
Definition steps (pts : list vec) (n : nat) : R :=
  sumR (map (fun i => dist (row pts i) (row pts (S i))) (seq 0 n)).
Lemma steps_S pts n : steps pts (S n) = steps pts n + dist (row pts n) (row pts (S n)).
Proof. unfold steps. rewrite seq_S_map, sumR_snoc. reflexivity. Qed.
Lemma row_cons p q pts i : row (p :: q :: pts) (S i) = row (q :: pts) i.
Proof.
  unfold row. cbn [length]. 
  replace (Nat.min (S i) (S (S (length pts)) - 1)) with (S (Nat.min i (S (length pts) - 1))) by lia. reflexivity.
Qed.
Lemma polyline_steps pts : polyline pts = steps pts (length pts - 1).
Proof.
  induction pts as [|p [|q pts] IH]; [reflexivity|reflexivity|].
  change (polyline (p :: q :: pts)) with (dist p q + polyline (q :: pts)). rewrite IH.
  unfold steps. cbn [length]. replace (S (S (length pts)) - 1)%nat with (S (length pts)) by lia.
  replace (S (length pts) - 1)%nat with (length pts) by lia.
  cbn [seq map]. rewrite <- seq_shift, map_map.
  match goal with |- _ = sumR (?a :: ?l) => change (sumR (a :: l)) with (a + sumR l) end.
  f_equal. f_equal. apply map_ext. intro i. rewrite !row_cons. reflexivity.
Qed.
Lemma Forall2_len {A B} (R : A -> B -> Prop) l l' : Forall2 R l l' -> length l = length l'.
Proof. induction 1; cbn; congruence. Qed.
Lemma Forall2_nth {A B} (R : A -> B -> Prop) l l' : Forall2 R l l' -> forall i a b,
  nth_error l i = Some a -> nth_error l' i = Some b -> R a b.
Proof.
  induction 1 as [|x y l l' H F IH]; intros [|i] a b Ha Hb; try discriminate.
  - cbn in Ha, Hb. congruence.
  - apply (IH i); auto.
Qed.
Lemma C33_lower tx ws rx pts : visits tx ws rx pts ->
  dist (img tx ws (length ws)) rx <= polyline pts.
Proof.
  intros (qs & -> & F). pose proof (Forall2_len _ _ _ F) as LQ.
  set (pts := tx :: qs ++ [rx]).
  assert (LP : length pts = S (S (length ws))) by (unfold pts; cbn; rewrite app_length; cbn; lia).
  assert (G : forall m, (m <= length ws)%nat -> dist (img tx ws m) (row pts (S m)) <= steps pts (S m)).
  { induction m as [|m IH]; intro Hm.
    - unfold steps. cbn [seq map]. unfold sumR. cbn [fold_right]. rewrite img_0.
      replace (row pts 0) with tx by (symmetry; apply row_some; reflexivity). lra.
    - rewrite steps_S. destruct (nth_error ws m) as [w|] eqn:E; [|apply nth_error_None in E; lia].
      rewrite (img_S tx ws m w E).
      assert (FX : image_of w (row pts (S m)) = row pts (S m)).
      { apply on_line_fixed. destruct (nth_error qs m) as [q|] eqn:Eq; [|apply nth_error_None in Eq; lia].
        replace (row pts (S m)) with q.
        - apply (Forall2_nth _ _ _ F m w q E Eq).
        - symmetry. apply row_some. unfold pts. cbn [nth_error]. rewrite nth_error_app1; auto. lia. }
      eapply Rle_trans; [apply (dist_triangle _ (row pts (S m)))|].
      rewrite <- FX at 1. rewrite image_isometry. specialize (IH ltac:(lia)). lra. }
  rewrite polyline_steps, LP. replace (S (S (length ws)) - 1)%nat with (S (length ws)) by lia.
  specialize (G (length ws) (le_n _)).
  replace (row pts (S (length ws))) with rx in G; auto.
  symmetry. apply row_some. unfold pts. cbn [nth_error]. rewrite nth_error_app2 by lia.
  replace (length ws - length qs)%nat with O by lia. reflexivity.
Qed.
Lemma true_refl_side tx ws rx i w : nth_error ws i = Some w ->
  (true_reflection (image_points tx ws rx) i w <-> 0 < side w (pt tx ws rx i) * side w (pt tx ws rx (S (S i)))).
Proof.
  intro H. assert (L : (i < length ws)%nat) by (apply nth_error_Some; congruence). unfold true_reflection. split.
  - intros (A & B & HA & HB & S). rewrite pt_nth in HA, HB by lia. injection HA as <-. injection HB as <-. exact S.
  - intro S. exists (pt tx ws rx i), (pt tx ws rx (Datatypes.S (Datatypes.S i))). rewrite !pt_nth by lia. auto.
Qed.
Lemma between_k tx ws rx : gp tx ws rx ->
  (forall i w, nth_error ws i = Some w -> true_reflection (image_points tx ws rx) i w) ->
  forall k, (k <= length ws)%nat -> exists s, 0 <= s < 1 /\ pt tx ws rx k = at_ (img tx ws k) (pt tx ws rx (S k)) s.
Proof.
  intros G T. induction k as [|k IH]; intro K.
  - exists 0. split; [lra|]. rewrite at_zero, pt_0, img_0. reflexivity.
  - destruct (nth_error ws k) as [w|] eqn:E; [|apply nth_error_None in E; lia].
    destruct IH as (s & Hs & Es); [lia|].
    destruct (gp_step tx ws rx k w G E) as (HW & SA & SB & _).
    pose proof (proj1 (true_refl_side tx ws rx k w E) (T k w E)) as SS.
    pose proof (proj1 G k w E) as N.
    assert (SQ : side w (pt tx ws rx (S k)) = 0) by (rewrite (pt_S tx ws rx k w E); apply backward_side; auto).
    assert (SA' : side w (pt tx ws rx k) = (1 - s) * side w (img tx ws k)).
    { rewrite Es at 1. rewrite side_at, SQ. ring. }
    assert (SJ : side w (img tx ws (S k)) = - side w (img tx ws k)).
    { rewrite (img_S tx ws k w E). apply side_image. auto. }
    exists (side w (img tx ws (S k)) / (side w (img tx ws (S k)) - side w (pt tx ws rx (S (S k))))).
    split; [|transitivity (backward (pt tx ws rx (S (S k))) (w, img tx ws (S k))); [apply pt_S; auto|apply backward_eq; auto]].
    set (x := side w (img tx ws (S k))) in *. set (y := side w (pt tx ws rx (S (S k)))) in *.
    assert (XY : x * y < 0).
    { assert (0 < (1 - s) * (side w (img tx ws k) * y)) by (rewrite <- Rmult_assoc, <- SA'; lra).
      rewrite SJ. assert (0 < side w (img tx ws k) * y); [|lra].
      destruct (Rlt_dec 0 (side w (img tx ws k) * y)); auto. nra. }
    assert (D : x - y <> 0) by lra.
    assert (XX : x / (x - y) * (x - y) = x) by (field; auto).
    set (r := x / (x - y)) in *. clearbody r.
    assert (0 < (x - y) * (x - y)) by nra.
    split.
    + assert (0 <= r * ((x - y) * (x - y))).
      { rewrite <- Rmult_assoc, XX. nra. }
      destruct (Rle_dec 0 r); auto. nra.
    + assert (r * ((x - y) * (x - y)) < 1 * ((x - y) * (x - y))).
      { rewrite <- Rmult_assoc, XX. assert (0 < y * y) by nra. nra. }
      apply Rmult_lt_reg_r in H0; auto.
Qed.
Lemma C33_length tx ws rx : gp tx ws rx ->
  (forall i w, nth_error ws i = Some w -> true_reflection (image_points tx ws rx) i w) ->
  polyline (image_points tx ws rx) = dist (img tx ws (length ws)) rx.
Proof.
  intros G T.
  assert (M : forall m, (m <= length ws)%nat -> steps (image_points tx ws rx) (S m) = dist (img tx ws m) (pt tx ws rx (S m))).
  { induction m as [|m IH]; intro Hm.
    - unfold steps. cbn [seq map]. unfold sumR. cbn [fold_right]. rewrite img_0, Rplus_0_r.
      change (row (image_points tx ws rx) 0) with (pt tx ws rx 0). rewrite pt_0. reflexivity.
    - rewrite steps_S, IH by lia. destruct (nth_error ws m) as [w|] eqn:E; [|apply nth_error_None in E; lia].
      change (row (image_points tx ws rx) (S m)) with (pt tx ws rx (S m)).
      change (row (image_points tx ws rx) (S (S m))) with (pt tx ws rx (S (S m))).
      destruct (between_k tx ws rx G T (S m) Hm) as (s & Hs & Es).
      rewrite (dist_between (img tx ws (S m)) (pt tx ws rx (S (S m))) s) by lra. rewrite <- Es. f_equal.
      rewrite (img_S tx ws m w E).
      assert (FX : image_of w (pt tx ws rx (S m)) = pt tx ws rx (S m)).
      { destruct (gp_step tx ws rx m w G E) as (HW & _). apply image_fixed; auto. apply on_line_side; auto.
        rewrite (pt_S tx ws rx m w E). apply backward_side. apply (proj1 G). auto. }
      rewrite <- FX at 2. symmetry. apply image_isometry. }
  rewrite polyline_steps, pts_length. replace (length ws + 2 - 1)%nat with (S (length ws)) by lia.
  rewrite M by lia. rewrite pt_last. reflexivity.
Qed.
Lemma C33_lemma tx ws rx p imgs I : ImagePath_from tx (map OWall ws) rx = Ok p -> general_position tx ws (xys p) ->
  (forall i w, nth_error ws i = Some w -> true_reflection (xys p) i w) ->
  image_chain tx (map OWall ws) imgs -> nth_error imgs (length ws) = Some I ->
  polyline (xys p) = dist I rx /\ visits tx ws rx (xys p) /\
  forall pts, visits tx ws rx pts -> polyline (xys p) <= polyline pts.
Proof.
  intros HP HG HT HC HI. destruct (image_path_walls _ _ _ _ HP) as [X _]. rewrite X in *.
  apply (chain_eq _ _ ws) in HC; [|apply as_walls_map]. subst imgs. rewrite img_nth in HI by lia. injection HI as <-.
  apply gp_iff in HG. rewrite (C33_length tx ws rx HG HT). split; [reflexivity|]. split; [|apply C33_lower].
  destruct (image_points_shape tx ws rx) as (qs & EQ & LQ). exists qs. split; auto.
  assert (H : forall i w q, nth_error ws i = Some w -> nth_error qs i = Some q -> on_line (w_origin w) (w_dest w) q).
  { intros i w q Hw Hq. destruct (gp_step tx ws rx i w HG Hw) as (HW & _). apply on_line_side; auto.
    assert (Li : (i < length ws)%nat) by (apply nth_error_Some; congruence).
    assert (q = pt tx ws rx (S i)).
    { symmetry. apply row_some. rewrite EQ. cbn [nth_error]. rewrite nth_error_app1 by lia. auto. }
    subst q. rewrite (pt_S tx ws rx i w Hw). apply backward_side. apply (proj1 HG). auto. }
  clear - H LQ. revert qs LQ H. induction ws as [|w ws IH]; intros [|q qs] L H; try discriminate; constructor.
  - apply (H O); reflexivity.
  - apply IH; [cbn in L; lia|]. intros i. apply (H (S i)).
Qed.

(** C34 *)
Definition col (A B X : vec) : Prop := cross (vsub B A) (vsub X A) = 0.
Lemma par_trans d u v : d <> (0, 0) -> cross d u = 0 -> cross d v = 0 -> cross u v = 0.
Proof.
  unfold cross. destruct d as [a b], u as [c e], v as [f g]. cbn [fst snd]. intros N H1 H2.
  assert (X : a * (c * g - e * f) = 0).
  { transitivity (c * (a * g - b * f) - f * (a * e - b * c)); [ring|]. rewrite H1, H2. ring. }
  assert (Y : b * (c * g - e * f) = 0).
  { transitivity (e * (a * g - b * f) - g * (a * e - b * c)); [ring|]. rewrite H1, H2. ring. }
  apply Rmult_integral in X. apply Rmult_integral in Y.
  destruct X as [X|X]; auto. destruct Y as [Y|Y]; auto. exfalso. apply N. congruence.
Qed.
Lemma vsub_neq a b : a <> b -> vsub a b <> (0, 0).
Proof. intros N E. apply N. apply vsub_zero. auto. Qed.
Lemma image_vsub w a b : vsub (image_of w a) (image_of w b) = mir w (vsub a b).
Proof. unfold mir, image_of, vsub, vscale, dot. apply vec_eq; cbn; ring. Qed.
Lemma mir_cross w u v : cross (mir w u) (mir w v) = 0 <-> cross u v = 0.
Proof.
  destruct (proper_dec w) as [H|H].
  - assert (E : cross (mir w u) (mir w v) = - cross u v).
    { pose proof (normal_unit w H) as U. unfold mir. revert U. generalize (normal w) as n. intros n U.
      assert (X : cross (vsub u (vscale (2 * dot u n) n)) (vsub v (vscale (2 * dot v n) n)) =
        cross u v - 2 * (cross u v * dot n n)). { unfold cross, vsub, vscale, dot. cbn. ring. }
      rewrite X, U. ring. }
    rewrite E. split; intro; lra.
  - assert (E : forall x, mir w x = x).
    { intro x. unfold mir. rewrite normal_improper by auto. unfold vsub, vscale, dot. apply vec_eq; cbn; ring. }
    rewrite !E. tauto.
Qed.
Lemma fwd_line tx ws rx k : gp tx ws rx -> (k <= length ws)%nat ->
  col (pt tx ws rx (S k)) (pt tx ws rx k) (img tx ws k) /\ img tx ws k <> pt tx ws rx (S k).
Proof.
  intros G K. destruct (line_k tx ws rx k G K) as [s Es]. split.
  - unfold col. rewrite Es. unfold cross, vsub, at_. cbn. ring.
  - intro E. apply (proj2 G k K). rewrite Es, E. unfold at_. apply vec_eq; cbn; ring.
Qed.
Lemma pt_fixed tx ws rx i w : gp tx ws rx -> nth_error ws i = Some w ->
  side w (pt tx ws rx (S i)) = 0 /\ image_of w (pt tx ws rx (S i)) = pt tx ws rx (S i).
Proof.
  intros G E. assert (S0 : side w (pt tx ws rx (S i)) = 0)
    by (rewrite (pt_S tx ws rx i w E); apply backward_side; apply (proj1 G); auto).
  split; auto. destruct (gp_step tx ws rx i w G E) as (HW & _). apply image_fixed; auto. apply on_line_side; auto.
Qed.
Lemma rev_line tx ws rx : gp tx ws rx -> forall m k, (m + k = length ws)%nat ->
  col (pt tx ws rx (S k)) (pt tx ws rx k) (img rx (rev ws) m).
Proof.
  intro G. induction m as [|m IH]; intros k E.
  - cbn in E. subst k. rewrite pt_last, img_0. unfold col, cross, vsub. cbn. ring.
  - assert (Hk : (k < length ws)%nat) by lia.
    destruct (nth_error ws k) as [w|] eqn:Ew; [|apply nth_error_None in Ew; lia].
    assert (Ew' : nth_error (rev ws) m = Some w).
    { rewrite nth_error_rev by lia. rewrite <- Ew. f_equal. lia. }
    specialize (IH (S k) ltac:(lia)).
    destruct (fwd_line tx ws rx (S k) G ltac:(lia)) as [F1 _].
    destruct (fwd_line tx ws rx k G ltac:(lia)) as [F0 N0].
    destruct (pt_fixed tx ws rx k w G Ew) as [SQ FQ].
    pose proof (proj2 G (S k) ltac:(lia)) as NQ.
    rewrite (img_S rx (rev ws) m w Ew'). rewrite (img_S tx ws k w Ew) in F1.
    set (Q := pt tx ws rx (S k)) in *. set (B := pt tx ws rx (S (S k))) in *. set (A := pt tx ws rx k) in *.
    set (J := img rx (rev ws) m) in *. set (I0 := img tx ws k) in *.
    assert (X : cross (vsub J Q) (vsub (image_of w I0) Q) = 0).
    { apply (par_trans (vsub Q B)); [apply vsub_neq; auto| |].
      - rewrite <- IH. unfold cross, vsub. cbn. ring.
      - rewrite <- F1. unfold cross, vsub. cbn. ring. }
    apply (mir_cross w) in X. rewrite <- !image_vsub, image_involutive, FQ in X.
    unfold col. apply (par_trans (vsub I0 Q)); [apply vsub_neq; auto| |].
    + transitivity (- cross (vsub A Q) (vsub I0 Q)); [unfold cross; ring|]. unfold col in F0. rewrite F0. ring.
    + transitivity (- cross (vsub (image_of w J) Q) (vsub I0 Q)); [unfold cross; ring|]. rewrite X. ring.
Qed.
Lemma backward_unique w J B Q : side w Q = 0 -> col Q B J -> side w J <> side w B -> Q = backward B (w, J).
Proof.
  intros SQ C N.
  assert (NJ : J <> B) by (intro; subst; auto).
  assert (L : on_line J B Q).
  { apply (on_line_side (mkwall J B) Q); [exact NJ|].
    transitivity (- cross (vsub B Q) (vsub J Q)); [|unfold col in C; rewrite C; ring].
    unfold side, cross, wall_t, dest, origin, vsub. cbn. ring. }
  destruct L as [t Et]. rewrite backward_eq by auto. rewrite Et. f_equal.
  rewrite Et, side_at in SQ. 
  assert (t * (side w J - side w B) = side w J) by lra. rewrite <- H at 1. field. lra.
Qed.
Lemma rev_points tx ws rx : gp tx ws rx ->
  (forall m k w, S m + k = length ws -> nth_error ws k = Some w ->
     pt rx (rev ws) tx (S (S m)) = pt tx ws rx k ->
     side w (img rx (rev ws) (S m)) <> side w (pt tx ws rx k))%nat ->
  image_points rx (rev ws) tx = rev (image_points tx ws rx).
Proof.
  intros G ND.
  assert (P : forall k m, (m + k = S (length ws))%nat -> pt rx (rev ws) tx m = pt tx ws rx k).
  { induction k as [|k IH]; intros m E.
    - rewrite pt_0. replace m with (S (length (rev ws))) by (rewrite rev_length; lia). apply pt_last.
    - destruct m as [|m]; [replace (S k) with (S (length ws)) by lia; rewrite pt_0, pt_last; reflexivity|].
      specialize (IH (S (S m)) ltac:(lia)).
      destruct (nth_error ws k) as [w|] eqn:Ew; [|apply nth_error_None in Ew; lia].
      assert (Ew' : nth_error (rev ws) m = Some w).
      { rewrite nth_error_rev by lia. rewrite <- Ew. f_equal. lia. }
      rewrite (pt_S rx (rev ws) tx m w Ew'). rewrite IH. symmetry. apply backward_unique.
      + apply (pt_fixed tx ws rx k w G Ew).
      + apply (rev_line tx ws rx G (S m) k). lia.
      + apply (ND m k w); auto. lia. }
  apply nth_error_ext'. intro i. destruct (Nat.le_gt_cases i (S (length ws))) as [H|H].
  - rewrite pt_nth by (rewrite rev_length; lia). rewrite nth_error_rev by (rewrite pts_length; lia).
    rewrite pts_length, pt_nth by lia. f_equal. apply P. lia.
  - transitivity (@None vec); [|symmetry]; apply nth_error_None; rewrite ?rev_length, pts_length, ?rev_length; lia.
Qed.
Lemma C34_points tx ws rx : gp tx ws rx -> gp rx (rev ws) tx ->
  image_points rx (rev ws) tx = rev (image_points tx ws rx).
Proof.
  intros G G'. apply rev_points; auto. intros m k w E Ew EP.
  rewrite <- EP. apply (proj1 G'). rewrite nth_error_rev by lia. rewrite <- Ew. f_equal. lia.
Qed.
Lemma rev_between tx ws rx : gp tx ws rx ->
  (forall i w, nth_error ws i = Some w -> true_reflection (image_points tx ws rx) i w) ->
  forall m k, (m + k = length ws)%nat ->
    exists s, 0 <= s < 1 /\ pt tx ws rx (S k) = at_ (img rx (rev ws) m) (pt tx ws rx k) s.
Proof.
  intros G T. induction m as [|m IH]; intros k E.
  - exists 0. split; [lra|]. cbn in E. subst k. rewrite pt_last, img_0, at_zero. reflexivity.
  - assert (Hk : (k < length ws)%nat) by lia.
    destruct (nth_error ws k) as [w|] eqn:Ew; [|apply nth_error_None in Ew; lia].
    assert (Ew' : nth_error (rev ws) m = Some w).
    { rewrite nth_error_rev by lia. rewrite <- Ew. f_equal. lia. }
    destruct (IH (S k) ltac:(lia)) as (s & Hs & Es).
    destruct (gp_step tx ws rx k w G Ew) as (HW & SA & SB & _).
    destruct (pt_fixed tx ws rx k w G Ew) as [SQ FQ].
    pose proof (proj1 (true_refl_side tx ws rx k w Ew) (T k w Ew)) as SS.
    pose proof (rev_line tx ws rx G (S m) k E) as RL.
    assert (SB' : side w (pt tx ws rx (S (S k))) = (1 - s) * side w (img rx (rev ws) m)).
    { rewrite Es at 1. rewrite side_at, SQ. ring. }
    assert (SJ : side w (img rx (rev ws) (S m)) = - side w (img rx (rev ws) m)).
    { rewrite (img_S rx (rev ws) m w Ew'). apply side_image. auto. }
    set (x := side w (img rx (rev ws) (S m))) in *. set (y := side w (pt tx ws rx k)) in *.
    assert (XY : x * y < 0).
    { assert (0 < (1 - s) * (side w (img rx (rev ws) m) * y)) by (rewrite <- Rmult_assoc, <- SB'; lra).
      rewrite SJ. assert (0 < side w (img rx (rev ws) m) * y); [|lra].
      destruct (Rlt_dec 0 (side w (img rx (rev ws) m) * y)); auto. nra. }
    assert (N : x <> y) by nra.
    exists (x / (x - y)). split.
    + assert (D : x - y <> 0) by lra.
      assert (XX : x / (x - y) * (x - y) = x) by (field; auto).
      set (r := x / (x - y)) in *. clearbody r.
      assert (0 < (x - y) * (x - y)) by nra.
      split.
      * assert (0 <= r * ((x - y) * (x - y))).
        { rewrite <- Rmult_assoc, XX. nra. }
        destruct (Rle_dec 0 r); auto. nra.
      * assert (r * ((x - y) * (x - y)) < 1 * ((x - y) * (x - y))).
        { rewrite <- Rmult_assoc, XX. assert (0 < y * y) by nra. nra. }
        apply Rmult_lt_reg_r in H0; auto.
    + transitivity (backward (pt tx ws rx k) (w, img rx (rev ws) (S m))).
      * apply backward_unique; auto.
      * apply backward_eq. auto.
Qed.
Lemma C34_reflections tx ws rx : gp tx ws rx ->
  (forall i w, nth_error ws i = Some w -> true_reflection (image_points tx ws rx) i w) ->
  image_points rx (rev ws) tx = rev (image_points tx ws rx) /\ gp rx (rev ws) tx.
Proof.
  intros G T.
  assert (ND : forall m k w, (S m + k)%nat = length ws -> nth_error ws k = Some w ->
     side w (img rx (rev ws) (S m)) <> side w (pt tx ws rx k)).
  { intros m k w E Ew. destruct (rev_between tx ws rx G T (S m) k E) as (s & Hs & Es).
    destruct (gp_step tx ws rx k w G Ew) as (HW & SA & SB & _).
    destruct (pt_fixed tx ws rx k w G Ew) as [SQ FQ].
    rewrite Es, side_at in SQ. intro X. rewrite X in SQ. apply SA. lra. }
  assert (EP : image_points rx (rev ws) tx = rev (image_points tx ws rx)).
  { apply rev_points; auto. }
  split; auto.
  assert (PE : forall m k, (m + k = S (length ws))%nat -> pt rx (rev ws) tx m = pt tx ws rx k).
  { intros m k E. unfold pt at 1. rewrite EP, row_rev by (rewrite pts_length; lia).
    unfold pt. f_equal. rewrite pts_length. lia. }
  split.
  - intros i w Ew. assert (Hi : (i < length ws)%nat) by (rewrite <- (rev_length ws); apply nth_error_Some; congruence).
    rewrite nth_error_rev in Ew by auto. rewrite (PE (S (S i)) (length ws - S i)%nat) by lia.
    apply ND; auto. lia.
  - intros i Hi. rewrite rev_length in Hi.
    rewrite (PE i (S (length ws - i))) by lia. rewrite (PE (S i) (length ws - i)%nat) by lia.
    intro X. apply (proj2 G (length ws - i)%nat); [lia|auto].
Qed.
Lemma image_from_ok tx ws rx : ImagePath_from tx (map OWall ws) rx =
  Ok (mkpath (image_points tx ws rx) (Fin (path_loss (map OWall ws) (image_points tx ws rx)))).
Proof.
  destruct (image_ok_walls tx ws rx) as [p Hp]. rewrite Hp. destruct (image_path_walls _ _ _ _ Hp) as [X L].
  destruct p as [x l]. cbn in *. subst. reflexivity.
Qed.
Lemma C34_lemma tx ws rx p p' :
  ImagePath_from tx (map OWall ws) rx = Ok p -> general_position tx ws (xys p) ->
  ImagePath_from rx (map OWall (rev ws)) tx = Ok p' ->
  (general_position rx (rev ws) (xys p') \/
   forall i w, nth_error ws i = Some w -> true_reflection (xys p) i w) ->
  xys p' = rev (xys p) /\ loss p' = loss p.
Proof.
  intros HP HG HP' HH. destruct (image_path_walls _ _ _ _ HP) as [X L].
  destruct (image_path_walls _ _ _ _ HP') as [X' L']. rewrite X, X' in *. apply gp_iff in HG.
  assert (E : image_points rx (rev ws) tx = rev (image_points tx ws rx)).
  { destruct HH as [HH|HH]; [apply C34_points; auto; apply gp_iff; auto|apply C34_reflections; auto]. }
  split; auto. rewrite L, L', E. f_equal. apply path_loss_rev. apply pts_length.
Qed.

(** C35 *)
Lemma evaluate_repeat_next w A B : wall_evaluate w A B B = if Req_EM_T (dist A B) 0 then 0 else 1.
Proof.
  rewrite evaluate_eq. cbn zeta. assert (Z : vsub B B = (0, 0)) by (apply vsub_zero; auto). rewrite Z, normalize_zero.
  cbn [fst]. set (i := fst (normalize (vsub B A))).
  assert (E : dot (vsub (0, 0) (mir w i)) (vsub (0, 0) (mir w i)) = dot (mir w i) (mir w i))
    by (unfold dot, vsub; cbn; ring).
  rewrite E, mir_norm. destruct (direction_cases A B i (normalize_direction _)) as [[D N]|[D N]]; rewrite D;
    destruct (Req_EM_T (dist A B) 0) as [Y|Y]; auto; exfalso.
  - apply Y. apply dist_zero. auto.
  - apply N. apply dist_zero. auto.
Qed.
Lemma evals_nonneg ws pts x : In x (evals (map OWall ws) pts) -> 0 <= x.
Proof.
  intro H. apply In_nth_error in H. destruct H as [i H]. rewrite evals_nth, nth_error_map in H.
  destruct (nth_error ws i); cbn in H; [|discriminate]. injection H as <-. apply evaluate_range.
Qed.
Lemma sumR_ge l x : (forall y, In y l -> 0 <= y) -> In x l -> x <= sumR l.
Proof.
  induction l as [|a l IH]; intros N HI; [destruct HI|]. destruct HI as [->|H].
  - assert (0 <= sumR l).
    { clear IH. induction l as [|b l IHl]; [cbn; lra|]. change (sumR (b :: l)) with (b + sumR l).
      assert (0 <= b) by (apply N; cbn; auto). assert (0 <= sumR l); [|lra]. apply IHl. intros y Hy. apply N. cbn in *. tauto. }
    change (sumR (x :: l)) with (x + sumR l). lra.
  - change (sumR (a :: l)) with (a + sumR l). assert (0 <= a) by (apply N; cbn; auto).
    assert (x <= sumR l); [|lra]. apply IH; auto. intros y Hy. apply N. cbn; auto.
Qed.
Lemma sumR_all0 l : (forall y, In y l -> y = 0) -> sumR l = 0.
Proof.
  induction l as [|y l IH]; intro Z; [reflexivity|].
  change (sumR (y :: l)) with (y + sumR l). rewrite (Z y), IH; cbn; auto; [ring|].
  intros z Hz. apply Z. cbn. auto.
Qed.
Lemma loss_ge ws pts i w : nth_error ws i = Some w ->
  wall_evaluate w (row pts i) (row pts (S i)) (row pts (S (S i))) <= path_loss (map OWall ws) pts.
Proof.
  intro H. rewrite path_loss_eq. apply sumR_ge; [apply evals_nonneg|].
  apply (nth_error_In _ i). rewrite evals_nth, nth_error_map, H. cbn [option_map obj_evaluate].
  rewrite Nat.add_1_r. replace (i + 2)%nat with (S (S i)) by lia. reflexivity.
Qed.
(** A repeated point spreads to both ends or costs at least 1. *)
Lemma evaluate_repeat_prev w A B : wall_evaluate w A A B = if Req_EM_T (dist B A) 0 then 0 else 1.
Proof. rewrite <- evaluate_reverse. apply evaluate_repeat_next. Qed.
Lemma collapse ws pts k : (k <= length ws)%nat ->
  row pts k = row pts (S k) -> path_loss (map OWall ws) pts < 1 ->
  forall j, (j <= length ws)%nat -> row pts j = row pts (S j).
Proof.
  intros K E H.
  assert (Down : forall i, (i < length ws)%nat -> row pts (S i) = row pts (S (S i)) -> row pts i = row pts (S i)).
  { intros i Hi Ei. destruct (nth_error ws i) as [w|] eqn:Ew; [|apply nth_error_None in Ew; lia].
    pose proof (loss_ge ws pts i w Ew) as G. rewrite <- Ei, evaluate_repeat_next in G.
    destruct (Req_EM_T (dist (row pts i) (row pts (S i))) 0) as [Z|Z]; [apply dist_zero; auto|lra]. }
  assert (Up : forall i, (i < length ws)%nat -> row pts i = row pts (S i) -> row pts (S i) = row pts (S (S i))).
  { intros i Hi Ei. destruct (nth_error ws i) as [w|] eqn:Ew; [|apply nth_error_None in Ew; lia].
    pose proof (loss_ge ws pts i w Ew) as G. rewrite Ei, evaluate_repeat_prev in G.
    destruct (Req_EM_T (dist (row pts (S (S i))) (row pts (S i))) 0) as [Z|Z]; [symmetry; apply dist_zero; auto|lra]. }
  assert (Z : row pts 0 = row pts 1).
  { revert K E. induction k as [|k IH]; intros K E; auto. apply IH; [lia|]. apply Down; auto. }
  induction j as [|j IH]; intro Hj; auto. apply Up; [lia|]. apply IH. lia.
Qed.
Lemma C35_lemma tx ws rx p imgs i w I B :
  ImagePath_from tx (map OWall ws) rx = Ok p -> image_chain tx (map OWall ws) imgs ->
  nth_error ws i = Some w -> nth_error imgs (S i) = Some I -> nth_error (xys p) (S (S i)) = Some B ->
  parallel (w_origin w) (w_dest w) I B ->
  nth_error (xys p) (S i) = Some B /\
  ((exists l, loss p = Fin l /\ 1 <= l) \/ (Forall (eq tx) (xys p) /\ loss p = Fin 0)).
Proof.
  intros HP HC Hw HI HB HPar. destruct (image_path_walls _ _ _ _ HP) as [X L].
  assert (Li : (i < length ws)%nat) by (apply nth_error_Some; congruence).
  assert (HQ : nth_error (xys p) (S i) = Some (pt tx ws rx (S i))) by (rewrite X; apply pt_nth; lia).
  destruct (C31_lemma tx (map OWall ws) rx p imgs i (OWall w) w I (pt tx ws rx (S i)) B) as [_ D]; auto.
  { rewrite nth_error_map, Hw. reflexivity. }
  specialize (D HPar). rewrite HQ. split; [congruence|].
  destruct (Rlt_dec (path_loss (map OWall ws) (xys p)) 1) as [H|H]; [right|left; exists (path_loss (map OWall ws) (xys p)); split; [auto|lra]].
  assert (A : forall j, (j <= length ws)%nat -> row (xys p) j = row (xys p) (S j)).
  { apply (collapse ws (xys p) (S i)); auto. rewrite (row_some _ _ _ HQ), (row_some _ _ _ HB). auto. }
  assert (A' : forall j, (j <= S (length ws))%nat -> row (xys p) j = tx).
  { induction j as [|j IH]; intro Hj; [rewrite X; exact (pt_0 tx ws rx)|]. rewrite <- A by lia. apply IH. lia. }
  split.
  - apply Forall_forall. intros q Hq. apply In_nth_error in Hq. destruct Hq as [j Hj].
    assert (j < length (xys p))%nat by (apply nth_error_Some; congruence). rewrite X, pts_length in H0.
    rewrite <- (row_some _ _ _ Hj). symmetry. apply A'. lia.
  - rewrite L. f_equal. rewrite path_loss_eq.
    assert (Z : forall y, In y (evals (map OWall ws) (xys p)) -> y = 0).
    { intros y Hy. apply In_nth_error in Hy. destruct Hy as [j Hj]. rewrite evals_nth, nth_error_map in Hj.
      destruct (nth_error ws j) as [v|] eqn:Ej; cbn [option_map] in Hj; [|discriminate].
      assert (j < length ws)%nat by (apply nth_error_Some; congruence).
      cbn [obj_evaluate] in Hj. rewrite !A' in Hj by lia. injection Hj as <-. rewrite evaluate_repeat_next.
      destruct (Req_EM_T _ 0) as [|N]; auto. exfalso. apply N. apply dist_refl. }
    apply sumR_all0. exact Z.
Qed.
