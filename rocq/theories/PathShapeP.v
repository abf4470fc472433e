(** Proofs about the shape of the paths the constructors return. *)
From Coq Require Import Reals List Bool ZArith Arith Lia Lra.
From Verif Require Import Base BaseP LogicM GeometryM OptimizeM PathM SpecGeometry SpecPath VecP WallP ShapeP OptimizeP PathP PathSmoothP SpecLogic.
Import ListNotations.
Open Scope R_scope.
Local Notation length := List.length.

Fixpoint param_points (os : list object) (params : list R) (j : nat) : list vec :=
  match os with
  | [] => []
  | o :: tl => p2c_from_slice o params j (parameters_count o) :: param_points tl params (j + parameters_count o)
  end.
Lemma param_points_length os params : forall j, length (param_points os params j) = length os.
Proof. induction os; intro j; cbn; auto. Qed.
Lemma set_row_app pre x post v : set_row (pre ++ x :: post) (length pre) v = pre ++ v :: post.
Proof. induction pre; cbn; congruence. Qed.
Lemma p2c_fold params os : forall s pre mid post j, length pre = (s + 1)%nat -> length mid = length os ->
  fst (fold_left
         (fun '(c, j) '(i, obj) =>
            let size := parameters_count obj in
            (set_row c (i + 1) (p2c_from_slice obj params j size), (j + size)%nat))
         (combine (seq s (length os)) os) (pre ++ mid ++ post, j)) = pre ++ param_points os params j ++ post.
Proof.
  induction os as [|o os IH]; intros s pre mid post j P M; cbn [length seq combine fold_left param_points].
  - destruct mid; [reflexivity|discriminate].
  - destruct mid as [|m mid]; [discriminate|]. cbn [length] in M.
    cbn zeta. change ((m :: mid) ++ post) with (m :: mid ++ post).
    rewrite <- P, set_row_app.
    replace (pre ++ p2c_from_slice o params j (parameters_count o) :: mid ++ post)
      with ((pre ++ [p2c_from_slice o params j (parameters_count o)]) ++ mid ++ post)
      by (rewrite <- app_assoc; reflexivity).
    rewrite IH; [|rewrite app_length; cbn; lia|lia]. rewrite <- app_assoc. reflexivity.
Qed.
Lemma p2c_eq os params tx rx :
  parametric_to_cartesian os params (length os) tx rx = tx :: param_points os params 0 ++ [rx].
Proof.
  unfold parametric_to_cartesian. set (n := length os).
  assert (E : set_row (set_row (repeat (0, 0) (n + 2)) 0 tx) (n + 1) rx = [tx] ++ repeat (0, 0) n ++ [rx]).
  { replace (n + 2)%nat with (S (n + 1)) by lia. rewrite Nat.add_1_r. cbn [repeat set_row app].
    f_equal. pose proof (set_row_app (repeat (0, 0) n) (0, 0) [] rx) as Q. rewrite repeat_length in Q.
    transitivity (set_row (repeat (0, 0) n ++ [(0, 0)]) n rx); [|exact Q]. rewrite <- repeat_cons. reflexivity. }
  rewrite E. unfold enumerate.
  etransitivity; [apply (p2c_fold params os 0 [tx] (repeat (0, 0) n) [rx] 0); [reflexivity|apply repeat_length]|reflexivity].
Qed.

(** C29 *)
Lemma backward_scan_length rx xs : length (snd (backward_scan rx xs)) = length xs.
Proof. induction xs as [|x xs IH]; cbn; auto. destruct (backward_scan rx xs). cbn in *. congruence. Qed.
Lemma images_length ws : forall i, length (images i ws) = length ws.
Proof. induction ws; intro i; cbn; auto. Qed.
Lemma image_points_shape tx ws rx : exists mid, image_points tx ws rx = tx :: mid ++ [rx] /\ length mid = length ws.
Proof.
  eexists. split; [reflexivity|]. rewrite backward_scan_length, combine_length, images_length, Nat.min_id. reflexivity.
Qed.
Lemma as_walls_length os : forall ws, as_walls os = Some ws -> length ws = length os.
Proof.
  induction os as [|o os IH]; intros ws; cbn; [intro E; inversion E; auto|].
  destruct (as_wall o); [|discriminate]. destruct (as_walls os); [|discriminate]. intro E. inversion E; subst. cbn. f_equal. auto.
Qed.
Lemma C29_lemma P c key tx os rx p : from_tx_objects_rx P c key tx os rx = Ok p ->
  (exists mid, xys p = tx :: mid ++ [rx] /\ length mid = length os) /\ (os = [] -> p = mkpath [tx; rx] (Fin 0)).
Proof.
  assert (F : forall eps s k, FermatPath_from eps s P k tx os rx = Ok p ->
    (exists mid, xys p = tx :: mid ++ [rx] /\ length mid = length os) /\ (os = [] -> p = mkpath [tx; rx] (Fin 0))).
  { intros eps s k. unfold FermatPath_from. destruct os as [|o os']; [intro E; inversion E; split; [exists []; auto|auto]|].
    set (os := o :: os'). destruct (minimize_many_random_uniform _ _ _ _ _ _ _ _) as [[th l]|]; cbn [rbind]; [|discriminate].
    intro E. inversion E as [X]. cbn [xys]. split; [|discriminate]. exists (param_points os th 0).
    rewrite p2c_eq, param_points_length. auto. }
  assert (M : forall s k, MinPath_from s P k tx os rx = Ok p ->
    (exists mid, xys p = tx :: mid ++ [rx] /\ length mid = length os) /\ (os = [] -> p = mkpath [tx; rx] (Fin 0))).
  { intros s k. unfold MinPath_from. destruct os as [|o os']; [intro E; inversion E; split; [exists []; auto|auto]|].
    set (os := o :: os'). destruct (minimize_many_random_uniform _ _ _ _ _ _ _ _) as [[th l]|]; cbn [rbind]; [|discriminate].
    intro E. inversion E as [X]. cbn [xys]. split; [|discriminate]. exists (param_points os th 0).
    rewrite p2c_eq, param_points_length. auto. }
  assert (Z : os = [] -> Ok (mkpath [tx; rx] (Fin 0)) = Ok p ->
    (exists mid, xys p = tx :: mid ++ [rx] /\ length mid = length os) /\ (os = [] -> p = mkpath [tx; rx] (Fin 0))).
  { intros -> E. inversion E. split; [exists []; auto|auto]. }
  destruct c as [| |eps s|s]; cbn [from_tx_objects_rx].
  - intro E. inversion E. cbn [xys Path_from path_default]. split.
    + exists (map (fun o => obj_p2c o [5 / 10]) os). rewrite map_length. auto.
    + intros ->. reflexivity.
  - unfold ImagePath_from. destruct os as [|o os']; [intro E; apply Z; auto|]. set (os := o :: os').
    destruct (stack_leaves os); cbn [rbind]; [|discriminate]. destruct (as_walls os) as [ws|] eqn:W; [|discriminate].
    intro E. inversion E as [X]. cbn [xys]. split; [|discriminate].
    destruct (image_points_shape tx ws rx) as (mid & -> & L). exists mid. split; auto. rewrite L. apply as_walls_length; auto.
  - destruct key as [k|]; [apply F|]. destruct os; [apply Z; auto|discriminate].
  - destruct key as [k|]; [apply M|]. destruct os; [apply Z; auto|discriminate].
Qed.

(** When the constructors succeed. *)
Lemma image_ok_walls tx ws rx : exists p, ImagePath_from tx (map OWall ws) rx = Ok p.
Proof.
  unfold ImagePath_from. destruct ws as [|w ws]; [cbn; eauto|].
  assert (A : forall l, as_walls (map OWall l) = Some l).
  { induction l as [|x l IH]; cbn; auto. rewrite IH. reflexivity. }
  assert (B : forall l, forallb (fun o' => kind_eqb (kind_of o') KWall) (map OWall l) = true) by (induction l; cbn; auto).
  cbn [map]. unfold stack_leaves. change (kind_of (OWall w)) with KWall.
  change (OWall w :: map OWall ws) with (map OWall (w :: ws)). rewrite B. cbn [rbind]. rewrite A. eauto.
Qed.
Lemma image_vertex_fails tx v vs rx : ImagePath_from tx (map OVertex (v :: vs)) rx = Err AttributeError.
Proof.
  unfold ImagePath_from. cbn [map]. unfold stack_leaves. change (kind_of (OVertex v)) with KVertex.
  change (OVertex v :: map OVertex vs) with (map OVertex (v :: vs)).
  assert (B : forall l, forallb (fun o' => kind_eqb (kind_of o') KVertex) (map OVertex l) = true) by (induction l; cbn; auto).
  rewrite B. reflexivity.
Qed.
Lemma image_mixed_fails tx os rx : (exists o o', In o os /\ In o' os /\ kind_of o <> kind_of o') ->
  ImagePath_from tx os rx = Err ValueError.
Proof.
  intro H. pose proof (stack_err os H) as E. unfold ImagePath_from. destruct os as [|o os].
  - destruct H as (? & ? & [] & _).
  - rewrite E. reflexivity.
Qed.
Lemma many_ok P f grad o steps key n many : (1 <= steps)%nat -> (1 <= many)%nat ->
  length (rsplit P key many) = many -> exists r, minimize_many_random_uniform P f grad o steps key n many = Ok r.
Proof.
  intros S M L. destruct (Nat.eq_dec many 1) as [->|N].
  - apply minimize_ok; auto.
  - destruct (C44_lemma P f grad o steps key n many ltac:(lia) L S) as (tr & i & _ & _ & _ & E & _).
    eexists. apply (E ([], 0)).
Qed.
Lemma solver_ok P c key tx os rx s : (exists eps, c = ClsFermat eps s) \/ c = ClsMin s ->
  (1 <= sv_steps s)%nat -> (1 <= sv_many s)%nat -> length (rsplit P key (sv_many s)) = sv_many s ->
  exists p, from_tx_objects_rx P c (Some key) tx os rx = Ok p.
Proof.
  intros C S M L. destruct C as [[eps ->]| ->]; cbn [from_tx_objects_rx].
  - unfold FermatPath_from. destruct os as [|o os']; [eauto|]. set (os := o :: os').
    destruct (many_ok P (fermat_objective eps os tx rx) (sv_grad s (fermat_objective eps os tx rx)) (sv_opt s)
      (sv_steps s) key (n_unknowns os) (sv_many s) S M L) as [[th l] ->]. cbn [rbind]. eauto.
  - unfold MinPath_from. destruct os as [|o os']; [eauto|]. set (os := o :: os').
    destruct (many_ok P (min_objective os tx rx) (sv_grad s (min_objective os tx rx)) (sv_opt s)
      (sv_steps s) key (n_unknowns os) (sv_many s) S M L) as [[th l] ->]. cbn [rbind]. eauto.
Qed.

(** C30 *)
Definition isw (o : object) : bool := match wall_of o with Some _ => true | None => false end.
Lemma walls_before_S o os i : walls_before (o :: os) (S i) = ((if isw o then 1 else 0) + walls_before os i)%nat.
Proof. unfold walls_before. cbn [firstn filter]. fold (isw o). destruct (isw o); reflexivity. Qed.
Lemma count_params os : n_unknowns os = walls_before os (length os).
Proof.
  unfold n_unknowns, walls_before. rewrite firstn_all.
  assert (G : forall l a, fold_left (fun a o => (a + parameters_count o)%nat) l a =
    (a + length (filter (fun o => match wall_of o with Some _ => true | None => false end) l))%nat).
  { induction l as [|o l IH]; intro a; cbn [fold_left filter length]; [lia|]. rewrite IH.
    destruct o; cbn; lia. }
  rewrite G. reflexivity.
Qed.
Lemma walls_before_mono os : forall i i', (i <= i')%nat -> (walls_before os i <= walls_before os i')%nat.
Proof.
  induction os as [|o os IH]; intros [|i] [|i'] H; try (cbn; lia).
  rewrite !walls_before_S. specialize (IH i i' ltac:(lia)). lia.
Qed.
Lemma walls_before_wall os : forall i o w, nth_error os i = Some o -> wall_of o = Some w ->
  walls_before os (S i) = S (walls_before os i).
Proof.
  induction os as [|x os IH]; intros [|i] o w E W; cbn in E; try discriminate.
  - inversion E; subst. rewrite walls_before_S. unfold isw. rewrite W. reflexivity.
  - rewrite walls_before_S. rewrite (walls_before_S x os i). rewrite (IH i o w E W). lia.
Qed.
Lemma walls_before_lt os i o w : nth_error os i = Some o -> wall_of o = Some w ->
  (walls_before os i < walls_before os (length os))%nat.
Proof.
  intros E W. pose proof (walls_before_wall os i o w E W).
  assert (i < length os)%nat by (apply nth_error_Some; congruence).
  pose proof (walls_before_mono os (S i) (length os) ltac:(lia)). lia.
Qed.
Lemma slice_one params j : (j < length params)%nat -> nth 0 (dynamic_slice params j 1) 0 = nth j params 0.
Proof.
  intro H. unfold dynamic_slice. rewrite Nat.min_l by lia.
  revert j H. induction params as [|a params IH]; intros j H; cbn in H; [lia|].
  destruct j as [|j]; [reflexivity|]. cbn [skipn nth]. apply IH. lia.
Qed.
Lemma param_points_nth params os : forall j i o, nth_error os i = Some o ->
  (j + walls_before os (length os) <= length params)%nat ->
  nth_error (param_points os params j) i = Some (position_on o (nth (j + walls_before os i) params 0)).
Proof.
  induction os as [|x os IH]; intros j [|i] o E L; cbn in E; try discriminate.
  - inversion E; subst x. cbn [param_points nth_error]. f_equal.
    replace (walls_before (o :: os) 0) with 0%nat by reflexivity. rewrite Nat.add_0_r.
    cbn [length] in L. rewrite walls_before_S in L. unfold p2c_from_slice.
    destruct o as [w|w phi|v]; cbn [isw wall_of] in L; cbn [obj_p2c parameters_count position_on]; auto;
      rewrite slice_one by lia; unfold wall_p2c, at_; apply vec_eq; cbn; unfold origin, dest; ring.
  - cbn [param_points nth_error]. cbn [length] in L. rewrite walls_before_S in L |- *.
    assert (C : parameters_count x = (if isw x then 1 else 0)%nat) by (destruct x; reflexivity).
    rewrite C. rewrite IH with (o := o) by (auto; lia). do 3 f_equal. lia.
Qed.
Lemma C30_lemma os params tx rx i o : length params = walls_before os (length os) -> nth_error os i = Some o ->
  nth_error (parametric_to_cartesian os params (length os) tx rx) (S i) =
  Some (position_on o (nth (walls_before os i) params 0)).
Proof.
  intros L E. rewrite p2c_eq. cbn [nth_error].
  assert (i < length os)%nat by (apply nth_error_Some; congruence).
  rewrite nth_error_app1 by (rewrite param_points_length; auto).
  rewrite (param_points_nth params os 0 i o E) by lia. reflexivity.
Qed.
Lemma C30_once os j : (j < walls_before os (length os))%nat ->
  exists! i, exists o w, nth_error os i = Some o /\ wall_of o = Some w /\ walls_before os i = j.
Proof.
  intro L.
  assert (X : exists i o w, nth_error os i = Some o /\ wall_of o = Some w /\ walls_before os i = j).
  { revert j L. induction os as [|x os IH]; intros j L; [cbn in L; lia|].
    cbn [length] in L. rewrite walls_before_S in L. destruct (isw x) eqn:I.
    - unfold isw in I. destruct (wall_of x) as [w|] eqn:W; [|discriminate]. destruct j as [|j].
      + exists 0%nat, x, w. auto.
      + destruct (IH j ltac:(lia)) as (i & o & w' & A & B & C). exists (S i), o, w'. rewrite walls_before_S.
        unfold isw. rewrite W. cbn. auto.
    - destruct (IH j ltac:(lia)) as (i & o & w' & A & B & C). exists (S i), o, w'. rewrite walls_before_S, I. cbn. auto. }
  destruct X as (i & o & w & A & B & C). exists i. split; [eauto|].
  intros i' (o' & w' & A' & B' & C').
  pose proof (walls_before_wall os i o w A B). pose proof (walls_before_wall os i' o' w' A' B').
  destruct (Nat.lt_trichotomy i i') as [T|[T|T]]; auto.
  - pose proof (walls_before_mono os (S i) i' ltac:(lia)). lia.
  - pose proof (walls_before_mono os (S i') i ltac:(lia)). lia.
Qed.
Definition solver_shape (s : solver) : Prop :=
  keeps_shape (sv_opt s) /\ forall f x, length (sv_grad s f x) = length x.
Lemma C30_solver P c key tx os rx s p : (exists eps, c = ClsFermat eps s) \/ c = ClsMin s ->
  solver_shape s -> (forall k n, length (runiform P k n) = n) -> os <> [] ->
  from_tx_objects_rx P c (Some key) tx os rx = Ok p ->
  exists theta, length theta = walls_before os (length os) /\
  forall i o, nth_error os i = Some o -> nth_error (xys p) (S i) = Some (position_on o (nth (walls_before os i) theta 0)).
Proof.
  intros C [K G] U N E.
  assert (Q : forall f r, minimize_many_random_uniform P f (sv_grad s f) (sv_opt s) (sv_steps s) key (n_unknowns os) (sv_many s) = Ok r ->
    length (fst r) = walls_before os (length os)).
  { intros f r H. apply many_is_trial in H. destruct H as [k H]. apply minimize_length in H; auto.
    rewrite H, U. apply count_params. }
  destruct C as [[eps ->]| ->]; cbn [from_tx_objects_rx] in E.
  - unfold FermatPath_from in E. destruct os as [|o0 os']; [contradiction|]. set (os := o0 :: os') in *.
    destruct (minimize_many_random_uniform _ _ _ _ _ _ _ _) as [[th l]|] eqn:Em; cbn [rbind] in E; [|discriminate].
    inversion E; subst p. cbn [xys]. specialize (Q _ _ Em). cbn [fst] in Q. exists th. split; auto.
    intros i o I. apply C30_lemma; auto.
  - unfold MinPath_from in E. destruct os as [|o0 os']; [contradiction|]. set (os := o0 :: os') in *.
    destruct (minimize_many_random_uniform _ _ _ _ _ _ _ _) as [[th l]|] eqn:Em; cbn [rbind] in E; [|discriminate].
    inversion E; subst p. cbn [xys]. specialize (Q _ _ Em). cbn [fst] in Q. exists th. split; auto.
    intros i o I. apply C30_lemma; auto.
Qed.
Lemma position_on_line o w t : wall_of o = Some w -> on_line (w_origin w) (w_dest w) (position_on o t).
Proof. destruct o; cbn; intro E; inversion E; subst; exists t; reflexivity. Qed.

(** C27 *)
Lemma C27_path p b : path_bbox p = Ok b -> tight_box b (xys p).
Proof.
  unfold path_bbox. destruct (xys p) as [|q qs]; [discriminate|]. intro E. inversion E. apply bbox_tight.
Qed.

(** C42 *)
Lemma C42_only_if g tx rx objects k :
  is_valid g (mkpath [tx; rx] (Fin 0)) objects [] [] DEFAULT_TOL DEFAULT_PATCH (Some false) k = Ok (TB false) ->
  exists o w s t, In o objects /\ wall_of o = Some w /\ ~ parallel (w_origin w) (w_dest w) tx rx /\
    meet_at (w_origin w) (w_dest w) tx rx s t /\
    - (5 / 1000) <= s <= 1 + 5 / 1000 /\ - (5 / 1000) <= t <= 1 + 5 / 1000.
Proof.
  intro H. destruct (C38_lemma g (mkpath [tx; rx] (Fin 0)) objects [] [] DEFAULT_TOL DEFAULT_PATCH k) as (b & E & B);
    cbn [xys length]; try lia. rewrite E in H. inversion H; subst b. clear H E.
  cbn [xys loss loss_below] in B.
  assert (O : ~ ~ obstructed [tx; rx] objects [] DEFAULT_PATCH SEG_TOL).
  { intro N. assert (false = true); [|discriminate]. apply B. split; [unfold DEFAULT_TOL; lra|]. split; auto.
    intros i o w q I. destruct i; discriminate. }
  assert (D : obstructed [tx; rx] objects [] DEFAULT_PATCH SEG_TOL).
  { destruct (C37_lemma g (mkpath [tx; rx] (Fin 0)) objects [] DEFAULT_PATCH k) as (c & _ & C); cbn [xys length]; try lia.
    cbn [xys] in C. destruct c; [apply C; auto|]. exfalso. apply O. intro X. apply C in X. discriminate. }
  destruct D as (i & j & A & B' & o & w & [S1 S2] & I & W & _ & C).
  destruct i as [|[|i]]; cbn in S1, S2; try discriminate. inversion S1; inversion S2; subst A B'. clear S1 S2.
  apply crosses_param in C; [|unfold DEFAULT_PATCH; lra]. destruct C as [N (s & t & M & S & T)].
  unfold DEFAULT_PATCH, SEG_TOL in *. exists o, w, s, t. split; [eapply nth_error_In; eauto|]. split; auto. split; auto. split; auto.
  split; lra.
Qed.
Lemma C42_behind : let w := mkwall (1001/1000, -1) (1001/1000, 1) in
  let tx := (0, 0) in let rx := (1, 0) in
  (forall X, ~ (on_segment tx rx X /\ on_segment (w_origin w) (w_dest w) X)) /\
  forall g k, is_valid g (mkpath [tx; rx] (Fin 0)) [OWall w] [] [] DEFAULT_TOL DEFAULT_PATCH (Some false) k = Ok (TB false).
Proof.
  cbv zeta. split.
  - intros X [(s & S & ->) (t & T & E)]. unfold at_ in E. cbn in E. assert (E1 := f_equal fst E). cbn in E1. lra.
  - intros g k. set (w := mkwall (1001/1000, -1) (1001/1000, 1)).
    destruct (C38_lemma g (mkpath [(0,0); (1,0)] (Fin 0)) [OWall w] [] [] DEFAULT_TOL DEFAULT_PATCH k) as (b & -> & B);
    cbn [xys length]; try lia. do 2 f_equal. destruct b; auto. exfalso.
    destruct (proj1 B eq_refl) as (_ & _ & N). apply N. exists 0%nat, 0%nat, (0,0), (1,0), (OWall w), w.
    split; [split; reflexivity|]. split; [reflexivity|]. split; [reflexivity|]. split.
    + intros [X|(i & X & _)]; discriminate.
    + apply crosses_param; [unfold DEFAULT_PATCH; lra|]. unfold w, DEFAULT_PATCH, SEG_TOL. cbn [w_origin w_dest]. split.
      * unfold parallel. cbn. lra.
      * exists (1/2), (1001/1000). split; [unfold meet_at, at_; cbn; f_equal; lra|]. split; lra.
Qed.
Lemma C36_counterexample :
  let w := mkwall (0, 0) (1, 0) in
  let q := (1 / 2, 7) in
  (forall g k, on_objects g (mkpath [(0, 1); q; (1, 1)] (Fin 0)) [OWall w] (Some false) k = TB true) /\
  ~ on_line (w_origin w) (w_dest w) q.
Proof.
  cbv zeta. split.
  - intros g k. destruct (C36_lemma g (mkpath [(0, 1); (1 / 2, 7); (1, 1)] (Fin 0)) [OWall (mkwall (0, 0) (1, 0))] k) as (b & -> & B);
      [cbn; lia|]. f_equal. apply B. intros i o w q O W Q. cbn [xys] in Q.
    destruct i as [|[|i]]; cbn in O; try discriminate. inversion O; subst o. cbn in W. inversion W; subst w.
    cbn in Q. inversion Q; subst q. exists (1/2). split; [lra|]. unfold projects_at, at_. cbn. lra.
  - intros [t E]. unfold at_ in E. cbn in E. assert (E1 := f_equal snd E). cbn in E1. lra.
Qed.
Lemma valid_examples :
  let p := mkpath [(0, 1); (1, 0); (2, 1)] (Fin 0) in
  let w := OWall (mkwall (0, 0) (2, 0)) in
  (forall g k, is_valid g p [w; OWall (mkwall (5, 0) (5, 2))] [0%Z] [w] DEFAULT_TOL 0 (Some false) k = Ok (TB true)) /\
  (forall g k, is_valid g p [w; OWall (mkwall (3 / 2, 0) (3 / 2, 2))] [0%Z] [w] DEFAULT_TOL 0 (Some false) k = Ok (TB false)).
Proof.
  cbv zeta. split; intros g k.
  - destruct (C38_lemma g (mkpath [(0, 1); (1, 0); (2, 1)] (Fin 0)) [OWall (mkwall (0, 0) (2, 0)); OWall (mkwall (5, 0) (5, 2))] [0%Z]
      [OWall (mkwall (0, 0) (2, 0))] DEFAULT_TOL 0 k) as (b & -> & B); try (cbn; lia).
    do 2 f_equal. apply B. cbn [loss xys]. split; [cbn; unfold DEFAULT_TOL; lra|]. split.
    + intros i o w q O W Q. destruct i as [|[|i]]; cbn in O; try discriminate. inversion O; subst o. cbn in W. inversion W; subst w.
      cbn in Q. inversion Q; subst q. exists (1/2). split; [lra|]. unfold projects_at, at_. cbn. lra.
    + intros (i & j & A & C & o & w & [S1 S2] & O & W & T & K).
      apply crosses_param in K; [|lra]. destruct K as (N & u & t & M & U & V). unfold SEG_TOL in *.
      destruct j as [|[|j]]; cbn in O.
      * exfalso. apply T. destruct i as [|[|[|i]]]; cbn in S2; try discriminate; unfold touches; cbn; [auto|].
        right. exists 0%nat. auto.
      * inversion O; subst o. cbn in W. inversion W; subst w. cbn [w_origin w_dest] in *.
        unfold meet_at, at_ in M. assert (M1 := f_equal fst M). cbn [fst snd] in M1.
        destruct i as [|[|[|i]]]; cbn in S1, S2; try discriminate; inversion S1; inversion S2; subst; cbn in M1; lra.
      * destruct j; discriminate.
  - destruct (C38_lemma g (mkpath [(0, 1); (1, 0); (2, 1)] (Fin 0)) [OWall (mkwall (0, 0) (2, 0)); OWall (mkwall (3 / 2, 0) (3 / 2, 2))] [0%Z]
      [OWall (mkwall (0, 0) (2, 0))] DEFAULT_TOL 0 k) as (b & -> & B); try (cbn; lia).
    do 2 f_equal. destruct b; auto. exfalso. destruct (proj1 B eq_refl) as (_ & _ & N). apply N.
    exists 1%nat, 1%nat, (1,0), (2,1), (OWall (mkwall (3 / 2, 0) (3 / 2, 2))), (mkwall (3 / 2, 0) (3 / 2, 2)).
    split; [split; reflexivity|]. split; [reflexivity|]. split; [reflexivity|]. split.
    + intros [X|(i & X & Y)]; [discriminate|]. inversion X; subst i. discriminate.
    + apply crosses_param; [lra|]. unfold SEG_TOL. cbn [w_origin w_dest]. split; [unfold parallel; cbn; lra|].
      exists (1/4), (1/2). split; [unfold meet_at, at_; cbn; f_equal; lra|]. split; lra.
Qed.
Lemma C40_both g k : shipped k -> 0 < ak_alpha k ->
  forall p objects cand interacting tol patch t,
  (length (xys p) <= length cand + 2)%nat -> (length interacting < length (xys p))%nat ->
  is_valid g p objects cand interacting tol patch (Some true) k = Ok t ->
  (is_true g t DEFAULT_TRUTH_TOL (Some true) = Ok true ->
   is_valid g p objects cand interacting tol patch (Some false) k = Ok (TB true)) /\
  (is_valid g p objects cand interacting tol patch (Some false) k = Ok (TB true) ->
   (forall i o w q, nth_error interacting i = Some o -> wall_of o = Some w ->
      nth_error (xys p) (S i) = Some q -> proper w /\ ~ projects_at w q 0 /\ ~ projects_at w q 1) ->
   is_true g t DEFAULT_TRUTH_TOL (Some true) = Ok true).
Proof.
  intros Hs Ha p objects cand interacting tol patch t L1 L2 E.
  destruct (C40_lemma g k Hs Ha p objects cand interacting tol patch L1 L2) as (t' & b & E' & T & B).
  rewrite E in E'. inversion E'; subst t'. rewrite T.
  destruct (C38_lemma g p objects cand interacting tol patch k L1 L2) as (c & -> & C). split.
  - intro X. inversion X; subst b. do 2 f_equal. apply C. destruct (proj1 B eq_refl) as (P & Q & R).
    split; auto. split; auto. apply strict_inside; auto.
  - intros X Y. inversion X; subst c. f_equal. apply B. destruct (proj1 C eq_refl) as (P & Q & R).
    split; auto. split; auto. intros i o w q O W Q'. destruct (Y i o w q O W Q') as (Pw & N0 & N1).
    split; auto. destruct (Q i o w q O W Q') as (s & S & Z). exists s. split; auto.
    assert (s <> 0) by (intro; subst; auto). assert (s <> 1) by (intro; subst; auto). lra.
Qed.
Lemma C29_middle P key tx os rx p : from_tx_objects_rx P ClsPath key tx os rx = Ok p ->
  xys p = tx :: map (fun o => position_on o (1 / 2)) os ++ [rx] /\ loss p = Fin 0.
Proof.
  cbn [from_tx_objects_rx]. intro E. inversion E. split; [|reflexivity]. cbn [xys Path_from path_default].
  f_equal. f_equal. apply map_ext. intros [w|w phi|v]; cbn [obj_p2c position_on nth]; auto;
    unfold wall_p2c, at_, vadd, vscale, wall_t, dest, origin, vsub; apply vec_eq; cbn; field.
Qed.
