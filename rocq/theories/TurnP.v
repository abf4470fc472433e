(** Proofs: drawing walls in the other direction changes nothing. *)
From Coq Require Import Reals List Bool ZArith String Lia Lra Psatz Permutation.
From Verif Require Import Base BaseP LogicM GeometryM VecP OptimizeM PathM CandidatesM SceneM SpecScene SpecRun SpecOrder
  SegP WallP PathP PathShapeP CandidatesP SceneP SceneRunP SceneAccP SceneGridP OrderP.
Import ListNotations.
Local Notation length := List.length.
Open Scope R_scope.

Notation back := drawn_backwards.
Lemma back_t w : wall_t (back w) = vopp (wall_t w).
Proof. unfold wall_t, back, dest, origin, vsub, vopp. cbn. f_equal; ring. Qed.
Lemma norm_opp u : norm (vopp u) = norm u.
Proof. unfold norm, dot, vopp. cbn. f_equal. ring. Qed.
Lemma back_normal w : normal (back w) = vopp (normal w).
Proof.
  unfold normal. rewrite back_t. unfold normalize. cbn zeta. cbn [fst].
  assert (E : norm (snd (vopp (wall_t w)), - fst (vopp (wall_t w))) = norm (snd (wall_t w), - fst (wall_t w))).
  { rewrite <- (norm_opp (snd (wall_t w), - fst (wall_t w))). reflexivity. }
  rewrite E. unfold vopp. cbn [fst snd]. f_equal; unfold Rdiv; ring.
Qed.
(** The normal is orthogonal to the wall. *)
Lemma normal_orth w : dot (wall_t w) (normal w) = 0.
Proof. unfold normal, normalize, dot. cbn. unfold Rdiv. ring. Qed.
Lemma off_normal w p : dot (vsub p (origin (back w))) (normal w) = dot (vsub p (origin w)) (normal w).
Proof.
  pose proof (normal_orth w) as H. unfold wall_t, back, dest, origin, dot, vsub in *. cbn [w_origin w_dest fst snd] in *. lra.
Qed.
Lemma back_image w p : image_of (back w) p = image_of w p.
Proof.
  unfold image_of. cbn zeta. rewrite back_normal.
  assert (E : dot (vsub p (origin (back w))) (vopp (normal w)) = - dot (vsub p (origin w)) (normal w)).
  { rewrite <- off_normal. unfold dot, vopp. cbn. ring. }
  rewrite E. unfold vsub, vscale, vopp. cbn. f_equal; ring.
Qed.
Lemma back_backward point w i : backward point (back w, i) = backward point (w, i).
Proof.
  unfold backward. rewrite back_normal. cbn zeta.
  assert (E1 : dot (vsub point i) (vopp (normal w)) = - dot (vsub point i) (normal w)) by (unfold dot, vopp; cbn; ring).
  assert (E2 : dot (vsub (origin (back w)) point) (vopp (normal w)) = - dot (vsub (origin w) point) (normal w)).
  { pose proof (off_normal w point) as H. unfold dot, vopp, vsub in *. cbn [fst snd] in *. lra. }
  rewrite E1, E2. destruct (Reqb_spec (- dot (vsub point i) (normal w)) 0), (Reqb_spec (dot (vsub point i) (normal w)) 0); try lra; auto.
  apply f_equal. apply vec_eq; cbn [fst snd]; field; auto.
Qed.
Lemma back_c2p w p : back w = w \/ wall_c2p (back w) p = 1 - wall_c2p w p.
Proof.
  destruct (Reqb_spec (dot (wall_t w) (wall_t w)) 0) as [Z|Z].
  - left. unfold back. destruct w as [[a b] [c d]]. unfold wall_t, dot, vsub, dest, origin in Z. cbn in *.
    destruct (Rplus_sqr_eq_0 (c - a) (d - b)) as [A B]; [exact Z|].
    replace c with a by lra. replace d with b by lra. reflexivity.
  - right. unfold wall_c2p. cbn zeta. rewrite back_t.
    assert (E : dot (vopp (wall_t w)) (vopp (wall_t w)) = dot (wall_t w) (wall_t w)) by (unfold dot, vopp; cbn; ring).
    rewrite E. destruct (Reqb_spec (dot (wall_t w) (wall_t w)) 0); [contradiction|].
    assert (N : dot (vopp (wall_t w)) (vsub p (origin (back w))) = dot (wall_t w) (wall_t w) - dot (wall_t w) (vsub p (origin w))).
    { unfold dot, vopp, wall_t, vsub, back, origin, dest. cbn. ring. }
    rewrite N. field. auto.
Qed.
Lemma contains_flip g s a k : wall_contains g (1 - s) a k = wall_contains g s a k.
Proof.
  unfold wall_contains. cbn zeta. rewrite and_comm_t. unfold logical_and, greater_equal, less_equal.
  destruct (resolve g a); cbn.
  - replace (1 + - (1 - s)) with (s + - 0) by lra. replace (1 - s + - 0) with (1 + - s) by lra. reflexivity.
  - f_equal. f_equal; apply eq_true_iff_eq; rewrite !Rleb_true; lra.
Qed.
Lemma back_intersects g w r0 r1 patch a k : wall_intersects g (back w) r0 r1 patch a k = wall_intersects g w r0 r1 patch a k.
Proof.
  unfold wall_intersects. rewrite back_t. rewrite seg_swap_first.
  f_equal; unfold vadd, vsub, vscale, vopp, back, origin, dest; cbn; f_equal; ring.
Qed.
Lemma back_evaluate w p q r : wall_evaluate (back w) p q r = wall_evaluate w p q r.
Proof.
  unfold wall_evaluate. cbn zeta. rewrite back_normal. set (i := fst (normalize (vsub q p))).
  assert (E : vscale (2 * dot i (vopp (normal w))) (vopp (normal w)) = vscale (2 * dot i (normal w)) (normal w)).
  { unfold vscale, dot, vopp. cbn. f_equal; ring. }
  rewrite E. reflexivity.
Qed.
Lemma back_middle w : wall_p2c (back w) (5 / 10) = wall_p2c w (5 / 10).
Proof. unfold wall_p2c. rewrite back_t. unfold vadd, vscale, vopp, wall_t, vsub, back, origin, dest. cbn. f_equal; field. Qed.

(** ** Objects *)
Section Obj.
  Context (o o' : object) (H : redrawn o o').
  Ltac go := destruct H as [->|(w & -> & ->)]; [reflexivity|].
  Lemma rd_kind : kind_of o' = kind_of o. Proof. go. reflexivity. Qed.
  Lemma rd_on g p a k : obj_contains g o' (obj_c2p o' p) a k = obj_contains g o (obj_c2p o p) a k.
  Proof.
    go. cbn [obj_contains obj_c2p nth]. destruct (back_c2p w p) as [->| ->]; [reflexivity|]. apply contains_flip.
  Qed.
  Lemma rd_inter g p q patch a k : obj_intersects g o' p q patch a k = obj_intersects g o p q patch a k.
  Proof. go. apply back_intersects. Qed.
  Lemma rd_evaluate p q r : obj_evaluate o' p q r = obj_evaluate o p q r.
  Proof. go. apply back_evaluate. Qed.
  Lemma rd_middle : obj_p2c o' [5 / 10] = obj_p2c o [5 / 10].
  Proof. go. apply back_middle. Qed.
End Obj.
Definition same_wall (w w' : wall) : Prop := (forall p, image_of w' p = image_of w p) /\ forall p i, backward p (w', i) = backward p (w, i).
Definition res_rel {A B} (R : A -> B -> Prop) (x : res A) (y : res B) : Prop :=
  match x, y with Ok a, Ok b => R a b | Err e, Err e' => e' = e | _, _ => False end.

Lemma f2_fold {A B C} (R : B -> C -> Prop) (F : A -> nat * B -> A) (G : A -> nat * C -> A) l l' :
  (forall a i b c, R b c -> G a (i, c) = F a (i, b)) -> Forall2 R l l' ->
  forall a, fold_left G (enumerate l') a = fold_left F (enumerate l) a.
Proof.
  intros H F2. unfold enumerate. generalize 0%nat as n. induction F2; intros n b; cbn [length seq combine fold_left]; [reflexivity|].
  rewrite (H b n x y H0). apply IHF2.
Qed.
  Lemma rds_length os os' (H : Forall2 redrawn os os') : length os' = length os.
  Proof. induction H; cbn; auto. Qed.
  Lemma rds_on os os' (H : Forall2 redrawn os os') g p a k : on_objects g p os' a k = on_objects g p os a k.
  Proof.
    unfold on_objects. apply (f2_fold redrawn); auto. intros acc i o o' Q. cbn zeta. rewrite (rd_on o o'); auto.
  Qed.
  Lemma rds_loss os os' (H : Forall2 redrawn os os') pts : path_loss os' pts = path_loss os pts.
  Proof. unfold path_loss. apply (f2_fold redrawn); auto. intros acc i o o' Q. rewrite (rd_evaluate o o'); auto. Qed.
  Lemma rds_inter os os' (H : Forall2 redrawn os os') g p cand patch a k : intersects_with_objects g p os' cand patch a k = intersects_with_objects g p os cand patch a k.
  Proof.
    unfold intersects_with_objects. rewrite (rds_length os os' H). destruct (_ && _)%bool; [reflexivity|]. f_equal.
    generalize (false_value g a) as acc. induction (seq 0 (length (xys p) - 1)) as [|i l IH]; intro acc; cbn [fold_left]; [reflexivity|].
    rewrite IH. f_equal. apply (f2_fold redrawn); auto. intros acc' j o o' Q. cbn zeta. rewrite (rd_inter o o'); auto.
  Qed.
  Lemma rds_kinds os os' (H : Forall2 redrawn os os') o o' : redrawn o o' -> forallb (fun x => kind_eqb (kind_of x) (kind_of o')) os' = forallb (fun x => kind_eqb (kind_of x) (kind_of o)) os.
  Proof.
    intro Q. rewrite (rd_kind o o' Q). clear Q. induction H as [|x y l l' Hx F IH]; [reflexivity|]. cbn [forallb]. rewrite IH, (rd_kind x y Hx). reflexivity.
  Qed.
  Lemma rds_walls os os' (H : Forall2 redrawn os os') : match as_walls os, as_walls os' with
    | Some ws, Some ws' => Forall2 same_wall ws ws' | None, None => True | _, _ => False end.
  Proof.
    induction H as [|x y l l' Hx F IH]; cbn [as_walls]; [constructor|].
    assert (W : match as_wall x, as_wall y with Some w, Some w' => same_wall w w' | None, None => True | _, _ => False end).
    { destruct Hx as [->|(w & -> & ->)].
      - destruct (as_wall x); auto. split; reflexivity.
      - split; intros; [apply back_image|apply back_backward]. }
    destruct (as_wall x), (as_wall y); try contradiction; auto. destruct (as_walls l), (as_walls l'); try contradiction; auto.
  Qed.
Lemma images_same ws ws' : Forall2 same_wall ws ws' -> forall i, images i ws' = images i ws.
Proof. induction 1 as [|w w' ws ws' Hw F IH]; intro i; cbn [images]; [reflexivity|]. cbn zeta. rewrite (proj1 Hw), IH. reflexivity. Qed.
Lemma scan_same ws ws' rx : Forall2 same_wall ws ws' -> forall is, backward_scan rx (combine ws' is) = backward_scan rx (combine ws is).
Proof.
  induction 1 as [|w w' ws ws' Hw F IH]; intros [|i is]; cbn [combine backward_scan]; try reflexivity.
  rewrite IH. destruct (backward_scan rx (combine ws is)) as [c ys]. rewrite (proj2 Hw). reflexivity.
Qed.
Lemma image_rds tx os os' rx : Forall2 redrawn os os' -> ImagePath_from tx os' rx = ImagePath_from tx os rx.
Proof.
  intro H. destruct H as [|o o' l l' Ho F]; [reflexivity|]. assert (H : Forall2 redrawn (o :: l) (o' :: l')) by (constructor; auto).
  pose proof (rds_kinds _ _ H o o' Ho) as K. pose proof (rds_walls _ _ H) as W. unfold ImagePath_from, stack_leaves. rewrite K.
  destruct (forallb _ (o :: l)); cbn [rbind]; [|reflexivity].
  destruct (as_walls (o :: l)) as [ws|], (as_walls (o' :: l')) as [ws'|]; try contradiction; [|reflexivity].
  cbn zeta. assert (E : image_points tx ws' rx = image_points tx ws rx).
  { unfold image_points. rewrite (images_same ws ws') by auto. rewrite (scan_same ws ws') by auto. reflexivity. }
  rewrite E, (rds_loss _ _ H). reflexivity.
Qed.
Lemma from_rds P cls key tx os os' rx : no_solver cls -> Forall2 redrawn os os' ->
  from_tx_objects_rx P cls key tx os' rx = from_tx_objects_rx P cls key tx os rx.
Proof.
  intros N H. destruct cls; try contradiction; cbn [from_tx_objects_rx].
  - f_equal. unfold Path_from. do 2 f_equal. f_equal. induction H as [|x y l l' Hx F IH]; [reflexivity|]. cbn [map]. rewrite IH, (rd_middle x y Hx). reflexivity.
  - apply image_rds; auto.
Qed.
Lemma valid_rds g p os os' cand it it' tol patch a k : Forall2 redrawn os os' -> Forall2 redrawn it it' ->
  is_valid g p os' cand it' tol patch a k = is_valid g p os cand it tol patch a k.
Proof. intros H H'. unfold is_valid. rewrite (rds_inter os os' H), (rds_on it it' H'). reflexivity. Qed.

(** ** Scenes *)
Section Sc.
  Context (s s' : scene) (Ht : transmitters s' = transmitters s) (Hr : receivers s' = receivers s)
    (H : Forall2 redrawn (objects s) (objects s')).
  Lemma homogeneous_rds : homogeneous (objects s') = homogeneous (objects s).
  Proof. destruct H as [|o o' l l' Ho F]; [reflexivity|]. apply (rds_kinds (o :: l) (o' :: l')); auto. Qed.
  Lemma nth_rds l l' : Forall2 redrawn l l' -> forall i d d', redrawn d d' -> redrawn (nth i l d) (nth i l' d').
  Proof. induction 1; intros [|i] d d' D; cbn; auto. Qed.
  Lemma nth_error_rds l l' : Forall2 redrawn l l' -> forall i,
    match nth_error l i, nth_error l' i with Some o, Some o' => redrawn o o' | None, None => True | _, _ => False end.
  Proof. induction 1; intros [|i]; cbn; auto. apply IHForall2. Qed.
  Lemma get_object_rds i : res_rel redrawn (get_object s i) (get_object s' i).
  Proof.
    unfold get_object. rewrite homogeneous_rds. destruct H as [|o o' l l' Ho F]; [reflexivity|].
    destruct (homogeneous _); [|reflexivity]. cbn zeta.
    assert (F' : Forall2 redrawn (o :: l) (o' :: l')) by (constructor; auto). rewrite (rds_length _ _ F'). apply nth_rds; auto.
  Qed.
  Lemma py_index_rds i : res_rel redrawn (py_index (objects s) i) (py_index (objects s') i).
  Proof.
    unfold py_index. rewrite (rds_length _ _ H). cbn zeta. destruct (_ && _)%bool; [|reflexivity].
    set (j := Z.to_nat _). pose proof (nth_error_rds _ _ H j) as Q.
    destruct (nth_error (objects s) j), (nth_error (objects s') j); try contradiction; auto; reflexivity.
  Qed.
  Lemma rseq_rds (h h' : Z -> res object) : (forall i, res_rel redrawn (h i) (h' i)) -> forall l, res_rel (Forall2 redrawn) (rseq (map h l)) (rseq (map h' l)).
  Proof.
    intros Q l. induction l as [|i l IH]; cbn [map rseq]; [constructor|]. specialize (Q i). unfold res_rel in *.
    destruct (h i), (h' i); try contradiction; cbn [rbind]; auto.
    destruct (rseq (map h l)), (rseq (map h' l)); try contradiction; cbn [rbind]; auto.
  Qed.
  Lemma interacting_rds c : res_rel (Forall2 redrawn) (get_interacting_objects s c) (get_interacting_objects s' c).
  Proof.
    unfold get_interacting_objects. rewrite homogeneous_rds, (rds_length _ _ H).
    destruct (_ || _)%bool; apply rseq_rds; [apply get_object_rds|apply py_index_rds].
  Qed.
  Lemma filtered_rds keep : (forall o o', redrawn o o' -> keep o' = keep o) -> filtered_nodes s' keep = filtered_nodes s keep.
  Proof.
    intro K. unfold filtered_nodes. apply (f2_fold redrawn); auto. intros a i o o' Q. rewrite (K o o' Q). reflexivity.
  Qed.
  Lemma candidates_rds ca : filter_ignores_direction ca -> scene_candidates s' ca = scene_candidates s ca.
  Proof.
    unfold filter_ignores_direction, scene_candidates. intro K. rewrite (rds_length _ _ H).
    destruct (ca_filter ca) as [keep|]; [|reflexivity]. rewrite (filtered_rds keep K). reflexivity.
  Qed.
  Section Run.
    Context (P : prng) (g : bool) (cls : path_cls) (va : validargs) (NS : no_solver cls).
    Lemma one_rds tx rx c key : one_path P g s' cls va tx rx c key = one_path P g s cls va tx rx c key.
    Proof.
      unfold one_path. pose proof (interacting_rds c) as Q. unfold res_rel in Q.
      destruct (get_interacting_objects s c) as [it|], (get_interacting_objects s' c) as [it'|]; try contradiction; cbn [rbind]; [|congruence].
      destruct (match key with Some k => _ | None => _ end) as [k1 k2].
      rewrite (from_rds P cls k2 (snd tx) it it' (snd rx)) by auto. destruct (from_tx_objects_rx _ _ _ _ _ _) as [p|]; cbn [rbind]; [|reflexivity].
      rewrite (valid_rds g p (objects s) (objects s') c it it') by auto. reflexivity.
    Qed.
    Lemma run_rds work : forall key, run_paths P g s' cls va work key = run_paths P g s cls va work key.
    Proof.
      induction work as [|[[tx rx] c] work IH]; intro key; cbn [run_paths]; [reflexivity|]. rewrite one_rds.
      destruct (one_path P g s cls va tx rx c key) as [[it k']|]; [|reflexivity]. rewrite IH. reflexivity.
    Qed.
    Lemma all_rds ca key : filter_ignores_direction ca -> all_paths P g s' cls ca va key = all_paths P g s cls ca va key.
    Proof.
      intro K. unfold all_paths, cands_z, all_transmitter_receiver_pairs. rewrite Ht, Hr, (candidates_rds ca K). apply run_rds.
    Qed.
    Context (f : pathfun) (FI : ignores_direction f).
    Lemma group_rds gr : acc_group s' f gr = acc_group s f gr.
    Proof.
      destruct gr as [|it gr]; [reflexivity|]. unfold acc_group. rewrite Ht, Hr.
      destruct (pd_get (transmitters s) (it_tx it)) as [tx|]; cbn [rbind]; [|reflexivity].
      destruct (pd_get (receivers s) (it_rx it)) as [rx|]; cbn [rbind]; [|reflexivity]. f_equal.
      generalize (Ok (Fin 0)) as a. generalize (it :: gr) as l. induction l as [|i l IH]; intro a; cbn [fold_left]; [reflexivity|].
      rewrite IH. f_equal. destruct a as [a|]; cbn [rbind]; [|reflexivity].
      pose proof (interacting_rds (it_cand i)) as Q. unfold res_rel in Q.
      destruct (get_interacting_objects s (it_cand i)) as [o|], (get_interacting_objects s' (it_cand i)) as [o'|]; try contradiction; cbn [rbind]; [|congruence].
      rewrite (FI tx rx (it_path i) o o' Q). reflexivity.
    Qed.
    Lemma groups_rds grs e : acc_groups s' f grs e = acc_groups s f grs e.
    Proof. induction grs as [|gr grs IH]; cbn [acc_groups]; [reflexivity|]. rewrite group_rds, IH. reflexivity. Qed.
    Lemma acc_rds ca key : filter_ignores_direction ca -> accumulate_over_paths P g s' cls ca va key f = accumulate_over_paths P g s cls ca va key f.
    Proof. intro K. unfold accumulate_over_paths. rewrite (all_rds ca key K). destruct (raised _); apply groups_rds. Qed.
    Lemma facc_rds work tx rx : facc P g s' cls va f work tx rx = facc P g s cls va f work tx rx.
    Proof.
      unfold facc. generalize (Ok (Fin 0)) as a. induction work as [|[c k] work IH]; intro a; cbn [fold_left]; [reflexivity|].
      rewrite IH. f_equal. destruct a as [a|]; cbn [rbind]; [|reflexivity].
      pose proof (interacting_rds c) as Q. unfold res_rel in Q.
      destruct (get_interacting_objects s c) as [o|], (get_interacting_objects s' c) as [o'|]; try contradiction; cbn [rbind]; [|congruence].
      rewrite (from_rds P cls k tx o o' rx) by auto. destruct (from_tx_objects_rx _ _ _ _ _ _) as [p|]; cbn [rbind]; [|reflexivity].
      rewrite (valid_rds g p (objects s) (objects s') c o o') by auto. rewrite (FI tx rx p o o' Q). reflexivity.
    Qed.
  End Run.
End Sc.
Lemma vmap_ext h h' gr : (forall p, h' p = h p) -> vmap_grid h' gr = vmap_grid h gr.
Proof.
  intro E. unfold vmap_grid. rewrite E. destruct (h (0, 0)); cbn [rbind]; [|reflexivity]. f_equal. apply map_ext. intro r. f_equal. apply map_ext. auto.
Qed.
Lemma run_results_ext {A B} (l : list (string * A)) (h h' : A -> res B) : (forall a, h' a = h a) -> run_results l h' = run_results l h.
Proof. intro E. induction l as [|[n a] l IH]; cbn; [reflexivity|]. rewrite E, IH. reflexivity. Qed.
Lemma rx_rds P g s os' cls ca va key f gradop X Y : Forall2 redrawn (objects s) os' -> no_solver cls -> ignores_direction f -> filter_ignores_direction ca ->
  accumulate_on_receivers_grid P g (with_objects s os') cls ca va key f gradop MVal X Y = accumulate_on_receivers_grid P g s cls ca va key f gradop MVal X Y.
Proof.
  intros H NS FI K. unfold accumulate_on_receivers_grid. unfold with_receivers. destruct (kwargs_ok _); cbn [rbind]; [|reflexivity].
  set (a := mkscene _ _ _). set (b := mkscene _ _ (objects s)).
  assert (Hab : Forall2 redrawn (objects b) (objects a)) by exact H.
  unfold cands_z. rewrite (candidates_rds b a Hab ca K). destruct (dstack X Y) as [gr|]; cbn [rbind]; [|reflexivity]. f_equal.
  apply run_results_ext. intro tx. apply vmap_ext. intro p. unfold apply_mode. rewrite (facc_rds b a Hab) by auto. reflexivity.
Qed.
Lemma tx_rds P g s os' cls ca va key f gradop X Y : Forall2 redrawn (objects s) os' -> no_solver cls -> ignores_direction f -> filter_ignores_direction ca ->
  accumulate_on_transmitters_grid P g (with_objects s os') cls ca va key f gradop MVal X Y = accumulate_on_transmitters_grid P g s cls ca va key f gradop MVal X Y.
Proof.
  intros H NS FI K. unfold accumulate_on_transmitters_grid. unfold with_transmitters. destruct (kwargs_ok _); cbn [rbind]; [|reflexivity].
  set (a := mkscene _ _ _). set (b := mkscene _ _ (objects s)).
  assert (Hab : Forall2 redrawn (objects b) (objects a)) by exact H.
  unfold cands_z. rewrite (candidates_rds b a Hab ca K). destruct (dstack X Y) as [gr|]; cbn [rbind]; [|reflexivity]. f_equal.
  apply run_results_ext. intro tx. apply vmap_ext. intro p. unfold apply_mode. rewrite (facc_rds b a Hab) by auto. reflexivity.
Qed.
