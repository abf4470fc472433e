(** Proofs about moving a whole scene: paths and enumeration. *)
From Coq Require Import Reals List Bool ZArith String Lia Lra FunctionalExtensionality.
From Verif Require Import Base BaseP LogicM GeometryM SpecGeometry VecP ShapeP OptimizeM PathM CandidatesM
  SceneM SpecScene SpecRun PathP PathShapeP UtilsM SpecPower SpecMotion MotionP.
Import ListNotations.
Open Scope R_scope.
Local Notation length := List.length.

(** A motion that the code does not see, apart from mirrored RIS; that leaves lengths
    unchanged. *)
Definition suitable (f : vec -> vec) (os : list object) : Prop :=
  geo f /\ (geo_ris f \/ forall o, In o os -> forall w phi, o <> ORIS w phi).
Definition same_length (eps : R) (f : vec -> vec) : Prop :=
  forall pts, path_length eps (map f pts) = path_length eps pts.
Definition firm (cls : path_cls) (f : vec -> vec) : Prop :=
  match cls with ClsFermat eps _ => same_length eps f | _ => True end.
Lemma suits_suitable f os : suits f os -> suitable f os.
Proof. intros [I [D|N]]; split; auto using iso_geo, direct_ris. Qed.
Lemma length_keeps eps f : isometry f -> keeps_length eps f -> same_length eps f.
Proof.
  intros I [-> | [v V]] pts.
  - iso I. apply length_move; auto.
  - assert (E : f = vadd v) by (extensionality q; auto). rewrite E. apply path_length_translate.
Qed.
Lemma steady_firm cls f : isometry f -> steady cls f -> firm cls f.
Proof. destruct cls; cbn; auto. apply length_keeps. Qed.

(** ** Objects *)
Section Obj.
  Variable f : vec -> vec.
  Hypothesis I : geo f.
  Lemma mo_c2p o p : obj_c2p (move_object f o) (f p) = obj_c2p o p.
  Proof. destruct o; cbn [move_object obj_c2p]; [| |reflexivity]; f_equal; apply I. Qed.
  Lemma mo_p2c o ps : obj_p2c (move_object f o) ps = f (obj_p2c o ps).
  Proof. destruct o; cbn [move_object obj_p2c]; [| |reflexivity]; apply I. Qed.
  Lemma mo_contains g o ps a k : obj_contains g (move_object f o) ps a k = obj_contains g o ps a k.
  Proof. destruct o; reflexivity. Qed.
  Lemma mo_intersects g o p q patch a k :
    obj_intersects g (move_object f o) (f p) (f q) patch a k = obj_intersects g o p q patch a k.
  Proof. destruct o; cbn [move_object obj_intersects]; [| |reflexivity]; apply I. Qed.
  Lemma mo_evaluate o p q r : (geo_ris f \/ forall w phi, o <> ORIS w phi) ->
    obj_evaluate (move_object f o) (f p) (f q) (f r) = obj_evaluate o p q r.
  Proof.
    intro S'. destruct o; cbn [move_object obj_evaluate]; [| |reflexivity].
    - apply I.
    - destruct S' as [D|N]; [|exfalso; eapply N; reflexivity]. apply D.
  Qed.
  Lemma mo_count o : parameters_count (move_object f o) = parameters_count o.
  Proof. destruct o; reflexivity. Qed.
  Lemma mo_kind o : kind_of (move_object f o) = kind_of o.
  Proof. destruct o; reflexivity. Qed.

  Lemma row_move pts i : pts <> [] -> row (map f pts) i = f (row pts i).
  Proof.
    intro N. unfold row. rewrite map_length. rewrite nth_indep with (d' := f (0, 0)).
    - apply map_nth.
    - rewrite map_length. destruct pts; [congruence|cbn; lia].
  Qed.
  Lemma enumerate_move {A B} (h : A -> B) l : enumerate (map h l) = map (fun '(i, o) => (i, h o)) (enumerate l).
  Proof.
    unfold enumerate. rewrite map_length. generalize 0%nat. induction l as [|x l IH]; intro n; cbn; auto. rewrite IH. reflexivity.
  Qed.
  Lemma fold_left_ext {A B} (h h' : A -> B -> A) l : (forall a b, In b l -> h a b = h' a b) -> forall a, fold_left h l a = fold_left h' l a.
  Proof. induction l as [|x l IH]; intros H a; cbn; auto. rewrite H by (left; auto). apply IH. intros. apply H. right; auto. Qed.
  Lemma fold_left_map {A B C} (h : A -> B -> A) (m : C -> B) l : forall a, fold_left h (map m l) a = fold_left (fun a x => h a (m x)) l a.
  Proof. induction l; cbn; auto. Qed.

  Lemma on_move g p os a k : xys p <> [] ->
    on_objects g (move_path f p) (map (move_object f) os) a k = on_objects g p os a k.
  Proof.
    intro N. unfold on_objects. rewrite enumerate_move, fold_left_map. apply fold_left_ext.
    intros acc [i o] _. cbn [xys move_path]. rewrite row_move by auto. rewrite mo_c2p, mo_contains. reflexivity.
  Qed.
  Lemma inter_move g p os cand patch a k : xys p <> [] ->
    intersects_with_objects g (move_path f p) (map (move_object f) os) cand patch a k = intersects_with_objects g p os cand patch a k.
  Proof.
    intro N. unfold intersects_with_objects. cbn [xys move_path]. rewrite !map_length.
    destruct (_ && _)%bool; [reflexivity|]. f_equal. apply fold_left_ext. intros acc i _.
    rewrite enumerate_move, fold_left_map. apply fold_left_ext. intros acc' [j o] _.
    cbn zeta. rewrite !row_move by auto. rewrite mo_intersects. reflexivity.
  Qed.
  Lemma valid_move g p os cand inter tol patch a k : xys p <> [] ->
    is_valid g (move_path f p) (map (move_object f) os) cand (map (move_object f) inter) tol patch a k =
    is_valid g p os cand inter tol patch a k.
  Proof. intro N. unfold is_valid. rewrite inter_move, on_move by auto. reflexivity. Qed.

  Lemma suits_in os o : suitable f os -> In o os -> geo_ris f \/ forall w phi, o <> ORIS w phi.
  Proof. intros [_ [D|H]] In_; [left; auto|right; intros; eauto]. Qed.
  Lemma loss_move os pts : suitable f os -> pts <> [] -> path_loss (map (move_object f) os) (map f pts) = path_loss os pts.
  Proof.
    intros S' N. unfold path_loss. rewrite enumerate_move, fold_left_map. apply fold_left_ext.
    intros acc [i o] In_. rewrite !row_move by auto. rewrite mo_evaluate; [reflexivity|].
    apply (suits_in os); auto. apply in_enumerate in In_. eapply nth_error_In. eauto.
  Qed.

  (** ** The image method *)
  Lemma images_move ws : forall i, images (f i) (map (move_wall f) ws) = map f (images i ws).
  Proof.
    induction ws as [|w ws IH]; intro i; cbn [images map]; auto. cbn zeta.
    assert (E : image_of (move_wall f w) (f i) = f (image_of w i)) by apply I.
    rewrite E, IH. reflexivity.
  Qed.
  Lemma backward_scan_move rx xs : backward_scan (f rx) (map (fun x => (move_wall f (fst x), f (snd x))) xs) =
    (f (fst (backward_scan rx xs)), map f (snd (backward_scan rx xs))).
  Proof.
    induction xs as [|[w i] xs IH]; cbn [backward_scan map]; auto. rewrite IH. cbn [fst snd].
    destruct (backward_scan rx xs) as [c ys]. cbn [fst snd].
    assert (E : backward (f c) (move_wall f w, f i) = f (backward c (w, i))) by apply I.
    rewrite E. reflexivity.
  Qed.
  Lemma combine_map2 {A B A' B'} (h : A -> A') (h' : B -> B') l : forall l',
    combine (map h l) (map h' l') = map (fun x => (h (fst x), h' (snd x))) (combine l l').
  Proof. induction l as [|x l IH]; intros [|y l']; cbn; auto. rewrite IH. reflexivity. Qed.
  Lemma image_points_move tx ws rx : image_points (f tx) (map (move_wall f) ws) (f rx) = map f (image_points tx ws rx).
  Proof.
    unfold image_points. rewrite images_move, combine_map2, backward_scan_move. cbn [snd map]. rewrite map_app. reflexivity.
  Qed.
  Lemma as_walls_move os : as_walls (map (move_object f) os) = option_map (map (move_wall f)) (as_walls os).
  Proof. induction os as [|[w|w phi|q] os IH]; cbn; auto; rewrite IH; destruct (as_walls os); reflexivity. Qed.
  Lemma kinds_move os o : forallb (fun o' => kind_eqb (kind_of o') (kind_of (move_object f o))) (map (move_object f) os) =
    forallb (fun o' => kind_eqb (kind_of o') (kind_of o)) os.
  Proof. induction os as [|o' os IH]; cbn; auto. rewrite IH, !mo_kind. reflexivity. Qed.
  Lemma stack_move os : match stack_leaves os, stack_leaves (map (move_object f) os) with
    | Ok _, Ok _ => True | Err e, Err e' => e = e' | _, _ => False end.
  Proof.
    destruct os as [|o os]; [reflexivity|]. pose proof (kinds_move (o :: os) o) as K. cbn [map] in K.
    unfold stack_leaves. cbn [map]. rewrite K. destruct (forallb _ (o :: os)); auto.
  Qed.
  Lemma image_path_move tx os rx : suitable f os ->
    same_result (move_path f) (ImagePath_from tx os rx) (ImagePath_from (f tx) (map (move_object f) os) (f rx)).
  Proof.
    intro S'. destruct os as [|o os]; [reflexivity|]. pose proof (stack_move (o :: os)) as K.
    unfold ImagePath_from. change (map (move_object f) (o :: os)) with (move_object f o :: map (move_object f) os) at 1.
    cbn match. destruct (stack_leaves (o :: os)) as [st|e1], (stack_leaves (map (move_object f) (o :: os))) as [st'|e2]; cbn [rbind] in *; try contradiction; auto.
    rewrite as_walls_move. destruct (as_walls (o :: os)) as [ws|]; cbn [option_map]; [|reflexivity].
    cbn zeta. rewrite image_points_move, loss_move; [reflexivity|auto|]. unfold image_points. discriminate.
  Qed.

  (** ** The other classes *)
  Lemma param_move os params : forall j, param_points (map (move_object f) os) params j = map f (param_points os params j).
  Proof.
    induction os as [|o os IH]; intro j; cbn; auto. rewrite mo_count, IH. f_equal. unfold p2c_from_slice. apply mo_p2c.
  Qed.
  Lemma p2c_move_all os params tx rx :
    parametric_to_cartesian (map (move_object f) os) params (length (map (move_object f) os)) (f tx) (f rx) =
    map f (parametric_to_cartesian os params (length os) tx rx).
  Proof. rewrite !p2c_eq. cbn [map]. rewrite map_app, param_move. reflexivity. Qed.
  Lemma unknowns_move os : n_unknowns (map (move_object f) os) = n_unknowns os.
  Proof. unfold n_unknowns. rewrite fold_left_map. apply fold_left_ext. intros a o _. rewrite mo_count. reflexivity. Qed.
  Lemma path_class_move tx os rx : Path_from (f tx) (map (move_object f) os) (f rx) = move_path f (Path_from tx os rx).
  Proof.
    unfold Path_from, path_default, move_path. cbn [xys loss map]. rewrite map_app, !map_map. cbn [map].
    f_equal. f_equal. f_equal. apply map_ext. intro o. apply mo_p2c.
  Qed.
  Lemma fermat_move eps sv P key tx os rx : suitable f os -> same_length eps f ->
    same_result (move_path f) (FermatPath_from eps sv P key tx os rx) (FermatPath_from eps sv P key (f tx) (map (move_object f) os) (f rx)).
  Proof.
    intros S' K. destruct os as [|o os]; [reflexivity|]. unfold FermatPath_from.
    assert (E : fermat_objective eps (map (move_object f) (o :: os)) (f tx) (f rx) = fermat_objective eps (o :: os) tx rx).
    { extensionality th. unfold fermat_objective. rewrite p2c_move_all. apply K. }
    change (map (move_object f) (o :: os)) with (move_object f o :: map (move_object f) os) at 1. cbn match. cbn zeta.
    rewrite E, unknowns_move. destruct (minimize_many_random_uniform _ _ _ _ _ _ _ _) as [[th l]|e1]; cbn [rbind]; [|reflexivity].
    rewrite p2c_move_all, loss_move; [reflexivity|auto|]. rewrite p2c_eq. discriminate.
  Qed.
  Lemma min_move sv P key tx os rx : suitable f os ->
    same_result (move_path f) (MinPath_from sv P key tx os rx) (MinPath_from sv P key (f tx) (map (move_object f) os) (f rx)).
  Proof.
    intros S'. destruct os as [|o os]; [reflexivity|]. unfold MinPath_from.
    assert (E : min_objective (map (move_object f) (o :: os)) (f tx) (f rx) = min_objective (o :: os) tx rx).
    { extensionality th. unfold min_objective. rewrite p2c_move_all. apply loss_move; auto. rewrite p2c_eq. discriminate. }
    change (map (move_object f) (o :: os)) with (move_object f o :: map (move_object f) os) at 1. cbn match. cbn zeta.
    rewrite E, unknowns_move. destruct (minimize_many_random_uniform _ _ _ _ _ _ _ _) as [[th l]|e1]; cbn [rbind]; [|reflexivity].
    rewrite p2c_move_all. reflexivity.
  Qed.
  Lemma from_move P cls key tx os rx : suitable f os -> firm cls f ->
    same_result (move_path f) (from_tx_objects_rx P cls key tx os rx)
      (from_tx_objects_rx P cls key (f tx) (map (move_object f) os) (f rx)).
  Proof.
    intros S' K. destruct cls as [| |eps sv|sv]; cbn [from_tx_objects_rx firm] in *.
    - apply path_class_move.
    - apply image_path_move; auto.
    - destruct key as [k|]; [apply fermat_move; auto|]. destruct os; reflexivity.
    - destruct key as [k|]; [apply min_move; auto|]. destruct os; reflexivity.
  Qed.
End Obj.

(** ** Scenes *)
Section Sc.
  Variable f : vec -> vec.
  Lemma pd_get_move d k : pd_get (move_nodes f d) k = rbind (pd_get d k) (fun v => Ok (f v)).
  Proof.
    unfold pd_get, move_nodes. cbn [pd_keys pd_values]. destruct (index_of k (pd_keys d)) as [i|]; [|reflexivity].
    rewrite nth_error_map. destruct (nth_error (pd_values d) i); reflexivity.
  Qed.
  Lemma pd_items_move d : pd_items (move_nodes f d) = map (fun kv => (fst kv, f (snd kv))) (pd_items d).
  Proof.
    assert (R : pd_items_res (move_nodes f d) = rbind (pd_items_res d) (fun l => Ok (map (fun kv => (fst kv, f (snd kv))) l))).
    { unfold pd_items_res. change (pd_keys (move_nodes f d)) with (pd_keys d).
      generalize (pd_keys d) as ks. induction ks as [|k ks IH]; cbn [map rseq]; [reflexivity|].
      rewrite IH, pd_get_move. destruct (pd_get d k) as [v|e]; cbn [rbind]; [|reflexivity]. clear IH. destruct (rseq _); reflexivity. }
    unfold pd_items. rewrite R. destruct (pd_items_res d); reflexivity.
  Qed.
  Lemma homogeneous_move os : homogeneous (map (move_object f) os) = homogeneous os.
  Proof. destruct os as [|o os]; [reflexivity|]. exact (kinds_move f (o :: os) o). Qed.
  Lemma rseq_move {A B} (h : A -> res object) (h' : A -> res B) (m : object -> B) l :
    (forall a, h' a = rbind (h a) (fun o => Ok (m o))) ->
    rseq (map h' l) = rbind (rseq (map h l)) (fun os => Ok (map m os)).
  Proof.
    intro H. induction l as [|a l IH]; cbn; auto. rewrite H, IH. clear IH. destruct (h a); cbn; auto. destruct (rseq _); reflexivity.
  Qed.
  Lemma get_object_move s i : get_object (move_scene f s) i = rbind (get_object s i) (fun o => Ok (move_object f o)).
  Proof.
    unfold get_object. cbn [objects move_scene]. rewrite homogeneous_move. destruct (objects s) as [|o os]; [reflexivity|].
    cbn [map]. destruct (homogeneous _); [|reflexivity]. cbn zeta. cbn [rbind]. f_equal.
    change (move_object f o :: map (move_object f) os) with (map (move_object f) (o :: os)).
    rewrite map_length. apply map_nth.
  Qed.
  Lemma py_index_move (os : list object) i : py_index (map (move_object f) os) i = rbind (py_index os i) (fun o => Ok (move_object f o)).
  Proof.
    unfold py_index. rewrite map_length. cbn zeta. set (j := if (i <? 0)%Z then _ else _).
    destruct (_ && _)%bool; [|reflexivity]. rewrite nth_error_map. destruct (nth_error os (Z.to_nat j)); reflexivity.
  Qed.
  Lemma interacting_move s cand : get_interacting_objects (move_scene f s) cand =
    rbind (get_interacting_objects s cand) (fun os => Ok (map (move_object f) os)).
  Proof.
    unfold get_interacting_objects. cbn [objects move_scene]. rewrite map_length, homogeneous_move.
    destruct (_ || _)%bool.
    - apply rseq_move. apply get_object_move.
    - apply rseq_move. apply py_index_move.
  Qed.
  Lemma interacting_in s cand inter : get_interacting_objects s cand = Ok inter -> forall o, In o inter -> In o (objects s).
  Proof.
    assert (G : forall i o, get_object s i = Ok o -> In o (objects s)).
    { intros i o. unfold get_object. destruct (objects s) as [|o' os] eqn:E; [discriminate|]. destruct (homogeneous _); [|discriminate].
      intro H. cbn zeta in H. assert (X : nth (Z.to_nat (Z.max 0 (Z.min i (Z.of_nat (length (o' :: os)) - 1)))) (o' :: os) o' = o) by congruence.
      rewrite <- X. apply nth_In. cbn [length]. lia. }
    assert (Q : forall i o, py_index (objects s) i = Ok o -> In o (objects s)).
    { intros i o. unfold py_index. cbn zeta. destruct (_ && _)%bool; [|discriminate].
      destruct (nth_error (objects s) _) eqn:E; [|discriminate]. intro H. injection H as <-. eapply nth_error_In; eauto. }
    assert (R : forall h : Z -> res object, (forall i o, h i = Ok o -> In o (objects s)) ->
      forall l inter, rseq (map h l) = Ok inter -> forall o, In o inter -> In o (objects s)).
    { intros h H l. induction l as [|a l IH]; intros it; cbn.
      - intro E. injection E as <-. contradiction.
      - destruct (h a) as [x|] eqn:E; cbn; [|discriminate]. destruct (rseq (map h l)) eqn:E'; cbn; [|discriminate].
        intro E2. injection E2 as <-. intros o [<-|In_]; eauto. }
    unfold get_interacting_objects. destruct (_ || _)%bool; intros E o In_; [exact (R _ G _ _ E o In_)|exact (R _ Q _ _ E o In_)].
  Qed.
  Lemma suits_sub os os' : suitable f os -> (forall o, In o os' -> In o os) -> suitable f os'.
  Proof. intros [I [D|H]] Sub; split; auto. Qed.
  Lemma filtered_move s keep keep' : (forall o, In o (objects s) -> keep' (move_object f o) = keep o) ->
    filtered_nodes (move_scene f s) keep' = filtered_nodes s keep.
  Proof.
    intro H. unfold filtered_nodes. cbn [objects move_scene]. rewrite enumerate_move, fold_left_map. apply fold_left_ext.
    intros a [i o] In_. rewrite H; [reflexivity|]. apply in_enumerate in In_. eapply nth_error_In; eauto.
  Qed.
  Lemma candidates_move s ca ca' : same_selection f s ca ca' -> scene_candidates (move_scene f s) ca' = scene_candidates s ca.
  Proof.
    intros (E1 & E2 & E3 & F). unfold scene_candidates. cbn [objects move_scene]. rewrite map_length, E1, E2, E3.
    destruct (ca_filter ca) as [keep|], (ca_filter ca') as [keep'|]; try contradiction; [|reflexivity].
    fold (move_scene f s). rewrite (filtered_move s keep keep' F). reflexivity.
  Qed.

  Definition mv_node (n : string * vec) : string * vec := (fst n, f (snd n)).
  Lemma list_prod_map {A B A' B'} (h : A -> A') (h' : B -> B') l l' :
    list_prod (map h l) (map h' l') = map (fun x => (h (fst x), h' (snd x))) (list_prod l l').
  Proof.
    induction l as [|a l IH]; cbn; auto. rewrite map_app, IH. f_equal. rewrite !map_map. reflexivity.
  Qed.
  Lemma pairs_move s : all_transmitter_receiver_pairs (move_scene f s) =
    map (fun x => (mv_node (fst x), mv_node (snd x))) (all_transmitter_receiver_pairs s).
  Proof.
    unfold all_transmitter_receiver_pairs. cbn [transmitters receivers move_scene]. rewrite !pd_items_move. apply list_prod_map.
  Qed.

  Section Run.
    Variables (P : prng) (g : bool) (s : scene) (cls : path_cls) (va : validargs).
    Hypothesis SU : suitable f (objects s).
    Hypothesis ST : firm cls f.
    Lemma one_move tx rx cand key : one_path P g (move_scene f s) cls va (mv_node tx) (mv_node rx) cand key =
      rbind (one_path P g s cls va tx rx cand key) (fun x => Ok (move_item f (fst x), snd x)).
    Proof.
      destruct SU as [I _]. unfold one_path. rewrite interacting_move. destruct (get_interacting_objects s cand) as [inter|e1] eqn:G; cbn [rbind]; [|reflexivity].
      set (kk := match key with Some k => _ | None => _ end). destruct kk as [key1 kp]. cbn [mv_node fst snd].
      pose proof (from_move f I P cls kp (snd tx) inter (snd rx) (suits_sub _ _ SU (interacting_in _ _ _ G)) ST) as M.
      destruct (from_tx_objects_rx P cls kp (snd tx) inter (snd rx)) as [p|e1] eqn:Fr,
        (from_tx_objects_rx P cls kp (f (snd tx)) (map (move_object f) inter) (f (snd rx))) as [p'|e2];
        cbn [same_result] in M; try contradiction; [|subst; reflexivity]. subst p'. cbn [rbind].
      change (objects (move_scene f s)) with (map (move_object f) (objects s)).
      assert (N : xys p <> []).
      { apply C29_lemma in Fr. destruct Fr as [(mid & E & _) _]. rewrite E. discriminate. }
      rewrite valid_move by auto. destruct (is_valid _ _ _ _ _ _ _ _ _); reflexivity.
    Qed.
    Lemma run_move work : forall key,
      run_paths P g (move_scene f s) cls va (map (fun w => ((mv_node (fst (fst w)), mv_node (snd (fst w))), snd w)) work) key =
      mkgen (map (move_item f) (yielded (run_paths P g s cls va work key))) (raised (run_paths P g s cls va work key)).
    Proof.
      induction work as [|[[tx rx] cand] work IH]; intro key; cbn [map run_paths fst snd]; [reflexivity|].
      rewrite one_move. destruct (one_path P g s cls va tx rx cand key) as [[it key']|e1]; cbn [rbind fst snd]; [|reflexivity].
      rewrite IH. reflexivity.
    Qed.
    Variables (ca ca' : candargs).
    Hypothesis CA : same_selection f s ca ca'.
    Lemma all_move key : all_paths P g (move_scene f s) cls ca' va key =
      mkgen (map (move_item f) (yielded (all_paths P g s cls ca va key))) (raised (all_paths P g s cls ca va key)).
    Proof.
      unfold all_paths. rewrite <- run_move. f_equal. unfold cands_z. rewrite (candidates_move s ca ca' CA), pairs_move.
      pose proof (list_prod_map (fun x : (string * vec) * (string * vec) => (mv_node (fst x), mv_node (snd x))) (fun c : list Z => c)
        (all_transmitter_receiver_pairs s) (map (map Z.of_nat) (scene_candidates s ca))) as Q. rewrite map_id in Q. exact Q.
    Qed.
    Definition move_valid (x : string * string * path * list Z) : string * string * path * list Z :=
      let '(tx, rx, p, c) := x in (tx, rx, move_path f p, c).
    Lemma filter_move a its e : filter_valid g a (map (move_item f) its) e =
      mkgen (map move_valid (yielded (filter_valid g a its e))) (raised (filter_valid g a its e)).
    Proof.
      induction its as [|it its IH]; cbn [map filter_valid]; [reflexivity|]. cbn [it_valid move_item].
      destruct (is_true g (it_valid it) DEFAULT_TRUTH_TOL a) as [[|]|e']; [| |reflexivity]; rewrite IH; reflexivity.
    Qed.
    Lemma all_valid_move key : all_valid_paths P g (move_scene f s) cls ca' va key =
      mkgen (map move_valid (yielded (all_valid_paths P g s cls ca va key))) (raised (all_valid_paths P g s cls ca va key)).
    Proof. unfold all_valid_paths. rewrite all_move. cbn [yielded raised]. apply filter_move. Qed.

    Variables (h h' : pathfun).
    Hypothesis HH : forall tx rx p os, h' (f tx) (f rx) (move_path f p) (map (move_object f) os) = h tx rx p os.
    Lemma groups_move its : group_runs (map (move_item f) its) = map (map (move_item f)) (group_runs its).
    Proof.
      induction its as [|it its IH]; cbn [map group_runs]; [reflexivity|]. rewrite IH.
      destruct (group_runs its) as [|[|it' gr] grs]; cbn [map]; try reflexivity.
      change (same_pair (move_item f it) (move_item f it')) with (same_pair it it'). destruct (same_pair it it'); reflexivity.
    Qed.
    Lemma acc_group_move gr : acc_group (move_scene f s) h' (map (move_item f) gr) = acc_group s h gr.
    Proof.
      destruct gr as [|it gr]; [reflexivity|]. unfold acc_group. cbn [map]. cbn [it_tx it_rx move_item transmitters receivers move_scene].
      rewrite !pd_get_move. destruct (pd_get (transmitters s) (it_tx it)) as [tx|]; cbn [rbind]; [|reflexivity].
      destruct (pd_get (receivers s) (it_rx it)) as [rx|]; cbn [rbind]; [|reflexivity].
      change (move_item f it :: map (move_item f) gr) with (map (move_item f) (it :: gr)).
      rewrite fold_left_map. f_equal. apply fold_left_ext. intros acc b _. destruct acc as [acc|]; cbn [rbind]; [|reflexivity].
      cbn [it_cand it_valid it_path move_item]. fold (move_scene f s). rewrite interacting_move.
      destruct (get_interacting_objects s (it_cand b)) as [inter|]; cbn [rbind]; [|reflexivity]. rewrite HH. reflexivity.
    Qed.
    Lemma acc_groups_move grs e : acc_groups (move_scene f s) h' (map (map (move_item f)) grs) e = acc_groups s h grs e.
    Proof. induction grs as [|gr grs IH]; cbn [map acc_groups]; [reflexivity|]. rewrite acc_group_move, IH. reflexivity. Qed.
    Lemma removelast_map {A B} (m : A -> B) l : removelast (map m l) = map m (removelast l).
    Proof. induction l as [|a [|b l] IH]; cbn in *; auto. rewrite IH. reflexivity. Qed.
    Lemma accumulate_move key : accumulate_over_paths P g (move_scene f s) cls ca' va key h' = accumulate_over_paths P g s cls ca va key h.
    Proof.
      unfold accumulate_over_paths. rewrite all_move. cbn [yielded raised]. rewrite groups_move.
      destruct (raised _); [rewrite removelast_map|]; apply acc_groups_move.
    Qed.
  End Run.

  Lemma power_move eps r_coef height tx rx p os : same_length eps f ->
    received_power eps (f tx) (f rx) (move_path f p) (map (move_object f) os) r_coef height = received_power eps tx rx p os r_coef height.
  Proof.
    intros K. unfold received_power, Path_length. cbn [xys move_path]. rewrite K. rewrite map_length. reflexivity.
  Qed.
End Sc.
