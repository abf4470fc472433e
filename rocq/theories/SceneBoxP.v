(** Closest nodes, stacking and bounding boxes of scenes. *)
From Coq Require Import Reals List Bool ZArith String Lia Lra.
From Verif Require Import Base BaseP LogicM GeometryM SpecGeometry VecP ShapeP OptimizeM PathM CandidatesM SceneM SpecScene SceneP.
Import ListNotations.
Open Scope R_scope.
Local Notation length := List.length.

(** C18 *)
Lemma closest_node_spec items c : items <> [] ->
  exists l1 n q l2, items = l1 ++ (n, q) :: l2 /\ closest_node items c = Ok (n, dist q c) /\
    (forall n' q', In (n', q') items -> dist q c <= dist q' c) /\
    (forall n' q', In (n', q') l1 -> dist q c < dist q' c).
Proof.
  intro N. unfold closest_node. destruct items as [|it items]; [contradiction|]. set (all := it :: items) in *.
  destruct (closest_point_spec (map snd all) c) as (i & d & E & Hi & Hd & Hle & Hlt); [discriminate|].
  rewrite E. cbn [rbind]. rewrite map_length in Hi, Hle.
  destruct (nth_error_split all i) with (a := nth i all ("", (0, 0))%string) as (l1 & l2 & El & Ll).
  { apply nth_error_nth'. auto. }
  destruct (nth i all ("", (0, 0))%string) as [n q] eqn:En.
  assert (Enth : forall j, (j < length all)%nat -> nth j (map snd all) (0, 0) = snd (nth j all (""%string, (0, 0)))).
  { intros j Hj. change (0, 0) with (snd (""%string, (0, 0))) at 1. apply map_nth. }
  assert (Eq : nth i (map snd all) (0, 0) = q) by (rewrite Enth, En by auto; reflexivity).
  rewrite Eq in Hd. subst d.
  exists l1, n, q, l2. split; auto. split.
  - rewrite El at 1. rewrite <- Ll, nth_error_app2, Nat.sub_diag by lia. reflexivity.
  - split.
    + intros n' q' I. apply In_nth with (d := (""%string, (0, 0))) in I. destruct I as (j & Hj & Ej).
      specialize (Hle j Hj). rewrite Enth, Ej in Hle by auto. exact Hle.
    + intros n' q' I. apply In_nth with (d := (""%string, (0, 0))) in I. destruct I as (j & Hj & Ej).
      assert (Hj' : (j < length all)%nat) by (rewrite El, app_length; lia).
      specialize (Hlt j ltac:(lia)). rewrite Enth in Hlt by auto. rewrite El, app_nth1, Ej in Hlt by auto. exact Hlt.
Qed.

(** C26 *)
Lemma from_stacked_spec s st : stacked_objects s = Ok st ->
  exists s', from_stacked_objects st = Some s' /\ objects s' = objects s /\
    pd_iter (transmitters s') = [] /\ pd_iter (receivers s') = [].
Proof.
  intro H. apply unstack_stack in H. unfold from_stacked_objects. rewrite H.
  assert (E : forall l : list object, fold_right (fun o acc => match o, acc with
                                 | Some o, Some l => Some (o :: l)
                                 | _, _ => None
                                 end) (Some []) (map Some l) = Some l).
  { induction l as [|o l IH]; [reflexivity|]. cbn [map fold_right]. rewrite IH. reflexivity. }
  rewrite E. eexists. repeat split.
Qed.
Lemma from_walls_spec walls : let s := from_walls_array walls in
  pd_iter (transmitters s) = [] /\ pd_iter (receivers s) = [] /\
  objects s = map (fun ab => OWall (mkwall (fst ab) (snd ab))) walls.
Proof.
  cbn. repeat split. apply map_ext. intros [a b]. reflexivity.
Qed.

(** C27 *)
Definition scene_points (s : scene) : list vec :=
  map snd (pd_items (transmitters s)) ++ map snd (pd_items (receivers s)) ++ flat_map defining_points (objects s).
Lemma boxes_tight (A : Type) (box : A -> bbox) (pts : A -> list vec) (a : A) (l : list A) :
  (forall x, tight_box (box x) (pts x)) ->
  let b := box a in let bs := map box l in
  tight_box ((list_min (fst (fst b)) (map (fun c => fst (fst c)) bs),
              list_min (snd (fst b)) (map (fun c => snd (fst c)) bs)),
             (list_max (fst (snd b)) (map (fun c => fst (snd c)) bs),
              list_max (snd (snd b)) (map (fun c => snd (snd c)) bs))) (flat_map pts (a :: l)).
Proof.
  intros T b bs. subst b bs. rewrite !map_map.
  pose proof (list_min_spec (map (fun x => fst (fst (box x))) l) (fst (fst (box a)))) as [A1 A2].
  pose proof (list_min_spec (map (fun x => snd (fst (box x))) l) (snd (fst (box a)))) as [B1 B2].
  pose proof (list_max_spec (map (fun x => fst (snd (box x))) l) (fst (snd (box a)))) as [C1 C2].
  pose proof (list_max_spec (map (fun x => snd (snd (box x))) l) (snd (snd (box a)))) as [D1 D2].
  change (fst (fst (box a)) :: map (fun x => fst (fst (box x))) l) with (map (fun x => fst (fst (box x))) (a :: l)) in *.
  change (snd (fst (box a)) :: map (fun x => snd (fst (box x))) l) with (map (fun x => snd (fst (box x))) (a :: l)) in *.
  change (fst (snd (box a)) :: map (fun x => fst (snd (box x))) l) with (map (fun x => fst (snd (box x))) (a :: l)) in *.
  change (snd (snd (box a)) :: map (fun x => snd (snd (box x))) l) with (map (fun x => snd (snd (box x))) (a :: l)) in *.
  set (all := a :: l) in *.
  split; [|cbn [fst snd]; split; [|split; [|split]]].
  - intros q I. apply in_flat_map in I. destruct I as (x & Ix & Iq). destruct (T x) as (T1 & _).
    destruct (T1 q Iq) as [X Y]. unfold in_box. cbn [fst snd].
    assert (F : forall f : A -> R, In (f x) (map f all)) by (intro f; apply in_map; auto).
    pose proof (A1 _ (F (fun x => fst (fst (box x))))). pose proof (B1 _ (F (fun x => snd (fst (box x))))).
    pose proof (C1 _ (F (fun x => fst (snd (box x))))). pose proof (D1 _ (F (fun x => snd (snd (box x))))). cbn beta in *. 
    destruct X as [X1 X2]. destruct Y as [Y1 Y2].
    split; split; (eapply Rle_trans; [first [exact H|exact H0|exact X2|exact Y2]|]); first [exact X1|exact Y1|exact H1|exact H2].
  - apply in_map_iff in A2. destruct A2 as (x & Ex & Ix). destruct (T x) as (_ & (q & Iq & Eq) & _).
    exists q. split; [apply in_flat_map; eauto|]. etransitivity; [exact Eq|exact Ex].
  - apply in_map_iff in B2. destruct B2 as (x & Ex & Ix). destruct (T x) as (_ & _ & (q & Iq & Eq) & _).
    exists q. split; [apply in_flat_map; eauto|]. etransitivity; [exact Eq|exact Ex].
  - apply in_map_iff in C2. destruct C2 as (x & Ex & Ix). destruct (T x) as (_ & _ & _ & (q & Iq & Eq) & _).
    exists q. split; [apply in_flat_map; eauto|]. etransitivity; [exact Eq|exact Ex].
  - apply in_map_iff in D2. destruct D2 as (x & Ex & Ix). destruct (T x) as (_ & _ & _ & _ & (q & Iq & Eq)).
    exists q. split; [apply in_flat_map; eauto|]. etransitivity; [exact Eq|exact Ex].
Qed.
Definition thing := (vec + object)%type.
Definition tbox (x : thing) : bbox := match x with inl q => point_bbox q | inr o => obj_bbox o end.
Definition tpts (x : thing) : list vec := match x with inl q => [q] | inr o => defining_points o end.
Lemma tight_perm b l l' : (forall q, In q l <-> In q l') -> tight_box b l -> tight_box b l'.
Proof.
  intros H (A & (q1 & I1 & E1) & (q2 & I2 & E2) & (q3 & I3 & E3) & (q4 & I4 & E4)).
  split; [intros q I; apply A, H, I|]. split; [|split; [|split]].
  - exists q1. rewrite <- H. auto.
  - exists q2. rewrite <- H. auto.
  - exists q3. rewrite <- H. auto.
  - exists q4. rewrite <- H. auto.
Qed.
Lemma C27_scene s :
  (forall b, scene_bbox s = Ok b -> tight_box b (scene_points s)) /\
  (scene_bbox s = Err ValueError <-> scene_points s = []).
Proof.
  set (things := map inl (pd_vals (transmitters s)) ++ map inl (pd_vals (receivers s)) ++ map inr (objects s) : list thing).
  assert (B : map point_bbox (pd_vals (transmitters s)) ++ map point_bbox (pd_vals (receivers s)) ++ map obj_bbox (objects s)
              = map tbox things).
  { unfold things. rewrite !map_app, !map_map. reflexivity. }
  assert (Pts : scene_points s = flat_map tpts things).
  { unfold things, scene_points, pd_vals. rewrite !flat_map_app. 
    assert (X : forall l : list vec, flat_map tpts (map inl l) = l) by (induction l as [|q l IH]; [reflexivity|cbn; rewrite IH; auto]).
    assert (Y : forall l : list object, flat_map tpts (map inr l) = flat_map defining_points l)
      by (induction l as [|q l IH]; [reflexivity|cbn; rewrite IH; auto]).
    rewrite !X, Y. reflexivity. }
  unfold scene_bbox. cbn zeta. rewrite B, Pts. destruct things as [|x l].
  - cbn. split; [discriminate|tauto].
  - cbn [map]. split.
    + intros b E. injection E as <-. apply (boxes_tight thing tbox tpts x l).
      intros [q|o]; [apply point_tight|apply obj_tight].
    + split; [discriminate|]. cbn [flat_map]. destruct x as [q|[w|w p|q]]; discriminate.
Qed.
