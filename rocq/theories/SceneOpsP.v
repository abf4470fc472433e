(** The operations on scenes, C49 and C50. *)
From Coq Require Import Reals List Bool ZArith String Lia.
From Verif Require Import Base BaseP LogicM GeometryM SpecGeometry OptimizeM PathM CandidatesM SceneM SpecScene SceneP SceneBoxP.
Import ListNotations.
Local Notation length := List.length.

Lemma represents_items {V} (m : pytreedict V) d : represents m d -> pd_items m = d /\ is_dict d.
Proof. intros (D & _ & _ & I & _). unfold pd_items. rewrite I. auto. Qed.
Lemma kwargs_no {V} (d : dict V) : In "self"%string (map fst d) -> kwargs_ok d = false.
Proof. intro H. destruct (kwargs_ok d) eqn:E; auto. apply kwargs_spec in E. contradiction. Qed.

Definition rest_same_tx (s s' : scene) : Prop := receivers s' = receivers s /\ objects s' = objects s.
Definition rest_same_rx (s s' : scene) : Prop := transmitters s' = transmitters s /\ objects s' = objects s.

Lemma with_tx s d : is_dict d ->
  (~ In "self"%string (map fst d) ->
   exists s', with_transmitters s d = Ok s' /\ represents (transmitters s') d /\
     receivers s' = receivers s /\ objects s' = objects s) /\
  (In "self"%string (map fst d) -> with_transmitters s d = Err TypeError).
Proof.
  intro D. unfold with_transmitters. split; intro H.
  - apply kwargs_spec in H. rewrite H. eexists. split; [reflexivity|]. split; [apply C48_lemma; auto|]. auto.
  - rewrite kwargs_no; auto.
Qed.
Lemma with_rx s d : is_dict d ->
  (~ In "self"%string (map fst d) ->
   exists s', with_receivers s d = Ok s' /\ represents (receivers s') d /\
     transmitters s' = transmitters s /\ objects s' = objects s) /\
  (In "self"%string (map fst d) -> with_receivers s d = Err TypeError).
Proof.
  intro D. unfold with_receivers. split; intro H.
  - apply kwargs_spec in H. rewrite H. eexists. split; [reflexivity|]. split; [apply C48_lemma; auto|]. auto.
  - rewrite kwargs_no; auto.
Qed.
Lemma update_tx s a d : represents (transmitters s) a -> is_dict d ->
  (~ In "self"%string (map fst d) ->
   exists s' u, update_transmitters s d = Ok s' /\ union_of a d u /\ represents (transmitters s') u /\
     receivers s' = receivers s /\ objects s' = objects s) /\
  (In "self"%string (map fst d) -> update_transmitters s d = Err TypeError).
Proof.
  intros A D. apply represents_items in A. destruct A as [A DA]. unfold update_transmitters. rewrite A.
  pose proof (C49_union a d DA D) as U. split; intro H.
  - apply kwargs_spec in H. rewrite H. eexists; eexists. split; [reflexivity|]. split; [exact U|].
    split; [apply C48_lemma; apply U|auto].
  - rewrite kwargs_no; auto.
Qed.
Lemma update_rx s a d : represents (receivers s) a -> is_dict d ->
  (~ In "self"%string (map fst d) ->
   exists s' u, update_receivers s d = Ok s' /\ union_of a d u /\ represents (receivers s') u /\
     transmitters s' = transmitters s /\ objects s' = objects s) /\
  (In "self"%string (map fst d) -> update_receivers s d = Err TypeError).
Proof.
  intros A D. apply represents_items in A. destruct A as [A DA]. unfold update_receivers. rewrite A.
  pose proof (C49_union a d DA D) as U. split; intro H.
  - apply kwargs_spec in H. rewrite H. eexists; eexists. split; [reflexivity|]. split; [exact U|].
    split; [apply C48_lemma; apply U|auto].
  - rewrite kwargs_no; auto.
Qed.
Lemma objects_ops s os keep :
  (transmitters (with_objects s os) = transmitters s /\ receivers (with_objects s os) = receivers s /\
   objects (with_objects s os) = os) /\
  (transmitters (add_objects s os) = transmitters s /\ receivers (add_objects s os) = receivers s /\
   objects (add_objects s os) = objects s ++ os) /\
  (transmitters (filter_objects s keep) = transmitters s /\ receivers (filter_objects s keep) = receivers s /\
   objects (filter_objects s keep) = filter keep (objects s)).
Proof. repeat split. Qed.
Lemma reachable_represents s : reachable s ->
  exists t r, represents (transmitters s) t /\ represents (receivers s) r.
Proof. intro H. apply reachable_wf, wf_items in H. destruct H as [A B]. eauto. Qed.

(** ** Renaming *)
Lemma rename_spec a names : is_dict names ->
  let u := rename_items a names in
  is_dict u /\
  (forall k v, In (k, v) u <->
     exists l1 n l2, a = l1 ++ (n, v) :: l2 /\ new_name names n k /\
       forall n' v', In (n', v') l2 -> ~ new_name names n' k) /\
  ((forall n n' k, In n (map fst a) -> In n' (map fst a) -> new_name names n k -> new_name names n' k -> n = n') ->
   is_dict a ->
   Forall2 (fun nv kw => new_name names (fst nv) (fst kw) /\ snd kw = snd nv) a u).
Proof.
  intros D u. split; [apply rename_dict|]. split.
  - intros k v. unfold u. rewrite rename_in. split.
    + intros (l1 & n & l2 & E & Ek & N). exists l1, n, l2. split; auto. split; [apply rn_new; auto|].
      intros n' v' I H. apply rn_new in H; auto. apply (N n' v' I). auto.
    + intros (l1 & n & l2 & E & Ek & N). exists l1, n, l2. split; auto. split; [apply rn_new; auto|].
      intros n' v' I H. apply (N n' v' I). apply rn_new; auto.
  - intros Inj DA. unfold u. rewrite rename_distinct.
    + clear Inj DA u. induction a as [|[n v] a IH]; cbn [map]; constructor; auto.
      cbn [fst snd]. split; auto. apply rn_new; auto.
    + unfold is_dict in *. rewrite map_map. cbn [fst].
      clear u. induction a as [|[n v] a IH]; cbn [map fst]; [constructor|]. cbn in DA. inversion DA as [|? ? N DA']; subst.
      constructor.
      * intro I. apply in_map_iff in I. destruct I as ([n' v'] & E & I). cbn in E. apply N.
        assert (n' = n) as <-.
        { apply (Inj n' n (rn names n)); cbn; auto; [right; eapply in_fst; eauto|rewrite <- E; apply rn_new; auto|apply rn_new; auto]. }
        eapply in_fst; eauto.
      * apply IH; auto. intros n1 n2 k I1 I2. apply Inj; cbn; auto.
Qed.
Lemma rename_self a names : is_dict names ->
  (In "self"%string (map fst (rename_items a names)) <->
   exists n, In n (map fst a) /\ new_name names n "self").
Proof.
  intro D. destruct (rename_spec a names D) as (DU & U & _). split.
  - intro H. apply in_map_iff in H. destruct H as ([k v] & E & I). cbn in E. subst. apply U in I.
    destruct I as (l1 & n & l2 & -> & N & _). exists n. split; auto. rewrite map_app. apply in_or_app. right. left. reflexivity.
  - intros (n & I & N). apply rn_new in N; auto.
    assert (G : forall l : list (string * vec), In n (map fst l) -> exists l1 n1 v l2, l = l1 ++ (n1, v) :: l2 /\
              "self"%string = rn names n1 /\ forall n' v', In (n', v') l2 -> rn names n' <> "self"%string).
    { induction l as [|[n0 v0] l IH]; cbn [map fst In]; [tauto|].
      destruct (in_dec string_dec "self"%string (map (fun nv => rn names (fst nv)) l)) as [Y|Y].
      - intros _. apply in_map_iff in Y.
        assert (H : exists l1 n1 v l2, l = l1 ++ (n1, v) :: l2 /\
              "self"%string = rn names n1 /\ forall n' v', In (n', v') l2 -> rn names n' <> "self"%string).
        { clear IH. revert Y. induction l as [|[n1 v1] l IH]; intros (x & E & I0); [destruct I0|].
          destruct (in_dec string_dec "self"%string (map (fun nv => rn names (fst nv)) l)) as [Y|Y].
          - apply in_map_iff in Y. destruct (IH Y) as (l1 & n2 & v2 & l2 & -> & E2 & N2).
            exists ((n1, v1) :: l1), n2, v2, l2. auto.
          - exists [], n1, v1, l. split; auto. split.
            + destruct I0 as [<-|I0]; [auto|]. exfalso. apply Y. rewrite <- E.
              change (rn names (fst x)) with ((fun nv : string * vec => rn names (fst nv)) x). apply in_map. auto.
            + intros n' v' I' E'. apply Y. rewrite <- E'.
              change (rn names n') with ((fun nv : string * vec => rn names (fst nv)) (n', v')). apply in_map. auto. }
        destruct H as (l1 & n1 & v & l2 & -> & E & H). exists ((n0, v0) :: l1), n1, v, l2. auto.
      - intros [->|H].
        + exists [], n, v0, l. split; auto. split; auto. intros n' v' I' E'. apply Y. rewrite <- E'.
          change (rn names n') with ((fun nv : string * vec => rn names (fst nv)) (n', v')). apply in_map. auto.
        + destruct (IH H) as (l1 & n1 & v & l2 & -> & E & H'). exists ((n0, v0) :: l1), n1, v, l2. auto. }
    destruct (G a I) as (l1 & n1 & v & l2 & E & E2 & H). eapply in_fst. apply rename_in. exists l1, n1, l2. eauto.
Qed.
Lemma rename_tx s a names : represents (transmitters s) a -> is_dict names ->
  (~ In "self"%string (map fst names) -> (forall n, In n (map fst a) -> ~ new_name names n "self") ->
   exists s' u, rename_transmitters s names = Ok s' /\ represents (transmitters s') u /\
     receivers s' = receivers s /\ objects s' = objects s /\
     (forall k v, In (k, v) u <->
        exists l1 n l2, a = l1 ++ (n, v) :: l2 /\ new_name names n k /\
          forall n' v', In (n', v') l2 -> ~ new_name names n' k) /\
     ((forall n n' k, In n (map fst a) -> In n' (map fst a) -> new_name names n k -> new_name names n' k -> n = n') ->
      Forall2 (fun nv kw => new_name names (fst nv) (fst kw) /\ snd kw = snd nv) a u)) /\
  (In "self"%string (map fst names) \/ (exists n, In n (map fst a) /\ new_name names n "self") ->
   rename_transmitters s names = Err TypeError).
Proof.
  intros A D. apply represents_items in A. destruct A as [A DA]. unfold rename_transmitters, with_transmitters. rewrite A.
  destruct (rename_spec a names D) as (DU & U & F). pose proof (rename_self a names D) as SF. split.
  - intros H1 H2. apply kwargs_spec in H1. rewrite H1.
    assert (H3 : kwargs_ok (rename_items a names) = true).
    { apply kwargs_spec. rewrite SF. intros (n & I & N). apply (H2 n I N). }
    rewrite H3. eexists; eexists. split; [reflexivity|]. split; [apply C48_lemma; exact DU|]. cbn. auto.
  - intros [H|H]; [rewrite kwargs_no; auto|]. destruct (kwargs_ok names); auto. rewrite kwargs_no; auto. apply SF. auto.
Qed.
Lemma rename_rx s a names : represents (receivers s) a -> is_dict names ->
  (~ In "self"%string (map fst names) -> (forall n, In n (map fst a) -> ~ new_name names n "self") ->
   exists s' u, rename_receivers s names = Ok s' /\ represents (receivers s') u /\
     transmitters s' = transmitters s /\ objects s' = objects s /\
     (forall k v, In (k, v) u <->
        exists l1 n l2, a = l1 ++ (n, v) :: l2 /\ new_name names n k /\
          forall n' v', In (n', v') l2 -> ~ new_name names n' k) /\
     ((forall n n' k, In n (map fst a) -> In n' (map fst a) -> new_name names n k -> new_name names n' k -> n = n') ->
      Forall2 (fun nv kw => new_name names (fst nv) (fst kw) /\ snd kw = snd nv) a u)) /\
  (In "self"%string (map fst names) \/ (exists n, In n (map fst a) /\ new_name names n "self") ->
   rename_receivers s names = Err TypeError).
Proof.
  intros A D. apply represents_items in A. destruct A as [A DA]. unfold rename_receivers, with_receivers. rewrite A.
  destruct (rename_spec a names D) as (DU & U & F). pose proof (rename_self a names D) as SF. split.
  - intros H1 H2. apply kwargs_spec in H1. rewrite H1.
    assert (H3 : kwargs_ok (rename_items a names) = true).
    { apply kwargs_spec. rewrite SF. intros (n & I & N). apply (H2 n I N). }
    rewrite H3. eexists; eexists. split; [reflexivity|]. split; [apply C48_lemma; exact DU|]. cbn. auto.
  - intros [H|H]; [rewrite kwargs_no; auto|]. destruct (kwargs_ok names); auto. rewrite kwargs_no; auto. apply SF. auto.
Qed.

(** ** Forms used by the property file *)
Lemma represents_fun {V} (m : pytreedict V) d d' : represents m d -> represents m d' -> d = d'.
Proof. intros A B. apply represents_items in A, B. destruct A as [<- _]. destruct B as [<- _]. auto. Qed.
Lemma combine_maps {A B} (l : list A) (l' : list B) : length l = length l' ->
  map fst (combine l l') = l /\ map snd (combine l l') = l'.
Proof.
  revert l'. induction l as [|x l IH]; intros [|y l']; cbn; try discriminate; auto. intro H. injection H as H.
  destruct (IH l' H) as [-> ->]. auto.
Qed.
Lemma C48_make_repr {V} keys (values : list V) :
  (length keys <> length values -> pd_make keys values = Err ValueError) /\
  (length keys = length values ->
     exists m, pd_make keys values = Ok m /\ (NoDup keys -> represents m (combine keys values))).
Proof.
  destruct (C48_make keys values) as [A B]. split; auto. intro H. eexists. split; [apply B, H|].
  intro N. destruct (combine_maps keys values H) as [E1 E2].
  replace (mkpd keys values) with (pd_from_mapping (combine keys values)) by (unfold pd_from_mapping; rewrite E1, E2; auto).
  apply C48_lemma. unfold is_dict. rewrite E1. auto.
Qed.
Lemma unknown_name names n : ~ In n (map fst names) -> forall k, new_name names n k <-> k = n.
Proof.
  intros H k. unfold new_name. split; [|auto]. intros [I|[_ E]]; auto. exfalso. apply H. eapply in_fst; eauto.
Qed.

Open Scope R_scope.
Lemma C18_tx s a c : represents (transmitters s) a ->
  (a = [] -> get_closest_transmitter s c = Err ValueError) /\
  (a <> [] -> exists before name q after, a = before ++ (name, q) :: after /\
     get_closest_transmitter s c = Ok (name, dist q c) /\
     (forall n' q', In (n', q') a -> dist q c <= dist q' c) /\
     (forall n' q', In (n', q') before -> dist q c < dist q' c)).
Proof.
  intro A. apply represents_items in A. destruct A as [A _]. unfold get_closest_transmitter. rewrite A. split.
  - intros ->. reflexivity.
  - apply closest_node_spec.
Qed.
Lemma C18_rx s a c : represents (receivers s) a ->
  (a = [] -> get_closest_receiver s c = Err ValueError) /\
  (a <> [] -> exists before name q after, a = before ++ (name, q) :: after /\
     get_closest_receiver s c = Ok (name, dist q c) /\
     (forall n' q', In (n', q') a -> dist q c <= dist q' c) /\
     (forall n' q', In (n', q') before -> dist q c < dist q' c)).
Proof.
  intro A. apply represents_items in A. destruct A as [A _]. unfold get_closest_receiver. rewrite A. split.
  - intros ->. reflexivity.
  - apply closest_node_spec.
Qed.
Lemma C27_repr s t r : represents (transmitters s) t -> represents (receivers s) r ->
  let pts := map snd t ++ map snd r ++ flat_map defining_points (objects s) in
  (pts = [] -> scene_bbox s = Err ValueError) /\
  (pts <> [] -> exists b, scene_bbox s = Ok b /\ tight_box b pts).
Proof.
  intros A B pts. apply represents_items in A, B. destruct A as [A _], B as [B _].
  assert (E : scene_points s = pts) by (unfold scene_points; rewrite A, B; reflexivity).
  destruct (C27_scene s) as [H1 H2]. rewrite E in H1, H2. split; [apply H2|]. intro N.
  destruct (scene_bbox s) as [b|e] eqn:Eb; [exists b; auto|]. exfalso. apply N, H2.
  unfold scene_bbox in Eb. cbv zeta in Eb.
  match type of Eb with match ?l with _ => _ end = _ => destruct l end; congruence.
Qed.
Lemma C49_example :
  let s0 := Scene_make [("tx"%string, (0,0))] [("rx"%string, (1,1))] [OWall (mkwall (0,0) (1,0))] in
  exists s1 s2, update_transmitters s0 [("b"%string, (2,2)); ("tx"%string, (3,3))] = Ok s1 /\
    rename_receivers s1 [("rx"%string, "r"%string)] = Ok s2 /\ reachable s2 /\
    pd_items (transmitters s2) = [("tx"%string, (3,3)); ("b"%string, (2,2))] /\
    pd_items (receivers s2) = [("r"%string, (1,1))].
Proof.
  intro s0. eexists; eexists. split; [reflexivity|]. split; [reflexivity|]. split; [|split; reflexivity].
  apply (reach_op (mkscene (pd_from_mapping [("tx"%string, (3,3)); ("b"%string, (2,2))]) (receivers s0) (objects s0))
           (RenameReceivers [("rx"%string, "r"%string)])).
  - apply (reach_op s0 (UpdateTransmitters [("b"%string, (2,2)); ("tx"%string, (3,3))])).
    + apply reach_make; repeat constructor; cbn; intuition discriminate.
    + cbn. repeat constructor; cbn; intuition discriminate.
    + reflexivity.
  - cbn. repeat constructor; cbn; intuition discriminate.
  - reflexivity.
Qed.
Lemma C50_example :
  let s := Scene_make [("a"%string, (0,0)); ("b"%string, (1,1))] [] [] in
  (exists s', rename_transmitters s [("a"%string, "b"%string); ("b"%string, "a"%string)] = Ok s' /\
     pd_items (transmitters s') = [("b"%string, (0,0)); ("a"%string, (1,1))]) /\
  (exists s', rename_transmitters s [("a"%string, "b"%string)] = Ok s' /\
     pd_items (transmitters s') = [("b"%string, (1,1))]).
Proof. split; eexists; split; reflexivity. Qed.
