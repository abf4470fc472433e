(** Proofs about mappings and scenes. *)
From Coq Require Import Reals List Bool ZArith String Lia.
From Verif Require Import Base BaseP LogicM GeometryM OptimizeM PathM CandidatesM CandidatesP SceneM SpecScene.
Import ListNotations.
Open Scope nat_scope.
Local Notation length := List.length.

Lemma index_of_none k keys : index_of k keys = None <-> ~ In k keys.
Proof.
  induction keys as [|k' keys IH]; cbn; [tauto|]. destruct (String.eqb_spec k' k) as [->|N].
  - split; [discriminate|]. intro H. exfalso. auto.
  - destruct (index_of k keys) as [n|]; split.
    + discriminate.
    + intro H. exfalso. destruct IH as [_ IH]. assert (X : Some n = None) by (apply IH; tauto). discriminate.
    + intros _ [H|H]; [auto|]. destruct IH as [IH _]. apply IH; auto.
    + reflexivity.
Qed.
Lemma pd_get_from {V} (d : dict V) k : pd_get (pd_from_mapping d) k =
  match dict_get d k with Some v => Ok v | None => Err KeyError end.
Proof.
  unfold pd_get, pd_from_mapping. cbn [pd_keys pd_values].
  assert (G : match index_of k (map fst d) with
              | None => dict_get d k = None
              | Some i => exists v, nth_error (map snd d) i = Some v /\ dict_get d k = Some v
              end).
  { induction d as [|[k' v] d IH]; cbn; auto. destruct (String.eqb_spec k' k) as [->|N]; cbn; [eauto|].
    destruct (index_of k (map fst d)); cbn; auto. }
  destruct (index_of k (map fst d)).
  - destruct G as (v & -> & ->). reflexivity.
  - rewrite G. reflexivity.
Qed.
Lemma dict_get_none {V} (d : dict V) k : dict_get d k = None <-> ~ In k (map fst d).
Proof.
  induction d as [|[k' v] d IH]; cbn; [tauto|]. destruct (String.eqb_spec k' k) as [->|N].
  - split; [discriminate|]. intro H. exfalso. auto.
  - rewrite IH. split; [intros H [E|E]; auto|tauto].
Qed.
Lemma dict_get_in {V} (d : dict V) k v : dict_get d k = Some v -> In (k, v) d.
Proof.
  induction d as [|[k' v'] d IH]; cbn; [discriminate|]. destruct (String.eqb_spec k' k) as [->|N].
  - intro H. injection H as ->. auto.
  - auto.
Qed.
Lemma in_fst {V} (d : dict V) k v : In (k, v) d -> In k (map fst d).
Proof. intro H. change k with (fst (k, v)). apply in_map. auto. Qed.
Lemma dict_get_iff {V} (d : dict V) k v : is_dict d -> (dict_get d k = Some v <-> In (k, v) d).
Proof.
  intro D. split; [apply dict_get_in|]. unfold is_dict in D.
  induction d as [|[k' v'] d IH]; cbn; [tauto|]. cbn in D. inversion D as [|? ? N D']; subst.
  destruct (String.eqb_spec k' k) as [->|NE].
  - intros [E|E]; [congruence|]. exfalso. apply N. eapply in_fst; eauto.
  - intros [E|E]; [congruence|auto].
Qed.
Lemma items_from {V} (d : dict V) : is_dict d -> pd_items_res (pd_from_mapping d) = Ok d.
Proof.
  intro D. unfold pd_items_res. cbn [pd_keys pd_from_mapping].
  assert (G : forall l, (forall k v, In (k, v) l -> dict_get d k = Some v) ->
    rseq (map (fun k => rbind (pd_get (pd_from_mapping d) k) (fun v => Ok (k, v))) (map fst l)) = Ok l).
  { induction l as [|[k v] l IH]; intro H; [reflexivity|]. cbn [map fst rseq]. rewrite pd_get_from, (H k v) by (left; auto).
    cbn [rbind]. rewrite IH by (intros; apply H; right; auto). reflexivity. }
  apply G. intros k v H. apply dict_get_iff; auto.
Qed.
Lemma pd_items_from {V} (d : dict V) : is_dict d -> pd_items (pd_from_mapping d) = d.
Proof. intro D. unfold pd_items. rewrite items_from; auto. Qed.
Lemma pd_vals_from {V} (d : dict V) : is_dict d -> pd_vals (pd_from_mapping d) = map snd d.
Proof. intro D. unfold pd_vals. rewrite pd_items_from; auto. Qed.
Lemma C48_lemma {V} (d : dict V) : is_dict d -> represents (pd_from_mapping d) d.
Proof.
  intro D. split; auto. split; [reflexivity|]. split; [unfold pd_len; cbn; apply map_length|].
  split; [apply items_from; auto|]. split; [|split].
  - intros k v. rewrite pd_get_from, <- dict_get_iff by auto. destruct (dict_get d k); split; congruence.
  - intro k. unfold pd_contains. rewrite pd_get_from. destruct (dict_get d k) eqn:E.
    + split; auto. intros _. eapply in_fst, dict_get_in; eauto.
    + apply dict_get_none in E. split; [discriminate|tauto].
  - intros k H. rewrite pd_get_from. apply dict_get_none in H. rewrite H. reflexivity.
Qed.
Lemma C48_make {V} keys (values : list V) :
  (length keys <> length values -> pd_make keys values = Err ValueError) /\
  (length keys = length values -> pd_make keys values = Ok (mkpd keys values)).
Proof.
  unfold pd_make. destruct (Nat.eqb_spec (length keys) (length values)); split; intro; auto; contradiction.
Qed.

(** ** Dict operations *)
Lemma dict_set_keys {V} (d : dict V) k v : map fst (dict_set d k v) =
  map fst d ++ (if existsb (String.eqb k) (map fst d) then [] else [k]).
Proof.
  induction d as [|[k' v'] d IH]; cbn; auto. destruct (String.eqb_spec k' k) as [->|N].
  - rewrite String.eqb_refl. cbn. rewrite app_nil_r. reflexivity.
  - cbn. rewrite IH. destruct (String.eqb_spec k k'); [congruence|]. reflexivity.
Qed.
Lemma existsb_in k l : existsb (String.eqb k) l = true <-> In k l.
Proof.
  rewrite existsb_exists. split; [intros (x & H & E); apply String.eqb_eq in E; subst; auto|].
  intro H. exists k. split; auto. apply String.eqb_refl.
Qed.
Lemma existsb_notin k l : existsb (String.eqb k) l = false <-> ~ In k l.
Proof. rewrite <- existsb_in. destruct (existsb _ l); split; congruence. Qed.
Lemma dict_set_dict {V} (d : dict V) k v : is_dict d -> is_dict (dict_set d k v).
Proof.
  unfold is_dict. intro D. rewrite dict_set_keys. destruct (existsb (String.eqb k) (map fst d)) eqn:E.
  - rewrite app_nil_r. auto.
  - apply existsb_notin in E. apply NoDup_app'; auto; [repeat constructor; auto|].
    intros x H [<-|[]]. auto.
Qed.
Lemma dict_set_in {V} (d : dict V) k v k' v' : is_dict d ->
  (In (k', v') (dict_set d k v) <-> (k' = k /\ v' = v) \/ (k' <> k /\ In (k', v') d)).
Proof.
  intro D. pose proof (dict_set_dict d k v D) as D'. rewrite <- !dict_get_iff by auto. clear D D'.
  induction d as [|[k0 v0] d IH]; cbn.
  - destruct (String.eqb_spec k k'); split; intros; [left; split; congruence|destruct H as [[]|[]]; congruence|discriminate|
      destruct H as [[]|[]]; congruence].
  - destruct (String.eqb_spec k0 k) as [->|N]; cbn.
    + destruct (String.eqb_spec k k') as [->|N']; split; intros H.
      * left. split; congruence.
      * destruct H as [[]|[]]; congruence.
      * right. split; auto.
      * destruct H as [[]|[]]; congruence.
    + destruct (String.eqb_spec k0 k') as [->|N']; [|apply IH].
      split; intro H; [right; split; auto|destruct H as [[]|[]]; congruence].
Qed.
Lemma C49_union {V} (a b : dict V) : is_dict a -> is_dict b -> union_of a b (dict_union a b).
Proof.
  unfold dict_union, union_of. revert a. induction b as [|[k v] b IH]; intros a A B.
  - cbn. rewrite app_nil_r. split; auto. split; auto. intros. tauto.
  - unfold is_dict in B. cbn in B. inversion B as [|? ? N B']; subst.
    cbn [fold_left]. destruct (IH (dict_set a k v) (dict_set_dict a k v A) B') as (D & K & L).
    split; auto. split.
    + rewrite K, dict_set_keys, <- app_assoc. f_equal. cbn [map fst filter].
      assert (F : filter (fun k0 => negb (existsb (String.eqb k0) (map fst a ++ (if existsb (String.eqb k) (map fst a) then [] else [k])))) (map fst b)
                = filter (fun k0 => negb (existsb (String.eqb k0) (map fst a))) (map fst b)).
      { apply filter_ext_in. intros x Hx. f_equal. rewrite existsb_app.
        destruct (existsb (String.eqb k) (map fst a)); cbn; rewrite ?orb_false_r; auto.
        destruct (String.eqb_spec x k) as [->|]; [contradiction|]. cbn. rewrite ?orb_false_r. auto. }
      rewrite F. destruct (existsb (String.eqb k) (map fst a)); reflexivity.
    + intros k' v'. rewrite L, dict_set_in by auto. cbn [map fst In]. split.
      * intros [H|[H [[-> ->]|[H1 H2]]]]; auto. right. split; auto. intros [E|E]; auto.
      * intros [[E|H]|[H1 H2]]; auto.
        -- injection E as -> ->. right. split; auto.
        -- right. split; [tauto|]. right. split; auto.
Qed.

(** ** Renaming *)
Definition rn (names : dict string) (n : string) : string :=
  match dict_get names n with Some m => m | None => n end.
Lemma rn_new names n m : is_dict names -> (new_name names n m <-> m = rn names n).
Proof.
  intro D. unfold new_name, rn. rewrite <- dict_get_iff by auto. rewrite <- dict_get_none.
  destruct (dict_get names n); split; intros; try (destruct H as [H|[H1 H2]]); try congruence; auto.
  left. congruence.
Qed.
Lemma rename_eq items names : rename_items items names =
  fold_left (fun d '(k, v) => dict_set d k v) (map (fun nv => (rn names (fst nv), snd nv)) items) [].
Proof.
  unfold rename_items. generalize (@nil (string * vec)) as acc.
  induction items as [|[n v] items IH]; intro acc; [reflexivity|]. cbn [fold_left map fst snd]. apply IH.
Qed.
Lemma fold_set_dict {V} (l : list (string * V)) : forall acc, is_dict acc ->
  is_dict (fold_left (fun d '(k, v) => dict_set d k v) l acc).
Proof. induction l as [|[k v] l IH]; intros acc A; auto. cbn. apply IH, dict_set_dict. auto. Qed.
Lemma fold_set_app {V} (l : list (string * V)) : forall acc, is_dict (acc ++ l) ->
  fold_left (fun d '(k, v) => dict_set d k v) l acc = acc ++ l.
Proof.
  induction l as [|[k v] l IH]; intros acc A; [rewrite app_nil_r; auto|].
  cbn [fold_left]. assert (E : dict_set acc k v = acc ++ [(k, v)]).
  { unfold is_dict in A. rewrite map_app in A. cbn in A. apply NoDup_remove_2 in A.
    assert (N : ~ In k (map fst acc)) by (intro; apply A; apply in_or_app; auto). clear - N.
    induction acc as [|[k' v'] acc IH]; auto. cbn in *. destruct (String.eqb_spec k' k); [tauto|].
    rewrite IH; auto. }
  rewrite E, IH; rewrite <- app_assoc; auto.
Qed.
Lemma fold_set_in {V} (l : list (string * V)) : forall acc k v, is_dict acc ->
  (In (k, v) (fold_left (fun d '(k, v) => dict_set d k v) l acc) <->
   (exists l1 l2, l = l1 ++ (k, v) :: l2 /\ ~ In k (map fst l2)) \/ (~ In k (map fst l) /\ In (k, v) acc)).
Proof.
  induction l as [|[k0 v0] l IH]; intros acc k v A.
  - cbn. split; [tauto|]. intros [(l1 & l2 & E & _)|[_ H]]; auto. destruct l1; discriminate.
  - cbn [fold_left]. rewrite IH by (apply dict_set_dict; auto). rewrite dict_set_in by auto. cbn [map fst In].
    split.
    + intros [(l1 & l2 & -> & N)|[N [[-> ->]|[NE H]]]].
      * left. exists ((k0, v0) :: l1), l2. auto.
      * left. exists [], l. auto.
      * right. split; auto. intros [E|E]; auto.
    + intros [(l1 & l2 & E & N)|[N H]].
      * destruct l1 as [|x l1]; cbn in E.
        -- assert (k0 = k /\ v0 = v /\ l = l2) as (-> & -> & ->) by (repeat split; congruence). right. auto.
        -- assert (l = l1 ++ (k, v) :: l2) by congruence. left. exists l1, l2. auto.
      * right. split; [tauto|]. right. split; auto.
Qed.
Lemma rename_dict items names : is_dict (rename_items items names).
Proof. rewrite rename_eq. apply fold_set_dict. constructor. Qed.
Lemma rename_distinct items names :
  is_dict (map (fun nv => (rn names (fst nv), snd nv)) items) ->
  rename_items items names = map (fun nv => (rn names (fst nv), snd nv)) items.
Proof. intro D. rewrite rename_eq. apply (fold_set_app _ []). auto. Qed.
Lemma rename_in items names k v :
  In (k, v) (rename_items items names) <->
  exists l1 n l2, items = l1 ++ (n, v) :: l2 /\ k = rn names n /\ forall n' v', In (n', v') l2 -> rn names n' <> k.
Proof.
  rewrite rename_eq, fold_set_in by constructor. split.
  - intros [(l1 & l2 & E & N)|[_ []]].
    apply map_eq_app in E. destruct E as (a & b & -> & Ea & Eb).
    apply map_eq_cons in Eb. destruct Eb as ([n v'] & c & -> & Ec & El). cbn in Ec. injection Ec as <- <-.
    exists a, n, c. split; auto. split; auto. intros n' v'' H E2. apply N. rewrite <- El, map_map.
    cbn. rewrite <- E2. change (rn names n') with ((fun x : string * vec => rn names (fst x)) (n', v'')). apply in_map. auto.
  - intros (l1 & n & l2 & -> & -> & N). left. rewrite map_app. cbn [map fst snd].
    eexists; eexists. split; [reflexivity|]. rewrite map_map. cbn. intro H. apply in_map_iff in H.
    destruct H as ([n' v'] & E & H). apply (N n' v' H). auto.
Qed.

(** ** Scenes *)
Definition wf (s : scene) : Prop :=
  exists t r, is_dict t /\ is_dict r /\ transmitters s = pd_from_mapping t /\ receivers s = pd_from_mapping r.
Lemma wf_items s : wf s ->
  represents (transmitters s) (pd_items (transmitters s)) /\ represents (receivers s) (pd_items (receivers s)).
Proof.
  intros (t & r & T & R & -> & ->). rewrite !pd_items_from by auto. split; apply C48_lemma; auto.
Qed.
Lemma wf_tx s : wf s -> is_dict (pd_items (transmitters s)) /\ transmitters s = pd_from_mapping (pd_items (transmitters s)).
Proof. intros (t & r & T & R & -> & _). rewrite pd_items_from by auto. auto. Qed.
Lemma wf_rx s : wf s -> is_dict (pd_items (receivers s)) /\ receivers s = pd_from_mapping (pd_items (receivers s)).
Proof. intros (t & r & T & R & _ & ->). rewrite pd_items_from by auto. auto. Qed.
Lemma wf_mk t r os : is_dict t -> is_dict r -> wf (mkscene (pd_from_mapping t) (pd_from_mapping r) os).
Proof. intros. exists t, r. auto. Qed.
Lemma kwargs_spec {V} (d : dict V) : kwargs_ok d = true <-> ~ In "self"%string (map fst d).
Proof.
  unfold kwargs_ok. rewrite negb_true_iff. split.
  - intros H I. apply in_map_iff in I. destruct I as ([k v] & E & I). cbn in E. subst.
    assert (existsb (fun kv : string * V => String.eqb (fst kv) "self") d = true); [|congruence].
    apply existsb_exists. eexists; split; [exact I|]. reflexivity.
  - intro H. destruct (existsb _ d) eqn:E; auto. exfalso. apply H. apply existsb_exists in E.
    destruct E as ([k v] & I & E). apply String.eqb_eq in E. cbn in E. subst. eapply in_fst; eauto.
Qed.
Lemma wf_op s o s' : wf s -> op_ok o -> apply_op s o = Ok s' -> wf s'.
Proof.
  intros W O E. destruct (wf_tx s W) as [T ET]. destruct (wf_rx s W) as [R ER].
  destruct o; cbn in O, E.
  - unfold with_transmitters in E. destruct (kwargs_ok d); [|discriminate]. injection E as <-. rewrite ER. apply wf_mk; auto.
  - unfold with_receivers in E. destruct (kwargs_ok d); [|discriminate]. injection E as <-. rewrite ET. apply wf_mk; auto.
  - unfold update_transmitters in E. destruct (kwargs_ok d); [|discriminate]. injection E as <-. rewrite ER. apply wf_mk; auto.
    apply C49_union; auto.
  - unfold update_receivers in E. destruct (kwargs_ok d); [|discriminate]. injection E as <-. rewrite ET. apply wf_mk; auto.
    apply C49_union; auto.
  - unfold rename_transmitters, with_transmitters in E. destruct (kwargs_ok d); [|discriminate].
    destruct (kwargs_ok _); [|discriminate]. injection E as <-. rewrite ER. apply wf_mk; auto. apply rename_dict.
  - unfold rename_receivers, with_receivers in E. destruct (kwargs_ok d); [|discriminate].
    destruct (kwargs_ok _); [|discriminate]. injection E as <-. rewrite ET. apply wf_mk; auto. apply rename_dict.
  - injection E as <-. unfold with_objects. rewrite ET, ER. apply wf_mk; auto.
  - injection E as <-. unfold add_objects, with_objects. rewrite ET, ER. apply wf_mk; auto.
  - injection E as <-. unfold filter_objects. rewrite ET, ER. apply wf_mk; auto.
Qed.
Lemma reachable_wf s : reachable s -> wf s.
Proof. induction 1; [apply wf_mk; auto|eapply wf_op; eauto]. Qed.
