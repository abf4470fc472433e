(** Proofs about the scene constructors. *)
From Coq Require Import Reals List Bool ZArith String Lia Lra DecimalString DecimalNat DecimalFacts.
From Verif Require Import Base BaseP LogicM GeometryM SpecGeometry VecP ShapeP OptimizeM PathM CandidatesM SceneM SpecScene
  SceneP SceneBoxP SceneOpsP BuildM SpecBuild.
Import ListNotations.
Open Scope R_scope.
Local Notation length := List.length.
Local Notation concat := List.concat.

Lemma assoc_none k l : assoc k l = None <-> ~ In k (map fst l).
Proof.
  induction l as [|[k' v] l IH]; cbn; [tauto|]. destruct (String.eqb_spec k' k) as [->|N].
  - split; [discriminate|tauto].
  - rewrite IH. tauto.
Qed.
Lemma assoc_in k l v : NoDup (map fst l) -> In (k, v) l -> assoc k l = Some v.
Proof.
  induction l as [|[k' v'] l IH]; cbn; [tauto|]. intros D [E|I].
  - injection E as -> ->. rewrite String.eqb_refl. reflexivity.
  - inversion D; subst. destruct (String.eqb_spec k' k) as [->|N].
    + exfalso. apply H1. apply in_map_iff. exists (k, v). auto.
    + auto.
Qed.
Lemma jget_has x k v d : has_entry x k v -> jget x k d = Ok v.
Proof. intros (l & -> & D & I). cbn. rewrite (assoc_in k l v D I). reflexivity. Qed.
Lemma jget_lacks x k d : lacks_entry x k -> jget x k d = Ok d.
Proof. intros (l & -> & N). cbn. apply assoc_none in N. rewrite N. reflexivity. Qed.
Lemma jitem_has x k v : has_entry x k v -> jitem x k = Ok v.
Proof. intros (l & -> & D & I). cbn. rewrite (assoc_in k l v D I). reflexivity. Qed.
Lemma jitem_lacks x k : lacks_entry x k -> jitem x k = Err KeyError.
Proof. intros (l & -> & N). cbn. apply assoc_none in N. rewrite N. reflexivity. Qed.
Lemma has_truthy x k v : has_entry x k v -> jtruthy x = true.
Proof. intros (l & -> & D & I). destruct l; [contradiction|reflexivity]. Qed.

(** Rings. *)
Lemma rseq_ok {A} (l : list (res A)) (l' : list A) : l = map Ok l' -> rseq l = Ok l'.
Proof.
  intros ->. induction l' as [|a l' IH]; [reflexivity|]. cbn. cbn in IH. rewrite IH. reflexivity.
Qed.
Lemma py_index_at {A} (l : list A) i a : nth_error l i = Some a -> py_index l (Z.of_nat i) = Ok a.
Proof.
  intro H. assert (i < length l)%nat by (apply nth_error_Some; congruence).
  unfold py_index. cbn zeta. replace (Z.of_nat i <? 0)%Z with false by (symmetry; apply Z.ltb_ge; lia).
  replace ((0 <=? Z.of_nat i) && (Z.of_nat i <? Z.of_nat (length l)))%Z with true
    by (symmetry; apply andb_true_intro; split; [apply Z.leb_le|apply Z.ltb_lt]; lia).
  rewrite Nat2Z.id, H. reflexivity.
Qed.
Lemma py_index_last {A} (l : list A) a : nth_error l (length l - 1) = Some a -> py_index l (-1) = Ok a.
Proof.
  intro H. assert (length l - 1 < length l)%nat by (apply nth_error_Some; congruence).
  unfold py_index. cbn zeta. change (-1 <? 0)%Z with true. cbn iota.
  replace ((0 <=? -1 + Z.of_nat (length l)) && (-1 + Z.of_nat (length l) <? Z.of_nat (length l)))%Z with true
    by (symmetry; apply andb_true_intro; split; [apply Z.leb_le|apply Z.ltb_lt]; lia).
  replace (Z.to_nat (-1 + Z.of_nat (length l))) with (length l - 1)%nat by lia. rewrite H. reflexivity.
Qed.
Definition prev_ix (n i : nat) : nat := match i with O => (n - 1)%nat | S j => j end.
Definition ring_list (ring : list vec) : list object :=
  map (fun i => OWall (mkwall (nth (prev_ix (length ring) i) ring (0,0)) (nth i ring (0,0)))) (seq 0 (length ring)).
Lemma ring_walls_ok ring : ring_walls (map position_json ring) = Ok (ring_list ring).
Proof.
  unfold ring_walls, ring_list. cbn zeta. apply rseq_ok. rewrite map_map. rewrite map_length.
  apply map_ext_in. intros i I. apply in_seq in I.
  assert (X : forall j, (j < length ring)%nat -> nth_error (map position_json ring) j = Some (position_json (nth j ring (0,0)))).
  { intros j Hj. rewrite nth_error_map. rewrite (nth_error_nth' ring (0,0)) by auto. reflexivity. }
  assert (Y : py_index (map position_json ring) (Z.of_nat i - 1) = Ok (position_json (nth (prev_ix (length ring) i) ring (0,0)))).
  { destruct i as [|j].
    - cbn [prev_ix]. apply py_index_last. rewrite map_length. apply X. lia.
    - cbn [prev_ix]. replace (Z.of_nat (S j) - 1)%Z with (Z.of_nat j) by lia. apply py_index_at, X. lia. }
  rewrite Y. cbn [rbind]. rewrite (py_index_at _ i _ (X i ltac:(lia))). cbn [rbind position position_json].
  destruct (nth (prev_ix (length ring) i) ring (0,0)), (nth i ring (0,0)). reflexivity.
Qed.
Lemma ring_list_spec ring : cyclic_walls ring (ring_list ring).
Proof.
  unfold ring_list. split; [rewrite map_length, seq_length; auto|].
  intros i Hi. rewrite nth_error_map. rewrite (nth_error_nth' (seq 0 (length ring)) O) by (rewrite seq_length; auto).
  rewrite seq_nth by auto. reflexivity.
Qed.
Lemma cyclic_fun ring w w' : cyclic_walls ring w -> cyclic_walls ring w' -> w = w'.
Proof.
  intros (L & N) (L' & N'). apply nth_ext with (d := OVertex (0,0)) (d' := OVertex (0,0)); [congruence|].
  intros i Hi. rewrite L in Hi. specialize (N i Hi). specialize (N' i Hi).
  apply nth_error_nth with (d := OVertex (0,0)) in N. apply nth_error_nth with (d := OVertex (0,0)) in N'. congruence.
Qed.

Lemma brings_walls f ring : brings f ring -> feature_walls f = Ok (ring_list ring).
Proof.
  intros [f0 r0 (holes & g & Hf & Ht & Hc)|f0 [H|H]|f0 (t & l & rest & N & g & Hf & Ht & Hc)]; unfold feature_walls.
  - rewrite (jget_has _ _ _ _ Hf). cbn [rbind]. rewrite (has_truthy _ _ _ Ht).
    rewrite (jitem_has _ _ _ Ht). cbn [rbind]. rewrite (jitem_has _ _ _ Hc). cbn [rbind jfirst jlen ring_items].
    change (String.eqb "Polygon" "Polygon") with true. cbn iota. apply ring_walls_ok.
  - rewrite (jget_lacks _ _ _ H). reflexivity.
  - rewrite (jget_has _ _ _ _ H). reflexivity.
  - rewrite (jget_has _ _ _ _ Hf). cbn [rbind]. rewrite (has_truthy _ _ _ Ht).
    rewrite (jitem_has _ _ _ Ht). cbn [rbind]. rewrite (jitem_has _ _ _ Hc). cbn [rbind jfirst jlen].
    apply String.eqb_neq in N. rewrite N. reflexivity.
Qed.
Lemma all_brings fs rings : Forall2 brings fs rings -> rseq (map feature_walls fs) = Ok (map ring_list rings).
Proof.
  intro H. apply rseq_ok. rewrite map_map. induction H as [|f r fs rs Hf _ IH]; [reflexivity|].
  cbn [map]. rewrite (brings_walls _ _ Hf). f_equal. exact IH.
Qed.
Lemma rseq_first_err {A} (pre : list A) e post : rseq (map Ok pre ++ Err e :: post) = Err e.
Proof. induction pre as [|a pre IH]; [reflexivity|]. cbn. cbn in IH. rewrite IH. reflexivity. Qed.

(** The points of the walls of a ring are those of the ring. *)
Lemma ring_points ring q : In q (flat_map defining_points (ring_list ring)) <-> In q ring.
Proof.
  rewrite in_flat_map. unfold ring_list. split.
  - intros (o & Io & Iq). apply in_map_iff in Io. destruct Io as (i & <- & Ii). apply in_seq in Ii.
    cbn in Iq. destruct Iq as [<-|[<-|[]]]; apply nth_In; destruct i; cbn; lia.
  - intro I. apply In_nth with (d := (0,0)) in I. destruct I as (i & Hi & Ei).
    eexists. split; [apply in_map, in_seq; split; [lia|]; instantiate (1 := i); lia|].
    cbn. right. left. exact Ei.
Qed.
Lemma ring_list_nil ring : ring_list ring = [] <-> ring = [].
Proof. split; [|intros ->; reflexivity]. intro E. apply (f_equal (@length object)) in E. unfold ring_list in E.
  rewrite map_length, seq_length in E. destruct ring; [auto|discriminate]. Qed.
Lemma concat_ring_nil rings : concat (map ring_list rings) = [] <-> concat rings = [].
Proof.
  induction rings as [|r rings IH]; [tauto|]. cbn [map concat]. split; intro E; apply app_eq_nil in E; destruct E as [E1 E2].
  - apply ring_list_nil in E1. apply IH in E2. rewrite E1, E2. reflexivity.
  - apply IH in E2. rewrite E2. apply ring_list_nil in E1. rewrite E1. reflexivity.
Qed.
Lemma rings_points rings q : In q (flat_map defining_points (concat (map ring_list rings))) <-> In q (concat rings).
Proof.
  induction rings as [|r rings IH]; [reflexivity|]. cbn [map concat]. rewrite flat_map_app, !in_app_iff, IH, ring_points. reflexivity.
Qed.
Lemma dict_tx (k : string) (p : vec) : is_dict [(k, p)].
Proof. repeat constructor. auto. Qed.
Lemma dict_none : is_dict ([] : dict vec).
Proof. constructor. Qed.
Lemma tight_fun b b' pts : tight_box b pts -> tight_box b' pts -> b = b'.
Proof.
  intros (A & (q1 & I1 & E1) & (q2 & I2 & E2) & (q3 & I3 & E3) & (q4 & I4 & E4))
         (A' & (p1 & J1 & F1) & (p2 & J2 & F2) & (p3 & J3 & F3) & (p4 & J4 & F4)).
  destruct b as [[a1 a2] [a3 a4]], b' as [[b1 b2] [b3 b4]]. unfold in_box in *. cbn [fst snd] in *.
  pose proof (A' q1 I1). pose proof (A' q2 I2). pose proof (A' q3 I3). pose proof (A' q4 I4).
  pose proof (A p1 J1). pose proof (A p2 J2). pose proof (A p3 J3). pose proof (A p4 J4).
  repeat f_equal; lra.
Qed.
Lemma tight_add b pts q : tight_box b pts -> in_box b q -> tight_box b (q :: pts).
Proof.
  intros (A & (q1 & I1 & E1) & (q2 & I2 & E2) & (q3 & I3 & E3) & (q4 & I4 & E4)) I.
  split; [intros x [<-|J]; auto|]. split; [|split; [|split]]; [exists q1|exists q2|exists q3|exists q4]; (split; [right; assumption|assumption]).
Qed.
Lemma C57_lemma d fs rings tl rl : has_entry d "features" (JArr fs) -> Forall2 brings fs rings ->
  exists s, from_geojson d tl rl = Ok s /\
    (exists ws, Forall2 cyclic_walls rings ws /\ objects s = concat ws) /\
    (concat rings = [] ->
       represents (transmitters s) [("tx"%string, (0, 0))] /\ represents (receivers s) [("rx"%string, (1, 1))]) /\
    (concat rings <> [] -> exists b, tight_box b (concat rings) /\
       represents (transmitters s) [("tx"%string, get_location b tl)] /\
       represents (receivers s) [("rx"%string, get_location b rl)]).
Proof.
  intros Hd HB. unfold from_geojson. rewrite (jget_has _ _ _ _ Hd). cbn [rbind jiter].
  rewrite (all_brings _ _ HB). cbn [rbind]. cbn zeta. set (walls := concat (map ring_list rings)).
  assert (W : exists ws, Forall2 cyclic_walls rings ws /\ walls = concat ws).
  { exists (map ring_list rings). split; [|reflexivity]. clear. induction rings; constructor; [apply ring_list_spec|auto]. }
  destruct (Nat.ltb_spec 0 (length walls)) as [L|L].
  - assert (NE : concat rings <> []).
    { intro E. apply concat_ring_nil in E. fold walls in E. rewrite E in L. cbn in L. lia. }
    pose proof (C27_repr (Scene_make [] [] walls) [] [] (C48_lemma _ dict_none) (C48_lemma _ dict_none)) as B1.
    cbn zeta in B1. destruct B1 as [_ B1].
    destruct B1 as (b & Eb & Tb).
    { cbn [map app objects Scene_make]. destruct walls as [|o l] eqn:Ew; [cbn in L; lia|].
      destruct o; discriminate. }
    rewrite Eb. cbn [rbind]. cbn [map app objects Scene_make] in Tb.
    pose proof (tight_perm b _ (concat rings) (fun q => rings_points rings q) Tb) as Tr.
    unfold with_transmitters. change (kwargs_ok [("tx"%string, get_location b tl)]) with true. cbn iota. cbn [rbind].
    cbn [receivers objects Scene_make].
    set (s1 := mkscene (pd_from_mapping [("tx"%string, get_location b tl)]) (pd_from_mapping []) walls).
    pose proof (C27_repr s1 [("tx"%string, get_location b tl)] [] (C48_lemma _ (dict_tx _ _)) (C48_lemma _ dict_none)) as B2.
    cbn zeta in B2. destruct B2 as [_ B2]. destruct B2 as (b2 & Eb2 & Tb2); [discriminate|].
    assert (b2 = b).
    { eapply tight_fun; [exact Tb2|]. cbn [map app snd s1 objects]. apply tight_add; [exact Tb|].
      eapply location_in_box, tight_wf, Tb. }
    subst b2. rewrite Eb2. cbn [rbind]. unfold with_receivers.
    change (kwargs_ok [("rx"%string, get_location b rl)]) with true. cbn iota.
    eexists. split; [reflexivity|]. cbn [objects transmitters receivers s1]. split; [exact W|]. split; [tauto|].
    intros _. exists b. split; [exact Tr|]. split; apply C48_lemma, dict_tx.
  - assert (E0 : walls = []) by (destruct walls; [auto|cbn in L; lia]).
    cbn. eexists. split; [reflexivity|]. cbn [objects transmitters receivers]. split; [exact W|].
    split; [intros _; split; apply C48_lemma, dict_tx|]. intro N. exfalso. apply N. apply concat_ring_nil. exact E0.
Qed.
Lemma C57_no_features d tl rl : lacks_entry d "features" ->
  exists s, from_geojson d tl rl = Ok s /\ objects s = [] /\
    represents (transmitters s) [("tx"%string, (0, 0))] /\ represents (receivers s) [("rx"%string, (1, 1))].
Proof.
  intro H. unfold from_geojson. rewrite (jget_lacks _ _ _ H). cbn. eexists. split; [reflexivity|].
  cbn [objects transmitters receivers]. split; [reflexivity|]. split; apply C48_lemma, dict_tx.
Qed.
Lemma C57_closed p l ws : cyclic_walls (p :: l ++ [p]) ws ->
  length ws = (length l + 2)%nat /\ nth_error ws 0 = Some (OWall (mkwall p p)) /\
  forall i, (i <= length l)%nat ->
    nth_error ws (S i) = Some (OWall (mkwall (nth i (p :: l) (0,0)) (nth i (l ++ [p]) (0,0)))).
Proof.
  intros (L & N). cbn [length] in *. rewrite app_length in *. cbn [length] in *. split; [lia|]. split.
  - rewrite (N O) by lia. do 3 f_equal. replace (S (length l + 1) - 1)%nat with (S (length l)) by lia.
    cbn [nth]. rewrite app_nth2, Nat.sub_diag by lia. reflexivity.
  - intros i Hi. rewrite (N (S i)) by lia. cbn [nth]. do 3 f_equal. destruct i as [|i]; [reflexivity|].
    cbn [nth]. rewrite app_nth1 by lia. reflexivity.
Qed.

(** C58 *)
Lemma feature_error d pre f post rings e tl rl : has_entry d "features" (JArr (pre ++ f :: post)) ->
  Forall2 brings pre rings -> feature_walls f = Err e -> from_geojson d tl rl = Err e.
Proof.
  intros Hd HB Hf. unfold from_geojson. rewrite (jget_has _ _ _ _ Hd). cbn [rbind jiter].
  rewrite map_app. cbn [map]. rewrite Hf.
  assert (E : map feature_walls pre = map Ok (map ring_list rings)).
  { clear -HB. induction HB as [|g r gs rs Hg _ IH]; [reflexivity|]. cbn [map]. rewrite (brings_walls _ _ Hg). f_equal. exact IH. }
  rewrite E. rewrite rseq_first_err. reflexivity.
Qed.
Lemma point_fails f t x rest : geometry_feature f t (JArr (JNum x :: rest)) -> feature_walls f = Err TypeError.
Proof.
  intros (g & Hf & Ht & Hc). unfold feature_walls. rewrite (jget_has _ _ _ _ Hf). cbn [rbind].
  rewrite (has_truthy _ _ _ Ht), (jitem_has _ _ _ Ht). cbn [rbind]. rewrite (jitem_has _ _ _ Hc). reflexivity.
Qed.
Lemma position_numbers xs : length xs <> 2%nat -> position (JArr (map JNum xs)) = Err TypeCheckError.
Proof. destruct xs as [|a [|b [|c xs]]]; cbn; try reflexivity; intro H; exfalso; apply H; reflexivity. Qed.
Lemma ring_numbers p ring k : k <> 2%nat -> Forall (fun xs => length xs = k) (p :: ring) ->
  ring_walls (map (fun xs => JArr (map JNum xs)) (p :: ring)) = Err TypeCheckError.
Proof.
  intros K H. unfold ring_walls. set (items := map (fun xs => JArr (map JNum xs)) (p :: ring)).
  assert (L : exists q, py_index items (Z.of_nat 0 - 1) = Ok (JArr (map JNum q)) /\ length q = k).
  { assert (A : exists q, nth_error (p :: ring) (length ring) = Some q).
    { destruct (nth_error (p :: ring) (length ring)) eqn:E; [eauto|]. apply nth_error_None in E. cbn in E. lia. }
    destruct A as [q A]. exists q. split; [|eapply Forall_forall in H; [exact H|eapply nth_error_In; eauto]].
    assert (B : length items = S (length ring)) by (unfold items; rewrite map_length; reflexivity).
    unfold py_index. rewrite B. cbn zeta.
    change (Z.of_nat 0 - 1 <? 0)%Z with true. cbn iota.
    replace (Z.of_nat 0 - 1 + Z.of_nat (S (length ring)))%Z with (Z.of_nat (length ring)) by lia.
    replace (0 <=? Z.of_nat (length ring))%Z with true by (symmetry; apply Z.leb_le; lia).
    replace (Z.of_nat (length ring) <? Z.of_nat (S (length ring)))%Z with true by (symmetry; apply Z.ltb_lt; lia).
    cbn [andb]. rewrite Nat2Z.id. unfold items. rewrite nth_error_map, A.
    reflexivity. }
  destruct L as (q & L & Lq).
  assert (N : seq 0 (length items) = 0%nat :: seq 1 (length ring)) by (unfold items; rewrite map_length; reflexivity).
  rewrite N. cbn [map rseq]. rewrite L. cbn [rbind].
  change (py_index items (Z.of_nat 0)) with (Ok (JArr (map JNum p))). cbn [rbind].
  rewrite position_numbers by congruence. reflexivity.
Qed.
Lemma altitude_fails k f : k <> 2%nat -> polygon_of k f -> feature_walls f = Err TypeCheckError.
Proof.
  intros K (p & ring & holes & (g & Hf & Ht & Hc) & H). unfold feature_walls. rewrite (jget_has _ _ _ _ Hf). cbn [rbind].
  rewrite (has_truthy _ _ _ Ht), (jitem_has _ _ _ Ht). cbn [rbind]. rewrite (jitem_has _ _ _ Hc). cbn [rbind jfirst jlen ring_items].
  change (String.eqb "Polygon" "Polygon") with true. cbn iota. apply (ring_numbers p ring k); auto.
Qed.
Lemma empty_fails f t : geometry_feature f t (JArr []) -> feature_walls f = Err IndexError.
Proof.
  intros (g & Hf & Ht & Hc). unfold feature_walls. rewrite (jget_has _ _ _ _ Hf). cbn [rbind].
  rewrite (has_truthy _ _ _ Ht), (jitem_has _ _ _ Ht). cbn [rbind]. rewrite (jitem_has _ _ _ Hc). reflexivity.
Qed.
Lemma no_coordinates_fails f g k v : has_entry f "geometry" g -> has_entry g k v ->
  lacks_entry g "type" \/ lacks_entry g "coordinates" -> feature_walls f = Err KeyError.
Proof.
  intros Hf Hg H. unfold feature_walls. rewrite (jget_has _ _ _ _ Hf). cbn [rbind].
  rewrite (has_truthy _ _ _ Hg). destruct H as [H|H].
  - rewrite (jitem_lacks _ _ H). reflexivity.
  - destruct Hg as (l & -> & D & I). cbn [jitem]. destruct (assoc "type" l); cbn [rbind]; [|reflexivity].
    destruct H as (l' & E & N). injection E as <-. apply assoc_none in N. rewrite N. reflexivity.
Qed.

(** C56 *)
Lemma to_uint_nonnil i : Nat.to_uint i <> Decimal.Nil.
Proof.
  intro E. pose proof (Unsigned.to_of (Nat.to_uint i)) as H. rewrite Unsigned.of_to, E in H. discriminate.
Qed.
Lemma show_nat_inj i j : show_nat i = show_nat j -> i = j.
Proof.
  unfold show_nat. intro H. apply (f_equal NilZero.uint_of_string) in H.
  rewrite !NilZero.usu in H by apply to_uint_nonnil. injection H as H. apply Unsigned.to_uint_inj, H.
Qed.
Lemma append_inj a x y : (a ++ x)%string = (a ++ y)%string -> x = y.
Proof. induction a as [|c a IH]; cbn; [auto|]. intro H. injection H as H. auto. Qed.
Lemma named_dict prefix n (f : nat -> vec) : is_dict (map (fun i => ((prefix ++ show_nat i)%string, f i)) (seq 0 n)).
Proof.
  unfold is_dict. rewrite map_map. cbn [fst].
  apply FinFun.Injective_map_NoDup; [|apply seq_NoDup].
  intros i j H. apply append_inj, show_nat_inj in H. auto.
Qed.
Lemma walls_seq pts nw : forall a,
  flat_map ends_of (map (fun i => OWall (mkwall (pt pts (2 * i + a)) (pt pts (2 * i + a + 1)))) (seq 0 nw))
  = map (pt pts) (seq a (2 * nw)).
Proof.
  induction nw as [|nw IH]; intro a; [reflexivity|]. rewrite seq_S, map_app, flat_map_app, IH.
  replace (2 * S nw)%nat with (2 * nw + 2)%nat by lia. rewrite seq_app, map_app. f_equal.
  cbn [map flat_map ends_of defining_points w_origin w_dest app seq]. replace (2 * (0 + nw) + a)%nat with (a + 2 * nw)%nat by lia.
  replace (a + 2 * nw + 1)%nat with (S (a + 2 * nw)) by lia. reflexivity.
Qed.
Lemma receivers_seq pts n nr : (nr <= n)%nat ->
  rev (map (fun i => pt pts (n - (i + 1))) (seq 0 nr)) = map (pt pts) (seq (n - nr) nr).
Proof.
  induction nr as [|nr IH]; intro H; [reflexivity|]. rewrite seq_S, map_app, rev_app_distr. cbn [map rev app].
  rewrite IH by lia. cbn [seq map]. replace (n - (0 + nr + 1))%nat with (n - S nr)%nat by lia.
  replace (S (n - S nr)) with (n - nr)%nat by lia. reflexivity.
Qed.
Lemma all_seq pts : map (pt pts) (seq 0 (length pts)) = pts.
Proof.
  apply nth_ext with (d := (0,0)) (d' := (0,0)); [rewrite map_length, seq_length; auto|].
  intros i Hi. rewrite map_length, seq_length in Hi. rewrite (nth_map_seq (pt pts)) by auto. reflexivity.
Qed.
Lemma C56_lemma draw nt nw nr : length (draw (nt + 2 * nw + nr)%nat) = (nt + 2 * nw + nr)%nat ->
  let s := random_uniform_scene draw nt nw nr in
  exists t r,
    represents (transmitters s) t /\ map fst t = map (fun i => ("tx_" ++ show_nat i)%string) (seq 0 nt) /\
    represents (receivers s) r /\ map fst r = map (fun i => ("rx_" ++ show_nat i)%string) (seq 0 nr) /\
    length (objects s) = nw /\ (forall o, In o (objects s) -> exists w, o = OWall w) /\
    draw (nt + 2 * nw + nr)%nat = map snd t ++ flat_map ends_of (objects s) ++ rev (map snd r).
Proof.
  intros L s. subst s. unfold random_uniform_scene. cbn zeta. set (pts := draw (nt + 2 * nw + nr)%nat) in *.
  cbn [transmitters receivers objects Scene_make].
  do 2 eexists. split; [apply C48_lemma, named_dict|]. split; [rewrite map_map; reflexivity|].
  split; [apply C48_lemma, named_dict|]. split; [rewrite map_map; reflexivity|].
  split; [rewrite map_length, seq_length; auto|].
  split; [intros o I; apply in_map_iff in I; destruct I as (i & <- & _); eauto|].
  rewrite !map_map. cbn [snd]. rewrite walls_seq. rewrite receivers_seq by lia. rewrite L.
  rewrite <- (all_seq pts) at 1. rewrite L.
  replace (nt + 2 * nw + nr - nr)%nat with (nt + 2 * nw)%nat by lia.
  rewrite <- map_app, <- map_app. f_equal. rewrite <- Nat.add_assoc. rewrite seq_app. f_equal.
  cbn [Nat.add]. rewrite seq_app. reflexivity.
Qed.

(** C59 *)
Definition walls_of (os : list object) : list wall :=
  flat_map (fun o => match o with OWall w => [w] | _ => [] end) os.
Lemma unit_box sc tx rx walls :
  sc = Scene_make [("tx"%string, tx)] [("rx"%string, rx)] walls ->
  in_unit tx -> in_unit rx -> (forall q, In q (flat_map defining_points walls) -> in_unit q) ->
  In (0,0) (flat_map defining_points walls) -> In (1,1) (flat_map defining_points walls) ->
  scene_bbox sc = Ok ((0,0),(1,1)).
Proof.
  intros -> Ht Hr Hw H0 H1.
  destruct (C27_repr (Scene_make [("tx"%string, tx)] [("rx"%string, rx)] walls) [("tx"%string, tx)] [("rx"%string, rx)]
    (C48_lemma _ (dict_tx _ _)) (C48_lemma _ (dict_tx _ _))) as [_ B].
  destruct B as (b & Eb & Tb); [discriminate|]. rewrite Eb. f_equal. eapply tight_fun; [exact Tb|].
  cbn [map snd app objects Scene_make]. split.
  - intros q [<-|[<-|I]]; [exact Ht|exact Hr|exact (Hw q I)].
  - split; [exists (0,0)|split; [exists (0,0)|split; [exists (1,1)|exists (1,1)]]]; (split; [right; right; assumption|reflexivity]).
Qed.

Ltac unit_pts := repeat match goal with
  | H : _ \/ _ |- _ => destruct H as [H|H]; [subst; unfold in_unit; cbn [fst snd]; lra|]
  | H : False |- _ => destruct H end.
Lemma closed4 a b c d : closed_outline [mkwall a b; mkwall b c; mkwall c d; mkwall d a].
Proof. intros i Hi. cbn in Hi. do 4 (destruct i as [|i]; [reflexivity|]). lia. Qed.
Lemma C59_square tx rx :
  let s := square_scene tx rx in
  represents (transmitters s) [("tx"%string, tx)] /\ represents (receivers s) [("rx"%string, rx)] /\
  (exists ws, objects s = map OWall ws /\ map w_origin ws = square_corners 0 0 1 1 /\ closed_outline ws) /\
  (in_unit tx -> in_unit rx -> scene_bbox s = Ok ((0,0),(1,1))).
Proof.
  intro s. subst s. split; [apply C48_lemma, dict_tx|]. split; [apply C48_lemma, dict_tx|]. split.
  - exists [mkwall (0,0) (1,0); mkwall (1,0) (1,1); mkwall (1,1) (0,1); mkwall (0,1) (0,0)].
    split; [reflexivity|]. split; [reflexivity|]. apply closed4.
  - intros Ht Hr. eapply unit_box; [reflexivity|exact Ht|exact Hr|..].
    + intros q I. cbn in I. unit_pts.
    + cbn. auto.
    + cbn. auto 6.
Qed.
Lemma C59_wall ratio tx rx :
  let s := square_scene_with_wall ratio tx rx in
  represents (transmitters s) [("tx"%string, tx)] /\ represents (receivers s) [("rx"%string, rx)] /\
  (exists w, objects s = objects (square_scene tx rx) ++ [OWall w] /\
     fst (w_origin w) = 1/2 /\ fst (w_dest w) = 1/2 /\ (snd (w_origin w) + snd (w_dest w)) / 2 = 1/2 /\
     snd (w_dest w) - snd (w_origin w) = ratio) /\
  (0 <= ratio <= 1 -> in_unit tx -> in_unit rx -> scene_bbox s = Ok ((0,0),(1,1))).
Proof.
  intro s. subst s. split; [apply C48_lemma, dict_tx|]. split; [apply C48_lemma, dict_tx|]. split.
  - exists (mkwall (5/10, (5/10) * (1 - ratio)) (5/10, (5/10) * (1 + ratio))).
    split; [reflexivity|]. cbn. repeat split; lra.
  - intros Hra Ht Hr. eapply unit_box; [reflexivity|exact Ht|exact Hr|..].
    + intros q I. cbn in I. unit_pts.
    + cbn. auto.
    + cbn. auto 6.
Qed.
Lemma C59_obstacle ratio tx rx :
  let s := square_scene_with_obstacle ratio tx rx in
  represents (transmitters s) [("tx"%string, tx)] /\ represents (receivers s) [("rx"%string, rx)] /\
  (exists ws, objects s = objects (square_scene tx rx) ++ map OWall ws /\
     map w_origin ws = square_corners (1/2 - ratio / 2) (1/2 - ratio / 2) (1/2 + ratio / 2) (1/2 + ratio / 2) /\
     closed_outline ws) /\
  (0 <= ratio <= 1 -> in_unit tx -> in_unit rx -> scene_bbox s = Ok ((0,0),(1,1))).
Proof.
  intro s. subst s. split; [apply C48_lemma, dict_tx|]. split; [apply C48_lemma, dict_tx|]. split.
  - eexists [mkwall (_,_) (_,_); mkwall (_,_) (_,_); mkwall (_,_) (_,_); mkwall (_,_) (_,_)].
    split; [reflexivity|]. split; [|apply closed4].
    cbn. unfold square_corners. replace (5/10 - 5/10 * ratio) with (1/2 - ratio/2) by lra.
    replace (5/10 + 5/10 * ratio) with (1/2 + ratio/2) by lra. reflexivity.
  - intros Hra Ht Hr. eapply unit_box; [reflexivity|exact Ht|exact Hr|..].
    + intros q I. cbn in I. unit_pts.
    + cbn. auto.
    + cbn. auto 6.
Qed.
Lemma C59_basic tx rx :
  let s := basic_scene tx rx in
  represents (transmitters s) [("tx"%string, tx)] /\ represents (receivers s) [("rx"%string, rx)] /\
  (exists inner, objects s = objects (square_scene tx rx) ++ map OWall inner /\ length inner = 3%nat /\
     Forall proper inner /\
     forall q, (exists w, In w inner /\ on_segment (w_origin w) (w_dest w) q) <->
       (fst q = 4/10 /\ 0 <= snd q <= 4/10) \/ (snd q = 4/10 /\ (0 <= fst q <= 1/10 \/ 3/10 <= fst q <= 4/10))) /\
  (in_unit tx -> in_unit rx -> scene_bbox s = Ok ((0,0),(1,1))).
Proof.
  intro s. subst s. split; [apply C48_lemma, dict_tx|]. split; [apply C48_lemma, dict_tx|]. split.
  - eexists [mkwall (_,_) (_,_); mkwall (_,_) (_,_); mkwall (_,_) (_,_)].
    split; [reflexivity|]. split; [reflexivity|]. split; [repeat constructor; intro E; injection E; intros; lra|].
    intros [x y]. cbn [fst snd]. split.
    + intros (w & I & t & Ht & E). cbn [In] in I. destruct I as [<-|[<-|[<-|[]]]]; unfold at_ in E; cbn [fst snd w_origin w_dest] in E; injection E as Ex Ey; [left|right|right]; lra.
    + intros [[-> H]|[-> [H|H]]].
      * eexists. split; [left; reflexivity|]. exists (y / (4/10)). split; [lra|]. unfold at_. cbn [fst snd w_origin w_dest]. f_equal; field.
      * eexists. split; [right; right; left; reflexivity|]. exists (1 - x / (1/10)). split; [lra|]. unfold at_. cbn [fst snd w_origin w_dest]. f_equal; field.
      * eexists. split; [right; left; reflexivity|]. exists ((4/10 - x) / (1/10)). split; [lra|]. unfold at_. cbn [fst snd w_origin w_dest]. f_equal; field.
  - intros Ht Hr. eapply unit_box; [reflexivity|exact Ht|exact Hr|..].
    + intros q I. cbn in I. unit_pts.
    + cbn. auto.
    + cbn. auto 6.
Qed.
Lemma C59_defaults : Forall in_unit [BASIC_TX; BASIC_RX; SQUARE_TX; SQUARE_RX; SQUARE_WALL_TX; SQUARE_WALL_RX].
Proof. repeat constructor; cbn; lra. Qed.
