(** Grids: C54 and C55, and the restriction part of C46. *)
From Coq Require Import Reals List Bool ZArith String Lia Lra FunctionalExtensionality.
From Verif Require Import Base BaseP LogicM LogicP GeometryM OptimizeM PathM PathP PathSmoothP PathShapeP ImageP CandidatesM CandidatesP
  SceneM SpecScene SceneP SceneOpsP SpecRun SceneRunP SceneAccP.
Import ListNotations.
Local Notation length := List.length.
Local Notation concat := List.concat.
Open Scope nat_scope.

(** ** What depends on the objects only *)
Lemma cands_objects s s' ca : objects s = objects s' -> scene_candidates s ca = scene_candidates s' ca.
Proof. unfold scene_candidates, filtered_nodes. intros ->. reflexivity. Qed.
Lemma inter_objects s s' c : objects s = objects s' -> get_interacting_objects s c = get_interacting_objects s' c.
Proof. unfold get_interacting_objects, get_object. intros ->. reflexivity. Qed.
Lemma at_objects s s' c : objects s = objects s' -> objects_at s c = objects_at s' c.
Proof. unfold objects_at. intros ->. reflexivity. Qed.
Lemma item_objects P g s s' cls va key trc it : objects s = objects s' ->
  is_item P g s cls va key trc it -> is_item P g s' cls va key trc it.
Proof. intro E. destruct trc as [[tx rx] c]. unfold is_item. rewrite (at_objects s s' c E), E. auto. Qed.
Lemma contribution_objects s s' f tx rx it : objects s = objects s' -> contribution s f tx rx it = contribution s' f tx rx it.
Proof. intro E. unfold contribution. rewrite (at_objects s s' _ E). reflexivity. Qed.
Lemma never_objects P cls (key : option (key_t P)) s s' : objects s = objects s' -> never_fails cls key s -> never_fails cls key s'.
Proof. intros E. unfold never_fails. rewrite E. auto. Qed.
Lemma sums_objects P g s s' cls ca va key f tx rx v : objects s = objects s' ->
  sums_candidates P g s cls ca va key f tx rx v -> sums_candidates P g s' cls ca va key f tx rx v.
Proof.
  intros E (its & F & ->). unfold sums_candidates. rewrite <- (cands_objects s s' ca E). exists its. split.
  - eapply Forall2_impl'; [|exact F]. intros ck it. apply item_objects. auto.
  - f_equal. apply map_ext. intro. apply contribution_objects. auto.
Qed.
Lemma facc_objects P g s s' cls va f work tx rx : objects s = objects s' ->
  facc P g s cls va f work tx rx = facc P g s' cls va f work tx rx.
Proof.
  intro E. unfold facc, get_interacting_objects, get_object. rewrite E. reflexivity.
Qed.

(** ** The sum over the candidates *)
Lemma facc_spec P g s cls ca va f tx rx : good_split P -> forall work acc,
  (forall ck, In ck work -> In (fst ck) (scene_candidates s ca) /\ never_fails cls (snd ck) s) ->
  exists its,
    Forall2 (fun ck it => is_item P g s cls va (snd ck) ((it_tx it, tx), (it_rx it, rx), fst ck) it) work its /\
    fold_left
    (fun acc '(cand, key) =>
       rbind acc (fun acc =>
         rbind (get_interacting_objects s cand) (fun inter =>
           rbind (from_tx_objects_rx P cls key tx inter rx) (fun p =>
             rbind (is_valid g p (objects s) cand inter (va_tol va) (va_patch va)
                      (va_approx va) (va_kw va)) (fun v =>
               Ok (xadd acc (xmul (to_f v) (f tx rx p inter))))))))
    (map (fun ck => (map Z.of_nat (fst ck), snd ck)) work) (Ok acc) =
    Ok (fold_left xadd (map (contribution s f tx rx) its) acc).
Proof.
  intro G. induction work as [|[c key] work IH]; intros acc H.
  - exists []. split; [constructor|reflexivity].
  - destruct (H (c, key) (or_introl eq_refl)) as [C N]. cbn [fst snd] in C, N.
    destruct (interacting_ok s ca c C) as [E L].
    destruct (built_ok P cls key s c tx rx G N) as [p Hp].
    destruct (valid_of_built P cls _ _ _ _ _ g (objects s) c (va_tol va) (va_patch va) (va_approx va) (va_kw va) Hp L) as [v Hv].
    destruct (IH (xadd acc (xmul (to_f v) (f tx rx p (objects_at s c)))) (fun ck I => H ck (or_intror I))) as (its & F & Ef).
    exists (mkitem "" "" v p (map Z.of_nat c) :: its). split.
    + constructor; auto. unfold is_item. cbn. auto 10.
    + cbn [map fst snd fold_left rbind]. rewrite E. cbn [rbind]. rewrite Hp. cbn [rbind]. rewrite Hv. cbn [rbind].
      etransitivity; [exact Ef|]. cbn [map fold_left]. unfold contribution at 3. cbn [it_valid it_path it_cand]. rewrite map_nat_z. reflexivity.
Qed.
Lemma keys_length P key n : good_split P -> length (one_key_each P key n) = n.
Proof. intro G. destruct key as [k|]; cbn; [rewrite map_length; apply G|apply repeat_length]. Qed.
Lemma never_keys P cls (key key' : option (key_t P)) s n : never_fails cls key s -> In key' (one_key_each P key n) -> never_fails cls key' s.
Proof.
  intros F I. destruct key as [k|]; cbn in I.
  - apply in_map_iff in I. destruct I as (k' & <- & _). destruct cls; cbn in *; auto; destruct F as (_ & A & B); repeat split; auto; discriminate.
  - apply repeat_spec in I. subst. auto.
Qed.
Lemma combine_map_fst {A B C} (h : A -> B) (l : list A) (l' : list C) :
  combine (map h l) l' = map (fun xy => (h (fst xy), snd xy)) (combine l l').
Proof. revert l'. induction l as [|x l IH]; intros [|y l']; cbn; auto. rewrite IH. reflexivity. Qed.
Lemma facc_sums P g s cls ca va key f tx rx : good_split P -> never_fails cls key s ->
  exists v, facc P g s cls va f (combine (cands_z s ca) (grid_keys P key (length (cands_z s ca)))) tx rx = Ok v /\
    sums_candidates P g s cls ca va key f tx rx v.
Proof.
  intros G N. unfold cands_z. rewrite map_length. change (grid_keys P key) with (one_key_each P key).
  set (cs := scene_candidates s ca). rewrite combine_map_fst.
  destruct (facc_spec P g s cls ca va f tx rx G (combine cs (one_key_each P key (length cs))) (Fin 0)) as (its & F & E).
  - intros [c k] I. cbn. split; [apply in_combine_l in I; auto|]. apply in_combine_r in I. eapply never_keys; eauto.
  - exists (xsum (map (contribution s f tx rx) its)). split; [exact E|]. exists its. auto.
Qed.

(** ** Arrays *)
Lemma entry_map {A B} (h : A -> B) Z i j : entry (map (map h) Z) i j = option_map h (entry Z i j).
Proof.
  unfold entry. rewrite nth_error_map. destruct (nth_error Z i); cbn; [apply nth_error_map|reflexivity].
Qed.
Lemma shape_map {A B C} (h : A -> B) Z (X : list (list C)) : same_shape Z X -> same_shape (map (map h) Z) X.
Proof. unfold same_shape. induction 1; cbn; constructor; auto. rewrite map_length. auto. Qed.
Lemma dstack_ok X Y : same_shape X Y -> exists grid, dstack X Y = Ok grid /\ same_shape grid X /\
  forall i j x y, entry X i j = Some x -> entry Y i j = Some y -> entry grid i j = Some (x, y).
Proof.
  intro S. unfold dstack. assert (L : length X = length Y) by (eapply Forall2_len; eauto).
  rewrite L, Nat.eqb_refl. cbn [andb].
  assert (B : forallb (fun '(rx, ry) => Nat.eqb (length rx) (length ry)) (combine X Y) = true).
  { clear L. induction S as [|a b X Y E _ IH]; cbn; auto. rewrite E, Nat.eqb_refl. auto. }
  rewrite B. eexists. split; [reflexivity|]. clear B L. split.
  - induction S as [|a b X Y E _ IH]; cbn [combine map]; constructor; auto.
    etransitivity; [apply combine_length|]. apply Nat.min_l. rewrite E. auto.
  - induction S as [|a b X Y E _ IH]; intros i j x y; unfold entry; destruct i as [|i]; cbn [nth_error combine map]; try discriminate.
    + clear IH. revert b E j. induction a as [|u a IH]; intros [|v b] E [|j]; cbn; try discriminate.
      * intros H1 H2. injection H1 as ->. injection H2 as ->. reflexivity.
      * intros Ha Hb. apply (IH b); auto.
    + apply (IH i j x y).
Qed.
Lemma dstack_bad X Y : ~ same_shape X Y -> dstack X Y = Err TypeError.
Proof.
  intro N. unfold dstack. destruct (Nat.eqb_spec (length X) (length Y)) as [L|]; auto. cbn [andb].
  destruct (forallb _ _) eqn:B; auto. exfalso. apply N. unfold same_shape. clear N. revert Y L B.
  induction X as [|a X IH]; intros [|b Y] L B; try discriminate; constructor.
  - cbn in B. apply andb_prop in B. apply Nat.eqb_eq. tauto.
  - cbn in B. apply andb_prop in B. apply IH; [cbn in L; lia|tauto].
Qed.
Lemma vmap_ok (h : vec -> res cell) (k : vec -> cell) grid : (forall p, h p = Ok (k p)) ->
  vmap_grid h grid = Ok (map (map k) grid).
Proof.
  intro H. unfold vmap_grid. rewrite H. cbn [rbind]. apply rseq_map_ok. intros r _. apply rseq_map_ok. auto.
Qed.
Lemma run_ok {A B} (l : list (string * A)) (h : A -> res B) (k : A -> B) : (forall x, h x = Ok (k x)) ->
  run_results l h = mkgen (map (fun x => (fst x, k (snd x))) l) None.
Proof. intro H. induction l as [|[n a] l IH]; [reflexivity|]. cbn. rewrite H, IH. reflexivity. Qed.
Lemma prod_one_r {A B} (l : list A) (y : B) : map fst (list_prod l [y]) = l.
Proof. induction l as [|x l IH]; [reflexivity|]. cbn. rewrite IH. reflexivity. Qed.
Lemma prod_one_l {A B} (x : A) (l : list B) : map snd (list_prod [x] l) = l.
Proof. cbn. rewrite app_nil_r, map_map. cbn. apply map_id. Qed.

Definition cell_of (gradop : (vec -> res xreal) -> vec -> xreal * xreal) (m : gridmode) (h : vec -> res xreal) (p : vec) : cell :=
  let x := match h p with Ok x => x | Err _ => NaN end in
  match m with MVal => CVal x | MGrad => CGrad (gradop h p) | MBoth => CBoth x (gradop h p) end.
Lemma apply_mode_ok gradop m h : (forall p, exists x, h p = Ok x) -> forall p, apply_mode gradop m h p = Ok (cell_of gradop m h p).
Proof. intros H p. unfold apply_mode, cell_of. destruct (H p) as [x ->]. reflexivity. Qed.

Definition the_work P s ca key := combine (cands_z s ca) (grid_keys P key (length (cands_z s ca))).
Lemma rx_grid P g s cls ca va key f gradop m X Y t : good_split P -> represents (transmitters s) t ->
  never_fails cls key s -> same_shape X Y ->
  exists grid, dstack X Y = Ok grid /\ same_shape grid X /\
  (forall i j x y, entry X i j = Some x -> entry Y i j = Some y -> entry grid i j = Some (x, y)) /\
  accumulate_on_receivers_grid P g s cls ca va key f gradop m X Y =
  Ok (mkgen (map (fun tx => (fst tx, map (map (cell_of gradop m
         (fun rx => facc P g s cls va f (the_work P s ca key) (snd tx) rx))) grid)) t) None).
Proof.
  intros G T N Sh. destruct (dstack_ok X Y Sh) as (grid & D & S1 & En). exists grid. split; auto. split; auto. split; auto.
  unfold accumulate_on_receivers_grid.
  set (w := with_receivers _ _). assert (Ew : exists sc, w = Ok sc /\ transmitters sc = transmitters s /\ objects sc = objects s /\
    pd_items (receivers sc) = [("rx"%string, (0%R, 0%R))]) by (eexists; repeat split).
  destruct Ew as (sc & Ew & Et & Eo & Er). rewrite Ew. cbn [rbind]. rewrite D. cbn [rbind].
  assert (Ep : map fst (all_transmitter_receiver_pairs sc) = t).
  { unfold all_transmitter_receiver_pairs. rewrite Et, Er, (proj1 (represents_items _ _ T)). apply prod_one_r. }
  rewrite Ep. f_equal.
  assert (Ec : cands_z sc ca = cands_z s ca) by (unfold cands_z; rewrite (cands_objects sc s ca Eo); reflexivity).
  rewrite Ec. fold (the_work P s ca key).
  rewrite (run_ok t _ (fun tx => map (map (cell_of gradop m (fun rx => facc P g sc cls va f (the_work P s ca key) tx rx))) grid)).
  - f_equal. apply map_ext. intro tx. f_equal. apply map_ext. intro row. apply map_ext. intro p. apply (f_equal (fun h => cell_of gradop m h p)).
    apply functional_extensionality. intro. apply facc_objects. auto.
  - intro tx. apply vmap_ok. apply apply_mode_ok. intro rx. rewrite (facc_objects P g sc s) by auto.
    destruct (facc_sums P g s cls ca va key f tx rx G N) as (v & E & _). exists v. exact E.
Qed.
Lemma tx_grid P g s cls ca va key f gradop m X Y r : good_split P -> represents (receivers s) r ->
  never_fails cls key s -> same_shape X Y ->
  exists grid, dstack X Y = Ok grid /\ same_shape grid X /\
  (forall i j x y, entry X i j = Some x -> entry Y i j = Some y -> entry grid i j = Some (x, y)) /\
  accumulate_on_transmitters_grid P g s cls ca va key f gradop m X Y =
  Ok (mkgen (map (fun rx => (fst rx, map (map (cell_of gradop m
         (fun tx => facc P g s cls va f (the_work P s ca key) tx (snd rx)))) grid)) r) None).
Proof.
  intros G T N Sh. destruct (dstack_ok X Y Sh) as (grid & D & S1 & En). exists grid. split; auto. split; auto. split; auto.
  unfold accumulate_on_transmitters_grid.
  set (w := with_transmitters _ _). assert (Ew : exists sc, w = Ok sc /\ receivers sc = receivers s /\ objects sc = objects s /\
    pd_items (transmitters sc) = [("tx"%string, (0%R, 0%R))]) by (eexists; repeat split).
  destruct Ew as (sc & Ew & Et & Eo & Er). rewrite Ew. cbn [rbind]. rewrite D. cbn [rbind].
  assert (Ep : map snd (all_transmitter_receiver_pairs sc) = r).
  { unfold all_transmitter_receiver_pairs. rewrite Et, Er, (proj1 (represents_items _ _ T)). apply prod_one_l. }
  rewrite Ep. f_equal.
  assert (Ec : cands_z sc ca = cands_z s ca) by (unfold cands_z; rewrite (cands_objects sc s ca Eo); reflexivity).
  rewrite Ec. fold (the_work P s ca key).
  rewrite (run_ok r _ (fun rx => map (map (cell_of gradop m (fun tx => facc P g sc cls va f (the_work P s ca key) tx rx))) grid)).
  - f_equal. apply map_ext. intro rx. f_equal. apply map_ext. intro row. apply map_ext. intro p. apply (f_equal (fun h => cell_of gradop m h p)).
    apply functional_extensionality. intro. apply facc_objects. auto.
  - intro rx. apply vmap_ok. apply apply_mode_ok. intro tx. rewrite (facc_objects P g sc s) by auto.
    destruct (facc_sums P g s cls ca va key f tx rx G N) as (v & E & _). exists v. exact E.
Qed.

(** ** Value entries are sums; the other modes agree with them *)
Lemma cell_modes gradop m h p : (forall q, exists x, h q = Ok x) ->
  of_mode m (cell_of gradop m h p) /\
  (m <> MGrad -> val_of (cell_of gradop m h p) = val_of (cell_of gradop MVal h p)) /\
  (m <> MVal -> grad_of (cell_of gradop m h p) = gradop h p).
Proof. intro H. unfold cell_of. destruct m; cbn; repeat split; auto; contradiction. Qed.
Lemma cell_val gradop h p v : h p = Ok v -> cell_of gradop MVal h p = CVal v.
Proof. intro H. unfold cell_of. rewrite H. reflexivity. Qed.

Lemma C54_rx P g s cls ca va key f gradop m X Y t : good_split P -> represents (transmitters s) t ->
  never_fails cls key s -> same_shape X Y ->
  exists result, accumulate_on_receivers_grid P g s cls ca va key f gradop m X Y = Ok (mkgen result None) /\
    map fst result = map fst t /\
    forall n name pos Z, nth_error t n = Some (name, pos) -> nth_error result n = Some (name, Z) ->
      same_shape Z X /\
      forall i j x y, entry X i j = Some x -> entry Y i j = Some y ->
        exists c h, entry Z i j = Some c /\ of_mode m c /\
          (forall q, exists v, h q = Ok v /\ sums_candidates P g s cls ca va key f pos q v) /\
          (m <> MGrad -> h (x, y) = Ok (val_of c)) /\
          (m <> MVal -> grad_of c = gradop h (x, y)).
Proof.
  intros G T N Sh. destruct (rx_grid P g s cls ca va key f gradop m X Y t G T N Sh) as (grid & D & S1 & En & E).
  eexists. split; [exact E|]. split; [rewrite map_map; reflexivity|].
  intros n name pos Z Ht Hr. rewrite nth_error_map, Ht in Hr. cbn [option_map fst snd] in Hr.
  assert (EZ : Z = map (map (cell_of gradop m (fun rx => facc P g s cls va f (the_work P s ca key) pos rx))) grid) by congruence.
  subst Z. split; [apply shape_map; auto|]. intros i j x y Hx Hy. rewrite entry_map, (En i j x y Hx Hy). cbn [option_map].
  set (h := fun rx => facc P g s cls va f (the_work P s ca key) pos rx).
  assert (H : forall q, exists v, h q = Ok v /\ sums_candidates P g s cls ca va key f pos q v).
  { intro q. apply facc_sums; auto. }
  assert (H' : forall q, exists v, h q = Ok v) by (intro q; destruct (H q) as (v & Ev & _); eauto).
  destruct (cell_modes gradop m h (x, y) H') as (M1 & M2 & M3). eexists; exists h. split; [reflexivity|]. split; auto. split; auto.
  split; auto. intro Nm. rewrite M2 by auto. destruct (H' (x, y)) as [v Ev]. rewrite (cell_val gradop h (x, y) v Ev). exact Ev.
Qed.
Lemma C54_tx P g s cls ca va key f gradop m X Y r : good_split P -> represents (receivers s) r ->
  never_fails cls key s -> same_shape X Y ->
  exists result, accumulate_on_transmitters_grid P g s cls ca va key f gradop m X Y = Ok (mkgen result None) /\
    map fst result = map fst r /\
    forall n name pos Z, nth_error r n = Some (name, pos) -> nth_error result n = Some (name, Z) ->
      same_shape Z X /\
      forall i j x y, entry X i j = Some x -> entry Y i j = Some y ->
        exists c h, entry Z i j = Some c /\ of_mode m c /\
          (forall q, exists v, h q = Ok v /\ sums_candidates P g s cls ca va key f q pos v) /\
          (m <> MGrad -> h (x, y) = Ok (val_of c)) /\
          (m <> MVal -> grad_of c = gradop h (x, y)).
Proof.
  intros G T N Sh. destruct (tx_grid P g s cls ca va key f gradop m X Y r G T N Sh) as (grid & D & S1 & En & E).
  eexists. split; [exact E|]. split; [rewrite map_map; reflexivity|].
  intros n name pos Z Ht Hr. rewrite nth_error_map, Ht in Hr. cbn [option_map fst snd] in Hr.
  assert (EZ : Z = map (map (cell_of gradop m (fun tx => facc P g s cls va f (the_work P s ca key) tx pos))) grid) by congruence.
  subst Z. split; [apply shape_map; auto|]. intros i j x y Hx Hy. rewrite entry_map, (En i j x y Hx Hy). cbn [option_map].
  set (h := fun tx => facc P g s cls va f (the_work P s ca key) tx pos).
  assert (H : forall q, exists v, h q = Ok v /\ sums_candidates P g s cls ca va key f q pos v).
  { intro q. apply facc_sums; auto. }
  assert (H' : forall q, exists v, h q = Ok v) by (intro q; destruct (H q) as (v & Ev & _); eauto).
  destruct (cell_modes gradop m h (x, y) H') as (M1 & M2 & M3). eexists; exists h. split; [reflexivity|]. split; auto. split; auto.
  split; auto. intro Nm. rewrite M2 by auto. destruct (H' (x, y)) as [v Ev]. rewrite (cell_val gradop h (x, y) v Ev). exact Ev.
Qed.

(** ** The items of one pair *)
Lemma Forall2_filter {A B} (R : A -> B -> Prop) p q l l' : (forall a b, R a b -> p a = q b) ->
  Forall2 R l l' -> Forall2 R (filter p l) (filter q l').
Proof.
  intros H. induction 1 as [|a b l l' Rab _ IH]; [constructor|]. cbn. rewrite <- (H a b Rab). destruct (p a); auto.
Qed.
Definition pp (tx rx : string * vec) (trc : ((string * vec) * (string * vec)) * list nat) : bool :=
  (String.eqb (fst (fst (fst trc))) (fst tx) && String.eqb (fst (snd (fst trc))) (fst rx))%bool.
Lemma filter_pair t r (cs : list (list nat)) tx rx : is_dict t -> is_dict r -> In tx t -> In rx r ->
  filter (pp tx rx) (list_prod (list_prod t r) cs)
  = map (fun c => ((tx, rx), c)) cs.
Proof.
  intros DT DR It Ir. pose proof (NoDup_plab t r DT DR) as N.
  assert (I : In (tx, rx) (list_prod t r)) by (apply in_prod; auto).
  rewrite list_prod_flat. revert N I. generalize (list_prod t r) as prs. intros prs N I.
  rewrite filter_flat_map. induction prs as [|pr prs IH]; [destruct I|]. cbn [map] in N. inversion N as [|? ? Nin N']; subst.
  cbn [flat_map].
  assert (One : forall pr : (string * vec) * (string * vec), filter (pp tx rx)
                    (map (fun y : list nat => (pr, y)) cs) = if (String.eqb (fst (fst pr)) (fst tx) && String.eqb (fst (snd pr)) (fst rx))%bool
                    then map (fun y => (pr, y)) cs else []).
  { intro q. destruct (_ && _)%bool eqn:B; [apply filter_all'|apply filter_none]; intros x X; apply in_map_iff in X; destruct X as (y & <- & _); exact B. }
  rewrite One.
  assert (Rest : forall prs, ~ In (plab (tx, rx)) (map plab prs) ->
     flat_map (fun x => filter (pp tx rx)
        (map (fun y : list nat => (x, y)) cs)) prs = []).
  { clear - One. induction prs as [|q prs IH]; intro H; [reflexivity|]. cbn [flat_map]. rewrite One, IH; [|intro; apply H; right; auto].
    destruct (_ && _)%bool eqn:B; auto. exfalso. apply H. left. apply andb_prop in B. destruct B as [B1 B2].
    apply String.eqb_eq in B1, B2. unfold plab. cbn. congruence. }
  destruct I as [->|I].
  - cbn [fst snd]. rewrite !String.eqb_refl. cbn [andb]. rewrite Rest by auto. apply app_nil_r.
  - destruct (_ && _)%bool eqn:B.
    + exfalso. apply Nin. apply andb_prop in B. destruct B as [B1 B2]. apply String.eqb_eq in B1, B2.
      replace (plab pr) with (plab (tx, rx)) by (unfold plab; cbn; congruence). apply in_map. auto.
    + apply IH; auto.
Qed.
Lemma pair_items P g s cls va ca t r tx rx : good_split P ->
  represents (transmitters s) t -> represents (receivers s) r ->
  let a := all_paths P g s cls ca va None in
  raised a = None -> In tx t -> In rx r ->
  Forall2 (fun c it => is_item P g s cls va None (tx, rx, c) it) (scene_candidates s ca) (of_pair (fst tx) (fst rx) (yielded a)).
Proof.
  intros G T R a Ra It Ir. destruct (C51_lemma P g s cls va ca None t r G T R) as (H & H0 & _). fold a in H, H0.
  pose proof (represents_items _ _ T) as [_ DT]. pose proof (represents_items _ _ R) as [_ DR].
  rewrite <- list_prod_triples in H, H0.
  assert (F : Forall2 (fun trc it => is_item P g s cls va None trc it) (list_prod (list_prod t r) (scene_candidates s ca)) (yielded a)).
  { apply Forall2_nth'; [symmetry; auto|]. intros n trc it E1 E2. destruct (H n it E2) as (trc' & E3 & I).
    assert (trc' = trc) by congruence. subst. exact I. }
  assert (HH : forall trc it, is_item P g s cls va None trc it ->
     pp tx rx trc = (String.eqb (it_tx it) (fst tx) && String.eqb (it_rx it) (fst rx))%bool).
  { intros [[u v] c] it (E1 & E2 & _). unfold pp. cbn [fst snd]. rewrite E1, E2. reflexivity. }
  pose proof (Forall2_filter _ _ _ _ _ HH F) as F'.
  rewrite (filter_pair t r _ tx rx DT DR It Ir) in F'. fold (of_pair (fst tx) (fst rx) (yielded a)) in F'.
  revert F'. generalize (of_pair (fst tx) (fst rx) (yielded a)) as l'. generalize (scene_candidates s ca) as l.
  clear. induction l as [|c l IH]; intros l' F; inversion F; subst; constructor; auto.
Qed.
Lemma item_fun P g s cls va key n1 n2 n3 n4 tx rx c it it' f : 
  is_item P g s cls va key ((n1, tx), (n2, rx), c) it -> is_item P g s cls va key ((n3, tx), (n4, rx), c) it' ->
  contribution s f tx rx it = contribution s f tx rx it'.
Proof.
  intros (_ & _ & E3 & _ & E5 & E6) (_ & _ & F3 & _ & F5 & F6). cbn [snd] in *. unfold contribution.
  rewrite E3, F3. assert (Ep : it_path it = it_path it') by congruence. rewrite Ep in *. 
  assert (Ev : it_valid it = it_valid it') by congruence. rewrite Ev. reflexivity.
Qed.
Lemma combine_repeat {A B} (l : list A) (x : B) : combine l (repeat x (length l)) = map (fun a => (a, x)) l.
Proof. induction l as [|a l IH]; [reflexivity|]. cbn. rewrite IH. reflexivity. Qed.
Lemma sums_pair P g s s2 cls va ca f t r tx rx v : good_split P -> objects s2 = objects s ->
  represents (transmitters s2) t -> represents (receivers s2) r ->
  raised (all_paths P g s2 cls ca va None) = None -> In tx t -> In rx r ->
  sums_candidates P g s cls ca va None f (snd tx) (snd rx) v ->
  pair_result s2 f (yielded (all_paths P g s2 cls ca va None)) (tx, rx) = (fst tx, fst rx, v).
Proof.
  intros G Eo T R Ra It Ir Sv. apply (sums_objects P g s s2) in Sv; [|auto]. destruct Sv as (its & F & ->).
  pose proof (pair_items P g s2 cls va ca t r tx rx G T R Ra It Ir) as Fp. unfold pair_result. cbn [fst snd]. f_equal. f_equal.
  cbn [one_key_each] in F. rewrite combine_repeat in F. revert F Fp.
  generalize (of_pair (fst tx) (fst rx) (yielded (all_paths P g s2 cls ca va None))) as l'. generalize (scene_candidates s2 ca) as cs.
  intros cs l' F Fp. revert its F. induction Fp as [|c it cs l' I _ IH]; intros its F; inversion F as [|? it' ? its' I' F']; subst; [reflexivity|].
  cbn [map]. f_equal; [|auto]. cbn [fst snd] in I'. destruct tx as [n1 tx], rx as [n2 rx]. eapply item_fun; eauto.
Qed.
Lemma acc_single P g s s2 cls va ca f t r n m tx rx v : good_split P -> objects s2 = objects s ->
  represents (transmitters s2) t -> represents (receivers s2) r -> never_fails cls (@None (key_t P)) s ->
  scene_candidates s ca <> [] ->
  nth_error (list_prod t r) n = Some (tx, rx) -> m = length (list_prod t r) ->
  sums_candidates P g s cls ca va None f (snd tx) (snd rx) v ->
  exists u, accumulate_over_paths P g s2 cls ca va None f = mkgen u None /\ length u = m /\ nth_error u n = Some (fst tx, fst rx, v).
Proof.
  intros G Eo T R N C Hn -> Sv.
  assert (Ra : raised (all_paths P g s2 cls ca va None) = None).
  { apply (C51_total_lemma P g s2 cls va ca None t r); auto. apply (never_objects P cls None s s2); auto. }
  destruct (C53_lemma P g s2 cls va ca None f t r G T R) as [A1 A2].
  { rewrite (cands_objects s2 s ca Eo). auto. }
  rewrite Ra in A1, A2. destruct (accumulate_over_paths P g s2 cls ca va None f) as [u e]. cbn [yielded raised] in A1, A2. subst.
  eexists. split; [reflexivity|]. split; [apply map_length|]. rewrite nth_error_map, Hn. cbn [option_map]. f_equal.
  assert (I : In (tx, rx) (list_prod t r)) by (eapply nth_error_In; eauto). apply in_prod_iff in I.
  apply (sums_pair P g s s2 cls va ca f t r tx rx v); tauto.
Qed.
Lemma prod_one_nth {A B} (l : list A) (y : B) n x : nth_error l n = Some x -> nth_error (list_prod l [y]) n = Some (x, y).
Proof. revert n. induction l as [|a l IH]; intros [|n] H; try discriminate; cbn in *; [congruence|auto]. Qed.
Lemma prod_one_nth_l {A B} (x : A) (l : list B) n y : nth_error l n = Some y -> nth_error (list_prod [x] l) n = Some (x, y).
Proof. intro H. cbn. rewrite app_nil_r, nth_error_map, H. reflexivity. Qed.
Lemma is_dict_one {V} n (v : V) : is_dict [(n, v)].
Proof. unfold is_dict. cbn. repeat constructor. auto. Qed.
Lemma C54_rx_pointwise P g s cls ca va f gradop X Y t : good_split P -> represents (transmitters s) t ->
  never_fails cls (@None (key_t P)) s -> scene_candidates s ca <> [] -> same_shape X Y ->
  exists result, accumulate_on_receivers_grid P g s cls ca va None f gradop MVal X Y = Ok (mkgen result None) /\
    map fst result = map fst t /\
    forall n name Z, nth_error result n = Some (name, Z) ->
      same_shape Z X /\
      forall i j x y, entry X i j = Some x -> entry Y i j = Some y ->
        exists v, entry Z i j = Some (CVal v) /\
          forall rxname s2, with_receivers s [(rxname, (x, y))] = Ok s2 ->
            exists u, accumulate_over_paths P g s2 cls ca va None f = mkgen u None /\
              length u = length t /\ nth_error u n = Some (name, rxname, v).
Proof.
  intros G T N C Sh. destruct (C54_rx P g s cls ca va None f gradop MVal X Y t G T N Sh) as (result & E & Names & H).
  exists result. split; auto. split; auto. intros n name Z Hn.
  assert (Ht : exists pos, nth_error t n = Some (name, pos)).
  { assert (Q : nth_error (map fst t) n = Some name) by (rewrite <- Names, nth_error_map, Hn; reflexivity).
    rewrite nth_error_map in Q. destruct (nth_error t n) as [[nm pos]|]; [|discriminate]. cbn in Q. exists pos. congruence. }
  destruct Ht as [pos Ht]. destruct (H n name pos Z Ht Hn) as [S1 En]. split; auto. intros i j x y Hx Hy.
  destruct (En i j x y Hx Hy) as (c & h & Ec & Mc & Hh & Hv & _). destruct c as [v|?|? ?]; cbn in Mc; try contradiction.
  exists v. split; auto. intros rxname s2 W.
  destruct (with_rx s [(rxname, (x, y))] (is_dict_one _ _)) as [W1 W2].
  assert (Ns : ~ In "self"%string (map fst [(rxname, (x, y))])) by (intro I; rewrite (W2 I) in W; discriminate).
  destruct (W1 Ns) as (s2' & W' & R2 & T2 & O2). assert (s2' = s2) by congruence. subst s2'.
  destruct (Hh (x, y)) as (v' & Ev & Sv). assert (v' = v) by (rewrite Hv in Ev by discriminate; cbn in Ev; congruence). subst v'.
  destruct (acc_single P g s s2 cls va ca f t [(rxname, (x, y))] n (length t) (name, pos) (rxname, (x, y)) v) as (u & U1 & U2 & U3); auto.
  - rewrite T2. auto.
  - apply prod_one_nth. auto.
  - rewrite prod_length. cbn. lia.
  - exists u. auto.
Qed.
Lemma C54_tx_pointwise P g s cls ca va f gradop X Y r : good_split P -> represents (receivers s) r ->
  never_fails cls (@None (key_t P)) s -> scene_candidates s ca <> [] -> same_shape X Y ->
  exists result, accumulate_on_transmitters_grid P g s cls ca va None f gradop MVal X Y = Ok (mkgen result None) /\
    map fst result = map fst r /\
    forall n name Z, nth_error result n = Some (name, Z) ->
      same_shape Z X /\
      forall i j x y, entry X i j = Some x -> entry Y i j = Some y ->
        exists v, entry Z i j = Some (CVal v) /\
          forall txname s2, with_transmitters s [(txname, (x, y))] = Ok s2 ->
            exists u, accumulate_over_paths P g s2 cls ca va None f = mkgen u None /\
              length u = length r /\ nth_error u n = Some (txname, name, v).
Proof.
  intros G T N C Sh. destruct (C54_tx P g s cls ca va None f gradop MVal X Y r G T N Sh) as (result & E & Names & H).
  exists result. split; auto. split; auto. intros n name Z Hn.
  assert (Ht : exists pos, nth_error r n = Some (name, pos)).
  { assert (Q : nth_error (map fst r) n = Some name) by (rewrite <- Names, nth_error_map, Hn; reflexivity).
    rewrite nth_error_map in Q. destruct (nth_error r n) as [[nm pos]|]; [|discriminate]. cbn in Q. exists pos. congruence. }
  destruct Ht as [pos Ht]. destruct (H n name pos Z Ht Hn) as [S1 En]. split; auto. intros i j x y Hx Hy.
  destruct (En i j x y Hx Hy) as (c & h & Ec & Mc & Hh & Hv & _). destruct c as [v|?|? ?]; cbn in Mc; try contradiction.
  exists v. split; auto. intros txname s2 W.
  destruct (with_tx s [(txname, (x, y))] (is_dict_one _ _)) as [W1 W2].
  assert (Ns : ~ In "self"%string (map fst [(txname, (x, y))])) by (intro I; rewrite (W2 I) in W; discriminate).
  destruct (W1 Ns) as (s2' & W' & R2 & T2 & O2). assert (s2' = s2) by congruence. subst s2'.
  destruct (Hh (x, y)) as (v' & Ev & Sv). assert (v' = v) by (rewrite Hv in Ev by discriminate; cbn in Ev; congruence). subst v'.
  destruct (acc_single P g s s2 cls va ca f [(txname, (x, y))] r n (length r) (txname, (x, y)) (name, pos) v) as (u & U1 & U2 & U3); auto.
  - rewrite T2. auto.
  - apply prod_one_nth_l. auto.
  - rewrite prod_length. cbn. lia.
  - exists u. auto.
Qed.

(** ** Reduction *)
Definition zcells (z : zarray) (i j : nat) : option cell :=
  match z with ZScalar _ => None | ZGrid a => entry a i j end.
Lemma zip_nth {A} (h : A -> A -> A) a b i : nth_error (zip_with h a b) i =
  match nth_error a i, nth_error b i with Some x, Some y => Some (h x y) | _, _ => None end.
Proof.
  revert b i. induction a as [|x a IH]; intros [|y b] [|i]; cbn; auto. destruct (nth_error a i); auto.
Qed.
Lemma entry_zip (h : cell -> cell -> cell) a b i j : entry (zip_with (zip_with h) a b) i j =
  match entry a i j, entry b i j with Some x, Some y => Some (h x y) | _, _ => None end.
Proof.
  unfold entry. rewrite zip_nth. destruct (nth_error a i) as [u|], (nth_error b i) as [v|]; auto; [apply zip_nth|].
  destruct (nth_error u j); auto.
Qed.
Lemma shape_zip {A} (h : cell -> cell -> cell) a b (X : list (list A)) : same_shape a X -> same_shape b X -> same_shape (zip_with (zip_with h) a b) X.
Proof.
  assert (L : forall (u v : list cell) n, length u = n -> length v = n -> length (zip_with h u v) = n).
  { induction u as [|x u IH]; intros [|y v] [|n] Hu Hv; try discriminate; cbn in *; auto. }
  intro S. revert b. induction S as [|u x a X E _ IH]; intros b Sb; inversion Sb as [|v ? b' ? E' Sb']; subst; cbn [zip_with]; constructor.
  - apply L; auto.
  - apply IH. auto.
Qed.
Lemma add_parts m a b : of_mode m a -> of_mode m b -> of_mode m (cell_add a b) /\
  (m <> MGrad -> val_of (cell_add a b) = xadd (val_of a) (val_of b)) /\
  (m <> MVal -> grad_of (cell_add a b) = (xadd (fst (grad_of a)) (fst (grad_of b)), xadd (snd (grad_of a)) (snd (grad_of b)))).
Proof. destruct m, a, b; cbn; try contradiction; intros _ _; repeat split; intros; try reflexivity; contradiction. Qed.
Lemma add_scalar_parts m x b : of_mode m b -> of_mode m (cell_add_scalar x b) /\
  (m <> MGrad -> val_of (cell_add_scalar x b) = xadd x (val_of b)) /\
  (m <> MVal -> grad_of (cell_add_scalar x b) = (xadd x (fst (grad_of b)), xadd x (snd (grad_of b)))).
Proof. destruct m, b; cbn; try contradiction; intros _; repeat split; intros; try reflexivity; contradiction. Qed.
Definition sum_cell (m : gridmode) (c : cell) (cs : list cell) (x gx gy : xreal) : Prop :=
  of_mode m c /\ (m <> MGrad -> val_of c = fold_left xadd (map val_of cs) x) /\
  (m <> MVal -> grad_of c = (fold_left xadd (map (fun c => fst (grad_of c)) cs) gx, fold_left xadd (map (fun c => snd (grad_of c)) cs) gy)).
Lemma fold_z {B} m (X : list (list B)) (res : list (string * list (list cell))) : forall a,
  same_shape a X -> (forall nz, In nz res -> same_shape (snd nz) X) ->
  (forall i j c, entry a i j = Some c -> of_mode m c) ->
  (forall nz i j c, In nz res -> entry (snd nz) i j = Some c -> of_mode m c) ->
  exists Z, fold_left (fun z '(_, p) => z_add z p) res (ZGrid a) = ZGrid Z /\ same_shape Z X /\
    forall i j c0 cs, entry a i j = Some c0 -> Forall2 (fun nz c => entry (snd nz) i j = Some c) res cs ->
      exists c, entry Z i j = Some c /\ sum_cell m c cs (val_of c0) (fst (grad_of c0)) (snd (grad_of c0)).
Proof.
  induction res as [|[n p] res IH]; intros a Sa Sr Ma Mr.
  - exists a. split; [reflexivity|]. split; auto. intros i j c0 cs E F. inversion F; subst. exists c0. split; auto.
    split; [eapply Ma; eauto|]. split; auto. intros _. cbn. destruct (grad_of c0); reflexivity.
  - cbn [fold_left z_add].
    destruct (IH (zip_with (zip_with cell_add) a p)) as (Z & EZ & SZ & H).
    + apply shape_zip; auto. apply (Sr (n, p)). left. auto.
    + intros nz I. apply Sr. right. auto.
    + intros i j c. rewrite entry_zip. destruct (entry a i j) as [ca|] eqn:Ea; [|discriminate].
      destruct (entry p i j) as [cp|] eqn:Ep; [|discriminate]. intro E. injection E as <-. apply add_parts; [eapply Ma; eauto|].
      eapply (Mr (n, p)); [left; auto|exact Ep].
    + intros nz i j c I. apply Mr. right. auto.
    + exists Z. split; auto. split; auto. intros i j c0 cs E F. inversion F as [|? cp ? cs' Ep F']; subst. cbn [snd] in Ep.
      destruct (add_parts m c0 cp) as (P1 & P2 & P3); [eapply Ma; eauto|eapply (Mr (n, p)); [left; auto|exact Ep]|].
      destruct (H i j (cell_add c0 cp) cs') as (c & Ec & M1 & M2 & M3); [rewrite entry_zip, E, Ep; reflexivity|auto|].
      exists c. split; auto. split; auto. split.
      * intro Nm. rewrite M2, P2 by auto. reflexivity.
      * intro Nm. rewrite M3, P3 by auto. reflexivity.
Qed.
Lemma xsum0_swap x : xadd (Fin 0) x = x.
Proof. destruct x; cbn; auto. f_equal. lra. Qed.
Lemma reduce_spec {B} m (X : list (list B)) (result : list (string * list (list cell))) :
  (forall nz, In nz result -> same_shape (snd nz) X) ->
  (forall nz i j c, In nz result -> entry (snd nz) i j = Some c -> of_mode m c) ->
  (result = [] -> reduce_grid (Ok (mkgen result None)) = Ok (ZScalar (Fin 0))) /\
  (result <> [] -> exists Z, reduce_grid (Ok (mkgen result None)) = Ok (ZGrid Z) /\ same_shape Z X /\
     forall i j cs, Forall2 (fun nz c => entry (snd nz) i j = Some c) result cs ->
       exists c, entry Z i j = Some c /\ of_mode m c /\
         (m <> MGrad -> val_of c = xsum (map val_of cs)) /\
         (m <> MVal -> grad_of c = (xsum (map (fun c => fst (grad_of c)) cs), xsum (map (fun c => snd (grad_of c)) cs)))).
Proof.
  intros Sr Mr. split; [intros ->; reflexivity|]. intro N. destruct result as [|[n p] result]; [contradiction|].
  unfold reduce_grid. cbn [rbind raised yielded fold_left z_add].
  destruct (fold_z m X result (map (map (cell_add_scalar (Fin 0))) p)) as (Z & EZ & SZ & H).
  - apply shape_map. apply (Sr (n, p)). left. auto.
  - intros nz I. apply Sr. right. auto.
  - intros i j c. rewrite entry_map. destruct (entry p i j) as [c'|] eqn:E; [|discriminate]. cbn. intro Q. injection Q as <-.
    apply add_scalar_parts. eapply (Mr (n, p)); [left; auto|exact E].
  - intros nz i j c I. apply Mr. right. auto.
  - exists Z. rewrite EZ. split; auto. split; auto. intros i j cs F. inversion F as [|? cp ? cs' Ep F']; subst. cbn [snd] in Ep.
    destruct (add_scalar_parts m (Fin 0) cp) as (P1 & P2 & P3); [eapply (Mr (n, p)); [left; auto|exact Ep]|].
    destruct (H i j (cell_add_scalar (Fin 0) cp) cs') as (c & Ec & M1 & M2 & M3); [rewrite entry_map, Ep; reflexivity|auto|].
    exists c. split; auto. split; auto. split.
    + intro Nm. rewrite M2, P2 by auto. reflexivity.
    + intro Nm. rewrite M3, P3 by auto. reflexivity.
Qed.
Lemma cell_mode_of gradop m h p : of_mode m (cell_of gradop m h p).
Proof. destruct m; cbn; auto. Qed.
Lemma C55_rx P g s cls ca va key f gradop m X Y t : good_split P -> represents (transmitters s) t ->
  never_fails cls key s -> same_shape X Y ->
  exists result, accumulate_on_receivers_grid P g s cls ca va key f gradop m X Y = Ok (mkgen result None) /\
  (t = [] -> reduce_grid (accumulate_on_receivers_grid P g s cls ca va key f gradop m X Y) = Ok (ZScalar (Fin 0))) /\
  (t <> [] -> exists Z, reduce_grid (accumulate_on_receivers_grid P g s cls ca va key f gradop m X Y) = Ok (ZGrid Z) /\ same_shape Z X /\
     forall i j x, entry X i j = Some x ->
       exists c cs, entry Z i j = Some c /\ Forall2 (fun nz c => entry (snd nz) i j = Some c) result cs /\ of_mode m c /\
         (m <> MGrad -> val_of c = xsum (map val_of cs)) /\
         (m <> MVal -> grad_of c = (xsum (map (fun c => fst (grad_of c)) cs), xsum (map (fun c => snd (grad_of c)) cs)))).
Proof.
  intros G T N Sh. destruct (rx_grid P g s cls ca va key f gradop m X Y t G T N Sh) as (grid & D & S1 & En & E).
  rewrite E. eexists. split; [reflexivity|]. set (result := map _ t).
  destruct (reduce_spec m X result) as [R1 R2].
  - intros nz I. unfold result in I. apply in_map_iff in I. destruct I as (tx & <- & _). apply shape_map. auto.
  - intros nz i j c I. unfold result in I. apply in_map_iff in I. destruct I as (tx & <- & _). cbn [snd]. rewrite entry_map.
    destruct (entry grid i j); [|discriminate]. cbn. intro Q. injection Q as <-. apply cell_mode_of.
  - split; [intros ->; apply R1; reflexivity|]. intro Nt. destruct R2 as (Z & EZ & SZ & H).
    { unfold result. destruct t; [contradiction|discriminate]. }
    exists Z. split; auto. split; auto. intros i j x Hx.
    assert (Hg : exists q, entry grid i j = Some q).
    { clear - S1 Hx. revert i Hx. induction S1 as [|u v grid X Eu _ IH]; intros i Hx; [destruct i; discriminate|].
      destruct i as [|i]; unfold entry in *; cbn [nth_error] in *; [|apply IH; auto].
      destruct (nth_error u j) eqn:Q; [eauto|]. apply nth_error_None in Q. assert (j < length v) by (apply nth_error_Some; congruence). lia. }
    destruct Hg as [q Hq].
    destruct (H i j (map (fun tx => cell_of gradop m (fun rx => facc P g s cls va f (the_work P s ca key) (snd tx) rx) q) t)) as (c & Ec & M).
    { unfold result. clear - Hq. induction t as [|tx t IH]; cbn [map]; constructor; auto. cbn [snd]. rewrite entry_map, Hq. reflexivity. }
    exists c; eexists. split; auto. split; [|exact M].
    unfold result. clear - Hq. induction t as [|tx t IH]; cbn [map]; constructor; auto. cbn [snd]. rewrite entry_map, Hq. reflexivity.
Qed.
Lemma C55_tx P g s cls ca va key f gradop m X Y r : good_split P -> represents (receivers s) r ->
  never_fails cls key s -> same_shape X Y ->
  exists result, accumulate_on_transmitters_grid P g s cls ca va key f gradop m X Y = Ok (mkgen result None) /\
  (r = [] -> reduce_grid (accumulate_on_transmitters_grid P g s cls ca va key f gradop m X Y) = Ok (ZScalar (Fin 0))) /\
  (r <> [] -> exists Z, reduce_grid (accumulate_on_transmitters_grid P g s cls ca va key f gradop m X Y) = Ok (ZGrid Z) /\ same_shape Z X /\
     forall i j x, entry X i j = Some x ->
       exists c cs, entry Z i j = Some c /\ Forall2 (fun nz c => entry (snd nz) i j = Some c) result cs /\ of_mode m c /\
         (m <> MGrad -> val_of c = xsum (map val_of cs)) /\
         (m <> MVal -> grad_of c = (xsum (map (fun c => fst (grad_of c)) cs), xsum (map (fun c => snd (grad_of c)) cs)))).
Proof.
  intros G T N Sh. destruct (tx_grid P g s cls ca va key f gradop m X Y r G T N Sh) as (grid & D & S1 & En & E).
  rewrite E. eexists. split; [reflexivity|]. set (result := map _ r).
  destruct (reduce_spec m X result) as [R1 R2].
  - intros nz I. unfold result in I. apply in_map_iff in I. destruct I as (tx & <- & _). apply shape_map. auto.
  - intros nz i j c I. unfold result in I. apply in_map_iff in I. destruct I as (tx & <- & _). cbn [snd]. rewrite entry_map.
    destruct (entry grid i j); [|discriminate]. cbn. intro Q. injection Q as <-. apply cell_mode_of.
  - split; [intros ->; apply R1; reflexivity|]. intro Nt. destruct R2 as (Z & EZ & SZ & H).
    { unfold result. destruct r; [contradiction|discriminate]. }
    exists Z. split; auto. split; auto. intros i j x Hx.
    assert (Hg : exists q, entry grid i j = Some q).
    { clear - S1 Hx. revert i Hx. induction S1 as [|u v grid X Eu _ IH]; intros i Hx; [destruct i; discriminate|].
      destruct i as [|i]; unfold entry in *; cbn [nth_error] in *; [|apply IH; auto].
      destruct (nth_error u j) eqn:Q; [eauto|]. apply nth_error_None in Q. assert (j < length v) by (apply nth_error_Some; congruence). lia. }
    destruct Hg as [q Hq].
    destruct (H i j (map (fun rx => cell_of gradop m (fun tx => facc P g s cls va f (the_work P s ca key) tx (snd rx)) q) r)) as (c & Ec & M).
    { unfold result. clear - Hq. induction r as [|tx t IH]; cbn [map]; constructor; auto. cbn [snd]. rewrite entry_map, Hq. reflexivity. }
    exists c; eexists. split; auto. split; [|exact M].
    unfold result. clear - Hq. induction r as [|tx t IH]; cbn [map]; constructor; auto. cbn [snd]. rewrite entry_map, Hq. reflexivity.
Qed.

(** ** Filtering candidates does not change the paths (C46) *)
Lemma one_path_cand P g s cls va tx rx c key it key' : one_path P g s cls va tx rx c key = Ok (it, key') -> it_cand it = c /\ (key = None -> key' = None).
Proof.
  unfold one_path. destruct (get_interacting_objects s c); cbn [rbind]; [|discriminate].
  destruct key as [k|].
  - destruct (rsplit P k 2) as [|k1 [|k2 l]];
    (destruct (from_tx_objects_rx _ _ _ _ _ _); cbn [rbind]; [|discriminate]; destruct (is_valid _ _ _ _ _ _ _ _ _); cbn [rbind]; [|discriminate];
     intro H; injection H as <- _; split; auto; discriminate).
  - destruct (from_tx_objects_rx _ _ _ _ _ _); cbn [rbind]; [|discriminate]. destruct (is_valid _ _ _ _ _ _ _ _ _); cbn [rbind]; [|discriminate].
    intro H. injection H as <- <-. auto.
Qed.
Lemma run_filter P g s cls va (p : list Z -> bool) work : raised (run_paths P g s cls va work None) = None ->
  run_paths P g s cls va (filter (fun w => p (snd w)) work) None =
  mkgen (filter (fun it => p (it_cand it)) (yielded (run_paths P g s cls va work None))) None.
Proof.
  induction work as [|[[tx rx] c] work IH]; [reflexivity|]. cbn [run_paths].
  destruct (one_path P g s cls va tx rx c None) as [[it key']|e] eqn:E; [|discriminate].
  destruct (one_path_cand _ _ _ _ _ _ _ _ _ _ _ E) as [Ec Ek]. rewrite (Ek eq_refl). cbn [raised yielded]. intro Ra.
  cbn [filter snd]. rewrite Ec. destruct (p c).
  - cbn [run_paths]. rewrite E, (Ek eq_refl), (IH Ra). reflexivity.
  - apply IH. auto.
Qed.
Lemma C46_paths P g s cls va lo hi order keep :
  let a := all_paths P g s cls (mkcandargs lo hi order None) va None in
  raised a = None ->
  all_paths P g s cls (mkcandargs lo hi order (Some keep)) va None =
  mkgen (filter (fun it => forallb keep (objects_at s (map Z.to_nat (it_cand it)))) (yielded a)) None.
Proof.
  intros a Ra. unfold all_paths, cands_z. set (d := OVertex (0%R, 0%R)).
  rewrite (C46_lemma s lo hi order keep d). set (cs := scene_candidates s (mkcandargs lo hi order None)).
  set (q := fun c : list Z => forallb keep (objects_at s (map Z.to_nat c))).
  etransitivity; [|exact (run_filter P g s cls va q _ Ra)]. f_equal. unfold cands_z. fold cs.
  rewrite !list_prod_flat, filter_flat_map. apply flat_map_ext. intro pr.
  assert (H : forall c, In c cs -> q (map Z.of_nat c) = forallb (fun i => keep (nth i (objects s) d)) c).
  { intros c I. unfold q. rewrite map_nat_z, (objects_at_nth s c d) by (eapply scene_candidates_in; eauto).
    clear. induction c as [|i c IH]; [reflexivity|]. cbn. rewrite IH. reflexivity. }
  fold cs. clearbody cs. clear - H. induction cs as [|c cs IH]; [reflexivity|]. cbn [map filter snd].
  rewrite (H c) by (left; auto). destruct (forallb _ c); cbn [map]; rewrite IH by (intros; apply H; right; auto); reflexivity.
Qed.
