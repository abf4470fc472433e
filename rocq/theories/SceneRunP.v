(** Enumerating paths: C51, C52 and C46. *)
From Coq Require Import Reals List Bool ZArith String Lia.
From Verif Require Import Base BaseP LogicM LogicP GeometryM OptimizeM PathM PathP PathSmoothP PathShapeP ImageP CandidatesM CandidatesP
  SceneM SpecScene SceneP SceneOpsP SpecRun.
Import ListNotations.
Local Notation length := List.length.
Open Scope nat_scope.

Lemma nth_error_firstn' {A} (l : list A) n m : n < m -> nth_error (firstn m l) n = nth_error l n.
Proof. revert l n. induction m as [|m IH]; intros [|x l] [|n] H; cbn; auto; try lia. apply IH. lia. Qed.

Lemma NoDup_app_left {A} (l l' : list A) : NoDup (l ++ l') -> NoDup l.
Proof.
  induction l as [|x l IH]; cbn; [constructor|]. intro H. inversion H as [|? ? N D]; subst. constructor; auto.
  intro I. apply N, in_or_app. auto.
Qed.

(** ** Objects *)
Lemma objects_at_nth s c d : (forall i, In i c -> i < length (objects s)) ->
  objects_at s c = map (fun i => nth i (objects s) d) c.
Proof.
  induction c as [|i c IH]; intro H; [reflexivity|]. unfold objects_at. cbn [flat_map map].
  rewrite (nth_error_nth' (objects s) d) by (apply H; left; auto). cbn [app]. f_equal. apply IH. intros j J. apply H. right. auto.
Qed.
Lemma objects_at_length s c : (forall i, In i c -> i < length (objects s)) -> length (objects_at s c) = length c.
Proof.
  intro H. rewrite (objects_at_nth s c (OVertex (0%R, 0%R))) by auto. apply map_length.
Qed.
Lemma interacting_ok s ca c : In c (scene_candidates s ca) ->
  get_interacting_objects s (map Z.of_nat c) = Ok (objects_at s c) /\ length (objects_at s c) = length c.
Proof.
  intro I. pose proof (scene_candidates_in s ca c I) as H.
  rewrite (C47_candidates s ca c (OVertex (0%R, 0%R)) I), (objects_at_nth s c (OVertex (0%R, 0%R))) by auto.
  split; auto. apply map_length.
Qed.

(** ** The work list *)
Lemma list_prod_triples {A B C} (ts : list A) (rs : list B) (cs : list C) :
  list_prod (list_prod ts rs) cs = triples ts rs cs.
Proof.
  unfold triples. induction ts as [|t ts IH]; [reflexivity|]. cbn [list_prod flat_map]. rewrite <- IH.
  assert (G : forall l l' : list (A * B), list_prod (l ++ l') cs = list_prod l cs ++ list_prod l' cs).
  { induction l as [|x l IHl]; intro l'; cbn; auto. rewrite IHl, app_assoc. reflexivity. }
  rewrite G. f_equal. clear. induction rs as [|r rs IH]; [reflexivity|]. cbn. rewrite IH. reflexivity.
Qed.
Lemma triples_map {A B C D} (h : C -> D) (ts : list A) (rs : list B) (cs : list C) :
  triples ts rs (map h cs) = map (fun trc => (fst trc, h (snd trc))) (triples ts rs cs).
Proof.
  unfold triples. induction ts as [|t ts IH]; [reflexivity|]. cbn [flat_map]. rewrite map_app, IH. f_equal.
  clear IH. induction rs as [|r rs IH]; [reflexivity|]. cbn [flat_map]. rewrite map_app, IH, !map_map. reflexivity.
Qed.
Lemma in_triples {A B C} (ts : list A) (rs : list B) (cs : list C) t r c :
  In (t, r, c) (triples ts rs cs) <-> In t ts /\ In r rs /\ In c cs.
Proof.
  unfold triples. rewrite in_flat_map. split.
  - intros (t' & T & H). apply in_flat_map in H. destruct H as (r' & R & H). apply in_map_iff in H.
    destruct H as (c' & E & H). injection E as -> -> ->. auto.
  - intros (T & R & H). exists t. split; auto. apply in_flat_map. exists r. split; auto. apply in_map_iff. eauto.
Qed.
Lemma nth_triples {A B C} (ts : list A) (rs : list B) (cs : list C) a b c t r x :
  nth_error ts a = Some t -> nth_error rs b = Some r -> nth_error cs c = Some x ->
  nth_error (triples ts rs cs) ((a * length rs + b) * length cs + c) = Some (t, r, x).
Proof.
  intros Ht Hr Hc.
  assert (K : forall {X Y : Type} (h : X -> list Y) (m : nat), (forall x, length (h x) = m) -> forall l i j x y,
            nth_error l i = Some x -> nth_error (h x) j = Some y -> nth_error (flat_map h l) (i * m + j) = Some y).
  { intros X Y h m Hm l. induction l as [|x0 l IH]; intros i j x0' y Hi Hj; [destruct i; discriminate|].
    cbn [flat_map]. destruct i as [|i].
    - cbn in Hi. injection Hi as ->. cbn [Nat.mul Nat.add]. rewrite nth_error_app1; auto. apply nth_error_Some. congruence.
    - cbn in Hi. rewrite nth_error_app2 by (rewrite Hm; lia). rewrite Hm.
      replace (S i * m + j - m) with (i * m + j) by lia. eapply IH; eauto. }
  unfold triples. rewrite Nat.mul_add_distr_r, <- Nat.mul_assoc, <- Nat.add_assoc.
  eapply K with (x := t); auto.
  - intro y. induction rs as [|r0 rs IH] in |- *; [reflexivity|]. cbn [flat_map]. rewrite app_length, map_length. 
    assert (Z : forall rs : list B, length (flat_map (fun rx => map (fun c0 => (y, rx, c0)) cs) rs) = length rs * length cs)
      by (induction rs0 as [|? ? IHr]; [reflexivity|]; cbn [flat_map]; rewrite app_length, map_length, IHr; reflexivity).
    rewrite Z. reflexivity.
  - eapply K with (x := r); auto.
    + intro. apply map_length.
    + erewrite map_nth_error; eauto.
Qed.
Lemma triples_length {A B C} (ts : list A) (rs : list B) (cs : list C) :
  length (triples ts rs cs) = length ts * length rs * length cs.
Proof. rewrite <- list_prod_triples, !prod_length. reflexivity. Qed.
Lemma NoDup_triples {A B C} (ts : list A) (rs : list B) (cs : list C) :
  NoDup ts -> NoDup rs -> NoDup cs -> NoDup (triples ts rs cs).
Proof.
  intros T R D. rewrite <- list_prod_triples.
  assert (K : forall {X Y : Type} (l : list X) (l' : list Y), NoDup l -> NoDup l' -> NoDup (list_prod l l')).
  { intros X Y l l' H H'. induction H as [|x l N H IH]; cbn; [constructor|]. apply NoDup_app'; auto.
    - apply FinFun.Injective_map_NoDup; auto. intros u v E. congruence.
    - intros [u v] I J. apply in_map_iff in I. destruct I as (w & E & _). injection E as <- <-. apply in_prod_iff in J. tauto. }
  auto.
Qed.

(** ** One path *)
Lemma valid_of_built P cls key tx os rx p g objs c tol patch a k :
  from_tx_objects_rx P cls key tx os rx = Ok p -> length os = length c ->
  exists t, is_valid g p objs (map Z.of_nat c) os tol patch a k = Ok t.
Proof.
  intros H L. apply C29_lemma in H. destruct H as ((mid & X & Lm) & _). apply valid_total. left.
  rewrite X. cbn [length]. rewrite app_length, map_length, Lm, L. cbn. lia.
Qed.
Definition next_key (P : prng) (key : option (key_t P)) : option (key_t P) :=
  match key with None => None | Some k => Some (hd k (rsplit P k 2)) end.
Definition use_key (P : prng) (key : option (key_t P)) : option (key_t P) :=
  match key with None => None | Some k => nth_error (rsplit P k 2) 1 end.
Lemma one_path_spec P g s cls va ca tx rx c key : good_split P -> In c (scene_candidates s ca) ->
  match from_tx_objects_rx P cls (use_key P key) (snd tx) (objects_at s c) (snd rx) with
  | Err e => one_path P g s cls va tx rx (map Z.of_nat c) key = Err e
  | Ok p => exists it, one_path P g s cls va tx rx (map Z.of_nat c) key = Ok (it, next_key P key) /\
              is_item P g s cls va (use_key P key) (tx, rx, c) it
  end.
Proof.
  intros G I. destruct (interacting_ok s ca c I) as [E L]. unfold one_path. rewrite E. cbn [rbind].
  assert (K : match key with
      | Some k => match rsplit P k 2 with
                  | k1 :: k2 :: _ => (Some k1, Some k2)
                  | _ => (Some k, None)
                  end
      | None => (None, None)
      end = (next_key P key, use_key P key)).
  { destruct key as [k|]; [|reflexivity]. cbn. pose proof (G k 2) as G2. destruct (rsplit P k 2) as [|k1 [|k2 ?]]; try discriminate. reflexivity. }
  rewrite K. destruct (from_tx_objects_rx P cls (use_key P key) (snd tx) (objects_at s c) (snd rx)) as [p|e] eqn:F; [|reflexivity].
  cbn [rbind]. destruct (valid_of_built P cls _ _ _ _ _ g (objects s) c (va_tol va) (va_patch va) (va_approx va) (va_kw va) F L) as [t Ht].
  rewrite Ht. cbn [rbind]. eexists. split; [reflexivity|]. unfold is_item. cbn. auto 10.
Qed.
Lemma kept_shift P k n : good_split P -> kept P (hd k (rsplit P k 2)) n = kept P k (S n).
Proof.
  intro G. induction n as [|n IH]; [reflexivity|]. cbn [kept] in *. rewrite IH.
  assert (H : forall (d d' : key_t P) l, length l = 2 -> hd d l = hd d' l) by (intros d d' [|x l]; [discriminate|reflexivity]).
  apply H, G.
Qed.
Lemma nth_key_S P key n : good_split P -> nth_key P (next_key P key) n = nth_key P key (S n).
Proof. intro G. destruct key as [k|]; [|reflexivity]. cbn [next_key nth_key]. rewrite kept_shift; auto. Qed.
Lemma nth_key_0 P key : nth_key P key 0 = use_key P key.
Proof. destruct key; reflexivity. Qed.

(** ** The run *)
Lemma run_spec P g s cls va ca ts key : good_split P -> (forall trc, In trc ts -> In (snd trc) (scene_candidates s ca)) ->
  let a := run_paths P g s cls va (map (fun trc => (fst trc, map Z.of_nat (snd trc))) ts) key in
  (forall n it, nth_error (yielded a) n = Some it ->
     exists trc, nth_error ts n = Some trc /\ is_item P g s cls va (nth_key P key n) trc it) /\
  (raised a = None -> length (yielded a) = length ts) /\
  (forall e, raised a = Some e -> exists tx rx c, nth_error ts (length (yielded a)) = Some (tx, rx, c) /\
     from_tx_objects_rx P cls (nth_key P key (length (yielded a))) (snd tx) (objects_at s c) (snd rx) = Err e).
Proof.
  intro G. revert key. induction ts as [|[[tx rx] c] ts IH]; intros key C.
  - cbn. split; [|split; [auto|discriminate]]. intros n it H. destruct n; discriminate.
  - cbn [map fst snd run_paths].
    pose proof (one_path_spec P g s cls va ca tx rx c key G (C _ (or_introl eq_refl))) as O. cbn [snd] in O.
    destruct (from_tx_objects_rx P cls (use_key P key) (snd tx) (objects_at s c) (snd rx)) as [p|e] eqn:F.
    + destruct O as (it & -> & I). specialize (IH (next_key P key) (fun trc H => C trc (or_intror H))). cbn zeta in IH.
      set (r := run_paths P g s cls va _ (next_key P key)) in *. destruct IH as (H1 & H2 & H3). cbn [yielded raised].
      split; [|split].
      * intros [|n] it' E.
        { cbn in E. injection E as <-. exists (tx, rx, c). rewrite nth_key_0. auto. }
        { cbn in E. destruct (H1 n it' E) as (trc & Hn & Hi). exists trc. rewrite <- nth_key_S by auto. auto. }
      * intro E. cbn [length]. rewrite H2; auto.
      * intros e E. destruct (H3 e E) as (tx' & rx' & c' & Hn & He). exists tx', rx', c'.
        cbn [length]. rewrite <- nth_key_S by auto. auto.
    + rewrite O. cbn [yielded raised length]. split; [|split].
      * intros n it H. destruct n; discriminate.
      * discriminate.
      * intros e' E. injection E as <-. exists tx, rx, c. rewrite nth_key_0. auto.
Qed.
Lemma all_paths_work s ca t r : represents (transmitters s) t -> represents (receivers s) r ->
  list_prod (all_transmitter_receiver_pairs s) (cands_z s ca) =
  map (fun trc => (fst trc, map Z.of_nat (snd trc))) (triples t r (scene_candidates s ca)).
Proof.
  intros T R. apply represents_items in T, R. destruct T as [T _], R as [R _].
  unfold all_transmitter_receiver_pairs, cands_z. rewrite T, R, list_prod_triples. apply triples_map.
Qed.
Lemma triples_cands {A B} s ca (t : list A) (r : list B) trc :
  In trc (triples t r (scene_candidates s ca)) -> In (snd trc) (scene_candidates s ca).
Proof. destruct trc as [[a b] c]. intro H. apply in_triples in H. tauto. Qed.
Lemma C51_lemma P g s cls va ca key t r : good_split P ->
  represents (transmitters s) t -> represents (receivers s) r ->
  let a := all_paths P g s cls ca va key in
  let ts := triples t r (scene_candidates s ca) in
  (forall n it, nth_error (yielded a) n = Some it ->
     exists trc, nth_error ts n = Some trc /\ is_item P g s cls va (nth_key P key n) trc it) /\
  (raised a = None -> length (yielded a) = length ts) /\
  (forall e, raised a = Some e -> exists tx rx c, nth_error ts (length (yielded a)) = Some (tx, rx, c) /\
     from_tx_objects_rx P cls (nth_key P key (length (yielded a))) (snd tx) (objects_at s c) (snd rx) = Err e).
Proof.
  intros G T R. cbn zeta. unfold all_paths. rewrite (all_paths_work s ca t r T R). apply run_spec with (ca := ca); auto.
  intros trc H. eapply triples_cands; eauto.
Qed.

Lemma C51_once_lemma P g s cls va ca key t r : good_split P ->
  represents (transmitters s) t -> represents (receivers s) r -> NoDup (scene_candidates s ca) ->
  NoDup (map (fun it => (it_tx it, it_rx it, it_cand it)) (yielded (all_paths P g s cls ca va key))).
Proof.
  intros G T R D. destruct (C51_lemma P g s cls va ca key t r G T R) as (H & _ & _).
  apply represents_items in T, R. destruct T as [_ T], R as [_ R]. unfold is_dict in *.
  set (a := yielded _) in *. set (ts := triples t r (scene_candidates s ca)) in *.
  set (lab := fun trc : (string * vec) * (string * vec) * list nat => (fst (fst (fst trc)), fst (snd (fst trc)), map Z.of_nat (snd trc))).
  assert (E : map (fun it => (it_tx it, it_rx it, it_cand it)) a = firstn (length a) (map lab ts)).
  { apply nth_error_ext'. intro n. destruct (Nat.lt_ge_cases n (length a)) as [L|L].
    - rewrite nth_error_firstn' by auto. destruct (nth_error a n) as [it|] eqn:Ea; [|apply nth_error_None in Ea; lia].
      destruct (H n it Ea) as ([[tx rx] c] & Hn & I). rewrite (map_nth_error _ _ _ Ea), (map_nth_error _ _ _ Hn).
      destruct I as (-> & -> & -> & _). reflexivity.
    - rewrite (proj2 (nth_error_None _ _)) by (rewrite map_length; auto).
      symmetry. apply nth_error_None. rewrite firstn_length. lia. }
  rewrite E.
  assert (N : NoDup (map lab ts)).
  { assert (Em : map lab ts = triples (map fst t) (map fst r) (map (map Z.of_nat) (scene_candidates s ca))).
    { unfold ts, lab. rewrite triples_map. 
      assert (Q : forall (t r : list (string * vec)) (cs : list (list nat)),
                triples (map fst t) (map fst r) cs = map (fun trc => (fst (fst (fst trc)), fst (snd (fst trc)), snd trc)) (triples t r cs)).
      { clear. intros t r cs. unfold triples. induction t as [|x t IH]; [reflexivity|]. cbn [map flat_map]. rewrite map_app, IH. f_equal.
        clear IH. induction r as [|y r IH]; [reflexivity|]. cbn [map flat_map]. rewrite map_app, IH. f_equal. rewrite map_map. reflexivity. }
      rewrite Q, map_map. reflexivity. }
    rewrite Em. apply NoDup_triples; auto. apply FinFun.Injective_map_NoDup; auto.
    intros u v Euv. revert v Euv. induction u as [|x u IHu]; intros [|y v]; cbn; try discriminate; auto.
    intro Q. injection Q as Q1 Q2. f_equal; [lia|auto]. }
  rewrite <- (firstn_skipn (length a) (map lab ts)) in N. apply NoDup_app_left in N. exact N.
Qed.
Lemma scene_candidates_NoDup s ca : NoDup (scene_candidates s ca).
Proof.
  destruct ca as [lo hi order keep]. 
  assert (J : NoDup (scene_candidates s (mkcandargs lo hi order None))).
  { unfold scene_candidates. cbn. destruct order as [o|]; [rewrite order_is_min_max|]; apply candidates_NoDup_none. }
  destruct keep as [keep|]; auto. rewrite (C46_lemma s lo hi order keep (OVertex (0%R, 0%R))). apply NoDup_filter. auto.
Qed.

(** ** No failure *)
Lemma objects_at_in s c o : In o (objects_at s c) -> In o (objects s).
Proof.
  unfold objects_at. intro H. apply in_flat_map in H. destruct H as (i & _ & H).
  destruct (nth_error (objects s) i) eqn:E; [|destruct H]. destruct H as [<-|[]]. eapply nth_error_In; eauto.
Qed.
Lemma image_ok_ris tx os rx : (forall o, In o os -> exists w phi, o = ORIS w phi) -> exists p, ImagePath_from tx os rx = Ok p.
Proof.
  intro H. unfold ImagePath_from. destruct os as [|o os]; [eauto|].
  destruct (H o (or_introl eq_refl)) as (w & phi & E).
  assert (A : exists ws, as_walls (o :: os) = Some ws).
  { clear E w phi. induction (o :: os) as [|x l IH]; [cbn; eauto|]. destruct (H x (or_introl eq_refl)) as (w & phi & ->).
    cbn. destruct IH as [ws ->]; [intros y Y; apply H; right; auto|]. eauto. }
  destruct A as [ws Ws]. unfold stack_leaves.
  assert (B : forallb (fun o' => kind_eqb (kind_of o') (kind_of o)) (o :: os) = true).
  { apply forallb_forall. intros x X. destruct (H x X) as (w' & phi' & ->). rewrite E. reflexivity. }
  rewrite B. cbn [rbind]. rewrite Ws. eauto.
Qed.
Lemma wall_objects l : (forall o, In o l -> exists w, o = OWall w) -> exists ws, l = map OWall ws.
Proof.
  induction l as [|o l IH]; intro H; [exists []; auto|]. destruct (H o (or_introl eq_refl)) as [w ->].
  destruct IH as [ws ->]; [intros o I; apply H; right; auto|]. exists (w :: ws). reflexivity.
Qed.
Lemma nth_key_some P (k : key_t P) n : good_split P -> exists k', nth_key P (Some k) n = Some k'.
Proof.
  intro G. cbn. pose proof (G (kept P k n) 2) as E. destruct (rsplit P (kept P k n) 2) as [|k1 [|k2 ?]]; try discriminate. eauto.
Qed.
Lemma built_ok P cls key s c tx rx : good_split P -> never_fails cls key s ->
  exists p, from_tx_objects_rx P cls key tx (objects_at s c) rx = Ok p.
Proof.
  intros G F. destruct cls as [| |eps sv|sv]; cbn [never_fails] in F.
  - cbn. eauto.
  - cbn [from_tx_objects_rx]. destruct F as [F|F].
    + destruct (wall_objects (objects_at s c)) as [ws ->].
      { intros o I. apply F. eapply objects_at_in; eauto. }
      apply image_ok_walls.
    + apply image_ok_ris. intros o I. apply F. eapply objects_at_in; eauto.
  - destruct F as (K & S1 & M). destruct key as [k|]; [|contradiction]. eapply solver_ok; eauto.
  - destruct F as (K & S1 & M). destruct key as [k|]; [|contradiction]. eapply solver_ok; eauto.
Qed.
Lemma never_fails_nth P cls (key : option (key_t P)) s n : good_split P -> never_fails cls key s -> never_fails cls (nth_key P key n) s.
Proof.
  intros G F. assert (K : key <> None -> nth_key P key n <> None).
  { destruct key as [k|]; [|contradiction]. intros _. destruct (nth_key_some P k n G) as [k' ->]. discriminate. }
  destruct cls; cbn in *; tauto.
Qed.
Lemma C51_total_lemma P g s cls va ca key t r : good_split P ->
  represents (transmitters s) t -> represents (receivers s) r -> never_fails cls key s ->
  raised (all_paths P g s cls ca va key) = None.
Proof.
  intros G T R F. destruct (C51_lemma P g s cls va ca key t r G T R) as (_ & _ & H).
  destruct (raised _) as [e|] eqn:E; auto. destruct (H e eq_refl) as (tx & rx & c & _ & X).
  destruct (built_ok P cls (nth_key P key (length (yielded (all_paths P g s cls ca va key)))) s c (snd tx) (snd rx) G) as [p Hp].
  - apply never_fails_nth; auto.
  - congruence.
Qed.

(** ** C52 *)
Lemma typed_valid g p objs cand inter tol patch a k t :
  is_valid g p objs cand inter tol patch a k = Ok t -> typed g a t.
Proof.
  unfold is_valid. destruct (intersects_with_objects _ _ _ _ _ _ _) as [i|]; cbn [rbind]; [|discriminate].
  unfold logical_all, typed. destruct (resolve g a) eqn:E.
  - assert (N : logical_not g i a = TF (xsub (Fin 1) (to_f i))) by (unfold logical_not; rewrite E; auto). rewrite N.
    assert (B : forall x y, all_bools [x; TF (xsub (Fin 1) (to_f i)); y] = false) by (intros [|] y; reflexivity).
    rewrite B. cbn [rbind]. intro H. injection H as <-. cbn. eauto.
  - cbn [rbind]. intro H. injection H as <-. cbn. eauto.
Qed.
Lemma filter_valid_spec g a e items : (forall it, In it items -> typed g a (it_valid it)) ->
  filter_valid g a items e =
  mkgen (map (fun it => (it_tx it, it_rx it, it_path it, it_cand it))
           (filter (fun it => match is_true g (it_valid it) DEFAULT_TRUTH_TOL a with Ok b => b | Err _ => false end) items)) e.
Proof.
  induction items as [|it items IH]; intro H; [reflexivity|]. cbn [filter_valid filter].
  rewrite IH by (intros; apply H; right; auto). pose proof (H it (or_introl eq_refl)) as T.
  unfold is_true, typed in *. destruct (resolve g a) eqn:E.
  - destruct (xltb _ _); reflexivity.
  - destruct T as [b ->]. destruct b; reflexivity.
Qed.
Lemma yielded_typed P g s cls va ca key t r : good_split P ->
  represents (transmitters s) t -> represents (receivers s) r ->
  forall it, In it (yielded (all_paths P g s cls ca va key)) -> typed g (va_approx va) (it_valid it).
Proof.
  intros G T R it I. apply In_nth_error in I. destruct I as [n I].
  destruct (C51_lemma P g s cls va ca key t r G T R) as (H & _). destruct (H n it I) as ([[tx rx] c] & _ & X).
  destruct X as (_ & _ & _ & _ & _ & V). eapply typed_valid; eauto.
Qed.
Lemma C52_lemma P g s cls va ca key t r : good_split P ->
  represents (transmitters s) t -> represents (receivers s) r ->
  let a := all_paths P g s cls ca va key in
  let v := all_valid_paths P g s cls ca va key in
  (forall it, In it (yielded a) -> exists b, is_true g (it_valid it) DEFAULT_TRUTH_TOL (va_approx va) = Ok b) /\
  yielded v = map (fun it => (it_tx it, it_rx it, it_path it, it_cand it))
     (filter (fun it => match is_true g (it_valid it) DEFAULT_TRUTH_TOL (va_approx va) with Ok b => b | Err _ => false end)
        (yielded a)) /\
  raised v = raised a.
Proof.
  intros G T R a v. pose proof (yielded_typed P g s cls va ca key t r G T R) as Ty. fold a in Ty.
  unfold v, all_valid_paths. fold a. rewrite filter_valid_spec by auto. split; auto.
  intros it I. specialize (Ty it I). unfold is_true, typed in *. destruct (resolve g (va_approx va)); eauto.
  destruct Ty as [b ->]. eauto.
Qed.
