(** Proofs: the order in which the objects of a scene are listed does not matter. *)
From Coq Require Import Reals List Bool ZArith String Lia Lra Permutation FinFun.
From Verif Require Import Base BaseP LogicM GeometryM OptimizeM PathM CandidatesM SceneM SpecCandidates SpecScene SpecRun SpecOrder
  SegP PathP PathShapeP CandidatesP SceneP SceneOpsP SceneRunP SceneAccP SceneGridP.
Import ListNotations.
Local Notation length := List.length.
Open Scope nat_scope.

Lemma fold_perm {A B} (F : A -> B -> A) l l' a : (forall a x y, F (F a x) y = F (F a y) x) ->
  Permutation l l' -> fold_left F l a = fold_left F l' a.
Proof.
  intros C P. revert a. induction P; intro a; cbn [fold_left]; auto; [rewrite C; reflexivity|congruence].
Qed.
Lemma or_swap g a x y ap : logical_or g (logical_or g a x ap) y ap = logical_or g (logical_or g a y ap) x ap.
Proof.
  unfold logical_or. destruct (resolve g ap).
  - assert (E : forall b c, to_f (TB (b || c)) = xmax (to_f (TB b)) (to_f (TB c))).
    { intros [|] [|]; cbn; f_equal; unfold Rmax; destruct (Rle_dec _ _); try reflexivity; exfalso; lra. }
    destruct a as [a|a], x as [x|x], y as [y|y]; rewrite ?E; cbn [to_f];
      try (f_equal; rewrite <- !xmax_assoc; f_equal; apply xmax_comm).
    f_equal. rewrite <- !orb_assoc. f_equal. apply orb_comm.
  - cbn [to_b]. f_equal. rewrite <- !orb_assoc. f_equal. apply orb_comm.
Qed.
Lemma xadd_swap a x y : xadd (xadd a x) y = xadd (xadd a y) x.
Proof. destruct a, x, y; cbn; try reflexivity. f_equal. ring. Qed.
Lemma xsum_perm l l' : Permutation l l' -> xsum l = xsum l'.
Proof. apply fold_perm. intros; apply xadd_swap. Qed.

Lemma fold_left_map' {A B C} (h : A -> B -> A) (m : C -> B) l : forall a, fold_left h (map m l) a = fold_left (fun a x => h a (m x)) l a.
Proof. induction l as [|x l IH]; intro a; [reflexivity|]. cbn. apply IH. Qed.

(** ** Renumbering *)
Definition renum (os os' : list object) (f : nat -> nat) : Prop :=
  Injective f /\ forall n, nth_error os n = nth_error os' (f n).
Lemma perm_renum os os' : Permutation os os' -> length os = length os' /\ exists f, renum os os' f.
Proof.
  intro P. apply Permutation_sym in P. apply Permutation_nth_error in P. destruct P as (L & f & I & E). split; auto.
  exists f. split; auto.
Qed.
Lemma NoDup_enumerate {A} (l : list A) : NoDup (enumerate l).
Proof.
  unfold enumerate. assert (N : NoDup (seq 0 (length l))) by apply seq_NoDup. revert N. generalize (seq 0 (length l)) as s.
  induction l as [|x l IH]; intros [|i s] N; cbn; try constructor; inversion N; subst.
  - intro I. apply in_combine_l in I. contradiction.
  - apply IH. auto.
Qed.
Lemma enumerate_length {A} (l : list A) : length (enumerate l) = length l.
Proof. unfold enumerate. rewrite combine_length, seq_length. lia. Qed.

Section Ren.
  Context (os os' : list object) (f : nat -> nat) (L : length os = length os') (R : renum os os' f).
  Definition re (io : nat * object) : nat * object := (f (fst io), snd io).
  Lemma enumerate_perm : Permutation (enumerate os') (map re (enumerate os)).
  Proof.
    apply Permutation_sym. apply NoDup_Permutation_bis.
    - apply Injective_map_NoDup; [|apply NoDup_enumerate]. intros [i o] [j o'] E. unfold re in E. cbn in E.
      injection E as E1 E2. apply R in E1. congruence.
    - rewrite map_length, !enumerate_length. lia.
    - intros [j o] I. apply in_map_iff in I. destruct I as ([i o'] & E & I). unfold re in E. cbn in E. injection E as <- <-.
      apply in_enumerate in I. apply in_enumerate. rewrite <- (proj2 R). exact I.
  Qed.
  Lemma nth_indices c i : (forall j, In j c -> j < length os) -> i < length c + 2 ->
    forall n, Z.eqb (Z.of_nat (f n)) (nth i (interacting_object_indices (map Z.of_nat (map f c))) 0%Z) =
              Z.eqb (Z.of_nat n) (nth i (interacting_object_indices (map Z.of_nat c)) 0%Z).
  Proof.
    intros C H n. unfold interacting_object_indices. destruct i as [|i]; cbn [nth].
    - apply eq_true_iff_eq. rewrite !Z.eqb_eq. lia.
    - destruct (Nat.lt_ge_cases i (length c)) as [Li|Li].
      + rewrite !app_nth1 by (rewrite ?map_length; auto).
        rewrite nth_indep with (d' := Z.of_nat (f 0)) by (rewrite !map_length; auto). rewrite (map_nth Z.of_nat), (map_nth f).
        rewrite nth_indep with (l := map Z.of_nat c) (d' := Z.of_nat 0) by (rewrite map_length; auto). rewrite (map_nth Z.of_nat).
        apply eq_true_iff_eq. rewrite !Z.eqb_eq. split; intro E; [|apply Nat2Z.inj in E; congruence].
        apply Nat2Z.inj in E. apply R in E. congruence.
      + rewrite !app_nth2 by (rewrite ?map_length; auto). rewrite !map_length. replace (i - length c) with 0 by lia. cbn [nth].
        apply eq_true_iff_eq. rewrite !Z.eqb_eq. lia.
  Qed.
  Lemma intersects_renum g p c patch a k : (forall j, In j c -> j < length os) -> length (xys p) - 1 <= length c + 1 ->
    intersects_with_objects g p os' (map Z.of_nat (map f c)) patch a k =
    intersects_with_objects g p os (map Z.of_nat c) patch a k.
  Proof.
    intros C H. unfold intersects_with_objects. rewrite !map_length, <- L. destruct (_ && _)%bool; [reflexivity|]. f_equal.
    assert (Q : forall l acc, (forall i, In i l -> i + 1 < length c + 2) ->
      fold_left (fun acc i => fold_left (fun acc '(obj_index, obj) =>
          if (Z.eqb (Z.of_nat obj_index) (nth (i + 0) (interacting_object_indices (map Z.of_nat (map f c))) 0%Z)
                || Z.eqb (Z.of_nat obj_index) (nth (i + 1) (interacting_object_indices (map Z.of_nat (map f c))) 0%Z))%bool
          then acc else logical_or g acc (obj_intersects g obj (row (xys p) i) (row (xys p) (i + 1)) patch a k) a)
        (enumerate os') acc) l acc =
      fold_left (fun acc i => fold_left (fun acc '(obj_index, obj) =>
          if (Z.eqb (Z.of_nat obj_index) (nth (i + 0) (interacting_object_indices (map Z.of_nat c)) 0%Z)
                || Z.eqb (Z.of_nat obj_index) (nth (i + 1) (interacting_object_indices (map Z.of_nat c)) 0%Z))%bool
          then acc else logical_or g acc (obj_intersects g obj (row (xys p) i) (row (xys p) (i + 1)) patch a k) a)
        (enumerate os) acc) l acc).
    { induction l as [|i l IH]; intros acc B; cbn [fold_left]; [reflexivity|]. rewrite IH by (intros; apply B; right; auto). f_equal.
      rewrite (fold_perm _ _ _ acc) with (2 := enumerate_perm).
      - rewrite fold_left_map'. specialize (B i (or_introl eq_refl)). generalize (enumerate os) as en. intro en. revert acc.
        induction en as [|[j o] en IHe]; intro acc; cbn [fold_left]; [reflexivity|]. unfold re at 2. cbn [fst snd].
        rewrite !nth_indices by (auto; lia). apply IHe.
      - intros b [x o] [y o']. destruct (_ || _)%bool; destruct (_ || _)%bool; try reflexivity. apply or_swap. }
    apply Q. intros i I. apply in_seq in I. lia.
  Qed.
End Ren.

(** ** Candidates *)
Definition keepf (ca : candargs) (o : object) : bool := match ca_filter ca with Some k => k o | None => true end.
Definition ca_lo (ca : candargs) := match ca_order ca with Some o => o | None => ca_min ca end.
Definition ca_hi (ca : candargs) := match ca_order ca with Some o => o | None => ca_max ca end.
Lemma in_scene_candidates s ca d c : In c (scene_candidates s ca) <->
  admissible (length (objects s)) (fun i => keepf ca (nth i (objects s) d)) (ca_lo ca) (ca_hi ca) c.
Proof.
  destruct ca as [lo hi order [keep|]]; unfold keepf, ca_lo, ca_hi; cbn [ca_filter ca_order ca_min ca_max].
  - rewrite (C46_lemma s lo hi order keep d), filter_In, forallb_forall. unfold scene_candidates. cbn [ca_filter ca_order ca_min ca_max].
    assert (E : all_path_candidates (length (objects s)) lo hi order None =
      all_path_candidates (length (objects s)) (match order with Some o => o | None => lo end) (match order with Some o => o | None => hi end) None None)
      by (destruct order; [apply order_is_min_max|reflexivity]).
    rewrite E, in_candidates_none. unfold admissible. split.
    + intros ((A & B & C) & D). split; auto. split; auto. intros i I. split; [apply B|]; auto.
    + intros (A & B & C). split; [split; auto; split; auto|]; intros i I; apply B in I; tauto.
  - unfold scene_candidates. cbn [ca_filter ca_order ca_min ca_max]. destruct order; [rewrite order_is_min_max|]; apply in_candidates_none.
Qed.
Lemma map_inj {A B} (f : A -> B) : Injective f -> Injective (map f).
Proof.
  intros I l. induction l as [|x l IH]; intros [|y l'] E; cbn in E; try discriminate; auto.
  injection E as E1 E2. f_equal; auto.
Qed.
Lemma norepeat_map f c : Injective f -> no_immediate_repeat c -> no_immediate_repeat (map f c).
Proof.
  intros I N l a b r E. apply map_eq_app in E. destruct E as (l1 & l2 & -> & E1 & E2).
  destruct l2 as [|x [|y l2]]; try discriminate. cbn in E2. injection E2 as <- <- _. intro E. apply I in E. eapply N; [reflexivity|exact E].
Qed.
Section Sc.
  Context (s s' : scene) (f : nat -> nat) (L : length (objects s) = length (objects s')) (R : renum (objects s) (objects s') f).
  Lemma cand_renum ca c : In c (scene_candidates s ca) -> In (map f c) (scene_candidates s' ca).
  Proof.
    set (d := OVertex (0, 0)%R). rewrite !(in_scene_candidates _ _ d). intros (A & B & C). split; [rewrite map_length; auto|]. split.
    - intros j J. apply in_map_iff in J. destruct J as (i & <- & I). destruct (B i I) as [B1 B2].
      assert (E : nth_error (objects s) i = nth_error (objects s') (f i)) by apply R.
      assert (F : f i < length (objects s')).
      { apply nth_error_Some. rewrite <- E. apply nth_error_Some. auto. }
      split; auto. rewrite <- B2. f_equal. assert (Q : Some (nth (f i) (objects s') d) = Some (nth i (objects s) d)) by (rewrite <- !nth_error_nth' by auto; auto). congruence.
    - apply norepeat_map; [apply R|auto].
  Qed.
  Lemma at_renum c : objects_at s' (map f c) = objects_at s c.
  Proof. unfold objects_at. induction c as [|i c IH]; [reflexivity|]. cbn. rewrite IH, <- (proj2 R). reflexivity. Qed.
End Sc.

Lemma cands_perm s s' f ca : length (objects s) = length (objects s') -> renum (objects s) (objects s') f ->
  Permutation (objects s) (objects s') ->
  Permutation (scene_candidates s' ca) (map (map f) (scene_candidates s ca)).
Proof.
  intros L R P. apply Permutation_sym.
  assert (N : forall t u h, renum (objects t) (objects u) h -> NoDup (map (map h) (scene_candidates t ca))).
  { intros t u h Rh. apply Injective_map_NoDup; [apply map_inj, Rh|apply scene_candidates_NoDup]. }
  assert (J : forall t u h, length (objects t) = length (objects u) -> renum (objects t) (objects u) h -> incl (map (map h) (scene_candidates t ca)) (scene_candidates u ca)).
  { intros t u h Lh Rh c I. apply in_map_iff in I. destruct I as (c0 & <- & I). eapply cand_renum; eauto. }
  apply NoDup_Permutation_bis; [eapply N; eauto| |apply J; auto].
  destruct (perm_renum _ _ (Permutation_sym P)) as (L' & h & R').
  rewrite map_length, <- (map_length (map h) (scene_candidates s' ca)). apply NoDup_incl_length; [eapply N; eauto|apply J; auto].
Qed.
Lemma forall2_perm {A B} (Q : A -> B -> Prop) l m its : Permutation l m -> Forall2 Q l its -> exists its', Permutation its its' /\ Forall2 Q m its'.
Proof.
  intro P. revert its. induction P; intros its F.
  - inversion F; subst. exists []. auto.
  - inversion F as [|? y ? its0 H F']; subst. destruct (IHP _ F') as (i' & P' & F''). exists (y :: i'). auto.
  - inversion F as [|? b ? its0 H F']; subst. inversion F' as [|? c ? its1 H' F'']; subst. exists (c :: b :: its1). split; [constructor|auto].
  - destruct (IHP1 _ F) as (i1 & Q1 & F1). destruct (IHP2 _ F1) as (i2 & Q2 & F2). exists i2. split; [etransitivity; eauto|auto].
Qed.
Definition reit (f : nat -> nat) (it : pathitem) : pathitem :=
  mkitem (it_tx it) (it_rx it) (it_valid it) (it_path it) (map Z.of_nat (map f (map Z.to_nat (it_cand it)))).
Lemma item_renum P g s s' f cls va key tx rx c it ca : good_split P ->
  length (objects s) = length (objects s') -> renum (objects s) (objects s') f -> In c (scene_candidates s ca) ->
  is_item P g s cls va key (tx, rx, c) it -> is_item P g s' cls va key (tx, rx, map f c) (reit f it).
Proof.
  intros G L R C (E1 & E2 & E3 & E4 & E5 & E6). unfold is_item, reit. cbn [it_tx it_rx it_valid it_path it_cand].
  rewrite E3, map_nat_z. split; auto. split; auto. split; auto. rewrite (at_renum s s' f R), map_length. split; auto. split; auto.
  rewrite <- E6. unfold is_valid. f_equal.
  apply intersects_renum; auto; [eapply scene_candidates_in; eauto|].
  apply C29_lemma in E5. destruct E5 as ((mid & X & Lm) & _). rewrite X. cbn [length]. rewrite app_length, Lm, E4. cbn. lia.
Qed.

Lemma sums_perm P g s s' cls ca va f tx rx v : good_split P -> Permutation (objects s) (objects s') ->
  sums_candidates P g s cls ca va None f tx rx v -> sums_candidates P g s' cls ca va None f tx rx v.
Proof.
  intros G Pm (its & F & ->). destruct (perm_renum _ _ Pm) as (L & h & R).
  cbn [one_key_each] in F. rewrite combine_repeat in F.
  assert (F1 : Forall2 (fun c it => is_item P g s' cls va None ((it_tx it, tx), (it_rx it, rx), c) it)
     (map (map h) (scene_candidates s ca)) (map (reit h) its)).
  { apply Forall2_map_l. assert (F0 : Forall2 (fun c it => is_item P g s cls va None ((it_tx it, tx), (it_rx it, rx), c) it) (scene_candidates s ca) its).
    { clear -F. revert its F. induction (scene_candidates s ca) as [|c cs IH]; intros its F; inversion F; subst; constructor; auto. }
    apply Forall2_in_l in F0. clear -F0 G L R. induction F0 as [|c it cs its [I H] F0 IH]; cbn [map]; constructor; auto.
    cbn [it_tx it_rx reit]. eapply item_renum; eauto. }
  destruct (forall2_perm _ _ _ _ (Permutation_sym (cands_perm s s' h ca L R Pm)) F1) as (its' & Pi & F2).
  exists its'. split.
  - cbn [one_key_each]. rewrite combine_repeat. apply Forall2_map_l. exact F2.
  - rewrite (xsum_perm _ _ (Permutation_sym (Permutation_map (contribution s' f tx rx) Pi))). rewrite map_map. f_equal. apply map_ext_in. intros it I.
    unfold contribution, reit. cbn [it_valid it_path it_cand]. rewrite map_nat_z, (at_renum s s' h R). reflexivity.
Qed.

(** ** From sums to accumulations *)
Lemma sums_unique P g s cls ca va f tx rx v v' : sums_candidates P g s cls ca va None f tx rx v -> sums_candidates P g s cls ca va None f tx rx v' -> v = v'.
Proof.
  intros (its & F & ->) (its' & F' & ->). f_equal. cbn [one_key_each] in F, F'. rewrite combine_repeat in F, F'. revert its its' F F'.
  induction (scene_candidates s ca) as [|c cs IH]; intros its its' F F'; inversion F; inversion F'; subst; [reflexivity|].
  cbn [map]. f_equal; [|auto]. cbn [fst snd] in *. eapply item_fun; eauto.
Qed.
Lemma acc_by_sums P g s s' cls ca va f f' t r : good_split P ->
  represents (transmitters s) t -> represents (receivers s) r -> transmitters s' = transmitters s -> receivers s' = receivers s ->
  never_fails cls (@None (key_t P)) s -> never_fails cls (@None (key_t P)) s' ->
  (scene_candidates s ca = [] <-> scene_candidates s' ca = []) ->
  (forall tx rx v, sums_candidates P g s cls ca va None f tx rx v -> sums_candidates P g s' cls ca va None f' tx rx v) ->
  accumulate_over_paths P g s' cls ca va None f' = accumulate_over_paths P g s cls ca va None f.
Proof.
  intros G T R Et Er N N' C Sm. assert (T' := T). assert (R' := R). rewrite <- Et in T'. rewrite <- Er in R'.
  destruct (scene_candidates s ca) as [|c0 cs0] eqn:Ec.
  { rewrite !C53_none; auto. apply C; auto. }
  assert (C1 : scene_candidates s ca <> []) by congruence.
  assert (C2 : scene_candidates s' ca <> []) by (intro Q; apply C in Q; discriminate).
  destruct (C53_lemma P g s cls va ca None f t r G T R C1) as [A1 A2].
  destruct (C53_lemma P g s' cls va ca None f' t r G T' R' C2) as [B1 B2].
  pose proof (C51_total_lemma P g s cls va ca None t r G T R N) as Ra.
  pose proof (C51_total_lemma P g s' cls va ca None t r G T' R' N') as Rb.
  rewrite Ra in A1, A2. rewrite Rb in B1, B2.
  destruct (accumulate_over_paths P g s cls ca va None f) as [u e]. destruct (accumulate_over_paths P g s' cls ca va None f') as [u' e'].
  cbn [yielded raised] in *. subst. f_equal. apply map_ext_in. intros [tx rx] I. apply in_prod_iff in I. destruct I as [It Ir].
  destruct (facc_sums P g s cls ca va None f (snd tx) (snd rx) G N) as (v & _ & V).
  rewrite (sums_pair P g s s cls va ca f t r tx rx v); auto.
  apply (sums_pair P g s' s' cls va ca f' t r tx rx v); auto.
Qed.
Lemma rx_by_sums P g s s' cls ca va f f' gradop t X Y : good_split P ->
  represents (transmitters s) t -> transmitters s' = transmitters s ->
  never_fails cls (@None (key_t P)) s -> never_fails cls (@None (key_t P)) s' -> same_shape X Y ->
  (forall tx rx v, sums_candidates P g s cls ca va None f tx rx v -> sums_candidates P g s' cls ca va None f' tx rx v) ->
  accumulate_on_receivers_grid P g s' cls ca va None f' gradop MVal X Y = accumulate_on_receivers_grid P g s cls ca va None f gradop MVal X Y.
Proof.
  intros G T Et N N' Sh Sm. assert (T' := T). rewrite <- Et in T'.
  destruct (rx_grid P g s cls ca va None f gradop MVal X Y t G T N Sh) as (gr & D & _ & _ & ->).
  destruct (rx_grid P g s' cls ca va None f' gradop MVal X Y t G T' N' Sh) as (gr' & D' & _ & _ & ->).
  assert (gr' = gr) by congruence. subst. do 2 f_equal. apply map_ext. intro tx. f_equal. apply map_ext. intro rw. apply map_ext. intro rx.
  unfold cell_of. destruct (facc_sums P g s cls ca va None f (snd tx) rx G N) as (v & E & V).
  destruct (facc_sums P g s' cls ca va None f' (snd tx) rx G N') as (v' & E' & V'). unfold the_work. rewrite E, E'. f_equal.
  eapply sums_unique; eauto.
Qed.
Lemma tx_by_sums P g s s' cls ca va f f' gradop r X Y : good_split P ->
  represents (receivers s) r -> receivers s' = receivers s ->
  never_fails cls (@None (key_t P)) s -> never_fails cls (@None (key_t P)) s' -> same_shape X Y ->
  (forall tx rx v, sums_candidates P g s cls ca va None f tx rx v -> sums_candidates P g s' cls ca va None f' tx rx v) ->
  accumulate_on_transmitters_grid P g s' cls ca va None f' gradop MVal X Y = accumulate_on_transmitters_grid P g s cls ca va None f gradop MVal X Y.
Proof.
  intros G T Et N N' Sh Sm. assert (T' := T). rewrite <- Et in T'.
  destruct (tx_grid P g s cls ca va None f gradop MVal X Y r G T N Sh) as (gr & D & _ & _ & ->).
  destruct (tx_grid P g s' cls ca va None f' gradop MVal X Y r G T' N' Sh) as (gr' & D' & _ & _ & ->).
  assert (gr' = gr) by congruence. subst. do 2 f_equal. apply map_ext. intro rx. f_equal. apply map_ext. intro rw. apply map_ext. intro tx.
  unfold cell_of. destruct (facc_sums P g s cls ca va None f tx (snd rx) G N) as (v & E & V).
  destruct (facc_sums P g s' cls ca va None f' tx (snd rx) G N') as (v' & E' & V'). unfold the_work. rewrite E, E'. f_equal.
  eapply sums_unique; eauto.
Qed.
Lemma never_perm P cls (key : option (key_t P)) s s' : Permutation (objects s) (objects s') -> never_fails cls key s -> never_fails cls key s'.
Proof.
  intros Pm. destruct cls; cbn; auto. intros [H|H]; [left|right]; intros o I; apply H; eapply Permutation_in; try exact I; apply Permutation_sym; auto.
Qed.
Lemma cands_nil_perm s s' ca : Permutation (objects s) (objects s') -> (scene_candidates s ca = [] <-> scene_candidates s' ca = []).
Proof.
  intro Pm. destruct (perm_renum _ _ Pm) as (L & h & R). pose proof (Permutation_length (cands_perm s s' h ca L R Pm)) as E. rewrite map_length in E.
  split; intro H; rewrite H in E; cbn in E; [destruct (scene_candidates s' ca)|destruct (scene_candidates s ca)]; cbn in E; auto; discriminate.
Qed.
Lemma acc_perm P g s os' cls ca va f t r : good_split P ->
  represents (transmitters s) t -> represents (receivers s) r -> never_fails cls (@None (key_t P)) s ->
  Permutation (objects s) os' ->
  accumulate_over_paths P g (with_objects s os') cls ca va None f = accumulate_over_paths P g s cls ca va None f.
Proof.
  intros G T R N Pm. apply acc_by_sums with (t := t) (r := r); auto.
  - eapply never_perm; eauto.
  - apply cands_nil_perm. auto.
  - intros tx rx v. apply sums_perm; auto.
Qed.
Lemma rx_perm P g s os' cls ca va f gradop X Y t : good_split P -> represents (transmitters s) t ->
  never_fails cls (@None (key_t P)) s -> Permutation (objects s) os' -> same_shape X Y ->
  accumulate_on_receivers_grid P g (with_objects s os') cls ca va None f gradop MVal X Y =
  accumulate_on_receivers_grid P g s cls ca va None f gradop MVal X Y.
Proof.
  intros G T N Pm Sh. apply rx_by_sums with (t := t); auto; [eapply never_perm; eauto|]. intros tx rx v. apply sums_perm; auto.
Qed.
Lemma tx_perm P g s os' cls ca va f gradop X Y r : good_split P -> represents (receivers s) r ->
  never_fails cls (@None (key_t P)) s -> Permutation (objects s) os' -> same_shape X Y ->
  accumulate_on_transmitters_grid P g (with_objects s os') cls ca va None f gradop MVal X Y =
  accumulate_on_transmitters_grid P g s cls ca va None f gradop MVal X Y.
Proof.
  intros G T N Pm Sh. apply tx_by_sums with (r := r); auto; [eapply never_perm; eauto|]. intros tx rx v. apply sums_perm; auto.
Qed.

(** ** The paths themselves *)
Lemma all_items P g s cls va ca t r : good_split P ->
  represents (transmitters s) t -> represents (receivers s) r -> never_fails cls (@None (key_t P)) s ->
  Forall2 (fun trc it => is_item P g s cls va None trc it) (triples t r (scene_candidates s ca)) (yielded (all_paths P g s cls ca va None)).
Proof.
  intros G T R N. destruct (C51_lemma P g s cls va ca None t r G T R) as (H & H0 & _).
  pose proof (C51_total_lemma P g s cls va ca None t r G T R N) as Ra.
  apply Forall2_nth'; [symmetry; auto|]. intros n trc it E1 E2. destruct (H n it E2) as (trc' & E3 & I).
  assert (trc' = trc) by congruence. subst. exact I.
Qed.
Lemma item_shown P g s cls va key trc it it' : is_item P g s cls va key trc it -> is_item P g s cls va key trc it' -> shown s it = shown s it'.
Proof.
  destruct trc as [[tx rx] c]. intros (E1 & E2 & E3 & _ & E5 & E6) (F1 & F2 & F3 & _ & F5 & F6). unfold shown.
  assert (Ep : it_path it = it_path it') by congruence. rewrite Ep in *. 
  assert (Ev : it_valid it = it_valid it') by congruence. congruence.
Qed.
Lemma paths_perm P g s os' cls ca va t r : good_split P ->
  represents (transmitters s) t -> represents (receivers s) r -> never_fails cls (@None (key_t P)) s ->
  Permutation (objects s) os' ->
  Permutation (map (shown (with_objects s os')) (yielded (all_paths P g (with_objects s os') cls ca va None)))
    (map (shown s) (yielded (all_paths P g s cls ca va None))).
Proof.
  intros G T R N Pm. set (s' := with_objects s os'). assert (Pm' : Permutation (objects s) (objects s')) by exact Pm.
  pose proof (all_items P g s cls va ca t r G T R N) as F.
  pose proof (all_items P g s' cls va ca t r G T R (never_perm P cls None s s' Pm' N)) as F'.
  destruct (perm_renum _ _ Pm') as (L & h & Rn).
  pose proof (cands_perm s s' h ca L Rn Pm') as Pc.
  set (its := yielded (all_paths P g s cls ca va None)) in *. set (its' := yielded (all_paths P g s' cls ca va None)) in *.
  assert (F1 : Forall2 (fun trc it => is_item P g s' cls va None trc it) (triples t r (map (map h) (scene_candidates s ca))) (map (reit h) its)).
  { rewrite triples_map. apply Forall2_map_l. apply Forall2_in_l in F. clear -F G L Rn.
    assert (Q : forall l its, Forall2 (fun trc it => In trc (triples t r (scene_candidates s ca)) /\ is_item P g s cls va None trc it) l its ->
      Forall2 (fun trc it => is_item P g s' cls va None (fst trc, map h (snd trc)) it) l (map (reit h) its)).
    { clear F. intros l i0 F. induction F as [|[[tx rx] c] it l its0 [I H] F IH]; cbn [map]; constructor; auto. cbn [fst snd].
      apply in_triples in I. eapply item_renum; eauto. apply I. }
    apply Q. exact F. }
  assert (Pt : Permutation (triples t r (map (map h) (scene_candidates s ca))) (triples t r (scene_candidates s' ca))).
  { unfold triples. clear -Pc. induction t as [|tx t IH]; cbn; auto. apply Permutation_app; auto. clear -Pc.
    induction r as [|rx r IH]; cbn; auto. apply Permutation_app; auto. apply Permutation_map. apply Permutation_sym. auto. }
  destruct (forall2_perm _ _ _ _ Pt F1) as (its2 & Pi & F2).
  assert (E : map (shown s') its2 = map (shown s') its').
  { clear -F2 F'. revert its2 F2. induction F' as [|trc it l its' H F' IH]; intros its2 F2; inversion F2; subst; [reflexivity|].
    cbn [map]. f_equal; [|auto]. eapply item_shown; eauto. }
  rewrite <- E. rewrite <- (Permutation_map (shown s') Pi), map_map. apply Permutation_refl'. apply map_ext. intro it.
  unfold shown, reit. cbn [it_tx it_rx it_valid it_path it_cand]. rewrite map_nat_z, (at_renum s s' h Rn). reflexivity.
Qed.
