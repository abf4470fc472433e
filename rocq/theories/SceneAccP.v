(** Accumulating over paths: C53. *)
From Coq Require Import Reals List Bool ZArith String Lia.
From Verif Require Import Base BaseP LogicM LogicP GeometryM OptimizeM PathM PathP PathSmoothP PathShapeP ImageP CandidatesM CandidatesP
  SceneM SpecScene SceneP SceneOpsP SpecRun SceneRunP.
Import ListNotations.
Local Notation length := List.length.
Local Notation concat := List.concat.
Open Scope nat_scope.

(** ** Lists *)
Lemma Forall2_nth' {A B} (R : A -> B -> Prop) l l' : length l = length l' ->
  (forall n a b, nth_error l n = Some a -> nth_error l' n = Some b -> R a b) -> Forall2 R l l'.
Proof.
  revert l'. induction l as [|a l IH]; intros [|b l'] L H; try discriminate; constructor.
  - apply (H 0); reflexivity.
  - apply IH; [cbn in L; lia|]. intros n x y X Y. apply (H (S n)); auto.
Qed.
Lemma Forall2_flat_map {A B C} (R : B -> C -> Prop) (h : A -> list B) l : forall its,
  Forall2 R (flat_map h l) its -> exists blocks, its = concat blocks /\ Forall2 (fun x b => Forall2 R (h x) b) l blocks.
Proof.
  induction l as [|x l IH]; intros its H.
  - cbn in H. inversion H; subst. exists []. split; auto.
  - cbn [flat_map] in H. apply Forall2_app_inv_l in H. destruct H as (b & its' & Hb & H & ->).
    destruct (IH _ H) as (bs & -> & F). exists (b :: bs). split; auto.
Qed.
Lemma chunk {A B C} (R : B -> C -> Prop) (h : A -> list B) nc l : 0 < nc -> (forall x, length (h x) = nc) ->
  forall N its, 1 <= N <= length l * nc -> Forall2 R (firstn N (flat_map h l)) its ->
  exists blocks last x, its = concat blocks ++ last /\
    Forall2 (fun x b => Forall2 R (h x) b) (firstn ((N - 1) / nc) l) blocks /\
    nth_error l ((N - 1) / nc) = Some x /\ last <> [] /\ (exists k, Forall2 R (firstn k (h x)) last).
Proof.
  intros P L. induction l as [|x l IH]; intros N its HN H; [cbn in HN; lia|].
  cbn [flat_map] in H. destruct (Nat.le_gt_cases N nc) as [Le|Gt].
  - rewrite firstn_app in H. replace (N - length (h x)) with 0 in H by (rewrite L; lia). cbn [firstn] in H. rewrite app_nil_r in H.
    exists [], its, x. rewrite Nat.div_small by lia. cbn. split; auto. split; auto. split; auto. split; [|eauto].
    intros ->. apply Forall2_len in H. rewrite firstn_length, L in H. cbn in H. lia.
  - rewrite firstn_app, firstn_all2 in H by (rewrite L; lia). rewrite L in H.
    apply Forall2_app_inv_l in H. destruct H as (b & its' & Hb & H & ->).
    destruct (IH (N - nc) its' ltac:(cbn in HN; lia) H) as (bs & la & y & -> & F & Y & Nl & K).
    assert (E : (N - 1) / nc = S ((N - nc - 1) / nc)).
    { replace (N - 1) with (1 * nc + (N - nc - 1)) by lia. rewrite Nat.div_add_l by lia. reflexivity. }
    exists (b :: bs), la, y. rewrite E. cbn [concat firstn nth_error]. rewrite app_assoc. split; auto.
Qed.

(** ** Groups *)
Definition lab (it : pathitem) : string * string := (it_tx it, it_rx it).
Lemma same_pair_lab a b : same_pair a b = true <-> lab a = lab b.
Proof.
  unfold same_pair, lab. rewrite andb_true_iff, !String.eqb_eq. split; [intros [-> ->]; auto|].
  intro H. split; congruence.
Qed.
Lemma group_head its it tl : its = it :: tl -> exists gr grs, group_runs its = (it :: gr) :: grs.
Proof.
  intros ->. cbn. destruct (group_runs tl) as [|[|it' gr] grs]; eauto. destruct (same_pair it it'); eauto.
Qed.
Lemma group_block L b rest : b <> [] -> (forall it, In it b -> lab it = L) ->
  (forall it tl, rest = it :: tl -> lab it <> L) -> group_runs (b ++ rest) = b :: group_runs rest.
Proof.
  intros N H D. induction b as [|it b IH]; [contradiction|]. destruct b as [|it' b].
  - cbn [app group_runs]. destruct rest as [|r rest]; [reflexivity|].
    destruct (group_head (r :: rest) r rest eq_refl) as (gr & grs & E). rewrite E.
    destruct (same_pair it r) eqn:S; auto. apply same_pair_lab in S. exfalso.
    apply (D r rest eq_refl). rewrite <- S. apply H. left. auto.
  - change ((it :: it' :: b) ++ rest) with (it :: (it' :: b) ++ rest). cbn [group_runs].
    rewrite IH by (try discriminate; intros; apply H; right; auto).
    assert (S : same_pair it it' = true).
    { apply same_pair_lab. rewrite (H it), (H it'); cbn; auto. }
    rewrite S. reflexivity.
Qed.
Lemma group_blocks labs : NoDup labs -> forall blocks,
  Forall2 (fun L b => b <> [] /\ forall it, In it b -> lab it = L) labs blocks ->
  group_runs (concat blocks) = blocks.
Proof.
  induction 1 as [|L labs N D IH]; intros blocks F; inversion F as [|? b ? bs [Nb Hb] F']; subst; [reflexivity|].
  cbn [concat]. rewrite (group_block L); auto; [rewrite IH; auto|].
  intros it tl E EL. apply N. rewrite <- EL.
  inversion F' as [|L' b' labs' bs' [Nb' Hb'] F'']; subst; [discriminate|]. cbn in E. destruct b' as [|x b']; [contradiction|].
  cbn in E. injection E as -> _. left. symmetry. apply Hb'. left. auto.
Qed.
Lemma filter_none {A} (f : A -> bool) l : (forall x, In x l -> f x = false) -> filter f l = [].
Proof. induction l as [|x l IH]; intro H; [reflexivity|]. cbn. rewrite H by (left; auto). apply IH. intros; apply H; right; auto. Qed.
Lemma filter_all' {A} (f : A -> bool) l : (forall x, In x l -> f x = true) -> filter f l = l.
Proof. induction l as [|x l IH]; intro H; [reflexivity|]. cbn. rewrite H by (left; auto). f_equal. apply IH. intros; apply H; right; auto. Qed.
Lemma of_pair_all tx rx l : (forall it, In it l -> lab it = (tx, rx)) -> of_pair tx rx l = l.
Proof.
  intro H. apply filter_all'. intros it I. specialize (H it I). unfold lab in H. injection H as -> ->. rewrite !String.eqb_refl. reflexivity.
Qed.
Lemma of_pair_none tx rx l : (forall it, In it l -> lab it <> (tx, rx)) -> of_pair tx rx l = [].
Proof.
  intro H. apply filter_none. intros it I. specialize (H it I). apply andb_false_iff. unfold lab in H.
  destruct (String.eqb_spec (it_tx it) tx); auto. destruct (String.eqb_spec (it_rx it) rx); auto. subst. contradiction.
Qed.
Lemma of_pair_app tx rx l l' : of_pair tx rx (l ++ l') = of_pair tx rx l ++ of_pair tx rx l'.
Proof. apply filter_app. Qed.
Lemma of_pair_blocks labs : NoDup labs -> forall blocks la,
  Forall2 (fun L b => forall it, In it b -> lab it = L) labs blocks ->
  (forall it, In it la -> ~ In (lab it) labs) ->
  forall L b, In (L, b) (combine labs blocks) -> of_pair (fst L) (snd L) (concat blocks ++ la) = b.
Proof.
  induction 1 as [|L0 labs N D IH]; intros blocks la F X L b I; inversion F as [|? b0 ? bs Hb F']; subst; [destruct I|].
  cbn [concat]. rewrite <- app_assoc, of_pair_app. destruct I as [E|I].
  - injection E as <- <-. rewrite of_pair_all by (destruct L0; auto). rewrite of_pair_none, app_nil_r; auto.
    assert (Y : forall labs bs, Forall2 (fun L b => forall it, In it b -> lab it = L) labs bs -> forall it, In it (concat bs) -> In (lab it) labs).
    { induction 1 as [|l0 b1 ls bs0 H0 _ IH0]; cbn [concat]; intros it0 I0; [destruct I0|]. apply in_app_or in I0.
      destruct I0 as [I0|I0]; [left; symmetry; auto|right; auto]. }
    intros it I E. assert (EL : lab it = L0) by (rewrite E; destruct L0; auto). apply in_app_or in I. destruct I as [I|I].
    + apply N. rewrite <- EL. eapply Y; eauto.
    + apply (X it I). left. auto.
  - rewrite of_pair_none; [cbn; apply IH; auto; intros it J K; apply (X it J); right; auto|].
    intros it J E. rewrite (Hb it J) in E. apply N. rewrite E. apply in_combine_l in I. destruct L; auto.
Qed.

(** ** One group *)
Definition item_ok (s : scene) (t r : list (string * vec)) (tr : (string * vec) * (string * vec)) (it : pathitem) : Prop :=
  it_tx it = fst (fst tr) /\ it_rx it = fst (snd tr) /\
  get_interacting_objects s (it_cand it) = Ok (objects_at s (map Z.to_nat (it_cand it))).
Lemma acc_fold s f tx rx gr : forall acc,
  (forall it, In it gr -> get_interacting_objects s (it_cand it) = Ok (objects_at s (map Z.to_nat (it_cand it)))) ->
  fold_left (fun acc it => rbind acc (fun acc =>
      rbind (get_interacting_objects s (it_cand it)) (fun inter =>
        Ok (xadd acc (xmul (to_f (it_valid it)) (f tx rx (it_path it) inter)))))) gr (Ok acc) =
  Ok (fold_left xadd (map (contribution s f tx rx) gr) acc).
Proof.
  induction gr as [|it gr IH]; intros acc H; [reflexivity|]. cbn [fold_left rbind map]. rewrite H by (left; auto). cbn [rbind].
  apply IH. intros; apply H; right; auto.
Qed.
Lemma acc_group_ok s f t r tr gr : represents (transmitters s) t -> represents (receivers s) r ->
  In (fst tr) t -> In (snd tr) r -> gr <> [] -> (forall it, In it gr -> item_ok s t r tr it) ->
  acc_group s f gr = Ok (fst (fst tr), fst (snd tr), xsum (map (contribution s f (snd (fst tr)) (snd (snd tr))) gr)).
Proof.
  intros (_ & _ & _ & _ & T & _) (_ & _ & _ & _ & R & _) It Ir N H. destruct gr as [|it gr]; [contradiction|].
  unfold acc_group. destruct (H it (or_introl eq_refl)) as (E1 & E2 & _). rewrite E1, E2.
  destruct tr as [[n1 p1] [n2 p2]]. cbn [fst snd] in *. rewrite (proj2 (T _ _) It), (proj2 (R _ _) Ir). cbn [rbind].
  rewrite acc_fold; [reflexivity|]. intros it' I. apply (H it' I).
Qed.
Definition pair_result (s : scene) (f : pathfun) (its : list pathitem) (tr : (string * vec) * (string * vec)) : string * string * xreal :=
  (fst (fst tr), fst (snd tr), xsum (map (contribution s f (snd (fst tr)) (snd (snd tr))) (of_pair (fst (fst tr)) (fst (snd tr)) its))).
Lemma acc_groups_ok s f t r e prs blocks : represents (transmitters s) t -> represents (receivers s) r ->
  Forall2 (fun tr gr => In (fst tr) t /\ In (snd tr) r /\ gr <> [] /\ forall it, In it gr -> item_ok s t r tr it) prs blocks ->
  acc_groups s f blocks e =
  mkgen (map (fun trb => (fst (fst (fst trb)), fst (snd (fst trb)),
     xsum (map (contribution s f (snd (fst (fst trb))) (snd (snd (fst trb)))) (snd trb)))) (combine prs blocks)) e.
Proof.
  intros T R. induction 1 as [|tr gr prs blocks (I1 & I2 & N & H) _ IH]; [reflexivity|].
  cbn [acc_groups combine map]. rewrite (acc_group_ok s f t r tr gr) by auto. rewrite IH. reflexivity.
Qed.
Lemma list_prod_flat {A B} (l : list A) (l' : list B) : list_prod l l' = flat_map (fun x => map (fun y => (x, y)) l') l.
Proof. induction l as [|x l IH]; [reflexivity|]. cbn. rewrite IH. reflexivity. Qed.
Lemma map_nat_z c : map Z.to_nat (map Z.of_nat c) = c.
Proof. rewrite map_map. rewrite <- (map_id c) at 2. apply map_ext. intro. apply Nat2Z.id. Qed.

Definition plab (tr : (string * vec) * (string * vec)) : string * string := (fst (fst tr), fst (snd tr)).
Lemma NoDup_plab t r : is_dict t -> is_dict r -> NoDup (map plab (list_prod t r)).
Proof.
  intros T R. assert (E : map plab (list_prod t r) = list_prod (map fst t) (map fst r)).
  { unfold plab. clear. induction t as [|x t IH]; [reflexivity|]. cbn [list_prod map]. rewrite map_app, IH, !map_map. reflexivity. }
  rewrite E. clear E. unfold is_dict in *.
  induction (map fst t) as [|x l IH]; cbn; [constructor|]. inversion T as [|? ? N D]; subst. apply NoDup_app'; auto.
  - apply FinFun.Injective_map_NoDup; auto. intros u v Q. congruence.
  - intros [u v] I J. apply in_map_iff in I. destruct I as (w & Q & _). injection Q as <- <-. apply in_prod_iff in J. tauto.
Qed.

Lemma item_is_ok P g s cls va ca key t r tx rx c it : In c (scene_candidates s ca) ->
  is_item P g s cls va key (tx, rx, c) it -> item_ok s t r (tx, rx) it.
Proof.
  intros C (E1 & E2 & E & _). split; [exact E1|]. split; [exact E2|]. rewrite E, map_nat_z. eapply interacting_ok; eauto.
Qed.
Lemma yielded_rel P g s cls va ca key t r : good_split P ->
  represents (transmitters s) t -> represents (receivers s) r ->
  let a := all_paths P g s cls ca va key in
  Forall2 (fun trc it => item_ok s t r (fst trc) it)
    (firstn (length (yielded a)) (flat_map (fun x => map (fun y => (x, y)) (scene_candidates s ca)) (list_prod t r))) (yielded a) /\
  length (yielded a) <= length (list_prod t r) * length (scene_candidates s ca) /\
  (raised a = None -> length (yielded a) = length (list_prod t r) * length (scene_candidates s ca)) /\
  (raised a <> None -> length (yielded a) < length (list_prod t r) * length (scene_candidates s ca)).
Proof.
  intros G T R a. destruct (C51_lemma P g s cls va ca key t r G T R) as (H & H0 & H1). fold a in H, H0, H1.
  rewrite <- list_prod_flat. rewrite <- list_prod_triples in H, H0, H1. rewrite prod_length in H0.
  assert (Len : length (yielded a) <= length (list_prod t r) * length (scene_candidates s ca)).
  { destruct (raised a) as [e|] eqn:Ea; [|rewrite H0; auto]. destruct (H1 e eq_refl) as (tx & rx & c & Hn & _).
    assert (Q : nth_error (list_prod (list_prod t r) (scene_candidates s ca)) (length (yielded a)) <> None) by congruence.
    apply nth_error_Some in Q. rewrite prod_length in Q. lia. }
  split; [|split; [auto|split]].
  - apply Forall2_nth'.
    + rewrite firstn_length, prod_length. lia.
    + intros n [[tx rx] c] it E1 E2. rewrite nth_error_firstn' in E1 by (apply nth_error_Some; congruence).
      destruct (H n it E2) as (trc & E3 & I). assert (E : trc = (tx, rx, c)) by congruence. subst.
      apply nth_error_In in E1. apply in_prod_iff in E1. eapply item_is_ok with (ca := ca); [apply E1|exact I].
  - auto.
  - intro N. destruct (raised a) as [e|]; [|contradiction]. destruct (H1 e eq_refl) as (tx & rx & c & Hn & _).
    assert (Q : nth_error (list_prod (list_prod t r) (scene_candidates s ca)) (length (yielded a)) <> None) by congruence.
    apply nth_error_Some in Q. rewrite prod_length in Q. lia.
Qed.
Lemma Forall2_map_l {A B C} (h : A -> B) (R : B -> C -> Prop) l l' : Forall2 (fun a c => R (h a) c) l l' -> Forall2 R (map h l) l'.
Proof. induction 1; cbn; constructor; auto. Qed.
Lemma Forall2_in_l {A B} (R : A -> B -> Prop) l l' : Forall2 R l l' -> Forall2 (fun a b => In a l /\ R a b) l l'.
Proof.
  intro H. induction H as [|a b l l' HR H IH]; constructor; [split; [left; auto|auto]|].
  assert (Q : forall (l0 : list A) (l0' : list B), Forall2 (fun a b => In a l /\ R a b) l0 l0' -> Forall2 (fun a0 b => In a0 (a :: l) /\ R a0 b) l0 l0').
  { induction 1 as [|? ? ? ? [I1 I2] ? ?]; constructor; auto. split; [right; auto|auto]. }
  apply Q. auto.
Qed.
Lemma Forall2_impl' {A B} (R S : A -> B -> Prop) l l' : (forall a b, R a b -> S a b) -> Forall2 R l l' -> Forall2 S l l'.
Proof. intros H. induction 1; constructor; auto. Qed.
Lemma Forall2_map_const {A B C} (R : A -> C -> Prop) (x : A) (l : list B) b :
  Forall2 (fun trc it => R (fst trc) it) (map (fun y => (x, y)) l) b -> forall it, In it b -> R x it.
Proof.
  revert b. induction l as [|y l IH]; intros b H; inversion H as [|? it0 ? b' H0 H1]; subst; intros it [].
  - subst. exact H0.
  - eapply IH; eauto.
Qed.
Lemma map_combine_ext {A B C} (h : A * B -> C) (k : A -> C) l l' : Forall2 (fun a b => h (a, b) = k a) l l' ->
  map h (combine l l') = map k l.
Proof. induction 1 as [|a b l l' E _ IH]; [reflexivity|]. cbn. rewrite E, IH. reflexivity. Qed.
Lemma Forall2_combine {A B} (R : A -> B -> Prop) l l' : length l = length l' ->
  (forall a b, In (a, b) (combine l l') -> R a b) -> Forall2 R l l'.
Proof.
  revert l'. induction l as [|a l IH]; intros [|b l'] L H; try discriminate; constructor.
  - apply H. left. auto.
  - apply IH; [cbn in L; lia|]. intros x y I. apply H. right. auto.
Qed.
Lemma combine_map_l' {A B C} (h : A -> B) (l : list A) (l' : list C) a b : In (a, b) (combine l l') -> In (h a, b) (combine (map h l) l').
Proof.
  revert l'. induction l as [|x l IH]; intros [|y l'] I; cbn in *; try tauto. destruct I as [E|I]; [left; congruence|right; auto].
Qed.
Lemma split_at {A} (l : list A) : forall m x, nth_error l m = Some x -> l = firstn m l ++ x :: skipn (S m) l.
Proof.
  induction l as [|y l IH]; intros [|m] x H; try discriminate.
  - cbn in H. injection H as ->. reflexivity.
  - cbn [firstn app]. change (skipn (S (S m)) (y :: l)) with (skipn (S m) l). f_equal. apply IH. exact H.
Qed.
(** Everything about the groups of the items of some pairs. *)
Lemma groups_result s f t r e prs blocks la : represents (transmitters s) t -> represents (receivers s) r ->
  NoDup (map plab prs) ->
  Forall2 (fun tr b => In (fst tr) t /\ In (snd tr) r /\ b <> [] /\ forall it, In it b -> item_ok s t r tr it) prs blocks ->
  (forall it, In it la -> ~ In (lab it) (map plab prs)) ->
  acc_groups s f blocks e = mkgen (map (pair_result s f (concat blocks ++ la)) prs) e.
Proof.
  intros T R D F X. rewrite (acc_groups_ok s f t r e prs blocks T R F). f_equal. apply map_combine_ext.
  apply Forall2_combine; [eapply Forall2_len; eauto|]. intros tr b I. cbn [fst snd]. unfold pair_result.
  change (of_pair (fst (fst tr)) (fst (snd tr))) with (of_pair (fst (plab tr)) (snd (plab tr))).
  rewrite (of_pair_blocks (map plab prs) D blocks la) with (L := plab tr) (b := b); auto.
  - apply Forall2_map_l. eapply Forall2_impl'; [|exact F]. intros tr' b' (_ & _ & _ & H) it J.
    destruct (H it J) as (E1 & E2 & _). unfold lab, plab. congruence.
  - apply (combine_map_l' plab). auto.
Qed.
Lemma item_lab s t r tr it : item_ok s t r tr it -> lab it = plab tr.
Proof. intros (E1 & E2 & _). unfold lab, plab. congruence. Qed.
Lemma C53_lemma P g s cls va ca key f t r : good_split P ->
  represents (transmitters s) t -> represents (receivers s) r -> scene_candidates s ca <> [] ->
  let a := all_paths P g s cls ca va key in
  let acc := accumulate_over_paths P g s cls ca va key f in
  raised acc = raised a /\
  yielded acc = map (pair_result s f (yielded a))
    (match raised a with
     | None => list_prod t r
     | Some _ => firstn ((length (yielded a) - 1) / length (scene_candidates s ca)) (list_prod t r)
     end).
Proof.
  intros G T R C a acc. destruct (yielded_rel P g s cls va ca key t r G T R) as (F & L1 & L2 & L3). fold a in F, L1, L2, L3.
  set (cs := scene_candidates s ca) in *. set (prs := list_prod t r) in *.
  pose proof (represents_items _ _ T) as [_ DT]. pose proof (represents_items _ _ R) as [_ DR].
  pose proof (NoDup_plab t r DT DR) as ND. fold prs in ND.
  assert (Pos : 0 < length cs) by (destruct cs; [contradiction|cbn; lia]).
  assert (InP : forall tr, In tr prs -> In (fst tr) t /\ In (snd tr) r).
  { intros [x y] I. apply in_prod_iff in I. auto. }
  unfold acc, accumulate_over_paths. fold a. destruct (raised a) as [e|] eqn:Ea.
  - specialize (L3 ltac:(discriminate)). destruct (Nat.eq_dec (length (yielded a)) 0) as [Z|Z].
    + rewrite Z. cbn [Nat.sub]. rewrite Nat.div_0_l by lia. destruct (yielded a); [|discriminate]. cbn. auto.
    + destruct (chunk (fun (trc : ((string * vec) * (string * vec)) * list nat) it => item_ok s t r (fst trc) it)
        (fun x => map (fun y => (x, y)) cs) (length cs) prs Pos (fun x => map_length _ _) (length (yielded a)) (yielded a)) as (bs & la & tr & E & Fb & Ht & Nl & (k & Fl)); [lia|exact F|].
      set (M := (length (yielded a) - 1) / length cs) in *.
      assert (Lab : forall it, In it la -> lab it = plab tr).
      { intros it I. eapply item_lab with (s := s) (t := t) (r := r). 
        assert (Q : forall m b, Forall2 (fun trc it => item_ok s t r (fst trc) it) (firstn m (map (fun y => (tr, y)) cs)) b -> forall it, In it b -> item_ok s t r tr it).
        { intros m b. rewrite firstn_map. intro H. exact (Forall2_map_const (item_ok s t r) tr (firstn m cs) b H). }
        eapply Q; eauto. }
      assert (Ep : prs = firstn M prs ++ tr :: skipn (S M) prs).
      { apply split_at. auto. }
      assert (NDM : NoDup (map plab (firstn M prs) ++ [plab tr])).
      { rewrite Ep, map_app in ND. cbn [map] in ND.
        change (plab tr :: map plab (skipn (S M) prs)) with ([plab tr] ++ map plab (skipn (S M) prs)) in ND.
        rewrite app_assoc in ND. apply NoDup_app_left in ND. exact ND. }
      assert (Fb' : Forall2 (fun tr0 b => In (fst tr0) t /\ In (snd tr0) r /\ b <> [] /\ forall it, In it b -> item_ok s t r tr0 it) (firstn M prs) bs).
      { eapply Forall2_impl'; [|apply Forall2_in_l; exact Fb]. cbn beta. intros tr0 b [I0 H0].
        destruct (InP tr0) as [I1 I2]; [rewrite Ep; apply in_or_app; left; auto|]. split; auto. split; auto. split.
        - intros ->. apply Forall2_len in H0. rewrite map_length in H0. cbn in H0. lia.
        - apply (Forall2_map_const (item_ok s t r) tr0 cs b H0). }
      assert (Eg : group_runs (yielded a) = bs ++ [la]).
      { rewrite E. replace (concat bs ++ la) with (concat (bs ++ [la])) by (rewrite concat_app; cbn; rewrite app_nil_r; auto).
        apply (group_blocks (map plab (firstn M prs) ++ [plab tr]) NDM). apply Forall2_app.
        - apply Forall2_map_l. eapply Forall2_impl'; [|exact Fb']. cbn beta. intros tr0 b (_ & _ & Nb & H0). split; auto.
          intros it I. apply item_lab with (s := s) (t := t) (r := r). auto.
        - constructor; [split; auto|constructor]. }
      rewrite Eg, removelast_last.
      rewrite (groups_result s f t r (Some e) (firstn M prs) bs la T R); auto.
      * cbn [raised yielded]. rewrite E. auto.
      * apply NoDup_app_left in NDM. auto.
      * intros it I. rewrite (Lab it I). intro J. apply NoDup_remove_2 in NDM. rewrite app_nil_r in NDM. contradiction.
  - specialize (L2 eq_refl). rewrite L2, firstn_all2 in F.
    2:{ rewrite <- list_prod_flat, prod_length. lia. }
    apply Forall2_flat_map in F. destruct F as (bs & E & Fb).
    assert (Fb' : Forall2 (fun tr0 b => In (fst tr0) t /\ In (snd tr0) r /\ b <> [] /\ forall it, In it b -> item_ok s t r tr0 it) prs bs).
    { eapply Forall2_impl'; [|apply Forall2_in_l; exact Fb]. cbn beta. intros tr0 b [I0 H0].
      destruct (InP tr0) as [I1 I2]; auto. split; auto. split; auto. split.
      - intros ->. apply Forall2_len in H0. rewrite map_length in H0. cbn in H0. lia.
      - apply (Forall2_map_const (item_ok s t r) tr0 cs b H0). }
    assert (Eg : group_runs (yielded a) = bs).
    { rewrite E. apply (group_blocks (map plab prs) ND). apply Forall2_map_l. eapply Forall2_impl'; [|exact Fb'].
      cbn beta. intros tr0 b (_ & _ & Nb & H0). split; auto. intros it I. apply item_lab with (s := s) (t := t) (r := r). auto. }
    rewrite Eg, (groups_result s f t r None prs bs [] T R); auto. rewrite app_nil_r, E. auto.
Qed.
Lemma C53_none P g s cls va ca key f : scene_candidates s ca = [] ->
  accumulate_over_paths P g s cls ca va key f = mkgen [] None.
Proof.
  intro C. unfold accumulate_over_paths, all_paths, cands_z. rewrite C. cbn [map].
  assert (E : forall {A B} (l : list A), list_prod l (@nil B) = []) by (induction l; auto). rewrite E. reflexivity.
Qed.
Lemma fold_third {A B} (l : list (A * B * xreal)) z : fold_left (fun z '(_, _, p) => xadd z p) l z = fold_left xadd (map snd l) z.
Proof. revert z. induction l as [|[[a b] p] l IH]; intro z; [reflexivity|]. cbn. apply IH. Qed.
Lemma C53_reduced P g s cls va ca key f :
  let acc := accumulate_over_paths P g s cls ca va key f in
  accumulate_over_paths_reduced P g s cls ca va key f =
  match raised acc with Some e => Err e | None => Ok (xsum (map snd (yielded acc))) end.
Proof.
  intro acc. unfold accumulate_over_paths_reduced. fold acc. destruct (raised acc); auto. rewrite fold_third. reflexivity.
Qed.
