(** Proofs about the received power and its accumulation. *)
From Coq Require Import Reals List Bool ZArith String Lia Lra Psatz.
From Verif Require Import Base BaseP LogicM SpecLogic GeometryM SpecGeometry VecP ShapeP OptimizeM PathM PathSmoothP CandidatesM CandidatesP
  SceneM SpecScene SpecRun LogicP PathP SceneP SceneOpsP SceneRunP SceneAccP SceneGridP RunExP ApproxP UtilsM SpecPower.
Import ListNotations.
Open Scope R_scope.
Local Notation length := List.length.

(** C60 *)
Lemma power_fin eps tx rx p os rc h : h <> 0 ->
  received_power eps tx rx p os rc h =
  Fin (rc ^ (length (xys p) - 2) / (h * h + Path_length eps p * Path_length eps p)).
Proof.
  intro H. unfold received_power, fdiv. cbn zeta.
  assert (N : h * h + Path_length eps p * Path_length eps p <> 0) by nra.
  unfold Reqb. destruct (Req_EM_T _ 0); [contradiction|reflexivity].
Qed.
Lemma pow_unit rc n : 0 <= rc <= 1 -> 0 <= rc ^ n <= 1.
Proof.
  intros [A B]. induction n as [|n IH]; cbn; [lra|]. nra.
Qed.
Lemma pow_mono rc n m : 0 <= rc <= 1 -> (n <= m)%nat -> rc ^ m <= rc ^ n.
Proof.
  intros H L. replace m with (n + (m - n))%nat by lia. rewrite pow_add.
  pose proof (pow_unit rc n H). pose proof (pow_unit rc (m - n) H). nra.
Qed.
Lemma den_pos h L : h <> 0 -> 0 < h * h + L * L.
Proof. intro H. assert (0 < h * h) by nra. nra. Qed.
Lemma C60_bounds eps tx rx p os rc h : h <> 0 -> 0 <= rc <= 1 ->
  exists x, received_power eps tx rx p os rc h = Fin x /\ 0 <= x <= 1 / (h * h) /\ (0 < rc -> 0 < x).
Proof.
  intros H R. rewrite power_fin by auto. eexists. split; [reflexivity|].
  set (L := Path_length eps p). pose proof (den_pos h L H) as D. pose proof (pow_unit rc (length (xys p) - 2) R) as U.
  assert (HH : 0 < h * h) by nra. split; [split|].
  - apply Rmult_le_pos; [lra|]. left. apply Rinv_0_lt_compat. auto.
  - unfold Rdiv. apply Rmult_le_compat; try lra; [left; apply Rinv_0_lt_compat; auto|].
    apply Rinv_le_contravar; [auto|]. nra.
  - intro P. apply Rmult_lt_0_compat; [apply pow_lt; auto|]. apply Rinv_0_lt_compat. auto.
Qed.
Lemma C60_mono eps tx rx p os rc h tx' rx' p' os' : h <> 0 -> 0 <= rc <= 1 ->
  Path_length eps p <= Path_length eps p' -> (length (xys p) <= length (xys p'))%nat ->
  exists x x', received_power eps tx rx p os rc h = Fin x /\ received_power eps tx' rx' p' os' rc h = Fin x' /\ x' <= x.
Proof.
  intros H R L N. rewrite !power_fin by auto. do 2 eexists. split; [reflexivity|]. split; [reflexivity|].
  pose proof (path_length_nonneg eps (xys p)) as P0. fold (Path_length eps p) in P0.
  set (l := Path_length eps p) in *. set (l' := Path_length eps p') in *.
  pose proof (den_pos h l H). pose proof (den_pos h l' H).
  pose proof (pow_mono rc (length (xys p) - 2) (length (xys p') - 2) R ltac:(lia)) as M.
  pose proof (pow_unit rc (length (xys p') - 2) R).
  unfold Rdiv. apply Rmult_le_compat; try lra; [left; apply Rinv_0_lt_compat; auto|].
  apply Rinv_le_contravar; [auto|]. nra.
Qed.
Lemma C60_strict eps tx rx p os rc h tx' rx' p' os' : h <> 0 -> 0 < rc < 1 ->
  Path_length eps p <= Path_length eps p' -> (length (xys p) <= length (xys p'))%nat ->
  (Path_length eps p < Path_length eps p' \/ (2 <= length (xys p) < length (xys p'))%nat) ->
  exists x x', received_power eps tx rx p os rc h = Fin x /\ received_power eps tx' rx' p' os' rc h = Fin x' /\ x' < x.
Proof.
  intros H R L N SS. rewrite !power_fin by auto. do 2 eexists. split; [reflexivity|]. split; [reflexivity|].
  pose proof (path_length_nonneg eps (xys p)) as P0. fold (Path_length eps p) in P0.
  set (l := Path_length eps p) in *. set (l' := Path_length eps p') in *.
  pose proof (den_pos h l H) as D1. pose proof (den_pos h l' H) as D2.
  set (n := (length (xys p) - 2)%nat). set (m := (length (xys p') - 2)%nat).
  assert (Hn : 0 < rc ^ n) by (apply pow_lt; lra). assert (Hm : 0 < rc ^ m) by (apply pow_lt; lra).
  pose proof (pow_mono rc n m ltac:(lra) ltac:(unfold n, m; lia)) as M.
  unfold Rdiv. pose proof (Rinv_0_lt_compat _ D1). pose proof (Rinv_0_lt_compat _ D2).
  assert (I : / (h * h + l' * l') <= / (h * h + l * l)) by (apply Rinv_le_contravar; [auto|nra]).
  destruct SS as [SS|SS].
  - assert (I' : / (h * h + l' * l') < / (h * h + l * l)).
    { apply Rinv_lt_contravar; [apply Rmult_lt_0_compat; auto|]. nra. }
    apply Rle_lt_trans with (rc ^ n * / (h * h + l' * l')); [apply Rmult_le_compat_r; lra|]. apply Rmult_lt_compat_l; auto.
  - assert (M' : rc ^ m < rc ^ n).
    { replace m with (n + S (m - n - 1))%nat by (unfold n, m; lia). rewrite pow_add.
      assert (rc ^ S (m - n - 1) < 1).
      { rewrite <- tech_pow_Rmult. pose proof (pow_unit rc (m - n - 1) ltac:(lra)). nra. }
      nra. }
    apply Rlt_le_trans with (rc ^ n * / (h * h + l' * l')); [apply Rmult_lt_compat_r; auto|]. apply Rmult_le_compat_l; lra.
Qed.
Lemma C60_indep eps tx rx p os rc h tx' rx' p' os' : xys p = xys p' ->
  received_power eps tx rx p os rc h = received_power eps tx' rx' p' os' rc h.
Proof. intro E. unfold received_power, Path_length. rewrite E. reflexivity. Qed.
Lemma C60_default_formula eps tx rx p os : let r := Path_length eps p in
  received_power eps tx rx p os DEFAULT_R_COEF DEFAULT_HEIGHT =
  Fin (100 / ((1 + 100 * (r * r)) * 2 ^ (length (xys p) - 2))).
Proof.
  cbn zeta. rewrite power_fin by (unfold DEFAULT_HEIGHT; lra). f_equal. set (r := Path_length eps p).
  set (n := (length (xys p) - 2)%nat). unfold DEFAULT_R_COEF, DEFAULT_HEIGHT.
  replace (5 / 10) with (/ 2) by field. rewrite pow_inv.
  assert (T : 0 < 2 ^ n) by (apply pow_lt; lra). field. nra.
Qed.
Lemma C60_default eps tx rx p os :
  exists x, received_power eps tx rx p os DEFAULT_R_COEF DEFAULT_HEIGHT = Fin x /\ 0 < x <= P0 /\
    (x = P0 <-> Path_length eps p = 0 /\ (length (xys p) <= 2)%nat).
Proof.
  assert (H : DEFAULT_HEIGHT <> 0) by (unfold DEFAULT_HEIGHT; lra).
  assert (R : 0 <= DEFAULT_R_COEF <= 1) by (unfold DEFAULT_R_COEF; lra).
  destruct (C60_bounds eps tx rx p os DEFAULT_R_COEF DEFAULT_HEIGHT H R) as (x & E & B & Pos).
  exists x. split; [exact E|]. split.
  - split; [apply Pos; unfold DEFAULT_R_COEF; lra|]. unfold P0. unfold DEFAULT_HEIGHT in B. lra.
  - rewrite power_fin in E by auto. injection E as <-. set (l := Path_length eps p).
    pose proof (den_pos DEFAULT_HEIGHT l H) as D. set (n := (length (xys p) - 2)%nat). split.
    + intro E. assert (E' : DEFAULT_R_COEF ^ n = P0 * (DEFAULT_HEIGHT * DEFAULT_HEIGHT + l * l)).
      { rewrite <- E. field. lra. }
      pose proof (pow_unit DEFAULT_R_COEF n R) as U. unfold P0, DEFAULT_HEIGHT in E'.
      assert (Z : l * l = 0) by nra. split; [nra|].
      destruct n as [|k] eqn:En; [unfold n in En; lia|]. exfalso. rewrite <- tech_pow_Rmult in E'.
      pose proof (pow_unit DEFAULT_R_COEF k R). unfold DEFAULT_R_COEF in E' at 1. nra.
    + intros [El Ln]. rewrite El. replace n with 0%nat by (unfold n; lia). unfold P0, DEFAULT_HEIGHT. cbn [pow]. field.
Qed.
Lemma C60_no_height eps tx rx p os rc : 0 < rc ->
  (Path_length eps p = 0 -> received_power eps tx rx p os rc 0 = PInf) /\
  (Path_length eps p <> 0 -> exists x, received_power eps tx rx p os rc 0 = Fin x).
Proof.
  intro H. unfold received_power, fdiv. cbn zeta. assert (Pw : 0 < rc ^ (length (xys p) - 2)) by (apply pow_lt; auto).
  split; intro L.
  - rewrite L. replace (0 * 0 + 0 * 0) with 0 by ring. unfold Reqb, Rltb. destruct (Req_EM_T 0 0); [|lra].
    destruct (Req_EM_T _ 0); [lra|]. destruct (Rlt_dec 0 _); [reflexivity|lra].
  - unfold Reqb. destruct (Req_EM_T _ 0) as [E|]; [|eauto]. exfalso. nra.
Qed.

(** Sums of finite numbers. *)
Fixpoint Rsum (l : list R) : R := match l with [] => 0 | x :: l => x + Rsum l end.
Lemma xsum_fin l : xsum (map Fin l) = Fin (Rsum l).
Proof.
  unfold xsum. assert (X : forall l a, fold_left xadd (map Fin l) (Fin a) = Fin (a + Rsum l)).
  { clear. induction l as [|x l IH]; intro a; cbn; [f_equal; lra|]. rewrite IH. f_equal. lra. }
  rewrite X. f_equal. lra.
Qed.
Lemma all_fin (l : list xreal) (Q : R -> Prop) : (forall x, In x l -> finite_and Q x) -> exists l', l = map Fin l' /\ Forall Q l'.
Proof.
  induction l as [|x l IH]; intro H; [exists []; auto|]. destruct (H x (or_introl eq_refl)) as (v & -> & Hv).
  destruct IH as (l' & -> & Hl); [intros; apply H; right; auto|]. exists (v :: l'). auto.
Qed.
Lemma Rsum_bounds b l : Forall (fun x => 0 <= x <= b) l -> 0 <= Rsum l <= INR (length l) * b.
Proof.
  induction 1 as [|x l Hx _ IH]; [cbn; lra|]. cbn [Rsum length]. rewrite S_INR. lra.
Qed.
Lemma Rsum_app l l' : Rsum (l ++ l') = Rsum l + Rsum l'.
Proof. induction l as [|x l IH]; cbn; [lra|]. rewrite IH. lra. Qed.

(** C62 *)
Lemma valid_unit g p objs cand inter tol patch a k t : shipped k ->
  is_valid g p objs cand inter tol patch a k = Ok t -> finite_and (fun v => 0 <= v <= 1) (to_f t).
Proof.
  intros S E. rewrite c_valid in E. destruct (resolve g a).
  - apply C39_lemma in E; auto. destruct E as (r & -> & H). exists r. auto.
  - apply typed_valid in E. unfold typed in E. cbn in E. destruct E as [b ->]. cbn. destruct b; eexists; (split; [reflexivity|lra]).
Qed.
Lemma items_valid P g s cls va ca key t r : good_split P -> shipped (va_kw va) ->
  represents (transmitters s) t -> represents (receivers s) r ->
  forall it, In it (yielded (all_paths P g s cls ca va key)) ->
  finite_and (fun v => 0 <= v <= 1) (to_f (it_valid it)).
Proof.
  intros G S T R it I. apply In_nth_error in I. destruct I as [n I].
  destruct (C51_lemma P g s cls va ca key t r G T R) as (H & _). destruct (H n it I) as ([[tx rx] c] & _ & X).
  destruct X as (_ & _ & _ & _ & _ & V). eapply valid_unit; eauto.
Qed.
Lemma of_pair_in tx rx l it : In it (of_pair tx rx l) <-> In it l /\ it_tx it = tx /\ it_rx it = rx.
Proof. unfold of_pair. rewrite filter_In, andb_true_iff, !String.eqb_eq. reflexivity. Qed.
Lemma NoDup_filter_map {A B} (h : A -> B) p l : NoDup (map h l) -> NoDup (map h (filter p l)).
Proof.
  induction l as [|a l IH]; cbn; intro H; [auto|]. inversion H as [|? ? N D]; subst. destruct (p a); auto.
  cbn. constructor; auto. intro I. apply N. apply in_map_iff in I. destruct I as (x & <- & I). apply filter_In in I. apply in_map. tauto.
Qed.
Lemma pair_count P g s cls va ca key t r tx rx : good_split P ->
  represents (transmitters s) t -> represents (receivers s) r ->
  (length (of_pair tx rx (yielded (all_paths P g s cls ca va key))) <= length (scene_candidates s ca))%nat.
Proof.
  intros G T R. pose proof (C51_once P g s cls va ca key t r G T R) as N.
  set (l := yielded (all_paths P g s cls ca va key)) in *.
  assert (N' : NoDup (map it_cand (of_pair tx rx l))).
  { apply NoDup_filter_map with (p := fun it => (String.eqb (it_tx it) tx && String.eqb (it_rx it) rx)%bool) in N.
    fold (of_pair tx rx l) in N.
    assert (E : map (fun it => (it_tx it, it_rx it, it_cand it)) (of_pair tx rx l) =
                map (fun c => (tx, rx, c)) (map it_cand (of_pair tx rx l))).
    { rewrite map_map. apply map_ext_in. intros it I. apply of_pair_in in I. destruct I as (_ & -> & ->). reflexivity. }
    rewrite E in N. apply NoDup_map_inv in N. exact N. }
  rewrite <- (map_length it_cand), <- (map_length (map Z.of_nat) (scene_candidates s ca)).
  apply NoDup_incl_length; [exact N'|]. intros c I. apply in_map_iff in I. destruct I as (it & <- & I).
  apply of_pair_in in I. destruct I as (I & _). apply In_nth_error in I. destruct I as [n I].
  destruct (C51_lemma P g s cls va ca key t r G T R) as (H & _). destruct (H n it I) as ([[x y] c] & Hn & X).
  destruct X as (_ & _ & -> & _). apply in_map. apply nth_error_In in Hn.
  unfold triples in Hn. apply in_flat_map in Hn. destruct Hn as (? & _ & Hn). apply in_flat_map in Hn. destruct Hn as (? & _ & Hn).
  apply in_map_iff in Hn. destruct Hn as (c' & E & Hn). assert (c' = c) by congruence. subst. exact Hn.
Qed.
Lemma contribution_bounds s eps rc h tx rx it : h <> 0 -> 0 <= rc <= 1 ->
  finite_and (fun v => 0 <= v <= 1) (to_f (it_valid it)) ->
  finite_and (fun v => 0 <= v <= 1 / (h * h)) (contribution s (power eps rc h) tx rx it).
Proof.
  intros H R (v & E & Hv). unfold contribution. rewrite E. unfold power.
  destruct (C60_bounds eps tx rx (it_path it) (objects_at s (map Z.to_nat (it_cand it))) rc h H R) as (x & -> & Hx & _).
  cbn. eexists. split; [reflexivity|]. assert (0 < / (h * h)) by (apply Rinv_0_lt_compat; nra). split; nra.
Qed.
Lemma acc_in P g s cls va ca key f t r tx rx v : good_split P ->
  represents (transmitters s) t -> represents (receivers s) r ->
  In (tx, rx, v) (yielded (accumulate_over_paths P g s cls ca va key f)) ->
  exists p q, In (tx, p) t /\ In (rx, q) r /\
    v = xsum (map (contribution s f p q) (of_pair tx rx (yielded (all_paths P g s cls ca va key)))).
Proof.
  intros G T R I. destruct (scene_candidates s ca) as [|c0 cs0] eqn:C.
  { rewrite C53_none in I by auto. destruct I. }
  destruct (C53_lemma P g s cls va ca key f t r G T R ltac:(rewrite C; discriminate)) as (_ & Y). rewrite Y in I.
  apply in_map_iff in I. destruct I as ([[n p] [m q]] & E & I).
  assert (I' : In ((n, p), (m, q)) (list_prod t r)).
  { destruct (raised _); [|exact I]. rewrite <- (firstn_skipn ((length (yielded (all_paths P g s cls ca va key)) - 1) / length (scene_candidates s ca))).
    apply in_or_app. left. exact I. }
  apply in_prod_iff in I'. unfold pair_result in E. cbn [fst snd] in E. injection E as -> -> <-. exists p, q. tauto.
Qed.
Lemma C62_bounds P g s cls va ca key eps rc h t r : good_split P ->
  represents (transmitters s) t -> represents (receivers s) r -> shipped (va_kw va) -> h <> 0 -> 0 <= rc <= 1 ->
  forall tx rx v, In (tx, rx, v) (yielded (accumulate_over_paths P g s cls ca va key (power eps rc h))) ->
  finite_and (fun x => 0 <= x <= INR (length (scene_candidates s ca)) * (1 / (h * h))) v.
Proof.
  intros G T R S H B tx rx v I. destruct (acc_in _ _ _ _ _ _ _ _ _ _ _ _ _ G T R I) as (p & q & _ & _ & ->).
  pose proof (pair_count P g s cls va ca key t r tx rx G T R) as L.
  set (l := of_pair tx rx (yielded (all_paths P g s cls ca va key))) in *.
  destruct (all_fin (map (contribution s (power eps rc h) p q) l) (fun v => 0 <= v <= 1 / (h * h))) as (l' & E & F).
  { intros x Ix. apply in_map_iff in Ix. destruct Ix as (it & <- & Ii). apply contribution_bounds; auto.
    unfold l in Ii. apply of_pair_in in Ii. destruct Ii as (Ii & _). exact (items_valid P g s cls va ca key t r G S T R it Ii). }
  rewrite E, xsum_fin. eexists. split; [reflexivity|]. pose proof (Rsum_bounds _ _ F) as Bd.
  assert (Ll : length l' = length l) by (apply (f_equal (@length xreal)) in E; rewrite !map_length in E; auto).
  rewrite Ll in Bd. assert (INR (length l) <= INR (length (scene_candidates s ca))) by (apply le_INR; auto).
  assert (0 < 1 / (h * h)) by (unfold Rdiv; rewrite Rmult_1_l; apply Rinv_0_lt_compat; nra). split; [tauto|]. nra.
Qed.
Lemma C62_reduced P g s cls va ca key eps rc h t r v : good_split P ->
  represents (transmitters s) t -> represents (receivers s) r -> shipped (va_kw va) -> h <> 0 -> 0 <= rc <= 1 ->
  accumulate_over_paths_reduced P g s cls ca va key (power eps rc h) = Ok v ->
  finite_and (fun x => 0 <= x) v.
Proof.
  intros G T R S H B E. pose proof (C53_reduced P g s cls va ca key (power eps rc h)) as Q. cbn zeta in Q. rewrite Q in E.
  destruct (raised _); [discriminate|]. injection E as <-.
  destruct (all_fin (map snd (yielded (accumulate_over_paths P g s cls ca va key (power eps rc h))))
    (fun x => 0 <= x <= INR (length (scene_candidates s ca)) * (1 / (h * h)))) as (l' & E & F).
  { intros x Ix. apply in_map_iff in Ix. destruct Ix as ([[tx rx] x'] & <- & I). eapply C62_bounds; eauto. }
  rewrite E, xsum_fin. eexists. split; [reflexivity|]. apply Rsum_bounds in F. tauto.
Qed.
Lemma filter_filter' {A} (p q : A -> bool) l : filter p (filter q l) = filter q (filter p l).
Proof.
  induction l as [|a l IH]; [reflexivity|]. cbn. destruct (q a) eqn:Q, (p a) eqn:Pq; cbn; rewrite ?Q, ?Pq, ?IH; reflexivity.
Qed.
Lemma filter_map' {A B} (h : A -> B) p l : filter p (map h l) = map h (filter (fun a => p (h a)) l).
Proof. induction l as [|a l IH]; [reflexivity|]. cbn. destruct (p (h a)); cbn; rewrite IH; reflexivity. Qed.
Lemma exact_sum s f tx rx its : (forall tx rx p os, exists x, f tx rx p os = Fin x) ->
  (forall it, In it its -> exists b, it_valid it = TB b) -> forall acc,
  fold_left xadd (map (contribution s f tx rx) its) (Fin acc) =
  fold_left xadd (map (fun it => f tx rx (it_path it) (objects_at s (map Z.to_nat (it_cand it))))
    (filter (fun it => match it_valid it with TB b => b | TF _ => false end) its)) (Fin acc).
Proof.
  intros F. induction its as [|it its IH]; intros V acc; [reflexivity|]. cbn [map filter].
  destruct (V it (or_introl eq_refl)) as [b Eb]. rewrite Eb. cbn [fold_left].
  assert (V' : forall it, In it its -> exists b, it_valid it = TB b) by (intros; apply V; right; auto).
  assert (EC : contribution s f tx rx it = xmul (to_f (it_valid it)) (f tx rx (it_path it) (objects_at s (map Z.to_nat (it_cand it)))))
    by reflexivity.
  rewrite EC, Eb. destruct (F tx rx (it_path it) (objects_at s (map Z.to_nat (it_cand it)))) as [x Ex].
  rewrite Ex. destruct b; cbn [to_f xmul].
  - cbn [map fold_left]. rewrite Ex. cbn [xadd]. rewrite Rmult_1_l. apply IH, V'.
  - cbn [xadd]. rewrite Rmult_0_l, Rplus_0_r. apply IH, V'.
Qed.
Lemma C62_exact P g s cls tol patch kw ca key f t r : good_split P ->
  represents (transmitters s) t -> represents (receivers s) r -> scene_candidates s ca <> [] ->
  (forall tx rx p os, exists x, f tx rx p os = Fin x) ->
  let va := mkvalidargs tol patch (Some false) kw in
  let valid := all_valid_paths P g s cls ca va key in
  raised valid = None ->
  accumulate_over_paths P g s cls ca va key f =
  mkgen (map (fun tr => (fst (fst tr), fst (snd tr),
          xsum (map (fun pc => f (snd (fst tr)) (snd (snd tr)) (fst pc) (objects_at s (map Z.to_nat (snd pc))))
                  (valid_of_pair (fst (fst tr)) (fst (snd tr)) (yielded valid))))) (list_prod t r)) None.
Proof.
  intros G T R C F va valid Rv.
  destruct (C52_lemma P g s cls va ca key t r G T R) as (_ & Yv & Rr). fold valid in Yv, Rr. rewrite Rr in Rv.
  destruct (C53_lemma P g s cls va ca key f t r G T R C) as (Ra & Ya). rewrite Rv in Ra, Ya.
  destruct (accumulate_over_paths P g s cls ca va key f) as [y e]. cbn [yielded raised] in *. subst y e. f_equal.
  apply map_ext. intros [[tx p] [rx q]]. unfold pair_result. cbn [fst snd]. f_equal.
  set (its := yielded (all_paths P g s cls ca va key)) in *.
  assert (Ty : forall it, In it its -> exists b, it_valid it = TB b).
  { intros it I. pose proof (yielded_typed P g s cls va ca key t r G T R it I) as Q. exact Q. }
  unfold xsum. rewrite exact_sum; auto.
  2: { intros it I. apply of_pair_in in I. apply Ty. tauto. }
  f_equal. unfold valid_of_pair. rewrite Yv. rewrite filter_map', map_map, map_map. cbn [fst snd].
  unfold of_pair. rewrite filter_filter'. f_equal. cbn [va_approx].
  f_equal. apply filter_ext_in. intros it I. destruct (Ty it I) as [b ->]. reflexivity.
Qed.

Lemma candidates_prefix s lo hi hi' keep : (hi <= hi')%nat ->
  exists more, scene_candidates s (mkcandargs lo hi' None keep) = scene_candidates s (mkcandargs lo hi None keep) ++ more.
Proof.
  intro H. unfold scene_candidates, all_path_candidates. cbn [ca_filter ca_min ca_max ca_order].
  assert (E : exists rest, order_range lo hi' = order_range lo hi ++ rest).
  { unfold order_range. exists (seq (lo + (S hi - lo)) ((S hi' - lo) - (S hi - lo))). rewrite <- seq_app. f_equal. lia. }
  destruct E as [rest ->]. eexists. rewrite flat_map_app. reflexivity.
Qed.
Lemma of_pair_prefix P g s cls va ca ca' t r tx rx : good_split P ->
  represents (transmitters s) t -> represents (receivers s) r ->
  (exists more, scene_candidates s ca' = scene_candidates s ca ++ more) ->
  raised (all_paths P g s cls ca va None) = None -> raised (all_paths P g s cls ca' va None) = None ->
  In tx t -> In rx r -> forall f, exists more,
  map (contribution s f (snd tx) (snd rx)) (of_pair (fst tx) (fst rx) (yielded (all_paths P g s cls ca' va None))) =
  map (contribution s f (snd tx) (snd rx)) (of_pair (fst tx) (fst rx) (yielded (all_paths P g s cls ca va None))) ++ more.
Proof.
  intros G T R [m E] Ra Ra' It Ir f.
  pose proof (pair_items P g s cls va ca t r tx rx G T R Ra It Ir) as F.
  pose proof (pair_items P g s cls va ca' t r tx rx G T R Ra' It Ir) as F'. rewrite E in F'.
  apply Forall2_app_inv_l in F'. destruct F' as (l1 & l2 & F1 & _ & ->).
  exists (map (contribution s f (snd tx) (snd rx)) l2). rewrite map_app. f_equal.
  revert F F1. generalize (scene_candidates s ca) as cs.
  generalize (of_pair (fst tx) (fst rx) (yielded (all_paths P g s cls ca va None))) as l.
  intros l cs F. revert l1. induction F as [|c it cs l I _ IH]; intros l1 F1; inversion F1 as [|? it' ? l1' I' F1']; subst; [reflexivity|].
  cbn [map]. f_equal; [|auto]. destruct tx as [n1 tx], rx as [n2 rx]. eapply item_fun; eauto.
Qed.
Lemma C62_mono P g s cls va lo hi hi' keep eps rc h t r : good_split P ->
  represents (transmitters s) t -> represents (receivers s) r -> never_fails cls (@None (key_t P)) s ->
  shipped (va_kw va) -> h <> 0 -> 0 <= rc <= 1 -> (hi <= hi')%nat ->
  let acc hi := accumulate_over_paths P g s cls (mkcandargs lo hi None keep) va None (power eps rc h) in
  forall n tx rx v, nth_error (yielded (acc hi)) n = Some (tx, rx, v) ->
  exists v', nth_error (yielded (acc hi')) n = Some (tx, rx, v') /\
    exists x x', v = Fin x /\ v' = Fin x' /\ x <= x'.
Proof.
  intros G T R N S H B L acc n tx rx v Hn. set (ca := mkcandargs lo hi None keep). set (ca' := mkcandargs lo hi' None keep).
  destruct (candidates_prefix s lo hi hi' keep L) as [more E].
  assert (C : scene_candidates s ca <> []).
  { intro C. unfold acc in Hn. rewrite C53_none in Hn by exact C. destruct n; discriminate. }
  assert (C' : scene_candidates s ca' <> []).
  { intro C'. fold ca ca' in E. rewrite C' in E. destruct (scene_candidates s ca); [auto|discriminate]. }
  pose proof (C51_total_lemma P g s cls va ca None t r G T R N) as Ra.
  pose proof (C51_total_lemma P g s cls va ca' None t r G T R N) as Ra'.
  destruct (C53_lemma P g s cls va ca None (power eps rc h) t r G T R C) as (_ & Y).
  destruct (C53_lemma P g s cls va ca' None (power eps rc h) t r G T R C') as (_ & Y').
  rewrite Ra in Y. rewrite Ra' in Y'. unfold acc in *. fold ca in Hn. fold ca'. rewrite Y in Hn. rewrite Y'.
  rewrite nth_error_map in Hn |- *. destruct (nth_error (list_prod t r) n) as [[[n1 p] [n2 q]]|] eqn:En; [|discriminate].
  cbn [option_map] in *. unfold pair_result in *. cbn [fst snd] in *. injection Hn as -> -> <-.
  eexists. split; [reflexivity|].
  apply nth_error_In, in_prod_iff in En. destruct En as [It Ir].
  destruct (of_pair_prefix P g s cls va ca ca' t r (tx, p) (rx, q) G T R (ex_intro _ more E) Ra Ra' It Ir (power eps rc h)) as [m Em].
  cbn [fst snd] in Em. rewrite Em.
  assert (W : forall x, In x (map (contribution s (power eps rc h) p q) (of_pair tx rx (yielded (all_paths P g s cls ca' va None)))) ->
     finite_and (fun v => 0 <= v <= 1 / (h * h)) x).
  { intros x Ix. apply in_map_iff in Ix. destruct Ix as (it & <- & Ii). apply contribution_bounds; auto.
    apply of_pair_in in Ii. destruct Ii as (Ii & _). exact (items_valid P g s cls va ca' None t r G S T R it Ii). }
  rewrite Em in W.
  destruct (all_fin (map (contribution s (power eps rc h) p q) (of_pair tx rx (yielded (all_paths P g s cls ca va None)))) _
    (fun x I => W x (in_or_app _ _ _ (or_introl I)))) as (l1 & E1 & F1).
  destruct (all_fin m _ (fun x I => W x (in_or_app _ _ _ (or_intror I)))) as (l2 & E2 & F2).
  rewrite E1, E2, <- map_app, !xsum_fin, Rsum_app. do 2 eexists. split; [reflexivity|]. split; [reflexivity|].
  apply Rsum_bounds in F2. lra.
Qed.
