(** Proofs: exchanging transmitters and receivers. *)
From Coq Require Import Reals List Bool ZArith String Lia Lra Psatz Permutation FinFun.
From Verif Require Import Base BaseP LogicM SpecLogic LogicP GeometryM SpecGeometry SegP VecP WallP OptimizeM PathM SpecPath PathP PathSmoothP PathShapeP
  SpecImage ImageP ImageExP CandidatesM SceneM SpecCandidates SpecScene SpecRun CandidatesP SceneP SceneOpsP SceneRunP SceneAccP SceneGridP
  ApproxP SpecCap CapP SpecOrder OrderP SpecRecip.
Import ListNotations.
Local Notation length := List.length.
Open Scope R_scope.

(** ** Image paths of loss below 1 *)
Lemma vec_dec (a b : vec) : {a = b} + {a <> b}.
Proof.
  destruct a as [a1 a2], b as [b1 b2]. destruct (Req_EM_T a1 b1) as [->|N]; [|right; congruence].
  destruct (Req_EM_T a2 b2) as [->|N]; [left; reflexivity|right; congruence].
Qed.
Lemma repeated_or_not tx ws rx n : (exists k, (k <= n)%nat /\ pt tx ws rx k = pt tx ws rx (S k)) \/
  forall k, (k <= n)%nat -> pt tx ws rx k <> pt tx ws rx (S k).
Proof.
  induction n as [|n [(k & K & E)|H]].
  - destruct (vec_dec (pt tx ws rx 0) (pt tx ws rx 1)) as [E|N]; [left; exists 0%nat; auto|right]. intros k K.
    replace k with 0%nat by lia. exact N.
  - left. exists k. split; [lia|auto].
  - destruct (vec_dec (pt tx ws rx (S n)) (pt tx ws rx (S (S n)))) as [E|N]; [left; exists (S n); auto|right].
    intros k K. destruct (Nat.eq_dec k (S n)) as [->|]; [exact N|apply H; lia].
Qed.
Lemma gp_or_repeated tx ws rx : gp tx ws rx \/ exists k, (k <= length ws)%nat /\ pt tx ws rx k = pt tx ws rx (S k).
Proof.
  destruct (repeated_or_not tx ws rx (length ws)) as [H|H]; [right; auto|left]. split; auto.
  intros i w Ew E. assert (i < length ws)%nat by (apply nth_error_Some; congruence).
  apply (H (S i)); [lia|]. rewrite (pt_S tx ws rx i w Ew). apply backward_degenerate. exact E.
Qed.
Lemma fixed_points q ws : (forall w, In w ws -> image_of w q = q) -> image_points q ws q = q :: repeat q (length ws) ++ [q].
Proof.
  intro H. unfold image_points. f_equal. f_equal. assert (I : images q ws = repeat q (length ws)).
  { induction ws as [|w ws IH]; [reflexivity|]. cbn [images length repeat]. rewrite H by (left; auto). f_equal. apply IH. intros; apply H; right; auto. }
  rewrite I. clear I. assert (B : backward_scan q (combine ws (repeat q (length ws))) = (q, repeat q (length ws))).
  { induction ws as [|w ws IH]; [reflexivity|]. cbn [length repeat combine backward_scan]. rewrite IH by (intros; apply H; right; auto).
    rewrite backward_degenerate; reflexivity. }
  rewrite B. reflexivity.
Qed.
Lemma collapsed tx ws rx : (forall k, (k <= length ws)%nat -> pt tx ws rx k = pt tx ws rx (S k)) ->
  rx = tx /\ forall w, In w ws -> image_of w tx = tx.
Proof.
  intro C.
  assert (A : forall k, (k <= S (length ws))%nat -> pt tx ws rx k = tx).
  { induction k as [|k IH]; intro K; [apply pt_0|]. rewrite <- C by lia. apply IH. lia. }
  split; [rewrite <- (A (S (length ws))) by lia; symmetry; apply pt_last|].
  assert (Q : forall i w, nth_error ws i = Some w -> img tx ws i = tx -> image_of w tx = tx).
  { intros i w Ew Ei. assert (Li : (i < length ws)%nat) by (apply nth_error_Some; congruence).
    destruct (proper_dec w) as [Pw|Pw]; [|apply image_improper; auto].
    pose proof (pt_S tx ws rx i w Ew) as E. rewrite !A in E by lia. rewrite (img_S tx ws i w Ew), Ei in E.
    apply image_fixed; auto. apply on_line_side; auto.
    destruct (Req_EM_T (side w (image_of w tx)) (side w tx)) as [S0|S0].
    - rewrite side_image in S0 by auto. lra.
    - pose proof (backward_side w (image_of w tx) tx S0) as B. rewrite <- E in B. exact B. }
  assert (I : forall i, (i <= length ws)%nat -> img tx ws i = tx).
  { induction i as [|i IH]; intro Hi; [apply img_0|].
    destruct (nth_error ws i) as [w|] eqn:Ew; [|apply nth_error_None in Ew; lia].
    rewrite (img_S tx ws i w Ew), IH by lia. apply (Q i w Ew). apply IH. lia. }
  intros w Hw. apply In_nth_error in Hw. destruct Hw as [i Ew]. apply (Q i w Ew). apply I.
  assert (i < length ws)%nat by (apply nth_error_Some; congruence). lia.
Qed.
Lemma rev_repeat {A} (a : A) n : rev (repeat a n) = repeat a n.
Proof.
  induction n as [|n IH]; [reflexivity|]. cbn [repeat rev]. rewrite IH. rewrite <- repeat_cons. reflexivity.
Qed.
Lemma below_one_points tx ws rx : path_loss (map OWall ws) (image_points tx ws rx) < 1 ->
  image_points rx (rev ws) tx = rev (image_points tx ws rx).
Proof.
  intro L. destruct (gp_or_repeated tx ws rx) as [G|(k & K & E)].
  - apply C34_reflections; auto. apply gp_iff in G.
    assert (HP := image_from_ok tx ws rx).
    apply (proj1 (C32_test tx ws rx _ 1 HP G ltac:(lra))). cbn. exact L.
  - pose proof (collapse ws (image_points tx ws rx) k K E L) as C. destruct (collapsed tx ws rx C) as [-> F].
    rewrite !fixed_points; auto.
    + rewrite rev_length. cbn [rev]. rewrite rev_app_distr, rev_repeat. reflexivity.
    + intros w Hw. apply F. apply in_rev. auto.
Qed.
Lemma below_one tx ws rx p p' :
  ImagePath_from tx (map OWall ws) rx = Ok p -> ImagePath_from rx (map OWall (rev ws)) tx = Ok p' ->
  loss_below (loss p) 1 -> p' = backwards p.
Proof.
  intros HP HP' L. rewrite image_from_ok in HP, HP'. injection HP as <-. injection HP' as <-. cbn [loss] in L. cbn [loss_below] in L.
  unfold backwards. cbn [xys loss]. rewrite (below_one_points tx ws rx L). f_equal. f_equal. apply path_loss_rev. apply pts_length.
Qed.
Lemma below_one_iff tx ws rx p p' :
  ImagePath_from tx (map OWall ws) rx = Ok p -> ImagePath_from rx (map OWall (rev ws)) tx = Ok p' ->
  (loss_below (loss p) 1 <-> loss_below (loss p') 1).
Proof.
  intros HP HP'. split; intro L.
  - rewrite (below_one _ _ _ _ _ HP HP' L). exact L.
  - rewrite <- (rev_involutive ws) in HP. rewrite (below_one _ _ _ _ _ HP' HP L). exact L.
Qed.

(** ** Validity *)
Definition nothing (g : bool) (ap : option bool) : truthy := if resolve g ap then TF (Fin 0) else TB false.
Lemma resolve_valid g p objects cand inter tol patch a k :
  is_valid g p objects cand inter tol patch a k = is_valid g p objects cand inter tol patch (Some (resolve g a)) k.
Proof. symmetry. rewrite (c_valid g (Some (resolve g a))). rewrite (c_valid g a). reflexivity. Qed.
Lemma valid_length_ok g p objects cand inter tol patch a k : length (xys p) = (length cand + 2)%nat ->
  exists t, is_valid g p objects cand inter tol patch a k = Ok t.
Proof. intro H. apply valid_total. left. lia. Qed.
Lemma rejected g va p objects cand inter t l : rejects_loss_one g va -> loss p = Fin l -> 1 <= l ->
  is_valid g p objects cand inter (va_tol va) (va_patch va) (va_approx va) (va_kw va) = Ok t -> t = nothing g (va_approx va).
Proof.
  unfold rejects_loss_one, nothing. rewrite resolve_valid. intros H L Hl E. destruct (resolve g (va_approx va)).
  - destruct H as (Hf & A & Ha). destruct (va_kw va) as [alpha fn]. cbn [ak_function ak_alpha] in *. subst fn.
    destruct (cap_hard _ _ _ _ _ _ _ _ _ _ E L) as (r & -> & R0). do 2 f_equal.
    assert (hard_cap alpha (va_tol va) l <= 0).
    { unfold hard_cap, Rmax, Rmin. assert (alpha * (va_tol va - l) <= - 3).
      { assert (alpha * (1 - va_tol va) <= alpha * (l - va_tol va)) by (apply Rmult_le_compat_l; lra). lra. }
      repeat destruct (Rle_dec _ _); lra. }
    lra.
  - assert (X : exists b, t = TB b).
    { unfold is_valid in E. destruct (intersects_with_objects g p objects cand (va_patch va) (Some false) (va_kw va)); cbn [rbind] in E; [|discriminate].
      unfold logical_all in E. cbn [resolve rbind tnan_to_num] in E. injection E as <-. eauto. }
    destruct X as [[|] ->]; [|reflexivity]. exfalso. apply valid_loss in E. rewrite L in E. cbn in E. lra.
Qed.

(** ** One item *)
Lemma objects_at_rev s c : objects_at s (rev c) = rev (objects_at s c).
Proof.
  unfold objects_at. induction c as [|i c IH]; [reflexivity|]. cbn [rev]. rewrite flat_map_app, IH. cbn [flat_map].
  rewrite app_nil_r, rev_app_distr. destruct (nth_error (objects s) i); reflexivity.
Qed.
Lemma walls_at s c : (forall o, In o (objects s) -> exists w, o = OWall w) -> exists ws, objects_at s c = map OWall ws.
Proof.
  intro H. unfold objects_at. induction c as [|i c (ws & IH)]; [exists []; reflexivity|]. cbn [flat_map]. rewrite IH.
  destruct (nth_error (objects s) i) as [o|] eqn:E; [|exists ws; reflexivity].
  destruct (H o (nth_error_In _ _ E)) as [w ->]. exists (w :: ws). reflexivity.
Qed.
Lemma path_backwards tx os rx : Path_from rx (rev os) tx = backwards (Path_from tx os rx).
Proof.
  unfold Path_from, path_default, backwards. cbn [xys loss]. f_equal. cbn [rev]. rewrite rev_app_distr, map_rev. reflexivity.
Qed.
Lemma image_loss_fin tx ws rx p : ImagePath_from tx (map OWall ws) rx = Ok p -> exists l, loss p = Fin l.
Proof. rewrite image_from_ok. intro E. injection E as <-. eexists. reflexivity. Qed.
Lemma valid_backwards g p objects c inter tol patch a k :
  length (xys p) = (length c + 2)%nat -> length inter = length c ->
  is_valid g (backwards p) objects (map Z.of_nat (rev c)) (rev inter) tol patch a k = is_valid g p objects (map Z.of_nat c) inter tol patch a k.
Proof. intros L L'. rewrite map_rev. apply C34_valid; rewrite map_length; auto. Qed.
Lemma item_rev P g s cls va tx rx c it : reversible g s cls va ->
  is_item P g s cls va None (tx, rx, c) it ->
  exists it', is_item P g (exchanged s) cls va None (rx, tx, rev c) it' /\ it_valid it' = it_valid it /\
    (it_path it' = backwards (it_path it) \/ it_valid it = nothing g (va_approx va)).
Proof.
  intros Rv (E1 & E2 & E3 & E4 & E5 & E6).
  assert (LP : length (xys (it_path it)) = (length c + 2)%nat).
  { apply C29_lemma in E5. destruct E5 as ((mid & X & Lm) & _). rewrite X. cbn [length]. rewrite app_length, Lm, E4. cbn. lia. }
  assert (Q : forall p' t', from_tx_objects_rx P cls None (snd rx) (rev (objects_at s c)) (snd tx) = Ok p' ->
     is_valid g p' (objects s) (map Z.of_nat (rev c)) (rev (objects_at s c)) (va_tol va) (va_patch va) (va_approx va) (va_kw va) = Ok t' ->
     t' = it_valid it -> p' = backwards (it_path it) \/ it_valid it = nothing g (va_approx va) ->
     exists it', is_item P g (exchanged s) cls va None (rx, tx, rev c) it' /\ it_valid it' = it_valid it /\
       (it_path it' = backwards (it_path it) \/ it_valid it = nothing g (va_approx va))).
  { intros p' t' H1 H2 -> H3. exists (mkitem (fst rx) (fst tx) (it_valid it) p' (map Z.of_nat (rev c))).
    unfold is_item. cbn [it_tx it_rx it_cand it_path it_valid].
    change (objects_at (exchanged s) (rev c)) with (objects_at s (rev c)). rewrite objects_at_rev, !rev_length.
    repeat split; auto. }
  destruct cls; cbn [reversible] in Rv; try contradiction; cbn [from_tx_objects_rx] in E5.
  - injection E5 as E5. apply (Q (Path_from (snd rx) (rev (objects_at s c)) (snd tx)) (it_valid it)); auto.
    + rewrite path_backwards, E5, valid_backwards; auto.
    + left. rewrite path_backwards, E5. reflexivity.
  - destruct Rv as [W Rj]. destruct (walls_at s c W) as [ws Ew]. rewrite Ew in *. rewrite <- map_rev in Q.
    set (p := it_path it) in *. pose proof (image_from_ok (snd rx) (rev ws) (snd tx)) as HP'.
    set (p' := mkpath _ _) in HP'.
    assert (LP' : length (xys p') = (length (map Z.of_nat (rev c)) + 2)%nat).
    { unfold p'. cbn [xys]. rewrite pts_length, map_length, !rev_length. rewrite map_length in E4. lia. }
    destruct (valid_length_ok g p' (objects s) (map Z.of_nat (rev c)) (map OWall (rev ws)) (va_tol va) (va_patch va) (va_approx va) (va_kw va) LP') as [t' Ht'].
    destruct (image_loss_fin _ _ _ _ E5) as [l El]. destruct (image_loss_fin _ _ _ _ HP') as [l' El'].
    destruct (Rlt_dec l 1) as [Hl|Hl].
    + assert (Ep : p' = backwards p) by (apply (below_one _ _ _ _ _ E5 HP'); rewrite El; exact Hl).
      apply (Q p' t'); auto. rewrite Ep, (map_rev OWall), valid_backwards in Ht' by auto. congruence.
    + assert (Hl' : 1 <= l').
      { destruct (Rlt_dec l' 1) as [X|X]; [|lra]. exfalso. apply Hl.
        assert (B : loss_below (loss p) 1) by (apply (below_one_iff _ _ _ _ _ E5 HP'); rewrite El'; exact X). rewrite El in B. exact B. }
      assert (T' : t' = nothing g (va_approx va)) by (eapply rejected; eauto).
      assert (T : it_valid it = nothing g (va_approx va)) by (eapply (rejected g va p _ _ _ _ l); eauto; lra).
      apply (Q p' t'); auto. congruence.
Qed.

(** ** Sums and accumulations *)
Lemma cands_rev s ca : Permutation (scene_candidates s ca) (map (@rev nat) (scene_candidates s ca)).
Proof.
  assert (I : Injective (@rev nat)).
  { intros a b E. rewrite <- (rev_involutive a), E. apply rev_involutive. }
  apply Permutation_sym. apply NoDup_Permutation_bis.
  - apply Injective_map_NoDup; [exact I|apply scene_candidates_NoDup].
  - rewrite map_length. auto.
  - intros c H. apply in_map_iff in H. destruct H as (c0 & <- & H).
    apply (in_scene_candidates s ca (OVertex (0, 0))). apply admissible_rev.
    apply (in_scene_candidates s ca (OVertex (0, 0))). exact H.
Qed.
Lemma mirror_finite f f' : mirror_functions f f' -> always_finite f -> always_finite f'.
Proof.
  intros M F tx rx p os. destruct (F rx tx (backwards p) (rev os)) as [x Hx]. exists x. rewrite <- Hx, <- M.
  unfold backwards. cbn [xys loss]. rewrite !rev_involutive. destruct p. reflexivity.
Qed.
Lemma contribution_rev g s va f f' tx rx c it it' : mirror_functions f f' -> always_finite f ->
  it_cand it = map Z.of_nat c -> it_cand it' = map Z.of_nat (rev c) -> it_valid it' = it_valid it ->
  it_path it' = backwards (it_path it) \/ it_valid it = nothing g (va_approx va) ->
  contribution (exchanged s) f' rx tx it' = contribution s f tx rx it.
Proof.
  intros M F C C' V H. unfold contribution. rewrite C, C', V, !map_nat_z.
  change (objects_at (exchanged s) (rev c)) with (objects_at s (rev c)). rewrite objects_at_rev.
  destruct H as [->| ->]; [rewrite M; reflexivity|].
  destruct (F tx rx (it_path it) (objects_at s c)) as [x ->].
  destruct (mirror_finite f f' M F rx tx (it_path it') (rev (objects_at s c))) as [y ->].
  unfold nothing. destruct (resolve g (va_approx va)); cbn [to_f xmul]; f_equal; ring.
Qed.
Lemma sums_rev P g s cls ca va f f' tx rx v : reversible g s cls va -> mirror_functions f f' -> always_finite f ->
  sums_candidates P g s cls ca va None f tx rx v -> sums_candidates P g (exchanged s) cls ca va None f' rx tx v.
Proof.
  intros Rv M F (its & Fi & ->). cbn [one_key_each] in Fi. rewrite combine_repeat in Fi.
  assert (Q : exists its', Forall2 (fun c it => is_item P g (exchanged s) cls va None ((it_tx it, rx), (it_rx it, tx), c) it) (map (@rev nat) (scene_candidates s ca)) its' /\
     map (contribution (exchanged s) f' rx tx) its' = map (contribution s f tx rx) its).
  { revert its Fi. induction (scene_candidates s ca) as [|c cs IH]; intros its Fi; inversion Fi as [|? it ? its0 H Fi']; subst.
    - exists []. split; [constructor|reflexivity].
    - destruct (IH its0 Fi') as (its' & F2 & E). cbn [fst snd] in H.
      destruct (item_rev P g s cls va _ _ c it Rv H) as (it' & H' & V' & O'). exists (it' :: its'). split.
      + cbn [map]. constructor; auto. clear -H'. destruct H' as (A & B & H'). cbn [fst snd] in A, B. split; auto.
      + cbn [map]. f_equal; auto. eapply (contribution_rev g s va f f' tx rx c); eauto; [apply H|apply H']. }
  destruct Q as (its1 & F1 & E1).
  destruct (forall2_perm _ _ _ _ (Permutation_sym (cands_rev s ca)) F1) as (its' & Pi & F2).
  exists its'. split.
  - cbn [one_key_each]. rewrite combine_repeat. apply Forall2_map_l. exact F2.
  - rewrite <- E1. apply xsum_perm. apply Permutation_map. exact Pi.
Qed.
Lemma never_rev P g s cls va : reversible g s cls va -> never_fails cls (@None (key_t P)) s /\ never_fails cls (@None (key_t P)) (exchanged s).
Proof. destruct cls; cbn; tauto. Qed.

Lemma map_grid_rev P g s cls ca va f f' gradop X Y t : good_split P -> represents (transmitters s) t ->
  reversible g s cls va -> mirror_functions f f' -> always_finite f -> same_shape X Y ->
  accumulate_on_transmitters_grid P g (exchanged s) cls ca va None f' gradop MVal X Y =
  accumulate_on_receivers_grid P g s cls ca va None f gradop MVal X Y.
Proof.
  intros G T Rv M F Sh. destruct (never_rev P g s cls va Rv) as [N N'].
  destruct (rx_grid P g s cls ca va None f gradop MVal X Y t G T N Sh) as (gr & D & _ & _ & ->).
  destruct (tx_grid P g (exchanged s) cls ca va None f' gradop MVal X Y t G T N' Sh) as (gr' & D' & _ & _ & ->).
  assert (gr' = gr) by congruence. subst. do 2 f_equal. apply map_ext. intro tx. f_equal. apply map_ext. intro rw. apply map_ext. intro rx.
  unfold cell_of. destruct (facc_sums P g s cls ca va None f (snd tx) rx G N) as (v & E & V).
  destruct (facc_sums P g (exchanged s) cls ca va None f' rx (snd tx) G N') as (v' & E' & V'). unfold the_work. rewrite E, E'. f_equal.
  eapply sums_unique; [exact V'|]. eapply sums_rev; eauto.
Qed.
Lemma prod_swap {A B} (l : list A) (m : list B) : Permutation (map (fun '(x, y) => (y, x)) (list_prod l m)) (list_prod m l).
Proof.
  revert m. induction l as [|a l IH]; intro m.
  - cbn. induction m; cbn; auto.
  - cbn [list_prod]. rewrite map_app, map_map, IH. clear IH. induction m as [|b m IH]; [cbn; auto|].
    cbn [map list_prod]. cbn [app]. constructor. rewrite <- IH. rewrite !app_assoc. apply Permutation_app_tail. apply Permutation_app_comm.
Qed.
Lemma acc_rev P g s cls ca va f f' t r : good_split P -> represents (transmitters s) t -> represents (receivers s) r ->
  reversible g s cls va -> mirror_functions f f' -> always_finite f ->
  let acc := accumulate_over_paths P g s cls ca va None f in
  let acc' := accumulate_over_paths P g (exchanged s) cls ca va None f' in
  raised acc = None /\ raised acc' = None /\ Permutation (map other_end_value (yielded acc)) (yielded acc').
Proof.
  intros G T R Rv M F. cbn zeta. destruct (never_rev P g s cls va Rv) as [N N'].
  destruct (scene_candidates s ca) as [|c0 cs0] eqn:Ec.
  { rewrite !C53_none; auto. }
  assert (C1 : scene_candidates s ca <> []) by congruence.
  assert (C2 : scene_candidates (exchanged s) ca <> []) by exact C1.
  destruct (C53_lemma P g s cls va ca None f t r G T R C1) as [A1 A2].
  destruct (C53_lemma P g (exchanged s) cls va ca None f' r t G R T C2) as [B1 B2].
  pose proof (C51_total_lemma P g s cls va ca None t r G T R N) as Ra.
  pose proof (C51_total_lemma P g (exchanged s) cls va ca None r t G R T N') as Rb.
  rewrite Ra in A1, A2. rewrite Rb in B1, B2. split; auto. split; auto.
  rewrite A2, B2, map_map. rewrite <- (prod_swap t r), map_map. apply Permutation_refl'.
  apply map_ext_in. intros [tx rx] I. apply in_prod_iff in I. destruct I as [It Ir].
  destruct (facc_sums P g s cls ca va None f (snd tx) (snd rx) G N) as (v & _ & V).
  rewrite (sums_pair P g s s cls va ca f t r tx rx v) by auto. cbn [other_end_value].
  symmetry. apply (sums_pair P g (exchanged s) (exchanged s) cls va ca f' r t rx tx v); auto. eapply sums_rev; eauto.
Qed.

(** ** The valid paths *)
Lemma prod_perm {A B} (l l' : list A) (m m' : list B) : Permutation l l' -> Permutation m m' -> Permutation (list_prod l m) (list_prod l' m').
Proof.
  intros P Q. transitivity (list_prod l' m).
  - clear Q. induction P; cbn [list_prod]; auto.
    + apply Permutation_app_head. auto.
    + rewrite !app_assoc. apply Permutation_app_tail. apply Permutation_app_comm.
    + etransitivity; eauto.
  - clear P. induction l' as [|x l' IH]; cbn [list_prod]; auto. apply Permutation_app; auto. apply Permutation_map. auto.
Qed.
Lemma prod_map {A B C D} (f : A -> C) (h : B -> D) l m : list_prod (map f l) (map h m) = map (fun '(x, y) => (f x, h y)) (list_prod l m).
Proof.
  induction l as [|x l IH]; [reflexivity|]. cbn [map list_prod]. rewrite map_app, IH. f_equal. rewrite !map_map. reflexivity.
Qed.
Lemma prod_app {A B} (l l' : list A) (m : list B) : list_prod (l ++ l') m = list_prod l m ++ list_prod l' m.
Proof. induction l as [|x l IH]; [reflexivity|]. cbn [app list_prod]. rewrite IH, app_assoc. reflexivity. Qed.
Lemma triples_prod {A B C} (ts : list A) (rs : list B) (cs : list C) : triples ts rs cs = list_prod (list_prod ts rs) cs.
Proof.
  unfold triples. induction ts as [|t ts IH]; [reflexivity|]. cbn [flat_map list_prod]. rewrite prod_app, IH. f_equal. clear IH.
  induction rs as [|r rs IH]; [reflexivity|]. cbn [flat_map map list_prod]. rewrite IH. reflexivity.
Qed.
Definition turn (trc : (string * vec) * (string * vec) * list nat) : (string * vec) * (string * vec) * list nat :=
  let '(tx, rx, c) := trc in (rx, tx, rev c).
Lemma triples_turn s ca t r : Permutation (map turn (triples t r (scene_candidates s ca))) (triples r t (scene_candidates s ca)).
Proof.
  rewrite !triples_prod. rewrite <- (prod_perm _ _ _ _ (prod_swap t r) (Permutation_sym (cands_rev s ca))).
  rewrite prod_map. apply Permutation_refl'. apply map_ext. intros [[tx rx] c]. reflexivity.
Qed.
Lemma item_eq P g s cls va key trc it it' : is_item P g s cls va key trc it -> is_item P g s cls va key trc it' -> it = it'.
Proof.
  destruct trc as [[tx rx] c]. intros (A1 & A2 & A3 & _ & A5 & A6) (B1 & B2 & B3 & _ & B5 & B6).
  destruct it as [a b v p d], it' as [a' b' v' p' d']. cbn [it_tx it_rx it_valid it_path it_cand] in *.
  assert (p = p') by congruence. subst p'. congruence.
Qed.
Definition keepit (g : bool) (ap : option bool) (it : pathitem) : bool :=
  match is_true g (it_valid it) DEFAULT_TRUTH_TOL ap with Ok b => b | Err _ => false end.
Definition tell (it : pathitem) := (it_tx it, it_rx it, it_path it, it_cand it).
Lemma keep_nothing g ap it : it_valid it = nothing g ap -> keepit g ap it = false.
Proof.
  intro E. unfold keepit, is_true. rewrite E. unfold nothing. destruct (resolve g ap); [|reflexivity].
  cbn. unfold DEFAULT_TRUTH_TOL. destruct (Rltb_spec (1 - 1 / 2) 0); [exfalso; lra|reflexivity].
Qed.
Lemma valid_rev P g s cls ca va t r : good_split P -> represents (transmitters s) t -> represents (receivers s) r ->
  reversible g s cls va ->
  let v := all_valid_paths P g s cls ca va None in
  let v' := all_valid_paths P g (exchanged s) cls ca va None in
  raised v = None /\ raised v' = None /\ Permutation (map other_end_path (yielded v)) (yielded v').
Proof.
  intros G T R Rv. cbn zeta. destruct (never_rev P g s cls va Rv) as [N N'].
  destruct (C52_lemma P g s cls va ca None t r G T R) as (_ & Y & Ra).
  destruct (C52_lemma P g (exchanged s) cls va ca None r t G R T) as (_ & Y' & Ra').
  rewrite Ra, Ra', Y, Y'. clear Y Y' Ra Ra'.
  split; [eapply C51_total_lemma; eauto|]. split; [apply (C51_total_lemma P g (exchanged s) cls va ca None r t); auto|].
  pose proof (all_items P g s cls va ca t r G T R N) as F.
  pose proof (all_items P g (exchanged s) cls va ca r t G R T N') as F'. change (scene_candidates (exchanged s) ca) with (scene_candidates s ca) in F'.
  set (its := yielded (all_paths P g s cls ca va None)) in *. set (its' := yielded (all_paths P g (exchanged s) cls ca va None)) in *.
  fold (keepit g (va_approx va)).
  change (Permutation (map other_end_path (map tell (filter (keepit g (va_approx va)) its))) (map tell (filter (keepit g (va_approx va)) its'))).
  assert (Q : forall l its, Forall2 (fun trc it => is_item P g s cls va None trc it) l its ->
    exists its1, Forall2 (fun trc it => is_item P g (exchanged s) cls va None trc it) (map turn l) its1 /\
      map tell (filter (keepit g (va_approx va)) its1) = map other_end_path (map tell (filter (keepit g (va_approx va)) its))).
  { clear -Rv. intros l its F. induction F as [|[[tx rx] c] it l its H F (its1 & F1 & E1)]; [exists []; split; [constructor|reflexivity]|].
    destruct (item_rev P g s cls va tx rx c it Rv H) as (it' & H' & V' & O'). exists (it' :: its1). split; [cbn [map turn]; constructor; auto|].
    cbn [filter]. assert (K : keepit g (va_approx va) it' = keepit g (va_approx va) it) by (unfold keepit; rewrite V'; reflexivity).
    rewrite K. destruct (keepit g (va_approx va) it) eqn:E; [|exact E1]. cbn [map]. f_equal; [|exact E1].
    destruct O' as [O'|O']; [|rewrite (keep_nothing _ _ _ O') in E; discriminate].
    destruct H as (A1 & A2 & A3 & _). destruct H' as (B1 & B2 & B3 & _). unfold tell, other_end_path. rewrite O', A1, A2, A3, B1, B2, B3, map_rev. reflexivity. }
  destruct (Q _ _ F) as (its1 & F1 & E1). rewrite <- E1.
  destruct (forall2_perm _ _ _ _ (triples_turn s ca t r) F1) as (its2 & Pi & F2).
  assert (E2 : its2 = its').
  { clear -F2 F'. revert its2 F2. induction F' as [|trc it l i' H F' IH]; intros its2 F2; inversion F2; subst; [reflexivity|].
    f_equal; [eapply item_eq; eauto|auto]. }
  subst its2. apply Permutation_map. clear -Pi. induction Pi; cbn [filter]; auto.
  - destruct (keepit g (va_approx va) x); auto.
  - destruct (keepit g (va_approx va) x); destruct (keepit g (va_approx va) y); auto. constructor.
  - etransitivity; eauto.
Qed.
