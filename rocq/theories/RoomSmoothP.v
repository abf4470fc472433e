(** Proofs for PropertiesLeak: how much a smoothed validity lets through the walls. *)
From Coq Require Import Reals List Bool ZArith String Lia Lra Psatz Permutation.
From Verif Require Import Base BaseP LogicM SpecLogic GeometryM SpecGeometry VecP WallP SegP OptimizeM PathM SpecPath PathP PathSmoothP PathShapeP SpecImage ImageP
  LogicP CandidatesM SceneM SpecScene SpecRun SceneP SceneOpsP SceneRunP SceneAccP SceneGridP SpecOrder OrderP SpecRecip SpecRoom RecipP RoomP RoomSceneP BuildM UtilsM SpecSlope SlopeP.
Import ListNotations.
Local Notation length := List.length.
Open Scope R_scope.

Lemma sat_not_obstructed m p objects cand inter tol patch : -5 / 1000 < m -> satisfied_by m p objects cand inter tol patch ->
  ~ obstructed (xys p) objects cand patch 0.
Proof.
  intros M (_ & _ & S) (i & j & A & B & o & w & H1 & H2 & H3 & H4 & NP & s & t & X & Hs & Ht).
  destruct (S i j A B o w H1 H2 H3 H4) as [Q|Q]; [contradiction|]. specialize (Q s t X). lra.
Qed.
Lemma sat_stays m tx ws rx objects cand room tol patch : encloses room -> walls_present room objects -> 0 <= patch -> tol <= 995 / 1000 ->
  -5 / 1000 < m ->
  Forall2 (fun c w => exists i, c = Z.of_nat i /\ nth_error objects i = Some (OWall w)) cand ws ->
  satisfied_by m (mkpath (image_points tx ws rx) (Fin (path_loss (map OWall ws) (image_points tx ws rx)))) objects cand (map OWall ws) tol patch ->
  inside room tx -> inside room rx.
Proof.
  intros En Pr HP HT M HC S It. pose proof (sat_not_obstructed _ _ _ _ _ _ _ M S) as NO. destruct S as (L & _). cbn [loss loss_below_by xys] in *.
  pose proof (stays tx ws rx objects cand room patch 0 En Pr HP (Rle_refl 0) HC ltac:(lra) NO It (S (length ws)) (le_n _)) as X.
  rewrite pt_last in X. exact X.
Qed.
Definition leaks (k : akw) : R := act k (-5 / 1000).
Lemma leak_from g tx ws rx objects cand room tol patch k v : encloses room -> walls_present room objects -> 0 <= patch -> tol <= 995 / 1000 ->
  shipped k -> 0 < ak_alpha k ->
  Forall2 (fun c w => exists i, c = Z.of_nat i /\ nth_error objects i = Some (OWall w)) cand ws ->
  is_valid g (mkpath (image_points tx ws rx) (Fin (path_loss (map OWall ws) (image_points tx ws rx)))) objects cand (map OWall ws) tol patch (Some true) k = Ok (fl v) ->
  inside room tx -> ~ inside room rx -> v <= leaks k.
Proof.
  intros En Pr HP HT Sh Al HC E It Ir. apply Rnot_lt_le. intro C. set (p := mkpath _ _) in *.
  assert (LC : length cand = length ws) by (clear -HC; induction HC; cbn; auto).
  assert (L1 : (length (xys p) <= length cand + 2)%nat) by (unfold p; cbn [xys]; rewrite pts_length; lia).
  assert (L2 : (length (map OWall ws) < length (xys p))%nat) by (unfold p; cbn [xys]; rewrite pts_length, map_length; lia).
  pose proof (score_range _ _ _ _ _ _ _ _ _ Sh E) as SR. unfold leaks in C. pose proof (act_range k (-5 / 1000) Sh) as AR.
  destruct (act_surj k ((v + act k (-5 / 1000)) / 2) Sh Al) as (m & Em & T); [lra|].
  assert (M : -5 / 1000 < m). { apply Rnot_le_lt. intro L. apply (act_mono k) in L; auto; lra. }
  apply Ir. apply (sat_stays m tx ws rx objects cand room tol patch); auto.
  apply (above_sat g k p objects cand (map OWall ws) tol patch v); auto. lra.
Qed.
Lemma leak_both g tx ws rx objects cand room tol patch k v : encloses room -> walls_present room objects -> 0 <= patch -> tol <= 995 / 1000 ->
  shipped k -> 0 < ak_alpha k ->
  Forall2 (fun c w => exists i, c = Z.of_nat i /\ nth_error objects i = Some (OWall w)) cand ws ->
  is_valid g (mkpath (image_points tx ws rx) (Fin (path_loss (map OWall ws) (image_points tx ws rx)))) objects cand (map OWall ws) tol patch (Some true) k = Ok (fl v) ->
  separated room tx rx -> v <= leaks k.
Proof.
  intros En Pr HP HT Sh Al HC E [[It Ir]|[It Ir]]; [eapply leak_from; eauto|].
  apply Rnot_lt_le. intro C. set (p := mkpath _ _) in *.
  assert (LC : length cand = length ws) by (clear -HC; induction HC; cbn; auto).
  assert (Lp : length (xys p) = (length cand + 2)%nat) by (unfold p; cbn [xys]; rewrite pts_length; lia).
  assert (L2 : (length (map OWall ws) < length (xys p))%nat) by (rewrite map_length; lia).
  (* the loss is small *)
  pose proof (score_range _ _ _ _ _ _ _ _ _ Sh E) as SR. unfold leaks in C. pose proof (act_range k (-5 / 1000) Sh) as AR.
  destruct (act_surj k ((v + act k (-5 / 1000)) / 2) Sh Al) as (m & Em & T); [lra|].
  assert (M : -5 / 1000 < m). { apply Rnot_le_lt. intro L. apply (act_mono k) in L; auto; lra. }
  assert (S : satisfied_by m p objects cand (map OWall ws) tol patch).
  { apply (above_sat g k p objects cand (map OWall ws) tol patch v); auto; lia || lra. }
  destruct S as (SL & _). unfold p in SL. cbn [loss loss_below_by] in SL.
  assert (Ep : mkpath (image_points rx (rev ws) tx) (Fin (path_loss (map OWall (rev ws)) (image_points rx (rev ws) tx))) = backwards p).
  { apply (below_one tx ws rx p); [apply image_from_ok|apply image_from_ok|]. unfold p. cbn [loss loss_below]. lra. }
  assert (v <= leaks k); [|unfold leaks in *; lra]. apply (leak_from g rx (rev ws) tx objects (rev cand) room tol patch k v); auto.
  - apply F2_rev. auto.
  - rewrite Ep, (map_rev OWall). unfold backwards. rewrite C34_valid; auto. rewrite map_length. auto.
Qed.

Lemma xsum_bounded l B : 0 <= B -> (forall x, In x l -> exists y, x = Fin y /\ Rabs y <= B) ->
  exists y, xsum l = Fin y /\ Rabs y <= INR (length l) * B.
Proof.
  intros HB. unfold xsum.
  assert (G : forall l a b, (forall x, In x l -> exists y, x = Fin y /\ Rabs y <= B) -> Rabs a <= b ->
    exists y, fold_left xadd l (Fin a) = Fin y /\ Rabs y <= INR (length l) * B + b).
  { clear l. induction l as [|x l IH]; intros a b H Ha.
    - exists a. split; auto. cbn [length INR]. lra.
    - destruct (H x (or_introl eq_refl)) as (y & -> & Hy). cbn [fold_left xadd].
      destruct (IH (a + y) (b + B)) as (z & Ez & Hz); [intros; apply H; right; auto| |].
      + pose proof (Rabs_triang a y). lra.
      + exists z. split; auto. cbn [length]. rewrite S_INR. lra. }
  intro H. destruct (G l 0 0 H) as (y & E & Hy); [rewrite Rabs_R0; lra|]. exists y. split; auto. lra.
Qed.

Section Leak.
Context (P : prng) (g : bool) (s : scene) (ca : candargs) (va : validargs) (room : list wall).
Context (W : forall o, In o (objects s) -> exists w, o = OWall w).
Context (Re : resolve g (va_approx va) = true) (Sh : shipped (va_kw va)) (Al : 0 < ak_alpha (va_kw va)).
Context (HT : va_tol va <= 995 / 1000) (HP : 0 <= va_patch va).
Context (En : encloses room) (Pr : walls_present room (objects s)).

Lemma item_leak tx rx c it : is_item P g s ClsImage va None (tx, rx, c) it -> separated room (snd tx) (snd rx) ->
  exists v, it_valid it = TF (Fin v) /\ 0 <= v <= leaks (va_kw va).
Proof.
  intros (E1 & E2 & E3 & E4 & E5 & E6) Sp. destruct (walls_at s c W) as [ws Ew]. pose proof (cand_walls s c ws E4 Ew) as HC. rewrite Ew in *.
  cbn [from_tx_objects_rx] in E5. rewrite resolve_valid, Re in E6. rewrite map_length in E4.
  rewrite image_from_ok in E5. injection E5 as E5. rewrite <- E5 in E6.
  destruct (shape_valid g (it_path it) (objects s) (map Z.of_nat c) (map OWall ws) (va_tol va) (va_patch va) (va_kw va) Sh) as (v & E & V).
  { rewrite <- E5. cbn [xys]. rewrite pts_length, map_length. lia. }
  rewrite <- E5 in E. exists v. assert (it_valid it = TF (Fin v)) as -> by (rewrite E6 in E; injection E; auto). split; auto.
  split; [apply (score_range _ _ _ _ _ _ _ _ _ Sh E)|]. eapply leak_both; eauto.
Qed.
Lemma sums_leak f M tx rx v : (forall p os, exists y, f tx rx p os = Fin y /\ Rabs y <= M) -> separated room tx rx ->
  sums_candidates P g s ClsImage ca va None f tx rx v ->
  exists x, v = Fin x /\ Rabs x <= INR (length (scene_candidates s ca)) * (M * leaks (va_kw va)).
Proof.
  intros F Sp (its & Fi & ->). cbn [one_key_each] in Fi. rewrite combine_repeat in Fi.
  assert (Ln : length its = length (scene_candidates s ca)).
  { pose proof (Forall2_len _ _ _ Fi) as X. rewrite map_length in X. auto. }
  assert (M0 : 0 <= M). { destruct (F (mkpath [] (Fin 0)) []) as (y & _ & Hy). pose proof (Rabs_pos y). lra. }
  assert (L0 : 0 <= leaks (va_kw va)) by (unfold leaks; apply act_range; auto).
  destruct (xsum_bounded (map (contribution s f tx rx) its) (M * leaks (va_kw va))) as (x & Ex & Hx).
  - apply Rmult_le_pos; auto.
  - intros x Hx. apply in_map_iff in Hx. destruct Hx as (it & <- & Hi). apply In_nth_error in Hi. destruct Hi as [n Hn].
    assert (exists c, is_item P g s ClsImage va None (it_tx it, tx, (it_rx it, rx), c) it) as [c I].
    { clear -Fi Hn. revert n Hn.
      assert (Fi' : Forall2 (fun c it => is_item P g s ClsImage va None (it_tx it, tx, (it_rx it, rx), c) it) (scene_candidates s ca) its).
      { revert its Fi. induction (scene_candidates s ca) as [|c cs IH]; intros its Fi; cbn [map] in Fi; inversion Fi; subst; constructor; auto. }
      clear Fi. rename Fi' into Fi. induction Fi as [|c it0 cs its0 H Fi IH]; intros [|n] Hn; cbn in Hn; try discriminate.
      - injection Hn as ->. exists c. exact H.
      - eapply IH; eauto. }
    destruct (item_leak _ _ _ _ I Sp) as (v & Ev & Hv). unfold contribution. rewrite Ev.
    destruct (F (it_path it) (objects_at s (map Z.to_nat (it_cand it)))) as (y & -> & Hy). cbn [to_f xmul]. exists (v * y). split; auto.
    rewrite Rabs_mult, (Rabs_right v) by lra. rewrite (Rmult_comm M). apply Rmult_le_compat; try lra. apply Rabs_pos.
  - exists x. split; auto. rewrite map_length, Ln in Hx. exact Hx.
Qed.
Lemma acc_leak f M t r n m v tx rx : good_split P -> represents (transmitters s) t -> represents (receivers s) r ->
  (forall p os, exists y, f tx rx p os = Fin y /\ Rabs y <= M) ->
  In (n, m, v) (yielded (accumulate_over_paths P g s ClsImage ca va None f)) -> In (n, tx) t -> In (m, rx) r -> separated room tx rx ->
  exists x, v = Fin x /\ Rabs x <= INR (length (scene_candidates s ca)) * (M * leaks (va_kw va)).
Proof.
  intros G T R F I It Ir Sp. destruct (scene_candidates s ca) as [|c0 cs0] eqn:Ec.
  { rewrite C53_none in I; auto. destruct I. }
  rewrite <- Ec. assert (C1 : scene_candidates s ca <> []) by congruence.
  destruct (C53_lemma P g s ClsImage va ca None f t r G T R C1) as [_ A].
  pose proof (C51_total_lemma P g s ClsImage va ca None t r G T R (or_introl W)) as Ra. rewrite Ra in A. rewrite A in I.
  apply in_map_iff in I. destruct I as ([[n0 p0] [m0 q0]] & E & I). apply in_prod_iff in I. destruct I as [It' Ir'].
  destruct (facc_sums P g s ClsImage ca va None f p0 q0 G (or_introl W)) as (u & _ & U).
  rewrite (sums_pair P g s s ClsImage va ca f t r (n0, p0) (m0, q0) u) in E by auto. cbn [fst] in E. injection E as -> -> ->.
  pose proof (represents_items _ _ T) as [_ DT]. pose proof (represents_items _ _ R) as [_ DR].
  assert (p0 = tx) by (apply (dict_unique t n); auto). assert (q0 = rx) by (apply (dict_unique r m); auto). subst.
  eapply sums_leak; eauto.
Qed.
Lemma rx_map_leak f M gradop X Y t : good_split P -> represents (transmitters s) t -> same_shape X Y ->
  (forall tx rx p os, exists y, f tx rx p os = Fin y /\ Rabs y <= M) ->
  exists result, accumulate_on_receivers_grid P g s ClsImage ca va None f gradop MVal X Y = Ok (mkgen result None) /\
    map fst result = map fst t /\
    forall k name pos Z i j x y, nth_error t k = Some (name, pos) -> nth_error result k = Some (name, Z) ->
      entry X i j = Some x -> entry Y i j = Some y -> separated room pos (x, y) ->
      exists z, entry Z i j = Some (CVal (Fin z)) /\ Rabs z <= INR (length (scene_candidates s ca)) * (M * leaks (va_kw va)).
Proof.
  intros G T Hs F. destruct (C54_rx P g s ClsImage ca va None f gradop MVal X Y t G T (or_introl W) Hs) as (result & E & Names & H).
  exists result. split; auto. split; auto. intros k name pos Z i j x y Ht Hr Hx Hy Sp.
  destruct (H k name pos Z Ht Hr) as [_ Q]. destruct (Q i j x y Hx Hy) as (c & h & Ec & Mo & Hh & V & _). rewrite Ec.
  destruct c as [z| |]; cbn in Mo; try contradiction. specialize (V ltac:(discriminate)). cbn [val_of] in V.
  destruct (Hh (x, y)) as (v & Ev & Sv). assert (z = v) by congruence. subst z.
  destruct (sums_leak f M pos (x, y) v) as (u & -> & Hu); auto. exists u. auto.
Qed.
End Leak.

Lemma leaks_hard alpha : leaks (mkakw alpha hard_sigmoid) = Rmax 0 (Rmin 1 (1 / 2 - alpha / 1200)).
Proof. unfold leaks. rewrite act_hard. unfold hs. repeat mmcase; lra. Qed.
Lemma leaks_sig alpha : leaks (mkakw alpha sigmoid) = 1 / (1 + exp (alpha / 200)).
Proof. unfold leaks. rewrite sig_val. do 3 f_equal. field. Qed.
