(** Proofs for PropertiesRoom, for scenes. *)
From Coq Require Import Reals List Bool ZArith String Lia Lra Psatz Permutation.
From Verif Require Import Base BaseP LogicM SpecLogic GeometryM SpecGeometry VecP WallP OptimizeM PathM SpecPath PathP PathSmoothP PathShapeP SpecImage ImageP
  CandidatesM SceneM SpecScene SpecRun SceneP SceneOpsP SceneRunP SceneAccP SceneGridP SpecOrder OrderP SpecRecip SpecRoom RecipP RoomP BuildM BuildP SpecBuild UtilsM.
Import ListNotations.
Local Notation length := List.length.
Open Scope R_scope.

Lemma F2_rev {A B} (R : A -> B -> Prop) l m : Forall2 R l m -> Forall2 R (rev l) (rev m).
Proof. intro H. induction H; cbn [rev]; [constructor|]. apply Forall2_app; auto. Qed.

(** From either end. *)
Lemma valid_stays_both g tx ws rx objects cand room tol patch k p : encloses room -> walls_present room objects -> 0 <= patch -> tol <= 1 ->
  Forall2 (fun c w => exists i, c = Z.of_nat i /\ nth_error objects i = Some (OWall w)) cand ws ->
  ImagePath_from tx (map OWall ws) rx = Ok p ->
  is_valid g p objects cand (map OWall ws) tol patch (Some false) k = Ok (TB true) ->
  inside room tx \/ inside room rx -> forall q, In q (xys p) -> inside room q.
Proof.
  intros En Pr HP HT HC HI V [It|Ir]; [eapply valid_stays; eauto|].
  assert (LC : length cand = length ws) by (clear -HC; induction HC; cbn; auto).
  pose proof (image_from_ok rx (rev ws) tx) as HI'. set (p' := mkpath _ _) in HI'.
  assert (Lp : length (xys p) = (length cand + 2)%nat).
  { rewrite LC. rewrite image_from_ok in HI. injection HI as <-. apply pts_length. }
  assert (L : loss_below (loss p) 1).
  { destruct (C38_lemma g p objects cand (map OWall ws) tol patch k) as (b & E & Hb); rewrite ?map_length; try lia.
    rewrite V in E. injection E as <-. destruct (proj1 Hb eq_refl) as (L & _). destruct (loss p); cbn in *; auto. lra. }
  assert (Ep : p' = backwards p) by (eapply below_one; eauto).
  assert (V' : is_valid g p' objects (rev cand) (map OWall (rev ws)) tol patch (Some false) k = Ok (TB true)).
  { rewrite Ep, (map_rev OWall). unfold backwards. rewrite C34_valid; auto. rewrite map_length. auto. }
  intros q Hq. apply (valid_stays g rx (rev ws) tx objects (rev cand) room tol patch k p'); auto.
  - apply F2_rev. auto.
  - rewrite Ep. unfold backwards. cbn [xys]. apply in_rev. rewrite rev_involutive. auto.
Qed.

Lemma dict_unique {V} (d : dict V) k a b : is_dict d -> In (k, a) d -> In (k, b) d -> a = b.
Proof.
  unfold is_dict. induction d as [|[k0 v] d IH]; intros N A B; [destruct A|]. cbn [map fst] in N. inversion N as [|? ? N0 N1]; subst.
  destruct A as [A|A], B as [B|B].
  - congruence.
  - injection A as -> _. exfalso. apply N0. apply in_map_iff. exists (k, b). auto.
  - injection B as -> _. exfalso. apply N0. apply in_map_iff. exists (k, a). auto.
  - auto.
Qed.

Section S.
Context (P : prng) (g : bool) (s : scene) (ca : candargs) (va : validargs) (room : list wall).
Context (W : forall o, In o (objects s) -> exists w, o = OWall w).
Context (Ex : resolve g (va_approx va) = false) (HT : va_tol va <= 1) (HP : 0 <= va_patch va).
Context (En : encloses room) (Pr : walls_present room (objects s)).

Lemma cand_walls c ws : length (objects_at s c) = length c -> objects_at s c = map OWall ws ->
  Forall2 (fun c w => exists i, c = Z.of_nat i /\ nth_error (objects s) i = Some (OWall w)) (map Z.of_nat c) ws.
Proof.
  clear. revert ws. induction c as [|i c IH]; intros ws L E.
  - cbn in E. destruct ws; [constructor|discriminate].
  - unfold objects_at in *. cbn [flat_map] in *. destruct (nth_error (objects s) i) as [o|] eqn:Eo.
    + destruct ws as [|w ws]; [discriminate|]. cbn [app map] in *. injection E as E1 E2. constructor; [exists i; split; congruence|].
      apply IH; auto.
    + exfalso. cbn in L. assert (X : forall c, (length (flat_map (fun i => match nth_error (objects s) i with Some o => [o] | None => [] end) c) <= length c)%nat).
      { clear. induction c as [|i c IH]; cbn; auto. rewrite app_length. destruct (nth_error (objects s) i); cbn; lia. }
      specialize (X c). lia.
Qed.
Lemma item_room tx rx c it : is_item P g s ClsImage va None (tx, rx, c) it ->
  it_valid it = TB false \/
  (it_valid it = TB true /\ (inside room (snd tx) \/ inside room (snd rx) -> forall q, In q (xys (it_path it)) -> inside room q)).
Proof.
  intros (E1 & E2 & E3 & E4 & E5 & E6). destruct (walls_at s c W) as [ws Ew]. pose proof (cand_walls c ws E4 Ew) as HC. rewrite Ew in *.
  cbn [from_tx_objects_rx] in E5. rewrite resolve_valid, Ex in E6. rewrite map_length in E4.
  destruct (C38_lemma g (it_path it) (objects s) (map Z.of_nat c) (map OWall ws) (va_tol va) (va_patch va) (va_kw va)) as (b & E & _).
  - pose proof E5 as X. rewrite image_from_ok in X. injection X as <-. cbn [xys]. rewrite pts_length, map_length. lia.
  - pose proof E5 as X. rewrite image_from_ok in X. injection X as <-. cbn [xys]. rewrite pts_length, map_length. lia.
  - assert (it_valid it = TB b) as -> by congruence. destruct b; [right|left; reflexivity]. split; auto.
    rewrite E6 in E. injection E as E. rewrite E in E6. intro I.
    eapply (valid_stays_both g (snd tx) ws (snd rx)); eauto.
Qed.
Lemma item_ends tx rx c it : is_item P g s ClsImage va None (tx, rx, c) it -> In (snd tx) (xys (it_path it)) /\ In (snd rx) (xys (it_path it)).
Proof.
  intros (_ & _ & _ & _ & E5 & _). cbn [from_tx_objects_rx] in E5. destruct (walls_at s c W) as [ws Ew]. rewrite Ew in E5.
  rewrite image_from_ok in E5. injection E5 as <-. cbn [xys]. unfold image_points. split; [left; auto|].
  right. apply in_or_app. right. left. auto.
Qed.
Lemma item_sealed tx rx c it : is_item P g s ClsImage va None (tx, rx, c) it -> separated room (snd tx) (snd rx) -> it_valid it = TB false.
Proof.
  intros I Sp. destruct (item_room _ _ _ _ I) as [H|[_ H]]; auto. exfalso. destruct (item_ends _ _ _ _ I) as [A B].
  destruct Sp as [[X Y]|[X Y]]; [apply Y; apply H; auto|apply X; apply H; auto].
Qed.
Lemma xsum_zeros l : (forall x, In x l -> x = Fin 0) -> xsum l = Fin 0.
Proof.
  intro H. unfold xsum. assert (G : forall a, a = Fin 0 -> fold_left xadd l a = Fin 0).
  { induction l as [|x l IH]; intros a Ha; [exact Ha|]. cbn [fold_left]. apply IH; [intros; apply H; right; auto|].
    rewrite Ha, (H x) by (left; auto). cbn. f_equal. ring. }
  apply G. reflexivity.
Qed.
Lemma sums_sealed f tx rx v : always_finite f -> separated room tx rx -> sums_candidates P g s ClsImage ca va None f tx rx v -> v = Fin 0.
Proof.
  intros F Sp (its & Fi & ->). apply xsum_zeros. intros x Hx. apply in_map_iff in Hx. destruct Hx as (it & <- & Hi).
  cbn [one_key_each] in Fi. rewrite combine_repeat in Fi.
  apply In_nth_error in Hi. destruct Hi as [n Hn].
  assert (exists c, is_item P g s ClsImage va None (it_tx it, tx, (it_rx it, rx), c) it) as [c I].
  { clear -Fi Hn. revert n Hn.
    assert (Fi' : Forall2 (fun c it => is_item P g s ClsImage va None (it_tx it, tx, (it_rx it, rx), c) it) (scene_candidates s ca) its).
    { revert its Fi. induction (scene_candidates s ca) as [|c cs IH]; intros its Fi; cbn [map] in Fi; inversion Fi; subst; constructor; auto. }
    clear Fi. rename Fi' into Fi. induction Fi as [|c it0 cs its0 H Fi IH]; intros [|n] Hn; cbn in Hn; try discriminate.
    - injection Hn as ->. exists c. exact H.
    - eapply IH; eauto. }
  pose proof (item_sealed _ _ _ _ I Sp) as V. unfold contribution. rewrite V.
  destruct (F tx rx (it_path it) (objects_at s (map Z.to_nat (it_cand it)))) as [y ->]. cbn [to_f xmul]. f_equal. ring.
Qed.
Lemma never : never_fails ClsImage (@None (key_t P)) s.
Proof. left. exact W. Qed.

Lemma valid_room t r n m p c tx rx : good_split P -> represents (transmitters s) t -> represents (receivers s) r ->
  In (n, m, p, c) (yielded (all_valid_paths P g s ClsImage ca va None)) -> In (n, tx) t -> In (m, rx) r ->
  inside room tx \/ inside room rx -> forall q, In q (xys p) -> inside room q.
Proof.
  intros G T R I It Ir H. destruct (C52_lemma P g s ClsImage va ca None t r G T R) as (_ & Y & _). rewrite Y in I.
  apply in_map_iff in I. destruct I as (it & E & I). injection E as <- <- <- <-. apply filter_In in I. destruct I as [I K].
  apply In_nth_error in I. destruct I as [k Hk].
  destruct (C51_lemma P g s ClsImage va ca None t r G T R) as (X & _). destruct (X k it Hk) as ([[tx' rx'] c'] & E & II). clear X.
  replace (nth_key P None k) with (@None (key_t P)) in II by reflexivity.
  assert (N : tx' = (it_tx it, tx) /\ rx' = (it_rx it, rx)).
  { apply nth_error_In in E. unfold triples in E. apply in_flat_map in E. destruct E as (t0 & H1 & E). apply in_flat_map in E. destruct E as (r0 & H2 & E).
    apply in_map_iff in E. destruct E as (c0 & Eq & _). injection Eq as <- <- <-.
    pose proof (represents_items _ _ T) as [_ DT]. pose proof (represents_items _ _ R) as [_ DR].
    destruct II as (A1 & A2 & _). destruct t0 as [n0 p0], r0 as [m0 q0]. cbn [fst snd] in *. subst n0 m0.
    split; f_equal; [apply (dict_unique t (it_tx it)); auto|apply (dict_unique r (it_rx it)); auto]. }
  destruct N as [-> ->]. destruct (item_room _ _ _ _ II) as [V|[_ V]]; [|exact (V H)].
  exfalso. rewrite V in K. unfold is_true in K. rewrite Ex in K. cbn in K. discriminate.
Qed.
Lemma acc_sealed f t r n m v tx rx : good_split P -> represents (transmitters s) t -> represents (receivers s) r -> always_finite f ->
  In (n, m, v) (yielded (accumulate_over_paths P g s ClsImage ca va None f)) -> In (n, tx) t -> In (m, rx) r -> separated room tx rx -> v = Fin 0.
Proof.
  intros G T R F I It Ir Sp. destruct (scene_candidates s ca) as [|c0 cs0] eqn:Ec.
  { rewrite C53_none in I; auto. destruct I. }
  assert (C1 : scene_candidates s ca <> []) by congruence.
  destruct (C53_lemma P g s ClsImage va ca None f t r G T R C1) as [_ A].
  pose proof (C51_total_lemma P g s ClsImage va ca None t r G T R never) as Ra. rewrite Ra in A. rewrite A in I.
  apply in_map_iff in I. destruct I as ([[n0 p0] [m0 q0]] & E & I). apply in_prod_iff in I. destruct I as [It' Ir'].
  destruct (facc_sums P g s ClsImage ca va None f p0 q0 G never) as (u & _ & U).
  rewrite (sums_pair P g s s ClsImage va ca f t r (n0, p0) (m0, q0) u) in E by auto. cbn [fst] in E. injection E as -> -> ->.
  pose proof (represents_items _ _ T) as [_ DT]. pose proof (represents_items _ _ R) as [_ DR].
  assert (p0 = tx) by (apply (dict_unique t n); auto). assert (q0 = rx) by (apply (dict_unique r m); auto). subst.
  eapply sums_sealed; eauto.
Qed.
Lemma rx_map_sealed f gradop X Y t : good_split P -> represents (transmitters s) t -> same_shape X Y -> always_finite f ->
  exists result, accumulate_on_receivers_grid P g s ClsImage ca va None f gradop MVal X Y = Ok (mkgen result None) /\
    map fst result = map fst t /\
    forall k name pos Z i j x y, nth_error t k = Some (name, pos) -> nth_error result k = Some (name, Z) ->
      entry X i j = Some x -> entry Y i j = Some y -> separated room pos (x, y) -> entry Z i j = Some (CVal (Fin 0)).
Proof.
  intros G T Sh F. destruct (C54_rx P g s ClsImage ca va None f gradop MVal X Y t G T never Sh) as (result & E & Names & H).
  exists result. split; auto. split; auto. intros k name pos Z i j x y Ht Hr Hx Hy Sp.
  destruct (H k name pos Z Ht Hr) as [_ Q]. destruct (Q i j x y Hx Hy) as (c & h & Ec & M & Hh & V & _). rewrite Ec.
  destruct c as [z| |]; cbn in M; try contradiction. specialize (V ltac:(discriminate)). cbn [val_of] in V.
  destruct (Hh (x, y)) as (v & Ev & Sv). do 2 f_equal. assert (z = v) by congruence. subst. eapply sums_sealed; eauto.
Qed.
End S.

(** Rectangles. *)
Lemma inside_rectangle x0 y0 x1 y1 q : x0 < x1 -> y0 < y1 -> (inside (rectangle x0 y0 x1 y1) q <-> x0 <= fst q <= x1 /\ y0 <= snd q <= y1).
Proof.
  intros X Y. destruct q as [a b]. unfold inside, rectangle, side_of. cbn [fst snd In]. split.
  - intro H.
    pose proof (H _ (or_introl eq_refl)) as H1. pose proof (H _ (or_intror (or_introl eq_refl))) as H2.
    pose proof (H _ (or_intror (or_intror (or_introl eq_refl)))) as H3. pose proof (H _ (or_intror (or_intror (or_intror (or_introl eq_refl))))) as H4.
    cbn [w_origin w_dest fst snd] in *. repeat split; nra.
  - intros [Hx Hy] w I. destruct I as [<-|[<-|[<-|[<-|[]]]]]; cbn [w_origin w_dest fst snd]; nra.
Qed.
Lemma rectangle_encloses x0 y0 x1 y1 : x0 < x1 -> y0 < y1 -> encloses (rectangle x0 y0 x1 y1).
Proof.
  intros X Y w q I Iq S. apply inside_rectangle in Iq; auto. destruct q as [a b]. cbn [fst snd] in Iq. destruct Iq as [Ha Hb].
  unfold rectangle in I. cbn [In] in I. destruct I as [<-|[<-|[<-|[<-|[]]]]]; unfold side_of in S; cbn [w_origin w_dest fst snd] in *.
  - assert (b = y0) by nra. subst. exists ((a - x0) / (x1 - x0)). split.
    + split; [apply Rmult_le_pos; [lra|left; apply Rinv_0_lt_compat; lra]|]. apply Rmult_le_reg_r with (x1 - x0); [lra|].
      unfold Rdiv. rewrite Rmult_assoc, Rinv_l; lra.
    + unfold at_. cbn. f_equal; field; lra.
  - assert (a = x1) by nra. subst. exists ((b - y0) / (y1 - y0)). split.
    + split; [apply Rmult_le_pos; [lra|left; apply Rinv_0_lt_compat; lra]|]. apply Rmult_le_reg_r with (y1 - y0); [lra|].
      unfold Rdiv. rewrite Rmult_assoc, Rinv_l; lra.
    + unfold at_. cbn. f_equal; field; lra.
  - assert (b = y1) by nra. subst. exists ((x1 - a) / (x1 - x0)). split.
    + split; [apply Rmult_le_pos; [lra|left; apply Rinv_0_lt_compat; lra]|]. apply Rmult_le_reg_r with (x1 - x0); [lra|].
      unfold Rdiv. rewrite Rmult_assoc, Rinv_l; lra.
    + unfold at_. cbn. f_equal; field; lra.
  - assert (a = x0) by nra. subst. exists ((y1 - b) / (y1 - y0)). split.
    + split; [apply Rmult_le_pos; [lra|left; apply Rinv_0_lt_compat; lra]|]. apply Rmult_le_reg_r with (y1 - y0); [lra|].
      unfold Rdiv. rewrite Rmult_assoc, Rinv_l; lra.
    + unfold at_. cbn. f_equal; field; lra.
Qed.
Lemma square_present s : (exists l, objects s = map OWall (rectangle 0 0 1 1) ++ l) -> walls_present (rectangle 0 0 1 1) (objects s).
Proof. intros [l ->] w I. left. apply in_or_app. left. apply in_map. auto. Qed.
Lemma builtin_walls name_scene ratio tx rx :
  name_scene = basic_scene tx rx \/ name_scene = square_scene tx rx \/ name_scene = square_scene_with_wall ratio tx rx \/ name_scene = square_scene_with_obstacle ratio tx rx ->
  (forall o, In o (objects name_scene) -> exists w, o = OWall w) /\ walls_present (rectangle 0 0 1 1) (objects name_scene).
Proof.
  intros [->|[->|[->| ->]]]; (split; [intros o I; cbn in I; decompose [or] I; subst; try contradiction; eexists; reflexivity|apply square_present]).
  - exists [mkw (4/10) 0 (4/10) (4/10); mkw (4/10) (4/10) (3/10) (4/10); mkw (1/10) (4/10) 0 (4/10)]. reflexivity.
  - exists []. reflexivity.
  - eexists. reflexivity.
  - eexists. reflexivity.
Qed.
Lemma obstacle_present ratio tx rx : 
  walls_present (rectangle (5/10 - 5/10 * ratio) (5/10 - 5/10 * ratio) (5/10 + 5/10 * ratio) (5/10 + 5/10 * ratio)) (objects (square_scene_with_obstacle ratio tx rx)).
Proof. intros w I. left. unfold rectangle in I. cbn in I. cbn. decompose [or] I; subst; auto 12. Qed.

(** Lines of sight in the built-in scenes. *)
Lemma los_valid g k a b os tol patch : 0 < tol ->
  (forall w, In (OWall w) os -> ~ crosses w patch SEG_TOL a b) -> (forall o, In o os -> exists w, o = OWall w) ->
  is_valid g (mkpath [a; b] (Fin 0)) os [] [] tol patch (Some false) k = Ok (TB true).
Proof.
  intros T N W. destruct (C38_lemma g (mkpath [a; b] (Fin 0)) os [] [] tol patch k) as (v & -> & H); cbn; try lia.
  do 2 f_equal. apply H. cbn [loss xys]. split; [exact T|]. split.
  - intros i o w q Ho. destruct i; discriminate.
  - intros (i & j & A & B & o & w & [HA HB] & Ho & Hw & _ & C). destruct i as [|[|i]]; cbn in HA, HB; try discriminate.
    injection HA as <-. injection HB as <-. apply nth_error_In in Ho. destruct (W _ Ho) as [w' ->]. cbn in Hw. injection Hw as <-. exact (N _ Ho C).
Qed.
Lemma los_square g k : is_valid g (mkpath [SQUARE_TX; SQUARE_RX] (Fin 0)) (objects (square_scene SQUARE_TX SQUARE_RX)) [] []
  DEFAULT_TOL DEFAULT_PATCH (Some false) k = Ok (TB true).
Proof.
  apply los_valid; [unfold DEFAULT_TOL; lra| |].
  - intros w I (_ & s & t & M & Hs & Ht). unfold SEG_TOL, DEFAULT_PATCH in *. cbn in I.
    repeat (destruct I as [I|I]; [injection I as <-; unfold meet_at, at_ in M; cbn [fst snd w_origin w_dest SQUARE_TX SQUARE_RX] in M; injection M as M1 M2; lra|]).
    destruct I.
  - intros o I. cbn in I. decompose [or] I; subst; try contradiction; eexists; reflexivity.
Qed.
Lemma los_entrance g k : is_valid g (mkpath [(2/10, 2/10); (2/10, 6/10)] (Fin 0)) (objects (basic_scene (2/10, 2/10) (2/10, 6/10))) [] []
  DEFAULT_TOL DEFAULT_PATCH (Some false) k = Ok (TB true).
Proof.
  apply los_valid; [unfold DEFAULT_TOL; lra| |].
  - intros w I (_ & s & t & M & Hs & Ht). unfold SEG_TOL, DEFAULT_PATCH in *. cbn in I.
    repeat (destruct I as [I|I]; [injection I as <-; unfold meet_at, at_ in M; cbn [fst snd w_origin w_dest] in M; injection M as M1 M2; lra|]).
    destruct I.
  - intros o I. cbn in I. decompose [or] I; subst; try contradiction; eexists; reflexivity.
Qed.
Lemma acc_names P g s ca va f t r : good_split P -> represents (transmitters s) t -> represents (receivers s) r ->
  (forall o, In o (objects s) -> exists w, o = OWall w) ->
  forall n m v, In (n, m, v) (yielded (accumulate_over_paths P g s ClsImage ca va None f)) -> In n (map fst t) /\ In m (map fst r).
Proof.
  intros G T R W n m v I. destruct (scene_candidates s ca) as [|c0 cs0] eqn:Ec.
  { rewrite C53_none in I; auto. destruct I. }
  assert (C1 : scene_candidates s ca <> []) by congruence.
  destruct (C53_lemma P g s ClsImage va ca None f t r G T R C1) as [_ A].
  pose proof (C51_total_lemma P g s ClsImage va ca None t r G T R (or_introl W)) as Ra. rewrite Ra in A. rewrite A in I.
  apply in_map_iff in I. destruct I as ([[n0 p0] [m0 q0]] & E & I). apply in_prod_iff in I. destruct I as [It Ir].
  unfold pair_result in E. cbn [fst snd] in E. injection E as -> -> _. split; apply in_map_iff; [exists (n, p0)|exists (m, q0)]; auto.
Qed.

(** Smoothed validity. *)
Lemma smooth_exact P g s va tx rx c it : (forall o, In o (objects s) -> exists w, o = OWall w) ->
  resolve g (va_approx va) = true -> shipped (va_kw va) -> 0 < ak_alpha (va_kw va) ->
  is_item P g s ClsImage va None (tx, rx, c) it -> is_true g (it_valid it) DEFAULT_TRUTH_TOL (va_approx va) = Ok true ->
  is_valid g (it_path it) (objects s) (map Z.of_nat c) (objects_at s c) (va_tol va) (va_patch va) (Some false) (va_kw va) = Ok (TB true).
Proof.
  intros W Re Sh Al (E1 & E2 & E3 & E4 & E5 & E6) K. cbn [from_tx_objects_rx] in E5. destruct (walls_at s c W) as [ws Ew]. rewrite Ew in *.
  rewrite resolve_valid, Re in E6. rewrite map_length in E4.
  assert (Lp : length (xys (it_path it)) = (length ws + 2)%nat) by (rewrite image_from_ok in E5; injection E5 as <-; apply pts_length).
  assert (K' : is_true g (it_valid it) DEFAULT_TRUTH_TOL (Some true) = Ok true) by (unfold is_true in *; rewrite Re in K; exact K).
  eapply (C40_both g (va_kw va)); eauto; rewrite ?map_length; lia.
Qed.
Lemma valid_room_smooth P g s ca va room t r n m p c tx rx : (forall o, In o (objects s) -> exists w, o = OWall w) ->
  resolve g (va_approx va) = true -> shipped (va_kw va) -> 0 < ak_alpha (va_kw va) -> va_tol va <= 1 -> 0 <= va_patch va ->
  encloses room -> walls_present room (objects s) ->
  good_split P -> represents (transmitters s) t -> represents (receivers s) r ->
  In (n, m, p, c) (yielded (all_valid_paths P g s ClsImage ca va None)) -> In (n, tx) t -> In (m, rx) r ->
  inside room tx \/ inside room rx -> forall q, In q (xys p) -> inside room q.
Proof.
  intros W Re Sh Al HT HP En Pr G T R I It Ir H. destruct (C52_lemma P g s ClsImage va ca None t r G T R) as (Y0 & Y & _). rewrite Y in I.
  apply in_map_iff in I. destruct I as (it & E & I). injection E as <- <- <- <-. apply filter_In in I. destruct I as [I K].
  destruct (is_true g (it_valid it) DEFAULT_TRUTH_TOL (va_approx va)) as [b|] eqn:Eb; [|discriminate]. subst b.
  apply In_nth_error in I. destruct I as [k Hk].
  destruct (C51_lemma P g s ClsImage va ca None t r G T R) as (X & _). destruct (X k it Hk) as ([[tx' rx'] c'] & E & II). clear X.
  replace (nth_key P None k) with (@None (key_t P)) in II by reflexivity.
  assert (N : tx' = (it_tx it, tx) /\ rx' = (it_rx it, rx)).
  { apply nth_error_In in E. unfold triples in E. apply in_flat_map in E. destruct E as (t0 & H1 & E). apply in_flat_map in E. destruct E as (r0 & H2 & E).
    apply in_map_iff in E. destruct E as (c0 & Eq & _). injection Eq as <- <- <-.
    pose proof (represents_items _ _ T) as [_ DT]. pose proof (represents_items _ _ R) as [_ DR].
    destruct II as (A1 & A2 & _). destruct t0 as [n0 p0], r0 as [m0 q0]. cbn [fst snd] in *. subst n0 m0.
    split; f_equal; [apply (dict_unique t (it_tx it)); auto|apply (dict_unique r (it_rx it)); auto]. }
  destruct N as [-> ->]. pose proof (smooth_exact P g s va _ _ _ _ W Re Sh Al II Eb) as V.
  destruct II as (E1 & E2 & E3 & E4 & E5 & E6). destruct (walls_at s c' W) as [ws Ew].
  pose proof (cand_walls s c' ws E4 Ew) as HC. rewrite Ew in *. cbn [from_tx_objects_rx snd] in E5.
  eapply (valid_stays_both g tx ws rx); eauto.
Qed.
