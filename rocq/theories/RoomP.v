(** Proofs for PropertiesRoom. *)
From Coq Require Import Reals List Bool ZArith String Lia Lra Psatz.
From Verif Require Import Base BaseP LogicM SpecLogic GeometryM SpecGeometry VecP WallP OptimizeM PathM SpecPath PathP SpecImage ImageP
  CandidatesM SceneM SpecScene SpecRun SpecOrder SpecRecip SpecRoom RecipP.
Import ListNotations.
Local Notation length := List.length.
Open Scope R_scope.

Lemma side_same w q : side_of w q = side w q.
Proof. reflexivity. Qed.

(** Leaving a room: the first side that is crossed. *)
Lemma exit_side room A B : inside room A -> ~ inside room B ->
  forall ws, incl ws room -> (exists w, In w ws /\ side w B < 0) ->
  exists w s, In w ws /\ side w B < 0 /\ 0 <= s <= 1 /\ side w (at_ A B s) = 0 /\ forall w', In w' ws -> 0 <= side w' (at_ A B s).
Proof.
  intros IA IB. induction ws as [|w ws IH]; intros Inc (w0 & I0 & N0); [destruct I0|].
  assert (Aw : 0 <= side w A) by (apply IA; apply Inc; left; auto).
  assert (Cut : side w B < 0 -> exists s, 0 <= s <= 1 /\ side w (at_ A B s) = 0).
  { intro N. exists (side w A / (side w A - side w B)). rewrite side_at. split.
    - split; [apply Rmult_le_pos; [lra|left; apply Rinv_0_lt_compat; lra]|].
      apply Rmult_le_reg_r with (side w A - side w B); [lra|]. unfold Rdiv. rewrite Rmult_assoc, Rinv_l by lra. lra.
    - field. lra. }
  assert (Inc' : incl ws room) by (intros x H; apply Inc; right; auto).
  assert (D : (exists w', In w' ws /\ side w' B < 0) \/ forall w', In w' ws -> 0 <= side w' B).
  { clear. induction ws as [|a ws IH]; [right; intros w' []|]. destruct (Rlt_dec (side a B) 0) as [L|L].
    - left. exists a. split; [left; auto|auto].
    - destruct IH as [(w' & I & N)|H]; [left; exists w'; split; [right; auto|auto]|right].
      intros w' [<-|I]; [lra|auto]. }
  destruct D as [D|D].
  - destruct (IH Inc' D) as (w1 & s1 & I1 & N1 & S1 & E1 & F1).
    destruct (Rle_dec 0 (side w (at_ A B s1))) as [L|L].
    + exists w1, s1. split; [right; auto|]. split; auto. split; auto. split; auto. intros w' [<-|I]; auto.
    + assert (N : side w B < 0) by (rewrite side_at in L; nra). destruct (Cut N) as (s & Hs & E).
      exists w, s. split; [left; auto|]. split; auto. split; auto. split; auto.
      intros w' [<-|I]; [lra|]. specialize (F1 w' I). rewrite side_at in F1, L, E |- *.
      assert (0 <= side w' A) by (apply IA; auto).
      assert (s <= s1) by nra.
      destruct (Req_dec s1 0) as [->|Z]; [replace s with 0 in * by lra; lra|].
      assert (X : (1 - s) * side w' A + s * side w' B = (1 - s / s1) * side w' A + s / s1 * ((1 - s1) * side w' A + s1 * side w' B)) by (field; auto).
      rewrite X. assert (0 <= s / s1 <= 1).
      { split; [apply Rmult_le_pos; [lra|left; apply Rinv_0_lt_compat; lra]|].
        apply Rmult_le_reg_r with s1; [lra|]. unfold Rdiv. rewrite Rmult_assoc, Rinv_l by auto. lra. }
      nra.
  - destruct I0 as [<-|I0]; [|specialize (D _ I0); lra]. destruct (Cut N0) as (s & Hs & E).
    exists w, s. split; [left; auto|]. split; auto. split; auto. split; auto.
    intros w' [<-|I]; [lra|]. rewrite side_at. assert (0 <= side w' A) by (apply IA; auto). specialize (D _ I). nra.
Qed.
Lemma not_inside room B : ~ inside room B -> exists w, In w room /\ side w B < 0.
Proof.
  intro N. assert (D : (exists w', In w' room /\ side w' B < 0) \/ forall w', In w' room -> 0 <= side w' B).
  { clear. induction room as [|a ws IH]; [right; intros w' []|]. destruct (Rlt_dec (side a B) 0) as [L|L].
    - left. exists a. split; [left; auto|auto].
    - destruct IH as [(w' & I & N)|H]; [left; exists w'; split; [right; auto|auto]|right].
      intros w' [<-|I]; [lra|auto]. }
  destruct D as [D|D]; auto. exfalso. apply N. exact D.
Qed.
Lemma inside_dec room B : inside room B \/ ~ inside room B.
Proof.
  induction room as [|a ws IH]; [left; intros w []|]. destruct (Rle_dec 0 (side a B)) as [L|L].
  - destruct IH as [H|H]; [left|right].
    + intros w [<-|I]; auto.
    + intro K. apply H. intros w I. apply K. right. auto.
  - right. intro K. apply L. apply K. left. auto.
Qed.
Lemma exit_wall room A B : encloses room -> inside room A -> ~ inside room B ->
  exists w s t, In w room /\ side w B < 0 /\ 0 <= side w A /\ 0 <= s <= 1 /\ 0 <= t <= 1 /\ at_ (w_origin w) (w_dest w) t = at_ A B s.
Proof.
  intros E IA IB. destruct (exit_side room A B IA IB room (incl_refl _) (not_inside _ _ IB)) as (w & s & I & N & S & Z & F).
  destruct (E w (at_ A B s) I F Z) as (t & T & X). exists w, s, t. repeat split; auto; try apply S; try apply T.
Qed.
Lemma side_flip w q : side (drawn_backwards w) q = - side w q.
Proof. unfold side, drawn_backwards, cross, wall_t, vsub, origin, dest. cbn [fst snd w_origin w_dest]. ring. Qed.
Lemma not_parallel w P Q A B : side w A <> side w B ->
  (exists k, k <> 0 /\ fst Q - fst P = k * (fst (w_dest w) - fst (w_origin w)) /\ snd Q - snd P = k * (snd (w_dest w) - snd (w_origin w))) ->
  ~ parallel P Q A B.
Proof.
  intros N (k & K & E1 & E2) H. apply N. unfold parallel in H. rewrite E1, E2 in H.
  unfold side, cross, wall_t, vsub, origin, dest. cbn [fst snd].
  apply Rmult_eq_reg_l with k; auto. nra.
Qed.
Lemma exit_crosses w w' patch tol A B s t : 0 <= patch -> 0 <= tol -> w' = w \/ w' = drawn_backwards w ->
  side w B < 0 -> 0 <= side w A -> 0 <= s <= 1 -> 0 <= t <= 1 -> at_ (w_origin w) (w_dest w) t = at_ A B s ->
  crosses w' patch tol A B.
Proof.
  intros HP HT W NB PA S T E.
  assert (X : exists t', 0 <= t' <= 1 /\ at_ (w_origin w') (w_dest w') t' = at_ A B s).
  { destruct W as [->| ->]; [exists t; auto|exists (1 - t)]. split; [lra|]. rewrite <- E. unfold at_, drawn_backwards. cbn. f_equal; ring. }
  destruct X as (t' & T' & E'). assert (NS : side w' A <> side w' B) by (destruct W as [->| ->]; rewrite ?side_flip; lra).
  split.
  - apply (not_parallel w'); auto. exists (1 + 2 * patch). split; [lra|]. unfold at_. cbn [fst snd]. split; ring.
  - exists ((t' + patch) / (1 + 2 * patch)), s. split; [|split].
    + unfold meet_at. rewrite <- E'. unfold at_. cbn [fst snd]. f_equal; field; lra.
    + assert (0 <= (t' + patch) / (1 + 2 * patch) <= 1).
      { split; [apply Rmult_le_pos; [lra|left; apply Rinv_0_lt_compat; lra]|].
        apply Rmult_le_reg_r with (1 + 2 * patch); [lra|]. unfold Rdiv. rewrite Rmult_assoc, Rinv_l by lra. lra. }
      lra.
    + lra.
Qed.

(** Image paths do not leave a room. *)
Lemma stays tx ws rx objects cand room patch tol0 : encloses room -> walls_present room objects -> 0 <= patch -> 0 <= tol0 ->
  Forall2 (fun c w => exists i, c = Z.of_nat i /\ nth_error objects i = Some (OWall w)) cand ws ->
  path_loss (map OWall ws) (image_points tx ws rx) < 1 ->
  ~ obstructed (image_points tx ws rx) objects cand patch tol0 ->
  inside room tx -> forall k, (k <= S (length ws))%nat -> inside room (pt tx ws rx k).
Proof.
  intros En Pr HP HT0 HC L NO It. destruct (gp_or_repeated tx ws rx) as [G|(k0 & K0 & E0)].
  - assert (TR : forall i w, nth_error ws i = Some w -> 0 < side w (pt tx ws rx i) * side w (pt tx ws rx (S (S i)))).
    { intros i w H. apply (true_refl_side tx ws rx i w H).
      assert (G' := proj2 (gp_iff tx ws rx) G). assert (HF := image_from_ok tx ws rx).
      apply (proj1 (C32_test tx ws rx _ 1 HF G' ltac:(lra))); auto. }
    induction k as [k IH] using (well_founded_induction lt_wf). intro K. destruct k as [|k]; [rewrite pt_0; auto|].
    assert (IA : inside room (pt tx ws rx k)) by (apply IH; lia).
    destruct (inside_dec room (pt tx ws rx (S k))) as [D|D]; auto. exfalso.
    destruct (exit_wall room _ _ En IA D) as (w & s & t & I & NB & PA & S & T & E).
    assert (W : exists j w', nth_error objects j = Some (OWall w') /\ (w' = w \/ w' = drawn_backwards w)).
    { destruct (Pr w I) as [H|H]; apply In_nth_error in H; destruct H as [j H]; eauto 6. }
    destruct W as (j & w' & Ej & Ew).
    apply NO. exists k, j, (pt tx ws rx k), (pt tx ws rx (Datatypes.S k)), (OWall w'), w'.
    split; [split; apply pt_nth; lia|]. split; auto. split; [reflexivity|]. split.
    + assert (HJ : forall i, nth_error cand i = Some (Z.of_nat j) -> nth_error ws i = Some w').
      { intros i Hi. destruct (nth_error ws i) as [w1|] eqn:E1.
        - clear -HC Hi E1 Ej. revert i Hi E1. induction HC as [|c w0 cs ws0 (i0 & Ec & Eo) HC IH]; intros [|i] Hi E1; cbn in *; try discriminate.
          + injection Hi as ->. injection E1 as ->. apply Nat2Z.inj in Ec. subst i0. congruence.
          + eapply IH; eauto.
        - exfalso. apply nth_error_None in E1. assert (length cand = length ws) by (clear -HC; induction HC; cbn; auto).
          assert (i < length cand)%nat by (apply nth_error_Some; congruence). lia. }
      intros [H|(k' & -> & H)]; apply HJ in H.
      * destruct (pt_fixed tx ws rx k w' G H) as [Z _]. destruct Ew as [->| ->]; rewrite ?side_flip in Z; lra.
      * specialize (TR k' w' H). assert (IP : inside room (pt tx ws rx k')) by (apply IH; lia). specialize (IP w I).
        rewrite side_same in IP. destruct Ew as [->| ->]; rewrite ?side_flip in TR; nra.
    + apply (exit_crosses w w' patch tol0 _ _ s t); auto.
  - pose proof (collapse ws (image_points tx ws rx) k0 K0 E0 L) as C.
    induction k as [|k IH]; intro K; [rewrite pt_0; auto|]. assert (X : pt tx ws rx k = pt tx ws rx (Datatypes.S k)) by (apply C; lia).
    rewrite <- X. apply IH. lia.
Qed.
Lemma valid_stays g tx ws rx objects cand room tol patch k p : encloses room -> walls_present room objects -> 0 <= patch -> tol <= 1 ->
  Forall2 (fun c w => exists i, c = Z.of_nat i /\ nth_error objects i = Some (OWall w)) cand ws ->
  ImagePath_from tx (map OWall ws) rx = Ok p ->
  is_valid g p objects cand (map OWall ws) tol patch (Some false) k = Ok (TB true) ->
  inside room tx -> forall q, In q (xys p) -> inside room q.
Proof.
  intros En Pr HP HT HC HI V It q Hq. assert (LC : length cand = length ws) by (clear -HC; induction HC; cbn; auto).
  rewrite image_from_ok in HI. injection HI as <-. cbn [xys] in *.
  destruct (C38_lemma g (mkpath (image_points tx ws rx) (Fin (path_loss (map OWall ws) (image_points tx ws rx)))) objects cand (map OWall ws) tol patch k)
    as (b & E & Hb); cbn [xys]; rewrite ?pts_length, ?map_length; try lia.
  rewrite V in E. injection E as <-. destruct (proj1 Hb eq_refl) as (L & _ & NO). cbn in L, NO.
  apply In_nth_error in Hq. destruct Hq as [i Hi].
  assert (Li : (i < length (image_points tx ws rx))%nat) by (apply nth_error_Some; congruence). rewrite pts_length in Li.
  rewrite pt_nth in Hi by lia. injection Hi as <-. apply (stays tx ws rx objects cand room patch SEG_TOL); auto; try lia; try lra. unfold SEG_TOL; lra.
Qed.
