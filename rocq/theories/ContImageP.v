(** Continuity of the image method and of the accumulated values. *)
From Coq Require Import Reals List Bool ZArith Lra Lia.
From Verif Require Import Base BaseP LogicM SpecLogic LogicP GeometryM SpecGeometry VecP ShapeP WallP SegP OptimizeM PathM SpecPath SpecImage
  PathP PathSmoothP PathShapeP ImageP SpecCont ContP ContPathP.
Import ListNotations.
Open Scope R_scope.

Lemma oconv_wall u o w : oconv u o -> wall_of o = Some w -> exists ws, wconv ws w /\ forall n, as_wall (u n) = Some (ws n).
Proof.
  destruct o as [w'|w' phi|q]; cbn; intros O E; inversion E; subst.
  - destruct O as (ws & X & H). exists ws. split; auto. intro n. rewrite X. reflexivity.
  - destruct O as (ws & phis & X & H & _). exists ws. split; auto. intro n. rewrite X. reflexivity.
Qed.
Lemma oconv_kind u o n : oconv u o -> kind_of (u n) = kind_of o.
Proof.
  destruct o as [w'|w' phi|q]; cbn; intros O.
  - destruct O as (ws & X & H). rewrite X. reflexivity.
  - destruct O as (ws & phis & X & H & _). rewrite X. reflexivity.
  - destruct O as (qs & X & H). rewrite X. reflexivity.
Qed.
Lemma as_walls_of os ws : map wall_of os = map Some ws -> as_walls os = Some ws.
Proof.
  revert ws. induction os as [|o os IH]; intros [|w ws] E; try discriminate; auto. cbn in E. injection E as E1 E2.
  cbn. rewrite (IH ws E2). destruct o; cbn in *; congruence.
Qed.
Lemma lconv_walls us os ws : lconv oconv us os -> map wall_of os = map Some ws ->
  exists wss, (forall n, as_walls (us n) = Some (wss n)) /\ lconv wconv wss ws.
Proof.
  intros (ss & H & F). revert us ws H. induction F as [|s o ss os S1 F IH]; intros us ws H E.
  - destruct ws; [|discriminate]. exists (fun _ => []). split; [|apply lconv_nil]. intro n. rewrite H. reflexivity.
  - destruct ws as [|w ws]; [discriminate|]. cbn in E. injection E as E1 E2.
    destruct (oconv_wall _ _ _ S1 E1) as (w0 & W1 & W2).
    destruct (IH (fun n => map (fun s => s n) ss) ws) as (wss & A & (vs & V & G)); auto.
    exists (fun n => w0 n :: wss n). split.
    + intro n. rewrite H. cbn. rewrite W2, A. reflexivity.
    + exists (w0 :: vs). split; [|constructor; auto]. intro n. rewrite V. reflexivity.
Qed.
Lemma stack_kinds os os' : map kind_of os = map kind_of os' -> (exists s, stack_leaves os = Ok s) -> exists s, stack_leaves os' = Ok s.
Proof.
  unfold stack_leaves. intro E. destruct os as [|o os], os' as [|o' os']; try discriminate; auto.
  assert (F : forall k l l', map kind_of l = map kind_of l' -> forallb (fun o => kind_eqb (kind_of o) k) l = forallb (fun o => kind_eqb (kind_of o) k) l').
  { intros k l. induction l as [|x l IH]; intros [|y l'] M; try discriminate; auto. cbn in *. injection M as M1 M2. rewrite M1, (IH l'); auto. }
  assert (K : kind_of o = kind_of o') by (cbn in E; congruence). rewrite <- K. rewrite (F (kind_of o) _ _ E).
  destruct (forallb _ (o' :: os')); intros [s X]; [eauto|discriminate].
Qed.

Section Image.
  Variables (txs : nat -> vec) (tx : vec) (wss : nat -> list wall) (ws : list wall) (rxs : nat -> vec) (rx : vec).
  Hypotheses (HT : pconv txs tx) (HW : lconv wconv wss ws) (HR : pconv rxs rx) (G : gp tx ws rx).
  Let len : forall n, length (wss n) = length ws := lconv_length _ _ _ HW.
  Lemma gp_proper i w : nth_error ws i = Some w -> proper w.
  Proof. intro H. apply (gp_step tx ws rx i w G H). Qed.
  Lemma img_cv i : (i <= length ws)%nat -> pconv (fun n => img (txs n) (wss n) i) (img tx ws i).
  Proof.
    induction i as [|i IH]; intro L; [exact HT|].
    destruct (nth_error ws i) as [w|] eqn:E; [|apply nth_error_None in E; lia].
    destruct (lconv_nth _ _ _ _ _ HW E) as (s & S1 & S2). rewrite (img_S _ _ _ _ E).
    apply (pconv_ext (fun n => image_of (s n) (img (txs n) (wss n) i))).
    - intro n. rewrite (img_S _ _ _ _ (S2 n)). reflexivity.
    - apply image_cv; auto; [apply (gp_proper i w E)|apply IH; lia].
  Qed.
  Lemma pt_cv m : forall i, (i + m = S (length ws))%nat -> pconv (fun n => pt (txs n) (wss n) (rxs n) i) (pt tx ws rx i).
  Proof.
    induction m as [|m IH]; intros i L.
    - replace i with (S (length ws)) by lia. rewrite pt_last. apply (pconv_ext rxs); [|exact HR].
      intro n. rewrite <- (len n). symmetry. apply pt_last.
    - destruct i as [|i].
      + rewrite pt_0. apply (pconv_ext txs); [|exact HT]. intro n. symmetry. apply pt_0.
      + destruct (nth_error ws i) as [w|] eqn:E; [|apply nth_error_None in E; lia].
        destruct (lconv_nth _ _ _ _ _ HW E) as (s & S1 & S2). rewrite (pt_S _ _ _ _ _ E).
        apply (pconv_ext (fun n => backward (pt (txs n) (wss n) (rxs n) (S (S i))) (s n, img (txs n) (wss n) (S i)))).
        * intro n. rewrite (pt_S _ _ _ _ _ (S2 n)). reflexivity.
        * apply backward_cv; auto; [apply img_cv; lia|apply IH; lia|]. apply (proj1 G). auto.
  Qed.
  Lemma points_cv : lconv pconv (fun n => image_points (txs n) (wss n) (rxs n)) (image_points tx ws rx).
  Proof.
    apply lconv_of_nth.
    - intro n. rewrite !pts_length, len. reflexivity.
    - intros i x E. assert (L : (i < length ws + 2)%nat) by (rewrite <- (pts_length tx ws rx); apply nth_error_Some; congruence).
      exists (fun n => pt (txs n) (wss n) (rxs n) i). split.
      + rewrite pt_nth in E by lia. injection E as <-. apply (pt_cv (S (length ws) - i)). lia.
      + intro n. apply pt_nth. rewrite len. lia.
  Qed.
End Image.
Lemma loss_cv us os tx ws rx ptss : lconv oconv us os -> as_walls os = Some ws -> gp tx ws rx ->
  lconv pconv ptss (image_points tx ws rx) ->
  Un_cv (fun n => path_loss (us n) (ptss n)) (path_loss os (image_points tx ws rx)).
Proof.
  intros HU AW G HP. unfold path_loss.
  set (ev := fun (pts : list vec) (x : nat * object) => obj_evaluate (snd x) (row pts (fst x)) (row pts (fst x + 1)) (row pts (fst x + 2))).
  assert (L : lconv Un_cv (fun n => map (ev (ptss n)) (enumerate (us n))) (map (ev (image_points tx ws rx)) (enumerate os))).
  { apply (lconv_map (iconv oconv) Un_cv (fun n => ev (ptss n))); [apply lconv_enumerate; auto|].
    intros s [i o] I [S1 S2]. cbn [fst snd] in *. apply in_enumerate in I.
    destruct (as_walls_nth os ws i o AW I) as (w & Hw & Hn).
    assert (Li : (i < length ws)%nat) by (apply nth_error_Some; congruence).
    pose proof (gp_proper tx ws rx G i w Hn) as PR.
    pose proof (proj2 G i ltac:(lia)) as D1. pose proof (proj2 G (S i) ltac:(lia)) as D2. unfold pt in D1, D2.
    pose proof (row_cv _ _ i HP) as R0. pose proof (row_cv _ _ (i + 1) HP) as R1. pose proof (row_cv _ _ (i + 2) HP) as R2.
    replace (i + 1)%nat with (S i) in * by lia. replace (i + 2)%nat with (S (S i)) in * by lia.
    unfold ev. cbn [fst snd]. replace (i + 1)%nat with (S i) by lia. replace (i + 2)%nat with (S (S i)) by lia.
    apply (cv_ext (fun n => obj_evaluate (snd (s n)) (row (ptss n) i) (row (ptss n) (S i)) (row (ptss n) (S (S i))))).
    { intro n. rewrite S1. replace (i + 1)%nat with (S i) by lia. replace (i + 2)%nat with (S (S i)) by lia. reflexivity. }
    destruct o as [w'|w' phi|q]; cbn in Hw; inversion Hw; subst w'; cbn [oconv] in S2.
    - destruct S2 as (vs & X & H). apply (cv_ext (fun n => wall_evaluate (vs n) (row (ptss n) i) (row (ptss n) (S i)) (row (ptss n) (S (S i))))).
      + intro n. rewrite X. reflexivity.
      + apply evaluate_cv; auto.
    - destruct S2 as (vs & phis & X & H & HP'). apply (cv_ext (fun n => ris_evaluate (vs n) (phis n) (row (ptss n) i) (row (ptss n) (S i)) (row (ptss n) (S (S i))))).
      + intro n. rewrite X. reflexivity.
      + apply ris_cv; auto. }
  pose proof (lconv_fold Un_cv Un_cv Rplus (fun s s' a b => cv_plus s a s' b) (fun s s1 s' => cv_ext s s1 s') _ _ (fun _ => 0) 0 L (cv_const 0)) as F.
  assert (E : forall os pts z, fold_left Rplus (map (ev pts) (enumerate os)) z =
    fold_left (fun l '(i, obj) => l + obj_evaluate obj (row pts i) (row pts (i + 1)) (row pts (i + 2))) (enumerate os) z).
  { intros os0 pts. induction (enumerate os0) as [|[i o] l IH]; intro z; cbn; auto. }
  rewrite E in F. eapply cv_ext; [|exact F]. intro n. cbv beta. apply E.
Qed.
Lemma C68_lemma txs tx us os rxs rx p ws : pconv txs tx -> lconv oconv us os -> pconv rxs rx ->
  ImagePath_from tx os rx = Ok p -> map wall_of os = map Some ws -> (os <> [] -> general_position tx ws (xys p)) ->
  rconv path_conv (fun n => ImagePath_from (txs n) (us n) (rxs n)) (ImagePath_from tx os rx).
Proof.
  intros HT HU HR HP EW HG. pose proof (lconv_length _ _ _ HU) as LU. destruct os as [|o os].
  - exists (fun n => mkpath [txs n; rxs n] (Fin 0)), (mkpath [tx; rx] (Fin 0)). split; [|split].
    + intro n. specialize (LU n). destruct (us n); [reflexivity|discriminate].
    + reflexivity.
    + split; cbn.
      * exists [txs; rxs]. split; auto.
      * exists (fun _ => 0), 0. split; auto. split; auto. apply cv_const.
  - specialize (HG ltac:(discriminate)). rewrite HP. pose proof (as_walls_of _ _ EW) as AW.
    assert (ST : exists s, stack_leaves (o :: os) = Ok s).
    { unfold ImagePath_from in HP. destruct (stack_leaves (o :: os)) eqn:E; [eauto|]. cbn [rbind] in HP. discriminate. }
    assert (X : xys p = image_points tx ws rx /\ loss p = Fin (path_loss (o :: os) (image_points tx ws rx))).
    { unfold ImagePath_from in HP. destruct ST as [s ES]. rewrite ES, AW in HP. cbn [rbind] in HP. injection HP as <-. auto. }
    destruct X as [X1 X2]. rewrite X1 in HG. apply gp_iff in HG.
    destruct (lconv_walls _ _ _ HU EW) as (wss & AWS & HWS).
    exists (fun n => mkpath (image_points (txs n) (wss n) (rxs n)) (Fin (path_loss (us n) (image_points (txs n) (wss n) (rxs n))))), p.
    split; [|split; auto].
    + intro n. assert (SN : exists s, stack_leaves (us n) = Ok s).
      { apply (stack_kinds (o :: os)); auto. destruct HU as (ss & H & F). rewrite H, map_map. 
        clear - F. generalize dependent (o :: os). intros l0 F.
        induction F as [|s1 o1 l l' S1 F IH]; cbn; auto. rewrite IH, (oconv_kind _ _ n S1). reflexivity. }
      destruct SN as [s ES]. specialize (LU n). unfold ImagePath_from. destruct (us n) as [|o' os'] eqn:EU; [discriminate|].
      rewrite <- EU in *. rewrite ES, AWS. reflexivity.
    + pose proof (points_cv _ _ _ _ _ _ HT HWS HR HG) as PC. split.
      * rewrite X1. exact PC.
      * rewrite X2. eexists _, _. split; [intro n; reflexivity|]. split; [reflexivity|].
        apply loss_cv; auto.
Qed.
