(** Continuity of the smoothed path tests and of the image method. *)
From Coq Require Import Reals List Bool ZArith Lra Lia.
From Verif Require Import Base BaseP LogicM SpecLogic LogicP GeometryM SpecGeometry VecP ShapeP WallP SegP OptimizeM PathM SpecPath SpecImage
  PathP PathSmoothP PathShapeP ImageP SpecCont ContP.
Import ListNotations.
Open Scope R_scope.

(** ** Lists *)
Lemma Forall2_nth_l {A B} (Q : A -> B -> Prop) l l' : Forall2 Q l l' -> forall i b, nth_error l' i = Some b ->
  exists a, nth_error l i = Some a /\ Q a b.
Proof. induction 1 as [|a b l l' H _ IH]; intros [|i] b' E; try discriminate; cbn in *; [injection E as <-; eauto|eauto]. Qed.
Section Lists.
  Context {A B : Type} (cv : (nat -> A) -> A -> Prop) (cv' : (nat -> B) -> B -> Prop).
  Lemma lconv_ext u v l : (forall n, u n = v n) -> lconv cv u l -> lconv cv v l.
  Proof. intros E (us & H & F). exists us. split; auto. intro n. rewrite <- E. auto. Qed.
  Lemma lconv_nil : lconv cv (fun _ => []) [].
  Proof. exists []. split; auto. Qed.
  Lemma lconv_length u l : lconv cv u l -> forall n, length (u n) = length l.
  Proof. intros (us & H & F) n. rewrite H, map_length. apply (Forall2_len _ _ _ F). Qed.
  Lemma lconv_nth u l i x : lconv cv u l -> nth_error l i = Some x ->
    exists s, cv s x /\ forall n, nth_error (u n) i = Some (s n).
  Proof.
    intros (us & H & F) E. destruct (Forall2_nth_l _ _ _ F i x E) as (s & S1 & S2). exists s. split; auto.
    intro n. rewrite H, nth_error_map, S1. reflexivity.
  Qed.
  Lemma lconv_of_nth u l : (forall n, length (u n) = length l) ->
    (forall i x, nth_error l i = Some x -> exists s, cv s x /\ forall n, nth_error (u n) i = Some (s n)) -> lconv cv u l.
  Proof.
    revert u. induction l as [|x l IH]; intros u L H.
    - exists []. split; auto. intro n. specialize (L n). destruct (u n); [auto|discriminate].
    - destruct (H O x eq_refl) as (s & S1 & S2).
      destruct (IH (fun n => tl (u n))) as (us & U & F).
      + intro n. specialize (L n). destruct (u n); [discriminate|]. cbn in *. lia.
      + intros i y E. destruct (H (S i) y E) as (s' & S1' & S2'). exists s'. split; auto. intro n.
        specialize (S2' n). destruct (u n); [discriminate|]. auto.
      + exists (s :: us). split; [|constructor; auto]. intro n. cbn [map]. rewrite <- U.
        specialize (S2 n). destruct (u n); [discriminate|]. cbn in *. congruence.
  Qed.
  Lemma lconv_map (f : nat -> A -> B) f' u l : lconv cv u l ->
    (forall s x, In x l -> cv s x -> cv' (fun n => f n (s n)) (f' x)) -> lconv cv' (fun n => map (f n) (u n)) (map f' l).
  Proof.
    intros (us & H & F) Hf. exists (map (fun s n => f n (s n)) us). split.
    - intro n. rewrite H, !map_map. reflexivity.
    - clear H. induction F as [|s x us l S1 F IH]; cbn; [constructor|]. constructor; [apply Hf; cbn; auto|]. apply IH. intros. apply Hf; cbn; auto.
  Qed.
  Lemma lconv_app u v l m : lconv cv u l -> lconv cv v m -> lconv cv (fun n => u n ++ v n) (l ++ m).
  Proof.
    intros (us & H & F) (vs & H' & F'). exists (us ++ vs). split; [intro n; rewrite H, H', map_app; auto|apply Forall2_app; auto].
  Qed.
  Lemma lconv_filter (p : A -> bool) u l : lconv cv u l -> (forall s x, cv s x -> forall n, p (s n) = p x) ->
    lconv cv (fun n => filter p (u n)) (filter p l).
  Proof.
    intros (us & H & F) Hp. revert u H. induction F as [|s x us l S1 F IH]; intros u H.
    - exists []. split; [|constructor]. intro n. rewrite H. reflexivity.
    - destruct (IH (fun n => map (fun s => s n) us)) as (vs & V & G); [auto|].
      cbn [filter]. destruct (p x) eqn:E.
      + exists (s :: vs). split; [|constructor; auto]. intro n. rewrite H. cbn. rewrite (Hp s x S1), E, V. reflexivity.
      + exists vs. split; auto. intro n. rewrite H. cbn. rewrite (Hp s x S1), E, V. reflexivity.
  Qed.
  Lemma lconv_flat {C} (f : nat -> C -> list A) f' (l : list C) :
    (forall c, In c l -> lconv cv (fun n => f n c) (f' c)) -> lconv cv (fun n => flat_map (f n) l) (flat_map f' l).
  Proof.
    induction l as [|c l IH]; intro H; cbn; [apply lconv_nil|]. apply lconv_app; [apply H; cbn; auto|]. apply IH. intros. apply H; cbn; auto.
  Qed.
  Lemma lconv_fold {S} (cs : (nat -> S) -> S -> Prop) (op : S -> A -> S) :
    (forall s s' a b, cs s s' -> cv a b -> cs (fun n => op (s n) (a n)) (op s' b)) ->
    (forall s s1 s', (forall n, s n = s1 n) -> cs s s' -> cs s1 s') ->
    forall u l z z', lconv cv u l -> cs z z' -> cs (fun n => fold_left op (u n) (z n)) (fold_left op l z').
  Proof.
    intros Hop Hext u l z z' (us & H & F). revert u z z' H. induction F as [|s x us l S1 F IH]; intros u z z' H Z.
    - eapply Hext; [|exact Z]. intro n. rewrite H. reflexivity.
    - cbn [fold_left]. apply (Hext (fun n => fold_left op (map (fun s => s n) us) (op (z n) (s n)))).
      + intro n. rewrite H. reflexivity.
      + apply (IH (fun n => map (fun s => s n) us)); auto. 
  Qed.
  (** Enumerated lists. *)
  Definition iconv (u : nat -> nat * A) (x : nat * A) : Prop := (forall n, fst (u n) = fst x) /\ cv (fun n => snd (u n)) (snd x).
  Lemma lconv_enumerate u l : lconv cv u l -> lconv iconv (fun n => enumerate (u n)) (enumerate l).
  Proof.
    intros (us & H & F). unfold enumerate. generalize O as k.
    assert (G : forall k, lconv iconv (fun n => combine (seq k (length us)) (map (fun s => s n) us)) (combine (seq k (length l)) l)).
    { clear H u. induction F as [|s x us l S1 F IH]; intro k; cbn; [exists []; split; auto|].
      destruct (IH (S k)) as (vs & V & G). exists ((fun n => (k, s n)) :: vs). split.
      - intro n. cbn. rewrite V. reflexivity.
      - constructor; auto. split; cbn; auto. }
    intro k. destruct (G k) as (vs & V & G'). exists vs. split; auto. intro n. rewrite <- V, H, map_length. reflexivity.
  Qed.
End Lists.

(** ** Truth values *)
Lemma tconv_ext u v t : (forall n, u n = v n) -> tconv u t -> tconv v t.
Proof. intros E (rs & r & H & X & Y). exists rs, r. split; auto. intro n. rewrite <- E. auto. Qed.
Lemma xconv_ext u v t : (forall n, u n = v n) -> xconv u t -> xconv v t.
Proof. intros E (rs & r & H & X & Y). exists rs, r. split; auto. intro n. rewrite <- E. auto. Qed.
Lemma tconv_and g u v a b : tconv u a -> tconv v b ->
  tconv (fun n => logical_and g (u n) (v n) (Some true)) (logical_and g a b (Some true)).
Proof.
  intros (rs & r & H & -> & X) (ss & s & H' & -> & X'). exists (fun n => Rmin (rs n) (ss n)), (Rmin r s).
  split; [intro n; rewrite H, H'; reflexivity|]. split; [reflexivity|apply cv_min; auto].
Qed.
Lemma tconv_or g u v a b : tconv u a -> tconv v b ->
  tconv (fun n => logical_or g (u n) (v n) (Some true)) (logical_or g a b (Some true)).
Proof.
  intros (rs & r & H & -> & X) (ss & s & H' & -> & X'). exists (fun n => Rmax (rs n) (ss n)), (Rmax r s).
  split; [intro n; rewrite H, H'; reflexivity|]. split; [reflexivity|apply cv_max; auto].
Qed.
Lemma tconv_not g u a : tconv u a -> tconv (fun n => logical_not g (u n) (Some true)) (logical_not g a (Some true)).
Proof.
  intros (rs & r & H & -> & X). exists (fun n => 1 + - rs n), (1 + - r).
  split; [intro n; rewrite H; reflexivity|]. split; [reflexivity|]. apply cv_plus; [apply cv_const|apply cv_opp; auto].
Qed.
Lemma tconv_act k u a : shipped k -> Un_cv u a -> tconv (fun n => TF (activation (Fin (u n)) k)) (TF (activation (Fin a) k)).
Proof.
  intros H U. exists (fun n => act k (u n)), (act k a). split; [intro n; rewrite act_eq; auto|]. split; [rewrite act_eq; auto|].
  apply cv_act; auto.
Qed.
Lemma tconv_const r : tconv (fun _ => fl r) (fl r).
Proof. exists (fun _ => r), r. split; auto. split; auto. apply cv_const. Qed.

(** ** Walls and objects *)
Lemma wconv_t u w : wconv u w -> pconv (fun n => wall_t (u n)) (wall_t w).
Proof. intros [A B]. apply pconv_sub; auto. Qed.
Lemma proper_t w : proper w -> wall_t w <> (0, 0).
Proof.
  intros H E. apply H. unfold wall_t, vsub, origin, dest in E. assert (E1 := f_equal fst E). assert (E2 := f_equal snd E).
  cbn [fst snd] in E1, E2. apply vec_eq; lra.
Qed.
Lemma c2p_cv u w ps p : wconv u w -> proper w -> pconv ps p -> Un_cv (fun n => wall_c2p (u n) (ps n)) (wall_c2p w p).
Proof.
  intros H N P. pose proof (wconv_t _ _ H) as T. pose proof (proper_t w N) as T0.
  assert (D : Un_cv (fun n => dot (wall_t (u n)) (wall_t (u n))) (dot (wall_t w) (wall_t w))) by (apply cv_dot; auto).
  assert (D0 : dot (wall_t w) (wall_t w) <> 0) by (intro E; apply T0; apply dot_zero; auto).
  assert (Q : Un_cv (fun n => dot (wall_t (u n)) (vsub (ps n) (origin (u n)))) (dot (wall_t w) (vsub p (origin w)))).
  { apply cv_dot; auto. apply pconv_sub; auto. apply H. }
  unfold wall_c2p. rewrite (proj2 (Reqb_false _ _) D0). destruct (cv_away0 _ _ D D0) as [M HM].
  apply (cv_eventually (fun n => dot (wall_t (u n)) (vsub (ps n) (origin (u n))) / dot (wall_t (u n)) (wall_t (u n))) _ _ M).
  - intros n Hn. rewrite (proj2 (Reqb_false _ _) (HM n Hn)). reflexivity.
  - apply cv_div; auto.
Qed.
Lemma normal_cv u w : wconv u w -> proper w -> pconv (fun n => normal (u n)) (normal w).
Proof.
  intros H N. pose proof (wconv_t _ _ H) as [T1 T2]. apply pconv_normalize.
  - apply pconv_pair; auto. apply cv_opp; auto.
  - intro E. apply (proper_t w N). assert (E1 := f_equal fst E). assert (E2 := f_equal snd E). cbn [fst snd] in E1, E2.
    apply vec_eq; cbn [fst snd]; lra.
Qed.
Lemma image_cv u w ps p : wconv u w -> proper w -> pconv ps p -> pconv (fun n => image_of (u n) (ps n)) (image_of w p).
Proof.
  intros H N P. pose proof (normal_cv _ _ H N) as NN. unfold image_of. apply pconv_sub; auto. apply pconv_scale; auto.
  apply cv_mult; [apply cv_const|]. apply cv_dot; auto. apply pconv_sub; auto. apply H.
Qed.
Lemma side_cv u w ps p : wconv u w -> pconv ps p -> Un_cv (fun n => side (u n) (ps n)) (side w p).
Proof.
  intros H P. unfold side. apply cv_cross; [apply (wconv_t _ _ H)|]. apply pconv_sub; auto. apply H.
Qed.
Lemma at_cv As A Bs B ss s : pconv As A -> pconv Bs B -> Un_cv ss s -> pconv (fun n => at_ (As n) (Bs n) (ss n)) (at_ A B s).
Proof.
  intros [A1 A2] [B1 B2] Hs. split; cbn [at_ fst snd]; apply cv_plus; auto; apply cv_mult; auto; apply cv_minus; auto.
Qed.
Lemma backward_cv us w Is I Bs B : wconv us w -> pconv Is I -> pconv Bs B -> side w I <> side w B ->
  pconv (fun n => backward (Bs n) (us n, Is n)) (backward B (w, I)).
Proof.
  intros H HI HB N. pose proof (side_cv _ _ _ _ H HI) as SI. pose proof (side_cv _ _ _ _ H HB) as SB.
  pose proof (cv_minus _ _ _ _ SI SB) as D. cbv beta in D. destruct (cv_away0 _ _ D) as [M HM]; [lra|].
  rewrite backward_eq by auto.
  assert (X : pconv (fun n => at_ (Is n) (Bs n) (side (us n) (Is n) / (side (us n) (Is n) - side (us n) (Bs n))))
    (at_ I B (side w I / (side w I - side w B)))).
  { apply at_cv; auto. apply cv_div; auto. lra. }
  assert (E : forall n, (M <= n)%nat -> at_ (Is n) (Bs n) (side (us n) (Is n) / (side (us n) (Is n) - side (us n) (Bs n))) = backward (Bs n) (us n, Is n)).
  { intros n Hn. rewrite backward_eq; auto. specialize (HM n Hn). lra. }
  destruct X as [X1 X2]. split.
  - apply (cv_eventually _ _ _ M (fun n Hn => f_equal fst (E n Hn)) X1).
  - apply (cv_eventually _ _ _ M (fun n Hn => f_equal snd (E n Hn)) X2).
Qed.
Lemma evaluate_cv us w As A Bs B Cs C : wconv us w -> proper w -> pconv As A -> pconv Bs B -> pconv Cs C -> A <> B -> B <> C ->
  Un_cv (fun n => wall_evaluate (us n) (As n) (Bs n) (Cs n)) (wall_evaluate w A B C).
Proof.
  intros H N HA HB HC AB BC. pose proof (normal_cv _ _ H N) as NN.
  assert (Z : forall p q : vec, p <> q -> vsub q p <> (0, 0)).
  { intros p q D E. apply D. unfold vsub in E. assert (E1 := f_equal fst E). assert (E2 := f_equal snd E). cbn in E1, E2. apply vec_eq; lra. }
  pose proof (pconv_normalize _ _ (pconv_sub _ _ _ _ HB HA) (Z _ _ AB)) as HI.
  pose proof (pconv_normalize _ _ (pconv_sub _ _ _ _ HC HB) (Z _ _ BC)) as HR.
  unfold wall_evaluate. cbv zeta.
  assert (E : pconv (fun n => vsub (fst (normalize (vsub (Cs n) (Bs n)))) (vsub (fst (normalize (vsub (Bs n) (As n))))
     (vscale (2 * dot (fst (normalize (vsub (Bs n) (As n)))) (normal (us n))) (normal (us n)))))
     (vsub (fst (normalize (vsub C B))) (vsub (fst (normalize (vsub B A))) (vscale (2 * dot (fst (normalize (vsub B A))) (normal w)) (normal w))))).
  { apply pconv_sub; auto. apply pconv_sub; auto. apply pconv_scale; auto. apply cv_mult; [apply cv_const|]. apply cv_dot; auto. }
  apply cv_dot; auto.
Qed.
Lemma ris_cv us w phis phi As A Bs B Cs C : wconv us w -> proper w -> Un_cv phis phi -> pconv Bs B -> pconv Cs C -> B <> C ->
  Un_cv (fun n => ris_evaluate (us n) (phis n) (As n) (Bs n) (Cs n)) (ris_evaluate w phi A B C).
Proof.
  intros H N HP HB HC BC. pose proof (normal_cv _ _ H N) as NN.
  assert (Z : vsub C B <> (0, 0)).
  { intro E. apply BC. unfold vsub in E. assert (E1 := f_equal fst E). assert (E2 := f_equal snd E). cbn in E1, E2. apply vec_eq; lra. }
  pose proof (pconv_normalize _ _ (pconv_sub _ _ _ _ HC HB) Z) as HR. pose proof (pconv_opp _ _ HR) as HO.
  unfold ris_evaluate. cbv zeta.
  apply cv_plus; apply cv_pow; apply cv_minus.
  - apply cv_cross; auto.
  - apply (continuity_seq sin phis phi); auto. apply continuity_sin.
  - apply cv_dot; auto.
  - apply (continuity_seq cos phis phi); auto. apply continuity_cos.
Qed.
Lemma contains_cv g u o ps p k : shipped k -> oconv u o -> (forall w, wall_of o = Some w -> proper w) -> pconv ps p ->
  tconv (fun n => obj_contains g (u n) (obj_c2p (u n) (ps n)) (Some true) k) (obj_contains g o (obj_c2p o p) (Some true) k).
Proof.
  intros H O N P.
  assert (W : forall ws w, wconv ws w -> proper w ->
    tconv (fun n => wall_contains g (wall_c2p (ws n) (ps n)) (Some true) k) (wall_contains g (wall_c2p w p) (Some true) k)).
  { intros ws w HW HN. pose proof (c2p_cv _ _ _ _ HW HN P) as C. unfold wall_contains. apply tconv_and.
    - unfold greater_equal. cbn [resolve xsub xadd xopp]. apply tconv_act; auto. apply cv_plus; [auto|apply cv_const].
    - unfold less_equal. cbn [resolve xsub xadd xopp]. apply tconv_act; auto. apply cv_plus; [apply cv_const|apply cv_opp; auto]. }
  destruct o as [w|w phi|q]; cbn [oconv] in O.
  - destruct O as (ws & E & HW). apply (tconv_ext (fun n => wall_contains g (wall_c2p (ws n) (ps n)) (Some true) k)).
    + intro n. rewrite E. reflexivity.
    + apply W; auto.
  - destruct O as (ws & phis & E & HW & _). apply (tconv_ext (fun n => wall_contains g (wall_c2p (ws n) (ps n)) (Some true) k)).
    + intro n. rewrite E. reflexivity.
    + apply W; auto.
  - destruct O as (qs & E & HQ). apply (tconv_ext (fun n => fl 1)); [intro n; rewrite E; reflexivity|]. apply tconv_const.
Qed.
Lemma patch_ends w patch : vsub (origin w) (vscale patch (wall_t w)) = at_ (w_origin w) (w_dest w) (- patch) /\
  vadd (dest w) (vscale patch (wall_t w)) = at_ (w_origin w) (w_dest w) (1 + patch).
Proof. unfold origin, dest, wall_t, vsub, vadd, vscale, at_, origin, dest. split; apply vec_eq; cbn [fst snd]; ring. Qed.
Lemma intersects_cv g u o As A Bs B patch k : shipped k -> 0 < ak_alpha k -> oconv u o -> pconv As A -> pconv Bs B ->
  (forall w, wall_of o = Some w ->
     ~ on_one_line (at_ (w_origin w) (w_dest w) (- patch)) (at_ (w_origin w) (w_dest w) (1 + patch)) A B) ->
  tconv (fun n => obj_intersects g (u n) (As n) (Bs n) patch (Some true) k) (obj_intersects g o A B patch (Some true) k).
Proof.
  intros H AL O HA HB N.
  assert (W : forall ws w, wconv ws w -> ~ on_one_line (at_ (w_origin w) (w_dest w) (- patch)) (at_ (w_origin w) (w_dest w) (1 + patch)) A B ->
    tconv (fun n => wall_intersects g (ws n) (As n) (Bs n) patch (Some true) k) (wall_intersects g w A B patch (Some true) k)).
  { intros ws w HW HN. unfold wall_intersects. destruct (patch_ends w patch) as [-> ->]. apply C66_lemma; auto.
    - apply (pconv_ext (fun n => at_ (w_origin (ws n)) (w_dest (ws n)) (- patch))).
      + intro n. symmetry. apply patch_ends.
      + apply at_cv; [apply HW..|apply cv_const].
    - apply (pconv_ext (fun n => at_ (w_origin (ws n)) (w_dest (ws n)) (1 + patch))).
      + intro n. symmetry. apply patch_ends.
      + apply at_cv; [apply HW..|apply cv_const]. }
  destruct o as [w|w phi|q]; cbn [oconv] in O.
  - destruct O as (ws & E & HW). apply (tconv_ext (fun n => wall_intersects g (ws n) (As n) (Bs n) patch (Some true) k)).
    + intro n. rewrite E. reflexivity.
    + apply W; auto.
  - destruct O as (ws & phis & E & HW & _). apply (tconv_ext (fun n => wall_intersects g (ws n) (As n) (Bs n) patch (Some true) k)).
    + intro n. rewrite E. reflexivity.
    + apply W; auto.
  - destruct O as (qs & E & HQ). apply (tconv_ext (fun n => fl 0)); [intro n; rewrite E; reflexivity|]. apply tconv_const.
Qed.
Lemma row_cv u l i : lconv pconv u l -> pconv (fun n => row (u n) i) (row l i).
Proof.
  intro H. pose proof (lconv_length _ _ _ H) as L. destruct l as [|x l].
  - apply (pconv_ext (fun _ => row [] i)); [|apply pconv_const]. intro n. specialize (L n). destruct (u n); [reflexivity|discriminate].
  - destruct (nth_error (x :: l) (Nat.min i (length (x :: l) - 1))) as [q|] eqn:E.
    2:{ apply nth_error_None in E. cbn [length] in E. lia. }
    destruct (lconv_nth _ _ _ _ _ H E) as (s & S1 & S2). 
    assert (E2 : row (x :: l) i = q) by (unfold row; apply nth_error_nth; exact E). rewrite E2.
    apply (pconv_ext s); auto. intro n. symmetry. unfold row. apply nth_error_nth. rewrite L. auto.
Qed.

(** ** The tests on paths *)
Lemma on_cv g ps p us os k : shipped k -> lconv pconv (fun n => xys (ps n)) (xys p) -> lconv oconv us os ->
  (forall o w, In o os -> wall_of o = Some w -> proper w) ->
  tconv (fun n => on_objects g (ps n) (us n) (Some true) k) (on_objects g p os (Some true) k).
Proof.
  intros H HP HU N. rewrite on_objects_fold.
  apply (tconv_ext (fun n => fold_left (fun x y => logical_and g x y (Some true)) (on_tests g (xys (ps n)) (us n) (Some true) k) (true_value g (Some true)))).
  { intro n. rewrite on_objects_fold. reflexivity. }
  apply (lconv_fold tconv tconv (fun x y => logical_and g x y (Some true))
           (fun s s' a b X Y => tconv_and g s a s' b X Y) (fun s s1 s' => tconv_ext s s1 s')).
  - unfold on_tests. apply (lconv_map (iconv oconv) tconv (fun n '(i, obj) => obj_contains g obj (obj_c2p obj (row (xys (ps n)) (i + 1))) (Some true) k)).
    + apply lconv_enumerate. auto.
    + intros s [i o] I [S1 S2]. cbn [fst snd] in *.
      apply (tconv_ext (fun n => obj_contains g (snd (s n)) (obj_c2p (snd (s n)) (row (xys (ps n)) (i + 1))) (Some true) k)).
      * intro n. specialize (S1 n). destruct (s n) as [j o']. cbn in *. subst. reflexivity.
      * apply contains_cv; auto; [|apply row_cv; auto]. intros w Hw. apply (N o w); auto.
        apply in_enumerate in I. apply nth_error_In in I. auto.
  - apply tconv_const.
Qed.
Lemma inter_cv g ps p us os cand patch k : shipped k -> 0 < ak_alpha k ->
  lconv pconv (fun n => xys (ps n)) (xys p) -> lconv oconv us os -> (length (xys p) <= length cand + 2)%nat ->
  ~ grazes (xys p) os cand patch ->
  exists ts t, (forall n, intersects_with_objects g (ps n) (us n) cand patch (Some true) k = Ok (ts n)) /\
    intersects_with_objects g p os cand patch (Some true) k = Ok t /\ tconv ts t.
Proof.
  intros H A HP HU L N. pose proof (lconv_length _ _ _ HP) as LP. cbv beta in LP.
  eexists _, _. split; [intro n; apply inter_ok; rewrite LP; auto|]. split; [apply inter_ok; auto|].
  apply (lconv_fold tconv tconv (fun x y => logical_or g x y (Some true))
           (fun s s' a b X Y => tconv_or g s a s' b X Y) (fun s s1 s' => tconv_ext s s1 s')).
  2: apply tconv_const.
  unfold inter_tests.
  apply (lconv_ext tconv (fun n => flat_map (fun i =>
    map (fun '(j, o) => obj_intersects g o (row (xys (ps n)) i) (row (xys (ps n)) (i + 1)) patch (Some true) k)
      (filter (fun '(j, o) => negb (ignored cand i j)) (enumerate (us n)))) (seq 0 (length (xys p) - 1)))).
  { intro n. rewrite LP. reflexivity. }
  apply (lconv_flat tconv (fun n i => map (fun '(j, o) => obj_intersects g o (row (xys (ps n)) i) (row (xys (ps n)) (i + 1)) patch (Some true) k)
      (filter (fun '(j, o) => negb (ignored cand i j)) (enumerate (us n))))).
  intros i I. apply in_seq in I.
  apply (lconv_map (iconv oconv) tconv (fun n '(j, o) => obj_intersects g o (row (xys (ps n)) i) (row (xys (ps n)) (i + 1)) patch (Some true) k)).
  - apply (lconv_filter (iconv oconv) (fun '(j, o) => negb (ignored cand i j))).
    + apply lconv_enumerate. auto.
    + intros s [j o] [S1 _] n. specialize (S1 n). destruct (s n). cbn in *. subst. reflexivity.
  - intros s [j o] J [S1 S2]. cbn [fst snd] in *. apply filter_In in J. destruct J as [J Q]. apply in_enumerate in J. apply negb_true_iff in Q.
    apply (tconv_ext (fun n => obj_intersects g (snd (s n)) (row (xys (ps n)) i) (row (xys (ps n)) (i + 1)) patch (Some true) k)).
    + intro n. destruct (s n). reflexivity.
    + apply intersects_cv; auto; [apply row_cv; auto..|]. intros w Hw O. apply N.
      exists i, j, (row (xys p) i), (row (xys p) (i + 1)), o, w. rewrite Nat.add_1_r in *.
      split; [split; apply row_nth; lia|]. split; auto. split; auto. split; auto.
      rewrite <- ignored_touches by lia. congruence.
Qed.
Lemma C67_lemma g ps p us os is inter cand tol patch k : shipped k -> 0 < ak_alpha k ->
  path_conv ps p -> lconv oconv us os -> lconv oconv is inter -> (length (xys p) <= length cand + 2)%nat ->
  (forall o w, In o inter -> wall_of o = Some w -> proper w) -> ~ grazes (xys p) os cand patch ->
  rconv tconv (fun n => is_valid g (ps n) (us n) cand (is n) tol patch (Some true) k)
    (is_valid g p os cand inter tol patch (Some true) k).
Proof.
  intros H A [HP HL] HU HI L N G.
  destruct (inter_cv g ps p us os cand patch k H A HP HU L G) as (ts & t & T1 & T2 & (ws & w & W1 & -> & W2)).
  destruct (on_cv g ps p is inter k H HP HI N) as (vs & v & V1 & V2 & V3).
  destruct HL as (ls & l & L1 & L2 & L3).
  set (f := fun v w l => Rmin (Rmin v (1 + - w)) (act k (tol + - l))).
  assert (E : forall p os inter v w l, on_objects g p inter (Some true) k = fl v ->
    intersects_with_objects g p os cand patch (Some true) k = Ok (fl w) -> loss p = Fin l ->
    is_valid g p os cand inter tol patch (Some true) k = Ok (fl (f v w l))).
  { intros p0 os0 in0 v0 w0 l0 E1 E2 E3. rewrite (valid_smooth_eq _ _ _ _ _ _ _ _ (fl w0) H E2), E1, E3.
    unfold logical_not. cbn [resolve to_f fl xsub xadd xopp xmin]. rewrite act_eq by auto. reflexivity. }
  exists (fun n => fl (f (vs n) (ws n) (ls n))), (fl (f v w l)). split; [|split].
  - intro n. apply E; auto. rewrite T1, W1. reflexivity.
  - apply E; auto.
  - exists (fun n => f (vs n) (ws n) (ls n)), (f v w l). split; auto. split; auto. unfold f. apply cv_min; [apply cv_min; auto|].
    + apply cv_plus; [apply cv_const|apply cv_opp; auto].
    + apply cv_act; auto. apply cv_plus; [apply cv_const|apply cv_opp; auto].
Qed.
