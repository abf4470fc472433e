(** Proofs about paths: shapes and validity. *)
From Coq Require Import Reals List Bool ZArith Arith Lia Lra Permutation.
From Verif Require Import Base BaseP LogicM LogicP GeometryM OptimizeM PathM SpecLogic SpecGeometry SpecPath SegP VecP WallP ShapeP.
Import ListNotations.
Open Scope R_scope.
Local Notation length := List.length.

(** ** Folds in a semilattice *)
Section Fold.
  Context {A : Type} (f : A -> A -> A).
  Hypothesis fc : forall x y, f x y = f y x.
  Hypothesis fa : forall x y z, f x (f y z) = f (f x y) z.
  Lemma fold_push l : forall a x, fold_left f l (f a x) = f (fold_left f l a) x.
  Proof.
    induction l as [|y l IH]; intros a x; cbn; auto.
    rewrite <- IH. f_equal. rewrite <- !fa. f_equal. apply fc.
  Qed.
  Lemma fold_absorb l a x : In x l -> f x x = x -> f (fold_left f l a) x = fold_left f l a.
  Proof.
    revert a. induction l as [|y l IH]; intros a [] E; cbn.
    - subst. rewrite fold_push. rewrite <- fa, E. reflexivity.
    - apply IH; auto.
  Qed.
  Lemma fold_absorb_all l' : forall S, (forall x, In x l' -> f S x = S) -> fold_left f l' S = S.
  Proof. induction l' as [|x l' IH]; intros S H; cbn; auto. rewrite H by (left; auto). apply IH. intros; apply H; right; auto. Qed.
  Lemma fold_perm l l' : Permutation l l' -> forall a, fold_left f l a = fold_left f l' a.
  Proof.
    induction 1; intro a; cbn; auto.
    - rewrite <- !fa. rewrite (fc y x). reflexivity.
    - rewrite IHPermutation1. auto.
  Qed.
  Lemma fold_incl l l' a : (forall x, In x l -> f x x = x) -> (forall x, In x l' -> f x x = x) ->
    f a a = a -> (forall x, In x l -> x = a \/ In x l') -> (forall x, In x l' -> x = a \/ In x l) ->
    fold_left f l a = fold_left f l' a.
  Proof.
    intros I I' Ia S1 S2.
    assert (Z : forall m, f (fold_left f m a) a = fold_left f m a).
    { intro m. rewrite <- fold_push, Ia. reflexivity. }
    transitivity (fold_left f l' (fold_left f l a)).
    - symmetry. apply fold_absorb_all. intros x X. destruct (S2 x X) as [->|Y]; [apply Z|].
      apply fold_absorb; auto.
    - rewrite <- fold_left_app. rewrite (fold_perm _ _ (Permutation_app_comm l l')).
      rewrite fold_left_app. apply fold_absorb_all. intros x X. destruct (S1 x X) as [->|Y]; [apply Z|].
      apply fold_absorb; auto.
  Qed.
End Fold.

Lemma xmax_assoc x y z : xmax x (xmax y z) = xmax (xmax x y) z.
Proof. destruct x, y, z; cbn; auto. rewrite Rmax_assoc. reflexivity. Qed.
Lemma xmin_assoc x y z : xmin x (xmin y z) = xmin (xmin x y) z.
Proof. destruct x, y, z; cbn; auto. rewrite Rmin_assoc. reflexivity. Qed.
Lemma xmax_idem x : xmax x x = x.
Proof. destruct x; cbn; auto. f_equal. mmcase; lra. Qed.
Lemma xmin_idem x : xmin x x = x.
Proof. destruct x; cbn; auto. f_equal. mmcase; lra. Qed.
Lemma to_f_or a b : to_f (TB (a || b)) = xmax (to_f (TB a)) (to_f (TB b)).
Proof. destruct a, b; cbn; f_equal; mmcase; lra. Qed.
Lemma to_f_and a b : to_f (TB (a && b)) = xmin (to_f (TB a)) (to_f (TB b)).
Proof. destruct a, b; cbn; f_equal; mmcase; lra. Qed.
Lemma or_comm_t g a x y : logical_or g x y a = logical_or g y x a.
Proof.
  unfold logical_or. destruct (resolve g a); [|rewrite orb_comm; auto].
  destruct x, y; try (f_equal; apply xmax_comm). rewrite orb_comm. auto.
Qed.
Lemma or_assoc_t g a x y z : logical_or g x (logical_or g y z a) a = logical_or g (logical_or g x y a) z a.
Proof.
  unfold logical_or. destruct (resolve g a); [|cbn; rewrite orb_assoc; auto].
  destruct x as [x|x], y as [y|y], z as [z|z]; rewrite ?to_f_or; cbn [to_f]; try (f_equal; apply xmax_assoc).
  rewrite orb_assoc. auto.
Qed.
Lemma and_assoc_t g a x y z : logical_and g x (logical_and g y z a) a = logical_and g (logical_and g x y a) z a.
Proof.
  unfold logical_and. destruct (resolve g a); [|cbn; rewrite andb_assoc; auto].
  destruct x as [x|x], y as [y|y], z as [z|z]; rewrite ?to_f_and; cbn [to_f]; try (f_equal; apply xmin_assoc).
  rewrite andb_assoc. auto.
Qed.

(** Values of the right type: a boolean without approximation, a float with. *)
Definition typed (g : bool) (a : option bool) (t : truthy) : Prop :=
  if resolve g a then exists x, t = TF x else exists b, t = TB b.
Lemma or_idem g a t : typed g a t -> logical_or g t t a = t.
Proof.
  unfold typed, logical_or. destruct (resolve g a); intros [x ->]; [rewrite xmax_idem; auto|].
  cbn. rewrite orb_diag. reflexivity.
Qed.
Lemma and_idem g a t : typed g a t -> logical_and g t t a = t.
Proof.
  unfold typed, logical_and. destruct (resolve g a); intros [x ->]; [rewrite xmin_idem; auto|].
  cbn. rewrite andb_diag. reflexivity.
Qed.
Lemma typed_and g a x y : typed g a x -> typed g a y -> typed g a (logical_and g x y a).
Proof.
  unfold typed, logical_and. destruct (resolve g a); intros [? ->] [? ->]; eauto.
Qed.
Lemma typed_or g a x y : typed g a x -> typed g a y -> typed g a (logical_or g x y a).
Proof.
  unfold typed, logical_or. destruct (resolve g a); intros [? ->] [? ->]; eauto.
Qed.
Lemma typed_true g a : typed g a (true_value g a).
Proof. unfold typed, true_value. destruct (resolve g a); eauto. Qed.
Lemma typed_false g a : typed g a (false_value g a).
Proof. unfold typed, false_value. destruct (resolve g a); eauto. Qed.
Lemma typed_cmp_ge g x y a k : typed g a (greater_equal g x y a k).
Proof. unfold typed, greater_equal. destruct (resolve g a); eauto. Qed.
Lemma typed_cmp_le g x y a k : typed g a (less_equal g x y a k).
Proof. unfold typed, less_equal. destruct (resolve g a); eauto. Qed.
Lemma typed_less g x y a k : typed g a (less g x y a k).
Proof. unfold typed, less. destruct (resolve g a); eauto. Qed.
Lemma typed_contains g o ps a k : typed g a (obj_contains g o ps a k).
Proof.
  destruct o; cbn; try apply typed_true; apply typed_and; [apply typed_cmp_ge|apply typed_cmp_le|apply typed_cmp_ge|apply typed_cmp_le].
Qed.
Lemma typed_seg g P1 P2 P3 P4 tol a k : typed g a (segments_intersect g P1 P2 P3 P4 tol a k).
Proof.
  rewrite seg_unfold. unfold ttest. repeat apply typed_and; try apply typed_cmp_ge; apply typed_cmp_le.
Qed.
Lemma typed_inter g o A B patch a k : typed g a (obj_intersects g o A B patch a k).
Proof. destruct o; cbn; try apply typed_false; apply typed_seg. Qed.

(** ** Indexing *)
Lemma row_nth pts i : (i < length pts)%nat -> nth_error pts i = Some (row pts i).
Proof.
  intro H. unfold row. rewrite Nat.min_l by lia. apply nth_error_nth'. auto.
Qed.
Lemma in_enumerate {A} (l : list A) j o : In (j, o) (enumerate l) <-> nth_error l j = Some o.
Proof.
  unfold enumerate.
  assert (G : forall s j, In (j, o) (combine (seq s (length l)) l) <-> (s <= j)%nat /\ nth_error l (j - s) = Some o).
  { induction l as [|x l IH]; intros s j'; cbn.
    - split; [tauto|]. intros [_ H]. destruct (j' - s)%nat; discriminate.
    - rewrite IH. split.
      + intros [E|[H E]]; [inversion E; subst; rewrite Nat.sub_diag; cbn; auto|].
        replace (j' - s)%nat with (S (j' - S s)) by lia. cbn. split; [lia|auto].
      + intros [H E]. destruct (Nat.eq_dec j' s) as [->|N].
        * left. rewrite Nat.sub_diag in E. cbn in E. congruence.
        * right. replace (j' - s)%nat with (S (j' - S s)) in E by lia. cbn in E. split; [lia|auto]. }
  rewrite G. rewrite Nat.sub_0_r. intuition lia.
Qed.

(** ** [on_objects] *)
Definition on_tests (g : bool) (pts : list vec) (interacting : list object) (a : option bool) (k : akw) : list truthy :=
  map (fun '(i, obj) => obj_contains g obj (obj_c2p obj (row pts (i + 1))) a k) (enumerate interacting).
Lemma fold_map {A B C} (f : A -> B -> A) (h : C -> B) l : forall a,
  fold_left (fun x y => f x (h y)) l a = fold_left f (map h l) a.
Proof. induction l; cbn; auto. Qed.
Lemma on_objects_fold g p os a k : on_objects g p os a k =
  fold_left (fun x y => logical_and g x y a) (on_tests g (xys p) os a k) (true_value g a).
Proof.
  unfold on_objects, on_tests. rewrite <- fold_map.
  generalize (true_value g a). induction (enumerate os) as [|[i o] l IH]; intro t; cbn; auto.
Qed.
Lemma in_on_tests g pts os a k t : (length os < length pts)%nat ->
  (In t (on_tests g pts os a k) <->
   exists i o q, nth_error os i = Some o /\ nth_error pts (S i) = Some q /\ t = obj_contains g o (obj_c2p o q) a k).
Proof.
  intro L. unfold on_tests. rewrite in_map_iff. split.
  - intros ([i o] & <- & I). apply in_enumerate in I.
    assert (i < length os)%nat by (apply nth_error_Some; congruence).
    exists i, o, (row pts (S i)). replace (i + 1)%nat with (S i) by lia. rewrite row_nth by lia. auto.
  - intros (i & o & q & I & Q & ->). exists (i, o).
    assert (i < length os)%nat by (apply nth_error_Some; congruence).
    rewrite row_nth in Q by lia. inversion Q; subst. split; [rewrite Nat.add_1_r; auto|]. apply in_enumerate; auto.
Qed.

(** ** [intersects_with_objects] *)
Definition ignored (cand : list Z) (i j : nat) : bool :=
  (Z.eqb (Z.of_nat j) (nth (i + 0) (interacting_object_indices cand) 0%Z)
   || Z.eqb (Z.of_nat j) (nth (i + 1) (interacting_object_indices cand) 0%Z))%bool.
Definition inter_tests (g : bool) (pts : list vec) (objects : list object) (cand : list Z) (patch : R)
    (a : option bool) (k : akw) : list truthy :=
  flat_map (fun i =>
    map (fun '(j, o) => obj_intersects g o (row pts i) (row pts (i + 1)) patch a k)
      (filter (fun '(j, o) => negb (ignored cand i j)) (enumerate objects)))
    (seq 0 (length pts - 1)).
Lemma inter_fold g p objects cand patch a k :
  intersects_with_objects g p objects cand patch a k =
  if (Nat.ltb (length cand + 1) (length (xys p) - 1) && negb (Nat.eqb (length objects) 0))%bool
  then Err IndexError
  else Ok (fold_left (fun x y => logical_or g x y a) (inter_tests g (xys p) objects cand patch a k) (false_value g a)).
Proof.
  unfold intersects_with_objects. destruct (_ && _)%bool; auto. f_equal.
  unfold inter_tests. generalize (false_value g a) as t.
  induction (seq 0 (length (xys p) - 1)) as [|i l IH]; intro t; cbn [fold_left flat_map]; auto.
  rewrite fold_left_app, IH. f_equal. clear IH.
  generalize (enumerate objects) as os. intro os. revert t. induction os as [|[j o] os IH]; intro t; cbn [fold_left filter map]; auto.
  unfold ignored at 1. destruct (_ || _)%bool; cbn [negb]; [apply IH|]. cbn [map fold_left]. apply IH.
Qed.
Lemma ignored_touches cand i j : (i <= length cand)%nat -> (ignored cand i j = true <-> touches cand i j).
Proof.
  intro L. unfold ignored, touches, interacting_object_indices.
  rewrite orb_true_iff, !Z.eqb_eq. rewrite Nat.add_0_r, Nat.add_1_r.
  assert (X : forall i, (i <= length cand)%nat ->
    (Z.of_nat j = nth i (cand ++ [(-1)%Z]) 0%Z <-> nth_error cand i = Some (Z.of_nat j))).
  { intros m Lm. destruct (Nat.eq_dec m (length cand)) as [->|N].
    - rewrite app_nth2, Nat.sub_diag by lia. cbn. split; [lia|]. intro E.
      assert (length cand < length cand)%nat by (apply nth_error_Some; congruence). lia.
    - rewrite app_nth1 by lia. rewrite nth_error_nth' with (d := 0%Z) by lia. split; congruence. }
  change (nth (S i) ((-1)%Z :: cand ++ [(-1)%Z]) 0%Z) with (nth i (cand ++ [(-1)%Z]) 0%Z).
  rewrite X by auto. destruct i as [|i].
  - cbn [nth]. split; [intros [H|H]; [lia|auto]|]. intros [H|(i' & H & _)]; [auto|discriminate].
  - change (nth (S i) ((-1)%Z :: cand ++ [(-1)%Z]) 0%Z) with (nth i (cand ++ [(-1)%Z]) 0%Z).
    rewrite X by lia. split.
    + intros [H|H]; [right; eauto|auto].
    + intros [H|(i' & E & H)]; [auto|]. inversion E; subst. auto.
Qed.
Lemma in_inter_tests g pts objects cand patch a k t : (length pts <= length cand + 2)%nat ->
  (In t (inter_tests g pts objects cand patch a k) <->
   exists i j A B o, segment_at pts i A B /\ nth_error objects j = Some o /\ ~ touches cand i j /\
     t = obj_intersects g o A B patch a k).
Proof.
  intro L. unfold inter_tests. rewrite in_flat_map. split.
  - intros (i & I & T). apply in_seq in I. apply in_map_iff in T. destruct T as ([j o] & <- & T).
    apply filter_In in T. destruct T as [T Q]. apply in_enumerate in T. apply negb_true_iff in Q.
    exists i, j, (row pts i), (row pts (i + 1)), o. rewrite Nat.add_1_r.
    split; [split; apply row_nth; lia|]. split; auto. split; auto.
    rewrite <- ignored_touches by lia. congruence.
  - intros (i & j & A & B & o & [HA HB] & O & T & ->).
    assert (S i < length pts)%nat by (apply nth_error_Some; congruence).
    exists i. split; [apply in_seq; lia|]. apply in_map_iff. exists (j, o).
    rewrite row_nth in HA, HB by lia. inversion HA; inversion HB; subst. rewrite Nat.add_1_r. split; auto.
    apply filter_In. split; [apply in_enumerate; auto|]. rewrite <- ignored_touches in T by lia.
    destruct (ignored cand i j); tauto.
Qed.
Lemma inter_ok g p objects cand patch a k : (length (xys p) <= length cand + 2)%nat ->
  intersects_with_objects g p objects cand patch a k =
  Ok (fold_left (fun x y => logical_or g x y a) (inter_tests g (xys p) objects cand patch a k) (false_value g a)).
Proof.
  intro L. rewrite inter_fold.
  assert (X : (length cand + 1 <? length (xys p) - 1)%nat = false) by (apply Nat.ltb_ge; lia).
  rewrite X. reflexivity.
Qed.
Lemma inter_too_long g p objects cand patch a k : (length cand + 2 < length (xys p))%nat -> objects <> [] ->
  intersects_with_objects g p objects cand patch a k = Err IndexError.
Proof.
  intros L N. rewrite inter_fold.
  assert (X : (length cand + 1 <? length (xys p) - 1)%nat = true) by (apply Nat.ltb_lt; lia).
  rewrite X. destruct objects; [contradiction|reflexivity].
Qed.

(** ** Exact mode *)
Lemma obj_inter_exact g o A B patch k :
  exists b, obj_intersects g o A B patch (Some false) k = TB b /\
  (b = true <-> exists w, wall_of o = Some w /\ crosses w patch SEG_TOL A B).
Proof.
  assert (W : forall w, exists b, wall_intersects g w A B patch (Some false) k = TB b /\
    (b = true <-> crosses w patch SEG_TOL A B)).
  { intro w. unfold wall_intersects.
    assert (E1 : vsub (origin w) (vscale patch (wall_t w)) = at_ (w_origin w) (w_dest w) (- patch)).
    { apply vec_eq; cbn; unfold origin, dest; ring. }
    assert (E2 : vadd (dest w) (vscale patch (wall_t w)) = at_ (w_origin w) (w_dest w) (1 + patch)).
    { apply vec_eq; cbn; unfold origin, dest; ring. }
    rewrite E1, E2. apply C12_lemma. }
  destruct o as [w|w phi|v]; cbn [obj_intersects wall_of].
  - destruct (W w) as (b & E & H). exists b. split; auto. rewrite H. split; [eauto|]. intros (w' & X & Y). congruence.
  - destruct (W w) as (b & E & H). exists b. split; auto. rewrite H. split; [eauto|]. intros (w' & X & Y). congruence.
  - exists false. split; [reflexivity|]. split; [discriminate|]. intros (w' & X & Y). discriminate.
Qed.
Lemma or_fold_exact g ts : (forall t, In t ts -> exists b, t = TB b) -> forall a,
  exists b, fold_left (fun x y => logical_or g x y (Some false)) ts (TB a) = TB b /\
  (b = true <-> a = true \/ In (TB true) ts).
Proof.
  induction ts as [|t ts IH]; intros H a; cbn [fold_left In].
  - exists a. intuition.
  - destruct (H t (or_introl eq_refl)) as [c ->]. change (logical_or g (TB a) (TB c) (Some false)) with (TB (a || c)).
    destruct (IH (fun t T => H t (or_intror T)) (a || c)%bool) as (b & E & Q). exists b. split; auto.
    rewrite Q, orb_true_iff. split.
    + intros [[X|X]|X]; auto. right. left. congruence.
    + intros [X|[X|X]]; auto. left. right. congruence.
Qed.
Lemma and_fold_exact g ts : (forall t, In t ts -> exists b, t = TB b) -> forall a,
  exists b, fold_left (fun x y => logical_and g x y (Some false)) ts (TB a) = TB b /\
  (b = true <-> a = true /\ ~ In (TB false) ts).
Proof.
  induction ts as [|t ts IH]; intros H a; cbn [fold_left In].
  - exists a. intuition.
  - destruct (H t (or_introl eq_refl)) as [c ->]. change (logical_and g (TB a) (TB c) (Some false)) with (TB (a && c)).
    destruct (IH (fun t T => H t (or_intror T)) (a && c)%bool) as (b & E & Q). exists b. split; auto.
    rewrite Q, andb_true_iff. split.
    + intros [[X Y] Z]. split; auto. intros [N|N]; [congruence|auto].
    + intros [X Z]. split; [split; auto|].
      * destruct c; auto.
      * intro N. auto.
Qed.
Lemma C37_lemma g p objects cand patch k : (length (xys p) <= length cand + 2)%nat ->
  exists b, intersects_with_objects g p objects cand patch (Some false) k = Ok (TB b) /\
  (b = true <-> obstructed (xys p) objects cand patch SEG_TOL).
Proof.
  intro L. rewrite inter_ok by auto.
  destruct (or_fold_exact g (inter_tests g (xys p) objects cand patch (Some false) k)) with (a := false) as (b & E & H).
  { intros t T. apply in_inter_tests in T; auto. destruct T as (i & j & A & B & o & _ & _ & _ & ->).
    destruct (obj_inter_exact g o A B patch k) as (b & E & _). eauto. }
  exists b. split; [rewrite <- E; reflexivity|]. rewrite H. unfold obstructed. split.
  - intros [X|X]; [discriminate|]. apply in_inter_tests in X; auto.
    destruct X as (i & j & A & B & o & S & O & T & X). destruct (obj_inter_exact g o A B patch k) as (c & Ec & Hc).
    rewrite Ec in X. inversion X; subst c. destruct (proj1 Hc eq_refl) as (w & W & C).
    exists i, j, A, B, o, w. auto.
  - intros (i & j & A & B & o & w & S & O & W & T & C). right. apply in_inter_tests; auto.
    exists i, j, A, B, o. split; auto. split; auto. split; auto.
    destruct (obj_inter_exact g o A B patch k) as (c & Ec & Hc). rewrite Ec. f_equal. symmetry. apply Hc. eauto.
Qed.

(** Projections *)
Lemma improper_eq w : ~ proper w -> w_origin w = w_dest w.
Proof.
  intro P. destruct (Req_dec (fst (w_origin w)) (fst (w_dest w))) as [A|A];
  destruct (Req_dec (snd (w_origin w)) (snd (w_dest w))) as [B|B];
    [apply vec_eq; auto|exfalso; apply P, vec_neq; auto..].
Qed.
Lemma c2p_projects w q : proper w -> forall t, projects_at w q t <-> t = wall_c2p w q.
Proof.
  intros P t. pose proof (proper_len w P) as L. unfold projects_at, wall_c2p, at_. cbn [fst snd].
  assert (E : dot (wall_t w) (wall_t w) = len2 w) by reflexivity.
  rewrite E. destruct (Reqb_spec (len2 w) 0) as [Z|Z]; [lra|].
  unfold len2, tvx, tvy in *. unfold dot, wall_t, vsub, origin, dest in *. cbn [fst snd] in *.
  set (x := fst (w_dest w) - fst (w_origin w)) in *. set (y := snd (w_dest w) - snd (w_origin w)) in *.
  split; intro H.
  - apply (Rmult_eq_reg_r (x * x + y * y)); [|lra]. unfold Rdiv. rewrite Rmult_assoc, Rinv_l by lra.
    lra.
  - subst t. field. lra.
Qed.
Lemma inside_iff w q : (exists t, 0 <= t <= 1 /\ projects_at w q t) <-> 0 <= wall_c2p w q <= 1.
Proof.
  destruct (proper_dec w) as [P|P].
  - split.
    + intros (t & T & H). apply c2p_projects in H; auto. subst. auto.
    + intro H. exists (wall_c2p w q). split; auto. apply c2p_projects; auto.
  - rewrite c2p_improper by auto. split; [lra|]. intros _. exists 0. split; [lra|].
    assert (E : w_origin w = w_dest w) by (apply improper_eq; exact P).
    unfold projects_at. rewrite E. ring.
Qed.
Lemma strictly_inside_iff w q : (proper w /\ exists t, 0 < t < 1 /\ projects_at w q t) <-> 0 < wall_c2p w q < 1.
Proof.
  destruct (proper_dec w) as [P|P].
  - split.
    + intros (_ & t & T & H). apply c2p_projects in H; auto. subst. auto.
    + intro H. split; auto. exists (wall_c2p w q). split; auto. apply c2p_projects; auto.
  - rewrite c2p_improper by auto. split; [tauto|lra].
Qed.
Lemma obj_contains_exact g o q k :
  exists b, obj_contains g o (obj_c2p o q) (Some false) k = TB b /\
  (b = true <-> forall w, wall_of o = Some w -> exists t, 0 <= t <= 1 /\ projects_at w q t).
Proof.
  destruct o as [w|w phi|v]; cbn [obj_contains obj_c2p wall_of nth].
  - destruct (contains_exact g (wall_c2p w q) k) as (b & E & H). exists b. split; auto. rewrite H, <- inside_iff.
    split; [intros X w' Y; inversion Y; subst; auto|auto].
  - destruct (contains_exact g (wall_c2p w q) k) as (b & E & H). exists b. split; auto. rewrite H, <- inside_iff.
    split; [intros X w' Y; inversion Y; subst; auto|auto].
  - exists true. split; [reflexivity|]. split; auto. discriminate.
Qed.
Lemma C36_lemma g p os k : (length os < length (xys p))%nat ->
  exists b, on_objects g p os (Some false) k = TB b /\ (b = true <-> projects_inside (xys p) os).
Proof.
  intro L. rewrite on_objects_fold.
  destruct (and_fold_exact g (on_tests g (xys p) os (Some false) k)) with (a := true) as (b & E & H).
  { intros t T. apply in_on_tests in T; auto. destruct T as (i & o & q & _ & _ & ->).
    destruct (obj_contains_exact g o q k) as (b & E & _). eauto. }
  exists b. split; [rewrite <- E; reflexivity|]. rewrite H. unfold projects_inside. split.
  - intros [_ N] i o w q O W Q. destruct (obj_contains_exact g o q k) as (c & Ec & Hc).
    destruct c; [exact (proj1 Hc eq_refl w W)|]. exfalso. apply N. apply in_on_tests; auto.
    exists i, o, q. auto.
  - intro X. split; auto. intro N. apply in_on_tests in N; auto. destruct N as (i & o & q & O & Q & N).
    destruct (obj_contains_exact g o q k) as (c & Ec & Hc). rewrite Ec in N. inversion N; subst c.
    assert (false = true); [|discriminate]. apply Hc. intros w W. eapply X; eauto.
Qed.
Lemma less_exact g l tol k : exists b, less g l (Fin tol) (Some false) k = TB b /\ (b = true <-> loss_below l tol).
Proof.
  unfold less. cbn [resolve]. eexists. split; [reflexivity|]. destruct l; cbn; rewrite ?Rltb_true; intuition discriminate.
Qed.
Lemma C38_lemma g p objects cand interacting tol patch k :
  (length (xys p) <= length cand + 2)%nat -> (length interacting < length (xys p))%nat ->
  exists b, is_valid g p objects cand interacting tol patch (Some false) k = Ok (TB b) /\
  (b = true <-> loss_below (loss p) tol /\ projects_inside (xys p) interacting /\
                ~ obstructed (xys p) objects cand patch SEG_TOL).
Proof.
  intros L1 L2. unfold is_valid.
  destruct (C37_lemma g p objects cand patch k L1) as (b1 & -> & H1).
  destruct (C36_lemma g p interacting k L2) as (b2 & E2 & H2).
  destruct (less_exact g (loss p) tol k) as (b3 & E3 & H3).
  cbn [rbind]. rewrite E2, E3. cbn. eexists. split; [reflexivity|].
  rewrite !andb_true_iff, negb_true_iff. rewrite <- H1, <- H2, <- H3. destruct b1; intuition discriminate.
Qed.
