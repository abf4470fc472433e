(** Proofs about lengths, nearest points, stacking, boxes, grids, rotation. *)
From Coq Require Import Reals List Bool Lra Psatz ZArith Lia.
From Verif Require Import Base BaseP LogicM SpecLogic GeometryM SpecGeometry VecP WallP.
Import ListNotations.
Open Scope R_scope.

(** C16 *)
Lemma Rabs_le_inv x a : Rabs x <= a -> - a <= x <= a.
Proof. unfold Rabs. destruct (Rcase_abs x); lra. Qed.
Lemma path_length_cons eps p q l :
  path_length eps (p :: q :: l) = norm (fst q - fst p + eps, snd q - snd p + eps) + path_length eps (q :: l).
Proof. reflexivity. Qed.
Lemma sqrt2_eps eps : 0 <= eps -> norm (eps, eps) = sqrt 2 * eps.
Proof.
  intro H. unfold norm, dot. cbn [fst snd]. replace (eps * eps + eps * eps) with (2 * (eps * eps)) by ring.
  rewrite sqrt_mult by nra. rewrite sqrt_square by auto. reflexivity.
Qed.
Lemma seg_error eps p q : 0 <= eps ->
  Rabs (norm (fst q - fst p + eps, snd q - snd p + eps) - dist p q) <= sqrt 2 * eps.
Proof.
  intro H. rewrite <- sqrt2_eps by auto. rewrite dist_sym, dist_norm.
  set (d := vsub q p). change (fst q - fst p) with (fst d). change (snd q - snd p) with (snd d).
  pose proof (norm_triangle d (eps, eps)) as A.
  pose proof (norm_triangle (vadd d (eps, eps)) (vopp (eps, eps))) as B. rewrite norm_opp in B.
  replace (vadd (vadd d (eps, eps)) (vopp (eps, eps))) with d in B
    by (unfold vadd, vopp; apply vec_eq; cbn; ring).
  unfold vadd in A, B. cbn [fst snd] in A, B. apply Rabs_le. lra.
Qed.
Lemma path_length_error eps pts : 0 <= eps ->
  Rabs (path_length eps pts - polyline pts) <= INR (length pts - 1) * (sqrt 2 * eps).
Proof.
  intro H. assert (SQ : 0 <= sqrt 2 * eps) by (pose proof (sqrt_pos 2); nra).
  induction pts as [|p [|q l] IH].
  - cbn. rewrite Rminus_0_r, Rabs_R0. lra.
  - cbn. rewrite Rminus_0_r, Rabs_R0. lra.
  - rewrite path_length_cons. change (polyline (p :: q :: l)) with (dist p q + polyline (q :: l)).
    replace (length (p :: q :: l) - 1)%nat with (S (length (q :: l) - 1)) by (cbn; lia).
    rewrite S_INR. pose proof (seg_error eps p q H) as A.
    apply Rabs_le_inv in IH. apply Rabs_le_inv in A. apply Rabs_le. lra.
Qed.
Lemma path_length_nonneg eps pts : 0 <= path_length eps pts.
Proof.
  induction pts as [|p [|q l] IH]; try (cbn; lra). rewrite path_length_cons.
  pose proof (norm_nonneg (fst q - fst p + eps, snd q - snd p + eps)). lra.
Qed.
Lemma path_length_translate eps v pts : path_length eps (map (vadd v) pts) = path_length eps pts.
Proof.
  induction pts as [|p [|q l] IH]; auto.
  change (map (vadd v) (p :: q :: l)) with (vadd v p :: vadd v q :: map (vadd v) l).
  rewrite !path_length_cons. change (vadd v q :: map (vadd v) l) with (map (vadd v) (q :: l)). rewrite IH.
  f_equal. f_equal. unfold vadd. cbn. f_equal; ring.
Qed.
Lemma polyline_ends l : forall p q, dist p q <= polyline (p :: l ++ [q]).
Proof.
  induction l as [|x l IH]; intros p q.
  - cbn. lra.
  - change (polyline (p :: (x :: l) ++ [q])) with (dist p x + polyline (x :: l ++ [q])).
    pose proof (dist_triangle p x q). specialize (IH x q). lra.
Qed.
Lemma path_length_zero eps pts :
  path_length eps pts = 0 <->
  consecutive (fun p q => fst q - fst p = - eps /\ snd q - snd p = - eps) pts.
Proof.
  unfold consecutive. induction pts as [|p [|q l] IH].
  - split; auto. intros _ l p q r E. destruct l; discriminate.
  - split; auto. intros _ l p' q r E. destruct l as [|? [|]]; discriminate.
  - rewrite path_length_cons.
    pose proof (norm_nonneg (fst q - fst p + eps, snd q - snd p + eps)) as N.
    pose proof (path_length_nonneg eps (q :: l)) as M. split.
    + intro E. assert (Z : norm (fst q - fst p + eps, snd q - snd p + eps) = 0) by lra.
      apply norm_zero in Z. inversion Z.
      intros l' p' q' r E'. destruct l' as [|x l'].
      * cbn in E'. inversion E'; subst. lra.
      * cbn in E'. inversion E'. eapply (proj1 IH); [lra|]. eassumption.
    + intro A. destruct (A [] p q l eq_refl) as [A1 A2].
      assert (Z : norm (fst q - fst p + eps, snd q - snd p + eps) = 0).
      { apply norm_zero. apply vec_eq; cbn; lra. }
      rewrite Z. assert (path_length eps (q :: l) = 0); [|lra].
      apply IH. intros l' p' q' r E. apply (A (p :: l') p' q' r). cbn. rewrite E. reflexivity.
Qed.

(** C18 *)
Lemma argmin_aux_spec xs : forall pre best bv,
  (best < length pre)%nat -> nth best pre 0 = bv ->
  (forall j, (j < length pre)%nat -> bv <= nth j pre 0) ->
  (forall j, (j < best)%nat -> bv < nth j pre 0) ->
  let i := argmin_aux xs (length pre) best bv in
  let all := pre ++ xs in
  (i < length all)%nat /\
  (forall j, (j < length all)%nat -> nth i all 0 <= nth j all 0) /\
  (forall j, (j < i)%nat -> nth i all 0 < nth j all 0).
Proof.
  induction xs as [|x xs IH]; intros pre best bv Hb Hv Hm Hs; cbn zeta.
  - cbn [argmin_aux]. rewrite app_nil_r. rewrite Hv. auto.
  - cbn [argmin_aux]. replace (pre ++ x :: xs) with ((pre ++ [x]) ++ xs) by (rewrite <- app_assoc; reflexivity).
    assert (L : length (pre ++ [x]) = S (length pre)) by (rewrite app_length; cbn; lia).
    assert (G : forall j, (j < length pre)%nat -> nth j (pre ++ [x]) 0 = nth j pre 0)
      by (intros; apply app_nth1; auto).
    assert (X : nth (length pre) (pre ++ [x]) 0 = x)
      by (rewrite app_nth2, Nat.sub_diag by lia; reflexivity).
    rewrite <- L. destruct (Rltb_spec x bv) as [C|C].
    + apply IH; auto; try lia; rewrite ?L.
      * intros j Hj. destruct (Nat.eq_dec j (length pre)) as [->|N]; [rewrite X; lra|].
        rewrite G by lia. pose proof (Hm j ltac:(lia)). lra.
      * intros j Hj. rewrite G by lia. pose proof (Hm j ltac:(lia)). lra.
    + apply IH; rewrite ?L; try lia.
      * rewrite G by lia. auto.
      * intros j Hj. destruct (Nat.eq_dec j (length pre)) as [->|N]; [rewrite X; lra|].
        rewrite G by lia. apply Hm. lia.
      * intros j Hj. rewrite G by lia. apply Hs. lia.
Qed.
Lemma argmin_spec xs i : argmin xs = Ok i ->
  (i < length xs)%nat /\
  (forall j, (j < length xs)%nat -> nth i xs 0 <= nth j xs 0) /\
  (forall j, (j < i)%nat -> nth i xs 0 < nth j xs 0).
Proof.
  destruct xs as [|x xs]; cbn [argmin]; [discriminate|]. intro E. inversion E; subst.
  apply (argmin_aux_spec xs [x] 0 x); cbn; try lia; auto.
  intros [|j] Hj; [lra|lia].
Qed.
Lemma closest_point_spec pts target : pts <> [] ->
  exists i d, closest_point pts target = Ok (i, d) /\ (i < length pts)%nat /\
    d = dist (nth i pts (0, 0)) target /\
    (forall j, (j < length pts)%nat -> d <= dist (nth j pts (0, 0)) target) /\
    (forall j, (j < i)%nat -> d < dist (nth j pts (0, 0)) target).
Proof.
  intro N. unfold closest_point. set (ds := map _ pts).
  assert (L : length ds = length pts) by apply map_length.
  assert (D : forall j, (j < length pts)%nat -> nth j ds 0 = dist (nth j pts (0, 0)) target).
  { intros j Hj. rewrite dist_norm. unfold ds.
    rewrite nth_indep with (d' := norm (vsub (0, 0) target)) by (rewrite map_length; auto).
    apply (map_nth (fun p => norm (vsub p target))). }
  destruct (argmin ds) as [i|e] eqn:E.
  - destruct (argmin_spec ds i E) as (A & B & C). rewrite L in *. cbn [rbind].
    exists i, (nth i ds 0). split; auto. split; auto. split; [apply D; auto|]. split.
    + intros j Hj. rewrite <- D by auto. auto.
    + intros j Hj. rewrite <- D by lia. auto.
  - destruct pts; [contradiction|]. discriminate.
Qed.
Lemma closest_point_empty target : closest_point [] target = Err ValueError.
Proof. reflexivity. Qed.

(** C25 *)
Lemma rotate_formula w th c :
  rotate w th (Some c) =
  mkwall (vadd c (vsub (vscale (cos th) (vsub (w_origin w) c)) (vscale (sin th) (vsub (w_dest w) c))))
         (vadd c (vadd (vscale (sin th) (vsub (w_origin w) c)) (vscale (cos th) (vsub (w_dest w) c)))).
Proof.
  unfold rotate, matmul_rows. f_equal; unfold vadd, vsub, vscale; apply vec_eq; cbn; ring.
Qed.
Lemma rotate_none w th : rotate w th None = rotate w th (Some (0, 0)).
Proof. reflexivity. Qed.
Lemma rotate_correct_iff w th c :
  rotate w th (Some c) = mkwall (rotated th c (w_origin w)) (rotated th c (w_dest w)) <->
  (sin th = 0 \/ (fst (w_dest w) - fst c = snd (w_origin w) - snd c /\
                  snd (w_dest w) - snd c = - (fst (w_origin w) - fst c))).
Proof.
  rewrite rotate_formula. unfold rotated. split.
  - intro E. assert (E1 := f_equal (fun w => fst (w_origin w)) E). assert (E2 := f_equal (fun w => snd (w_origin w)) E).
    cbn in E1, E2. clear E.
    destruct (Req_dec (sin th) 0) as [S|S]; auto. right. split; apply (Rmult_eq_reg_l (sin th)); auto; lra.
  - intros H. f_equal; unfold vadd, vsub, vscale; cbn [fst snd]; f_equal;
    destruct H as [->|[A B]]; try ring; rewrite ?A, ?B; ring.
Qed.

(** C26 *)
Lemma kind_eqb_eq a b : kind_eqb a b = true <-> a = b.
Proof. destruct a, b; cbn; split; congruence. Qed.
Lemma unflatten_leaves o : unflatten (kind_of o) (leaves_of o) = Some o.
Proof. destruct o as [[]|[]|]; reflexivity. Qed.
Lemma columns_length n rows : length (columns n rows) = n.
Proof. revert rows; induction n; cbn; auto. Qed.
Lemma columns_nil n : columns n [] = repeat [] n.
Proof. induction n; cbn; congruence. Qed.
Lemma columns_app_row n r rows : length r = n ->
  columns n (r :: rows) = map (fun '(x, c) => x :: c) (combine r (columns n rows)).
Proof.
  revert r rows. induction n; intros r rows H; destruct r as [|x r]; try discriminate; cbn; auto.
  f_equal. apply IHn. cbn in H. lia.
Qed.
Lemma map_hd_cons (r : list leaf) cols : length r = length cols ->
  map (fun c => hd (LNum 0) c) (map (fun '(x, c) => x :: c) (combine r cols)) = r /\
  map (@tl leaf) (map (fun '(x, c) => x :: c) (combine r cols)) = cols.
Proof.
  revert cols. induction r; intros [|c cols] H; cbn in *; try discriminate; auto.
  destruct (IHr cols) as [A B]; [lia|]. rewrite A, B. auto.
Qed.
Lemma columns_columns n rows : Forall (fun r => length r = n) rows -> n <> O ->
  columns (length rows) (columns n rows) = rows.
Proof.
  intros H N. induction H as [|r rows Hr _ IH]; auto.
  rewrite columns_app_row by auto. cbn [length columns].
  destruct (map_hd_cons r (columns n rows)) as [A B]; [rewrite columns_length; auto|].
  rewrite A, B, IH. reflexivity.
Qed.
Lemma fold_min_const (ls : list (list leaf)) m : Forall (fun l => length l = m) ls ->
  fold_left (fun m r => Nat.min m (length r)) ls m = m.
Proof.
  induction 1 as [|l ls Hl _ IH]; cbn; auto. rewrite Hl, Nat.min_id. auto.
Qed.
Lemma columns_entry_length n rows : Forall (fun l => length l = length rows) (columns n rows).
Proof.
  revert rows. induction n; intro rows; cbn; constructor.
  - apply map_length.
  - eapply Forall_impl; [|apply IHn]. cbn. intros l ->. apply map_length.
Qed.
Lemma zip_len_columns n rows : n <> O -> zip_len (columns n rows) = length rows.
Proof.
  intro N. pose proof (columns_entry_length n rows) as H. destruct n; [contradiction|].
  cbn [columns] in *. inversion H as [|? ? A B]; subst. cbn [zip_len]. rewrite A. apply fold_min_const; auto.
Qed.
Lemma leaves_kind o o' : kind_of o = kind_of o' -> length (leaves_of o) = length (leaves_of o').
Proof. destruct o, o'; cbn; congruence. Qed.
Lemma unstack_stack os s : stack_leaves os = Ok s -> unstack_leaves s = map Some os.
Proof.
  destruct os as [|o os]; [discriminate|]. unfold stack_leaves.
  destruct (forallb _ (o :: os)) eqn:E; [|discriminate]. intro H. inversion H; subst. clear H.
  set (all := o :: os) in *.
  assert (K : forall o', In o' all -> kind_of o' = kind_of o).
  { intros o' I. rewrite forallb_forall in E. apply kind_eqb_eq, E, I. }
  unfold unstack_leaves. cbn [st_kind st_leaves].
  assert (N : length (leaves_of o) <> O) by (destruct o; discriminate).
  rewrite zip_len_columns by auto. rewrite columns_columns; auto.
  - change (map (unflatten (kind_of o)) (map leaves_of all) = map Some all).
    rewrite map_map. apply map_ext_in. intros o' I. rewrite <- (K o' I). apply unflatten_leaves.
  - apply Forall_forall. intros r I. change (In r (map leaves_of all)) in I.
    apply in_map_iff in I. destruct I as (o' & <- & I). apply leaves_kind, K, I.
Qed.
Lemma stack_ok_iff os : (exists s, stack_leaves os = Ok s) <->
  os <> [] /\ forall o o', In o os -> In o' os -> kind_of o = kind_of o'.
Proof.
  destruct os as [|o os]; [split; [intros [s H]; discriminate|intros [H _]; contradiction]|].
  unfold stack_leaves. destruct (forallb _ (o :: os)) eqn:E; split.
  - intros _. split; [discriminate|]. rewrite forallb_forall in E. intros a b Ia Ib.
    apply E, kind_eqb_eq in Ia. apply E, kind_eqb_eq in Ib. congruence.
  - intros _. eauto.
  - intros [s H]. discriminate.
  - intros [_ H]. assert (X : forallb (fun o' => kind_eqb (kind_of o') (kind_of o)) (o :: os) = true).
    { apply forallb_forall. intros x I. apply kind_eqb_eq. apply H; cbn; auto. }
    congruence.
Qed.
Lemma stack_err os : (exists o o', In o os /\ In o' os /\ kind_of o <> kind_of o') ->
  stack_leaves os = Err ValueError.
Proof.
  intros (o & o' & I & I' & N). destruct (stack_leaves os) as [s|e] eqn:E.
  - destruct (proj1 (stack_ok_iff os)) as [_ H]; [eauto|]. exfalso. apply N, H; auto.
  - destruct os as [|x os]; [destruct I|]. unfold stack_leaves in E. destruct (forallb _ _); congruence.
Qed.

(** C27 *)
Lemma list_min_spec xs : forall x,
  (forall y, In y (x :: xs) -> list_min x xs <= y) /\ In (list_min x xs) (x :: xs).
Proof.
  unfold list_min. induction xs as [|z xs IH]; intro x; cbn [fold_left].
  - split; [|left; auto]. intros y [->|[]]. lra.
  - destruct (IH (Rmin x z)) as [A B]. split.
    + intros y [->|[->|I]].
      * eapply Rle_trans; [apply A; left; reflexivity|apply Rmin_l].
      * eapply Rle_trans; [apply A; left; reflexivity|apply Rmin_r].
      * apply A. right. auto.
    + destruct B as [B|B]; [|right; right; auto].
      destruct (Rmin_cases x z) as [[_ E]|[_ E]]; rewrite E in *; [left|right; left]; auto.
Qed.
Lemma list_max_spec xs : forall x,
  (forall y, In y (x :: xs) -> y <= list_max x xs) /\ In (list_max x xs) (x :: xs).
Proof.
  unfold list_max. induction xs as [|z xs IH]; intro x; cbn [fold_left].
  - split; [|left; auto]. intros y [->|[]]. lra.
  - destruct (IH (Rmax x z)) as [A B]. split.
    + intros y [->|[->|I]].
      * eapply Rle_trans; [apply Rmax_l|apply A; left; reflexivity].
      * eapply Rle_trans; [apply Rmax_r|apply A; left; reflexivity].
      * apply A. right. auto.
    + destruct B as [B|B]; [|right; right; auto].
      destruct (Rmax_cases x z) as [[_ E]|[_ E]]; rewrite E in *; [right; left|left]; auto.
Qed.
Lemma bbox_tight p ps : tight_box (bbox_of_points p ps) (p :: ps).
Proof.
  unfold tight_box, in_box, bbox_of_points. cbn [fst snd].
  destruct (list_min_spec (map fst ps) (fst p)) as [A1 A2].
  destruct (list_min_spec (map snd ps) (snd p)) as [B1 B2].
  destruct (list_max_spec (map fst ps) (fst p)) as [C1 C2].
  destruct (list_max_spec (map snd ps) (snd p)) as [D1 D2].
  change (fst p :: map fst ps) with (map fst (p :: ps)) in *.
  change (snd p :: map snd ps) with (map snd (p :: ps)) in *.
  split.
  - intros q I. pose proof (in_map fst _ _ I). pose proof (in_map snd _ _ I). auto 10.
  - apply in_map_iff in A2. apply in_map_iff in B2. apply in_map_iff in C2. apply in_map_iff in D2.
    destruct A2 as (a & ? & ?), B2 as (b & ? & ?), C2 as (c & ? & ?), D2 as (d & ? & ?).
    repeat split; eauto.
Qed.
Lemma point_tight q : tight_box (point_bbox q) [q].
Proof.
  unfold tight_box, in_box, point_bbox. cbn. split; [intros ? [->|[]]; lra|].
  repeat split; exists q; auto.
Qed.
Lemma obj_tight o : tight_box (obj_bbox o) (defining_points o).
Proof. destruct o; cbn; [apply bbox_tight|apply bbox_tight|apply point_tight]. Qed.

(** C28 *)
Definition wf_box (b : bbox) : Prop := fst (fst b) <= fst (snd b) /\ snd (fst b) <= snd (snd b).
Lemma tight_wf b pts : tight_box b pts -> wf_box b.
Proof.
  intros (A & (q & I & _) & _). destruct (A q I) as [X Y]. unfold wf_box. lra.
Qed.
Lemma location_in_box b l : wf_box b -> in_box b (get_location b l).
Proof.
  destruct b as [[x0 y0] [x1 y1]]. unfold wf_box, in_box. cbn [fst snd]. intros [A B].
  destruct l; cbn [get_location fst snd]; lra.
Qed.
Lemma center_location b : center b = get_location b C_.
Proof. destruct b as [[x0 y0] [x1 y1]]. reflexivity. Qed.

Lemma linspace_length a b m : length (linspace a b m) = m.
Proof. destruct m as [|[|m]]; auto. unfold linspace. rewrite map_length, seq_length. reflexivity. Qed.
Lemma nth_map_seq {B} (h : nat -> B) s n i d : (i < n)%nat -> nth i (map h (seq s n)) d = h (s + i)%nat.
Proof.
  intro H. rewrite nth_indep with (d' := h O) by (rewrite map_length, seq_length; auto).
  rewrite map_nth, seq_nth by auto. reflexivity.
Qed.
Lemma linspace_nth a b m i : (2 <= m)%nat -> (i < m)%nat ->
  nth i (linspace a b m) 0 = a + INR i * ((b - a) / INR (m - 1)).
Proof.
  intros M I. destruct m as [|[|m]]; try lia. unfold linspace.
  rewrite nth_map_seq by auto. reflexivity.
Qed.
Lemma linspace_range a b m i : a <= b -> (i < m)%nat -> a <= nth i (linspace a b m) 0 <= b.
Proof.
  intros H I. destruct m as [|[|m]]; try lia.
  - destruct i; try lia. cbn. lra.
  - rewrite linspace_nth by lia. replace (S (S m) - 1)%nat with (S m) by lia.
    assert (P : 0 < INR (S m)) by (apply lt_0_INR; lia).
    assert (J : 0 <= INR i <= INR (S m)) by (split; [apply pos_INR|apply le_INR; lia]).
    set (k := INR i * ((b - a) / INR (S m))).
    assert (E : k * INR (S m) = INR i * (b - a)) by (unfold k; field; lra).
    clearbody k. split; [assert (0 <= k); [|lra]|assert (k <= b - a); [|lra]]; nra.
Qed.
Lemma linspace_ends a b m : (2 <= m)%nat ->
  nth 0 (linspace a b m) 0 = a /\ nth (m - 1) (linspace a b m) 0 = b.
Proof.
  intro M. rewrite !linspace_nth by lia. split; [cbn; ring|].
  assert (P : 0 < INR (m - 1)) by (apply lt_0_INR; lia). field. lra.
Qed.
Lemma linspace_step a b m i : (2 <= m)%nat -> (S i < m)%nat ->
  nth (S i) (linspace a b m) 0 - nth i (linspace a b m) 0 = (b - a) / INR (m - 1).
Proof. intros M I. rewrite !linspace_nth by lia. rewrite S_INR. ring. Qed.

Lemma nth_map_in {A B} (h : A -> B) l i d d' : (i < length l)%nat -> nth i (map h l) d' = h (nth i l d).
Proof.
  intro H. rewrite nth_indep with (d' := h d) by (rewrite map_length; auto). apply map_nth.
Qed.
(** Entry [(i, j)] of the two arrays of a grid. *)
Lemma grid_entry b m n i j : (i < n)%nat -> (j < m)%nat ->
  let '(X, Y) := grid b m (Some n) in
  nth j (nth i X []) 0 = nth j (linspace (fst (fst b)) (fst (snd b)) m) 0 /\
  nth j (nth i Y []) 0 = nth i (linspace (snd (fst b)) (snd (snd b)) n) 0.
Proof.
  intros I J. unfold grid, meshgrid. split.
  - rewrite (nth_map_in _ _ _ 0) by (rewrite linspace_length; auto). reflexivity.
  - rewrite (nth_map_in _ _ _ 0) by (rewrite linspace_length; auto).
    rewrite (nth_map_in _ _ _ 0) by (rewrite linspace_length; auto). reflexivity.
Qed.
Lemma grid_shape b m n :
  let '(X, Y) := grid b m (Some n) in
  length X = n /\ length Y = n /\ (forall r, In r X -> length r = m) /\ (forall r, In r Y -> length r = m).
Proof.
  unfold grid, meshgrid. rewrite !map_length, linspace_length. repeat split; auto; intros r I;
    apply in_map_iff in I; destruct I as (y & <- & _); rewrite ?map_length, linspace_length; auto.
Qed.
Lemma grid_default b m : grid b m None = grid b m (Some m).
Proof. reflexivity. Qed.

(** C24 *)
Lemma vertex_facts g v r0 r1 patch a k ps p x y :
  obj_intersects g (OVertex v) r0 r1 patch a k = false_value g a /\
  obj_contains g (OVertex v) ps a k = true_value g a /\
  obj_evaluate (OVertex v) p x y = 0 /\
  obj_p2c (OVertex v) ps = v /\ obj_c2p (OVertex v) p = [].
Proof. repeat split. Qed.

Lemma path_length_ends eps p l q : 0 <= eps ->
  dist p q - INR (length (p :: l ++ [q]) - 1) * (sqrt 2 * eps) <= path_length eps (p :: l ++ [q]).
Proof.
  intro H. pose proof (path_length_error eps (p :: l ++ [q]) H) as A. apply Rabs_le_inv in A.
  pose proof (polyline_ends l p q). lra.
Qed.
Lemma rotate_refuted :
  let w := mkwall (1, 0) (2, 0) in
  let w' := rotate w (PI / 2) None in
  dist (w_origin w) (w_dest w) <> dist (w_origin w') (w_dest w') /\
  w' <> mkwall (rotated (PI / 2) (0, 0) (w_origin w)) (rotated (PI / 2) (0, 0) (w_dest w)).
Proof.
  cbn zeta. rewrite rotate_none. split.
  - rewrite rotate_formula, sin_PI2, cos_PI2. intro E.
    apply (f_equal (fun x => x * x)) in E. rewrite !dist_sq in E. unfold vadd, vsub, vscale in E.
    cbn in E. lra.
  - intro E. apply rotate_correct_iff in E. rewrite sin_PI2 in E. cbn in E. lra.
Qed.
Lemma compass x0 y0 x1 y1 :
  let b := ((x0, y0), (x1, y1)) in
  get_location b SW = (x0, y0) /\ get_location b NE = (x1, y1) /\
  get_location b NW = (x0, y1) /\ get_location b SE = (x1, y0) /\
  get_location b N = ((x0 + x1) / 2, y1) /\ get_location b S_ = ((x0 + x1) / 2, y0) /\
  get_location b E = (x1, (y0 + y1) / 2) /\ get_location b W = (x0, (y0 + y1) / 2) /\
  get_location b C_ = ((x0 + x1) / 2, (y0 + y1) / 2) /\ center b = get_location b C_.
Proof. cbn. repeat split; f_equal; lra. Qed.
Lemma grid_lemma b pts m n X Y : tight_box b pts -> grid b m (Some n) = (X, Y) ->
  (length X = n /\ length Y = n /\ (forall r, In r X -> length r = m) /\ (forall r, In r Y -> length r = m)) /\
  (forall i j, (i < n)%nat -> (j < m)%nat ->
     in_box b (nth j (nth i X []) 0, nth j (nth i Y []) 0) /\
     nth j (nth i X []) 0 = nth j (nth 0 X []) 0 /\
     nth j (nth i Y []) 0 = nth 0 (nth i Y []) 0 /\
     ((2 <= m)%nat -> nth j (nth i X []) 0 =
        fst (fst b) + INR j * ((fst (snd b) - fst (fst b)) / INR (m - 1))) /\
     ((2 <= n)%nat -> nth j (nth i Y []) 0 =
        snd (fst b) + INR i * ((snd (snd b) - snd (fst b)) / INR (n - 1)))) /\
  ((2 <= m)%nat -> (2 <= n)%nat ->
     (nth 0 (nth 0 X []) 0, nth 0 (nth 0 Y []) 0) = fst b /\
     (nth (m - 1) (nth (n - 1) X []) 0, nth (m - 1) (nth (n - 1) Y []) 0) = snd b /\
     (nth 0 (nth (n - 1) X []) 0, nth 0 (nth (n - 1) Y []) 0) = (fst (fst b), snd (snd b)) /\
     (nth (m - 1) (nth 0 X []) 0, nth (m - 1) (nth 0 Y []) 0) = (fst (snd b), snd (fst b))).
Proof.
  intros T G. apply tight_wf in T. destruct T as [T1 T2].
  assert (E : forall i j, (i < n)%nat -> (j < m)%nat ->
     nth j (nth i X []) 0 = nth j (linspace (fst (fst b)) (fst (snd b)) m) 0 /\
     nth j (nth i Y []) 0 = nth i (linspace (snd (fst b)) (snd (snd b)) n) 0).
  { intros i j I J. pose proof (grid_entry b m n i j I J) as X0. rewrite G in X0. exact X0. }
  split; [pose proof (grid_shape b m n) as X0; rewrite G in X0; exact X0|]. split.
  - intros i j I J. destruct (E i j I J) as [E1 E2]. destruct (E 0%nat j ltac:(lia) J) as [E3 _].
    destruct (E i 0%nat I ltac:(lia)) as [_ E4].
    split; [|split; [congruence|split; [congruence|split]]].
    + rewrite E1, E2. unfold in_box. cbn [fst snd]. split; apply linspace_range; auto.
    + intro M. rewrite E1. apply linspace_nth; auto.
    + intro M. rewrite E2. apply linspace_nth; auto.
  - intros M N. destruct (linspace_ends (fst (fst b)) (fst (snd b)) m M) as [A B].
    destruct (linspace_ends (snd (fst b)) (snd (snd b)) n N) as [C D].
    destruct (E 0 0 ltac:(lia) ltac:(lia))%nat as [-> ->].
    destruct (E (n - 1) (m - 1) ltac:(lia) ltac:(lia))%nat as [-> ->].
    destruct (E (n - 1) 0 ltac:(lia) ltac:(lia))%nat as [-> ->].
    destruct (E 0 (m - 1) ltac:(lia) ltac:(lia))%nat as [-> ->].
    rewrite A, B, C, D. destruct b as [[] []]. auto.
Qed.
