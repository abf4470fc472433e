(** Proofs about [logical_all] and [logical_any] on arrays. *)
From Coq Require Import Reals List Bool ZArith Arith Lia Permutation.
From Verif Require Import Base LogicM ArrayM SpecArray ArrayP.
Import ListNotations.
Local Notation length := List.length.

(** ** Indices *)
Lemma filter_flat {A B} (f : B -> bool) (h : A -> list B) l : filter f (flat_map h l) = flat_map (fun a => filter f (h a)) l.
Proof. induction l; cbn; auto. now rewrite filter_app, IHl. Qed.
Lemma filter_map {A B} (f : B -> bool) (h : A -> B) l : filter f (map h l) = map h (filter (fun a => f (h a)) l).
Proof. induction l; cbn; auto. destruct (f (h a)); cbn; now rewrite IHl. Qed.
Lemma flat_map_one {A} (h : nat -> list A) b q n : (q <= b < q + n)%nat -> (forall a, a <> b -> h a = []) -> flat_map h (seq q n) = h b.
Proof.
  intros H Z. revert q H. induction n; intros q H; [lia|]. cbn. destruct (Nat.eq_dec q b) as [->|N].
  - assert (E : forall m q', (b < q')%nat -> flat_map h (seq q' m) = []).
    { induction m; intros q' Q; cbn; auto. rewrite Z by lia. apply IHm. lia. }
    rewrite E by lia. apply app_nil_r.
  - rewrite Z by auto. apply IHn. lia.
Qed.
Lemma in_indices s : forall i, In i (indices s) <-> within i s.
Proof.
  induction s as [|n s IH]; intros i; cbn.
  - split; [intros [<-|[]]; constructor|inversion 1; auto].
  - rewrite in_flat_map. split.
    + intros (a & Ha & Hi). apply in_seq in Ha. apply in_map_iff in Hi. destruct Hi as (t & <- & Ht). constructor; [lia|]. now apply IH.
    + inversion 1; subst. exists x. split; [apply in_seq; lia|]. apply in_map_iff. eexists; split; [reflexivity|]. now apply IH.
Qed.
Lemma nodup_indices s : NoDup (indices s).
Proof.
  induction s as [|n s IH]; cbn; [repeat constructor; auto|]. assert (G : forall m q, NoDup (flat_map (fun j => map (cons j) (indices s)) (seq q m))); [|apply G].
  induction m; intros q; cbn; [constructor|].
  assert (D : forall (l1 l2 : list index), NoDup l1 -> NoDup l2 -> (forall x, In x l1 -> ~ In x l2) -> NoDup (l1 ++ l2)).
  { clear. induction l1; cbn; auto. intros l2 H1 H2 H3. inversion H1; subst. constructor; [|apply IHl1; auto].
    rewrite in_app_iff. intros [K|K]; auto. exact (H3 a (or_introl eq_refl) K). }
  apply D; auto.
  - apply FinFun.Injective_map_NoDup; auto. intros x y Z. now inversion Z.
  - intros x Hx Hy. apply in_map_iff in Hx. destruct Hx as (t & <- & _). apply in_flat_map in Hy. destruct Hy as (a & Ha & Hy).
    apply in_seq in Ha. apply in_map_iff in Hy. destruct Hy as (u & E & _). inversion E. lia.
Qed.
Lemma filter_pick (i : index) l : NoDup l -> In i l -> filter (fun j => shape_eqb j i) l = [i].
Proof.
  induction 1 as [|a l Ha N IH]; [intros []|]. intros [->|K]; cbn.
  - rewrite shape_eqb_refl. f_equal. clear -Ha. induction l as [|b l IH]; cbn; auto. rewrite shape_eqb_false; [|intros ->; apply Ha; now left].
    apply IH. intros K. apply Ha. now right.
  - rewrite shape_eqb_false; [auto|]. intros ->. contradiction.
Qed.
Lemma without_shift p : forall l q, without (S q) [S p] l = without q [p] l.
Proof. induction l as [|a l IH]; intros q; cbn; auto. rewrite IH. reflexivity. Qed.
Lemma without_past p : forall l q, (p < q)%nat -> without q [p] l = l.
Proof.
  induction l as [|a l IH]; intros q H; cbn; auto. replace (q =? p)%nat with false by (symmetry; apply Nat.eqb_neq; lia). cbn. now rewrite IH by lia.
Qed.
Lemma without_S p a l : without 0 [S p] (a :: l) = a :: without 0 [p] l.
Proof. cbn. now rewrite without_shift. Qed.
Lemma without_0 a l : without 0 [0%nat] (a :: l) = l.
Proof. cbn. apply without_past. lia. Qed.
Lemma fibre_one p : forall s i d, nth_error s p = Some d -> within i (without 0 [p] s) ->
  fibre [p] s i = map (fun j => insert p j i) (seq 0 d).
Proof.
  induction p as [|p IH]; intros [|n s] i d Hd W; cbn in Hd; try discriminate.
  - inversion Hd; subst. rewrite without_0 in W. unfold fibre. cbn [indices]. rewrite filter_flat.
    transitivity (flat_map (fun j => [j :: i]) (seq 0 d)).
    + apply flat_map_ext. intros j. rewrite filter_map. replace (filter _ (indices s)) with [i]; [reflexivity|]. symmetry.
      rewrite <- (filter_pick i (indices s)); [|apply nodup_indices|now apply in_indices].
      apply filter_ext. intros t. now rewrite without_0.
    + unfold insert. cbn. induction (seq 0 d) as [|a l IHl]; cbn; [reflexivity|]. f_equal.
  - rewrite without_S in W. inversion W; subst. unfold fibre. cbn [indices]. rewrite filter_flat.
    rewrite (flat_map_one _ x); [|lia|].
    2: { intros a Ha. rewrite filter_map. rewrite <- (filter_ext (fun _ => false)).
         - induction (indices s); cbn; auto.
         - intros t. rewrite without_S. rewrite shape_eqb_false; [reflexivity|]. congruence. }
    rewrite filter_map. rewrite <- (filter_ext (fun t => shape_eqb (without 0 [p] t) l)).
    + fold (fibre [p] s l). rewrite (IH s l d) by assumption. rewrite map_map. apply map_ext. intros j. unfold insert. reflexivity.
    + intros t. rewrite without_S. unfold shape_eqb. destruct (list_eq_dec _ _ l) as [->|N]; destruct (list_eq_dec _ (x :: _) _); congruence.
Qed.
(** Which axes leave the shape of the arguments. *)
Lemma keeps_shape p : forall n s, (p <= length s)%nat ->
  (without 0 [p] (n :: s) = s <-> forall q, (q < p)%nat -> nth_error s q = Some n).
Proof.
  induction p as [|p IH]; intros n s Hp.
  - rewrite without_0. split; [intros _ q Q; lia|reflexivity].
  - rewrite without_S. destruct s as [|b s]; cbn in Hp; [lia|]. split.
    + intros E. pose proof (f_equal (hd 0%nat) E) as E1. pose proof (f_equal (@tl nat) E) as E2. unfold hd, tl in E1, E2. subst b.
      intros [|q] Q; [reflexivity|]. change (nth_error s q = Some n). apply (proj1 (IH n s ltac:(lia)) E2). lia.
    + intros H. pose proof (H 0%nat ltac:(lia)) as E. cbn in E. inversion E; subst b. f_equal. apply IH; [lia|].
      intros q Q. apply (H (S q)). lia.
Qed.
(** Lengths. *)
Lemma mem_spec p ps : mem p ps = true <-> In p ps.
Proof. unfold mem. rewrite existsb_exists. split; [intros (x & H & E); apply Nat.eqb_eq in E; now subst|exists p; split; auto; apply Nat.eqb_refl]. Qed.
Lemma length_without ps : forall l q, length (without q ps l) = length (filter (fun p => negb (mem p ps)) (seq q (length l))).
Proof. induction l as [|a l IH]; intros q; cbn; auto. destruct (mem q ps); cbn; now rewrite IH. Qed.
Lemma length_kept ps l : NoDup ps -> (forall p, In p ps -> (p < length l)%nat) -> (length (without 0 ps l) + length ps = length l)%nat.
Proof.
  intros N H. rewrite length_without.
  assert (P : Permutation ps (filter (fun p => mem p ps) (seq 0 (length l)))).
  { apply NoDup_Permutation; auto; [apply NoDup_filter, seq_NoDup|]. intros p. rewrite filter_In, mem_spec, in_seq. split; [|tauto].
    intros K. split; auto. specialize (H p K). lia. }
  rewrite (Permutation_length P) at 1.
  assert (G : forall (f : nat -> bool) m, (length (filter (fun p => negb (f p)) m) + length (filter f m) = length m)%nat).
  { intros f m. induction m; cbn; auto. destruct (f a); cbn; lia. }
  rewrite G. apply seq_length.
Qed.
Lemma without_all : forall l q, without q (seq q (length l)) l = [].
Proof.
  intros l q. assert (H : forall l' q' ps, (forall k, (k < length l')%nat -> In (q' + k)%nat ps) -> without q' ps l' = []).
  { induction l' as [|a l' IH]; intros q' ps K; cbn; auto. replace (mem q' ps) with true.
    - apply IH. intros k Hk. replace (S q' + k)%nat with (q' + S k)%nat by lia. apply K. cbn. lia.
    - symmetry. apply mem_spec. specialize (K 0%nat ltac:(cbn; lia)). now rewrite Nat.add_0_r in K. }
  apply H. intros k Hk. apply in_seq. lia.
Qed.
Lemma has_dup_spec ps : has_dup ps = false -> NoDup ps.
Proof.
  induction ps as [|p ps IH]; cbn; [constructor|]. intros H. apply orb_false_iff in H. destruct H as [H1 H2]. constructor; auto.
  intros K. apply mem_spec in K. congruence.
Qed.
Lemma norm_axis_lt n k p : norm_axis n k = Ok p -> (p < n)%nat.
Proof.
  unfold norm_axis. destruct (_ && _)%Z eqn:E; [|discriminate]. apply andb_true_iff in E. destruct E as [E1 E2].
  apply Z.leb_le in E1. apply Z.ltb_lt in E2. intros H. inversion H. destruct (k <? 0)%Z eqn:K; [apply Z.ltb_lt in K|apply Z.ltb_ge in K]; lia.
Qed.
Lemma norm_axes_spec n : forall ks ps, norm_axes n ks = Ok ps -> length ps = length ks /\ forall p, In p ps -> (p < n)%nat.
Proof.
  induction ks as [|k ks IH]; cbn; intros ps H.
  - inversion H. split; [reflexivity|intros p []].
  - destruct (norm_axis n k) as [p|] eqn:E; [|discriminate]. cbn in H. destruct (norm_axes n ks) as [ps'|]; [|discriminate]. cbn in H. inversion H; subst.
    destruct (IH ps' eq_refl) as [L F]. split; [cbn; congruence|]. intros q [<-|K]; [now apply norm_axis_lt in E|auto].
Qed.
Lemma norm_axis_ok n k p : (p < n)%nat -> (k = Z.of_nat p \/ k = Z.of_nat p - Z.of_nat n)%Z -> norm_axis n k = Ok p.
Proof.
  intros L H. unfold norm_axis. replace (_ && _)%Z with true by (symmetry; apply andb_true_iff; split; [apply Z.leb_le|apply Z.ltb_lt]; lia).
  f_equal. destruct (k <? 0)%Z eqn:K; [apply Z.ltb_lt in K|apply Z.ltb_ge in K]; lia.
Qed.
Lemma norm_axis_err n k : ~ (- Z.of_nat n <= k < Z.of_nat n)%Z -> norm_axis n k = Err ValueError.
Proof.
  intros H. unfold norm_axis. destruct (_ && _)%Z eqn:E; auto. apply andb_true_iff in E. destruct E as [E1 E2].
  apply Z.leb_le in E1. apply Z.ltb_lt in E2. lia.
Qed.

(** ** Stacking *)
Lemma check_all_ok s : forall xs m, Forall (fun v => shape_of v = s) xs -> (m = None \/ m = Some s) ->
  exists m', check_all m xs = Ok m' /\ (m' = Some s \/ m' = None /\ m = None /\ Forall is_python xs).
Proof.
  induction xs as [|v xs IH]; intros m H Hm; cbn.
  - exists m. split; auto. destruct Hm as [->| ->]; auto.
  - inversion H; subst. destruct v as [a|q|b]; cbn [check_truthy].
    + assert (E : exists m', bind_shape m (shp a) = Ok m' /\ m' = Some (shape_of (PArr a))).
      { unfold bind_shape. replace (shape_of (PArr a)) with (shp a) in * by now destruct a.
        destruct Hm as [->| ->]; [eexists; split; reflexivity|]. rewrite shape_eqb_refl. eexists; split; reflexivity. }
      destruct E as (m' & -> & ->). cbn. destruct (IH (Some (shape_of (PArr a))) ltac:(assumption) ltac:(auto)) as (m2 & E2 & K).
      exists m2. split; auto. destruct K as [K|[_ [K _]]]; [now left|discriminate].
    + cbn. destruct (IH m ltac:(assumption) Hm) as (m2 & E2 & K). exists m2. split; auto. destruct K as [K|(K1 & K2 & K3)]; [now left|right].
      split; [auto|split; [auto|constructor; cbn; auto]].
    + cbn. destruct (IH m ltac:(assumption) Hm) as (m2 & E2 & K). exists m2. split; auto. destruct K as [K|(K1 & K2 & K3)]; [now left|right].
      split; [auto|split; [auto|constructor; cbn; auto]].
Qed.
Lemma check_all_err : forall xs m, Forall (fun v => ~ is_python v) xs ->
  (exists s, (m = None \/ m = Some s) /\ Forall (fun v => shape_of v = s) xs) \/ check_all m xs = Err TypeCheckError.
Proof.
  induction xs as [|v xs IH]; intros m H.
  - left. destruct m as [s|]; [exists s; auto|exists []; auto].
  - inversion H; subst. destruct v as [a|q|b]; cbn in H2; try tauto. cbn [check_all check_truthy].
    assert (Ha : shape_of (PArr a) = shp a) by now destruct a.
    unfold bind_shape. destruct m as [t|].
    + destruct (shape_eqb (shp a) t) eqn:E; [|right; reflexivity]. apply shape_eqb_spec in E. subst t. cbn.
      destruct (IH (Some (shp a)) H3) as [(s & [K|K] & F)|K]; [discriminate| |now right]. inversion K; subst. left. exists (shp a). auto.
    + cbn. destruct (IH (Some (shp a)) H3) as [(s & [K|K] & F)|K]; [discriminate| |now right]. inversion K; subst. left. exists (shp a). auto.
Qed.
(** The stack of values of the same shape. *)
Definition is_nbp (v : pyval) : bool := is_nb (asarray v).
Definition prom (xs : list pyval) (t : truthy) : truthy := if forallb is_nbp xs then t else TF (to_f t).
Lemma asarray_get v i : get (asarray v) i = elem v i. Proof. now destruct v as [[]| |]. Qed.
Lemma stack_ok xs s : xs <> [] -> Forall (fun v => shape_of v = s) xs ->
  exists arr, jnp_stack (map asarray xs) = Ok arr /\ shp arr = length xs :: s /\
    forall a i v, nth_error xs a = Some v -> get arr (a :: i) = prom xs (elem v i).
Proof.
  intros N H. unfold jnp_stack. destruct (map asarray xs) as [|a0 l] eqn:E; [destruct xs; [contradiction|discriminate]|].
  assert (S0 : shp a0 = s). { destruct xs as [|v xs]; [contradiction|]. cbn in E. inversion E; subst. inversion H; subst. now rewrite <- shape_of_asarray. }
  replace (forallb (fun b => shape_eqb (shp b) (shp a0)) (a0 :: l)) with true.
  2: { symmetry. apply forallb_forall. intros b Hb. rewrite <- E in Hb. apply in_map_iff in Hb. destruct Hb as (v & <- & Hv).
       rewrite Forall_forall in H. apply shape_eqb_spec. rewrite <- shape_of_asarray, S0. auto. }
  assert (L : length (a0 :: l) = length xs) by (rewrite <- E; apply map_length). rewrite L, S0.
  assert (B : forallb is_nb (a0 :: l) = forallb is_nbp xs).
  { rewrite <- E. unfold is_nbp. clear. induction xs; cbn; congruence. }
  rewrite B. eexists. split; [reflexivity|]. split; [destruct (forallb is_nbp xs); reflexivity|].
  intros a i v Hv. assert (Nt : nth a (a0 :: l) nd0 = asarray v).
  { rewrite <- E. apply nth_error_nth. now apply map_nth_error. }
  unfold prom. destruct (forallb is_nbp xs) eqn:F; cbn [get hd tl]; rewrite Nt, asarray_get.
  - assert (K : is_nbp v = true) by (rewrite forallb_forall in F; apply F; eapply nth_error_In; eauto).
    destruct v as [[]| |]; cbn in *; try discriminate; reflexivity.
  - reflexivity.
Qed.
Lemma is_nbp_float v : is_nbp v = true <-> ~ is_float v.
Proof. destruct v as [[]| |]; cbn; split; try tauto; discriminate. Qed.
Lemma all_bool_spec xs : forallb is_nbp xs = true <-> all_bool xs.
Proof. unfold all_bool. rewrite forallb_forall, Forall_forall. split; intros H v Hv; apply is_nbp_float, H, Hv. Qed.
Lemma stacked_prom xs a i v : nth_error xs a = Some v -> stacked xs (a :: i) (prom xs (elem v i)).
Proof.
  intros H. cbn. exists v. split; auto. unfold prom. destruct (forallb is_nbp xs) eqn:F.
  - split; auto. intros K. exfalso. apply K. now apply all_bool_spec.
  - split; [intros K; apply all_bool_spec in K; congruence|]. intros _. now rewrite felem_to_f.
Qed.

(** ** Reducing *)
Lemma fold_min_map l : forall m, fold_left (fun m u => xmin m (to_f u)) (map TF l) m = fold_left xmin l m.
Proof. induction l; intros m; cbn; auto. Qed.
Lemma fold_max_map l : forall m, fold_left (fun m u => xmax m (to_f u)) (map TF l) m = fold_left xmax l m.
Proof. induction l; intros m; cbn; auto. Qed.
Definition red (ex : bool) := if ex then logical_any else logical_all.
Definition a_red (ex : bool) := if ex then a_logical_any else a_logical_all.
Definition fb (ex : bool) : list bool -> bool := if ex then existsb (fun b => b) else forallb (fun b => b).
Definition ff (ex : bool) : list xreal -> xreal := if ex then xmax_list else xmin_list.
Lemma a_red_eq ex jit g xs ax approx : a_red ex jit g xs ax approx =
  rbind (check_all None (map (enter jit) xs)) (fun m =>
  rbind (jnp_stack (map asarray (map (enter jit) xs))) (fun arr =>
  rbind (axes_of (length (shp arr)) ax) (fun ps =>
  rbind (if resolve g approx then jnp_extremum (fb ex) (ff ex) ps arr else Ok (jnp_quantify (fb ex) ps arr)) (fun r =>
  ret_truthy m r)))).
Proof. now destruct ex. Qed.
Lemma red_bools ex g l approx : l <> [] -> red ex g (map TB l) approx = Ok (TB (fb ex l)).
Proof.
  intros N. assert (E1 : forallb to_b (map TB l) = forallb (fun b => b) l) by (induction l as [|b [|]]; cbn in *; auto; rewrite IHl; auto; discriminate).
  assert (E2 : existsb to_b (map TB l) = existsb (fun b => b) l) by (clear -l; induction l; cbn; congruence).
  assert (E3 : all_bools (map TB l) = true) by (clear -l; induction l; cbn; auto).
  destruct l as [|b l]; [contradiction|]. destruct ex; unfold red, fb, logical_any, logical_all; rewrite ?E1, ?E2, ?E3; cbn [map] in *; destruct (resolve g approx); rewrite ?E3; reflexivity.
Qed.
Lemma red_floats ex g l approx : l <> [] -> red ex g (map TF l) approx =
  Ok (if resolve g approx then TF (ff ex l) else TB (fb ex (map xnonzero l))).
Proof.
  intros N. assert (E1 : forallb to_b (map TF l) = forallb (fun b => b) (map xnonzero l)) by (clear; induction l; cbn; congruence).
  assert (E2 : existsb to_b (map TF l) = existsb (fun b => b) (map xnonzero l)) by (clear; induction l; cbn; congruence).
  destruct l as [|b l]; [contradiction|]. destruct ex; unfold red, fb, logical_any, logical_all; rewrite ?E1, ?E2; cbn [map]; destruct (resolve g approx); cbn [all_bools forallb andb]; try reflexivity.
  - rewrite fold_max_map. reflexivity.
  - rewrite fold_min_map. reflexivity.
Qed.
Lemma red_exists ex g l approx : l <> [] -> exists t, red ex g l approx = Ok t.
Proof. intros N. destruct l; [contradiction|]. destruct ex; unfold red, logical_any, logical_all; destruct (resolve g approx); try destruct (all_bools _); eauto. Qed.
(** The reduction of an array along one axis is the scalar reduction of its lines. *)
Lemma reduce_one ex g approx arr p d : nth_error (shp arr) p = Some d -> d <> 0%nat ->
  exists r, (if resolve g approx then jnp_extremum (fb ex) (ff ex) [p] arr else Ok (jnp_quantify (fb ex) [p] arr)) = Ok r /\
    shp r = without 0 [p] (shp arr) /\
    forall i, within i (without 0 [p] (shp arr)) ->
      red ex g (map (fun j => get arr (insert p j i)) (seq 0 d)) approx = Ok (get r i).
Proof.
  intros Hd Nz.
  assert (Nl : forall i, map (fun j => insert p j i) (seq 0 d) <> []) by (intros i; destruct d; [contradiction|discriminate]).
  assert (Nx : jnp_extremum (fb ex) (ff ex) [p] arr = Ok match arr with
          | NB s f => NB (without 0 [p] s) (fun i => fb ex (map f (fibre [p] s i)))
          | NF s f => NF (without 0 [p] s) (fun i => ff ex (map f (fibre [p] s i)))
          end).
  { unfold jnp_extremum. cbn [existsb]. rewrite (nth_error_nth _ _ _ Hd). destruct d; [contradiction|]. reflexivity. }
  rewrite Nx.
  exists (if resolve g approx then match arr with
          | NB s f => NB (without 0 [p] s) (fun i => fb ex (map f (fibre [p] s i)))
          | NF s f => NF (without 0 [p] s) (fun i => ff ex (map f (fibre [p] s i)))
          end else jnp_quantify (fb ex) [p] arr).
  split; [destruct (resolve g approx); reflexivity|]. split; [destruct (resolve g approx), arr; reflexivity|].
  intros i W. destruct arr as [s f|s f]; cbn [shp] in *.
  - replace (map (fun j => get (NB s f) (insert p j i)) (seq 0 d)) with (map TB (map f (fibre [p] s i))).
    2: { rewrite (fibre_one p s i d Hd W), !map_map. reflexivity. }
    rewrite red_bools.
    + destruct (resolve g approx); cbn [jnp_quantify shp get]; [reflexivity|]. do 3 f_equal.
    + rewrite (fibre_one p s i d Hd W). intros K. apply map_eq_nil in K. exact (Nl i K).
  - replace (map (fun j => get (NF s f) (insert p j i)) (seq 0 d)) with (map TF (map f (fibre [p] s i))).
    2: { rewrite (fibre_one p s i d Hd W), !map_map. reflexivity. }
    rewrite red_floats.
    + destruct (resolve g approx); cbn [jnp_quantify shp get]; [reflexivity|]. do 3 f_equal. rewrite map_map. reflexivity.
    + rewrite (fibre_one p s i d Hd W). intros K. apply map_eq_nil in K. exact (Nl i K).
Qed.

(** ** The calls *)
Lemma entered_shapes jit xs s : Forall (fun v => shape_of v = s) xs -> Forall (fun v => shape_of v = s) (map (enter jit) xs).
Proof. intros H. rewrite Forall_map. eapply Forall_impl; [|exact H]. intros v. cbn. now rewrite shape_of_enter. Qed.
Lemma prom_enter jit xs t : prom (map (enter jit) xs) t = prom xs t.
Proof.
  unfold prom. replace (forallb is_nbp (map (enter jit) xs)) with (forallb is_nbp xs); auto.
  induction xs as [|v xs IH]; cbn; auto. rewrite IH. f_equal. now destruct v as [[]| |], jit.
Qed.
Lemma line_elements xs p i : forall d, (forall j, (j < d)%nat -> exists a i' v, insert p j i = a :: i' /\ nth_error xs a = Some v) ->
  forall arr, (forall a i' v, nth_error xs a = Some v -> get arr (a :: i') = prom xs (elem v i')) ->
  forall j t, nth_error (map (fun j => get arr (insert p j i)) (seq 0 d)) j = Some t -> stacked xs (insert p j i) t.
Proof.
  intros d H arr G j t E. assert (Hj : (j < d)%nat).
  { assert (K : nth_error (map (fun j => get arr (insert p j i)) (seq 0 d)) j <> None) by congruence. apply nth_error_Some in K. now rewrite map_length, seq_length in K. }
  erewrite map_nth_error in E; [|apply (nth_error_nth' _ 0%nat); now rewrite seq_length]. rewrite seq_nth in E by auto. inversion E; subst.
  destruct (H j Hj) as (a & i' & v & Ei & Ev). cbn [Nat.add]. rewrite Ei, (G a i' v Ev). now apply stacked_prom.
Qed.
Lemma red_axis ex jit g xs s k p approx : xs <> [] -> Forall (fun v => shape_of v = s) xs ->
  (p <= length s)%nat -> (k = Z.of_nat p \/ k = Z.of_nat p - Z.of_nat (S (length s)))%Z ->
  (forall q, (q < p)%nat -> nth_error s q = Some (length xs)) ->
  exists r, a_red ex jit g xs (AxInt k) approx = Ok r /\ shp r = s /\
    forall i, within i s -> exists ts, length ts = length xs /\
      (forall j t, nth_error ts j = Some t -> stacked xs (insert p j i) t) /\
      (p = 0%nat -> ts = map (fun v => prom xs (elem v i)) xs) /\
      red ex g ts approx = Ok (get r i).
Proof.
  intros N H Hp Hk Hq. rewrite a_red_eq. pose proof (entered_shapes jit xs s H) as H'.
  destruct (check_all_ok s (map (enter jit) xs) None H' (or_introl eq_refl)) as (m & -> & Hm). cbn [rbind].
  assert (N' : map (enter jit) xs <> []) by (intros K; apply map_eq_nil in K; contradiction).
  destruct (stack_ok _ s N' H') as (arr & -> & Sa & Ga). cbn [rbind]. rewrite map_length in Sa. rewrite Sa.
  cbn [axes_of]. rewrite (norm_axis_ok _ k p) by (cbn [length]; auto; lia). cbn [rbind].
  assert (Hd : nth_error (length xs :: s) p = Some (length xs)).
  { destruct p; [reflexivity|]. apply Hq. lia. }
  assert (Nz : length xs <> 0%nat) by (destruct xs; [contradiction|discriminate]).
  destruct (reduce_one ex g approx arr p (length xs) ltac:(now rewrite Sa) Nz) as (r & Er & Sr & Gr).
  rewrite Er. cbn [rbind]. assert (Ks : without 0 [p] (length xs :: s) = s) by now apply keeps_shape.
  rewrite Sa, Ks in Sr, Gr. exists r. split.
  - unfold ret_truthy. rewrite Sr. destruct Hm as [->|(-> & _ & _)]; cbn; [now rewrite shape_eqb_refl|reflexivity].
  - split; auto. intros i W. exists (map (fun j => get arr (insert p j i)) (seq 0 (length xs))).
    split; [now rewrite map_length, seq_length|].
    assert (Ga' : forall a i' v, nth_error xs a = Some v -> get arr (a :: i') = prom xs (elem v i')).
    { intros a i' v Hv. rewrite (Ga a i' (enter jit v)) by now apply map_nth_error. now rewrite elem_enter, prom_enter. }
    split; [|split; [|now apply Gr]].
    + apply line_elements; auto. intros j Hj. destruct p as [|p].
      * exists j, i. unfold insert. cbn. destruct (nth_error xs j) as [v|] eqn:E; [eauto|]. apply nth_error_None in E. lia.
      * pose proof (Hq 0%nat ltac:(lia)) as Q0. destruct s as [|b s]; [discriminate|]. cbn in Q0. inversion Q0; subst b. inversion W; subst.
        exists x, (insert p j l). unfold insert. cbn. destruct (nth_error xs x) as [v|] eqn:E; [eauto|]. apply nth_error_None in E. lia.
    + intros ->. apply nth_ext with (d := TB true) (d' := TB true); [now rewrite !map_length, seq_length|]. rewrite map_length, seq_length. intros j Hj.
      destruct (nth_error xs j) as [v|] eqn:E; [|apply nth_error_None in E; lia].
      erewrite nth_error_nth; [|apply map_nth_error; apply (nth_error_nth' _ 0%nat); now rewrite seq_length].
      rewrite seq_nth by auto. erewrite nth_error_nth; [|apply map_nth_error; exact E]. unfold insert. cbn. now rewrite (Ga' j i v E).
Qed.
(** Promotion does not change the scalar reduction. *)
Lemma to_b_prom t : to_b (TF (to_f t)) = to_b t.
Proof.
  destruct t as [[]|]; cbn; auto; unfold Reqb; destruct (Req_EM_T _ _) as [E|E]; cbn; auto; exfalso; [exact (R1_neq_R0 E)|auto].
Qed.
Lemma red_prom ex g xs i approx : xs <> [] ->
  red ex g (map (fun v => prom xs (elem v i)) xs) approx = red ex g (map (fun v => elem v i) xs) approx.
Proof.
  intros N. unfold prom. destruct (forallb is_nbp xs) eqn:F; [reflexivity|].
  assert (A : all_bools (map (fun v => elem v i) xs) = false).
  { clear N. induction xs as [|v xs IH]; cbn in *; [discriminate|]. destruct v as [[]| |]; cbn in *; auto. }
  assert (A' : all_bools (map (fun v => TF (to_f (elem v i))) xs) = false) by (destruct xs; [contradiction|reflexivity]).
  assert (B1 : forallb to_b (map (fun v => TF (to_f (elem v i))) xs) = forallb to_b (map (fun v => elem v i) xs)).
  { clear. induction xs as [|v xs IH]; cbn; auto. rewrite IH. f_equal. apply to_b_prom. }
  assert (B2 : existsb to_b (map (fun v => TF (to_f (elem v i))) xs) = existsb to_b (map (fun v => elem v i) xs)).
  { clear. induction xs as [|v xs IH]; cbn; auto. rewrite IH. f_equal. apply to_b_prom. }
  assert (C1 : forall l m, fold_left (fun m u => xmin m (to_f u)) (map (fun v => TF (to_f (elem v i))) l) m = fold_left (fun m u => xmin m (to_f u)) (map (fun v => elem v i) l) m)
    by (induction l; intros m; cbn; auto).
  assert (C2 : forall l m, fold_left (fun m u => xmax m (to_f u)) (map (fun v => TF (to_f (elem v i))) l) m = fold_left (fun m u => xmax m (to_f u)) (map (fun v => elem v i) l) m)
    by (induction l; intros m; cbn; auto).
  destruct xs as [|v xs]; [contradiction|].
  destruct ex; unfold red, logical_any, logical_all; destruct (resolve g approx).
  - cbn [map] in *. rewrite A, A'. do 2 f_equal. apply C2.
  - rewrite B2. reflexivity.
  - cbn [map] in *. rewrite A, A'. do 2 f_equal. apply C1.
  - rewrite B1. reflexivity.
Qed.
Lemma red_axis0 ex jit g xs s approx : xs <> [] -> Forall (fun v => shape_of v = s) xs ->
  exists r, a_red ex jit g xs (AxInt 0) approx = Ok r /\ shp r = s /\
    forall i, within i s -> red ex g (map (fun v => elem v i) xs) approx = Ok (get r i).
Proof.
  intros N H. destruct (red_axis ex jit g xs s 0 0 approx N H ltac:(lia) ltac:(auto) ltac:(intros; lia)) as (r & E & S & G).
  exists r. split; auto. split; auto. intros i W. destruct (G i W) as (ts & _ & _ & T & R). rewrite (T eq_refl), red_prom in R; auto.
Qed.
(** Calls that raise. *)
Lemma red_raises ex g xs s ax approx ps : xs <> [] -> Forall (fun v => shape_of v = s) xs ->
  axes_of (S (length s)) ax = Ok ps -> without 0 ps (length xs :: s) <> s ->
  exists e, a_red ex true g xs ax approx = Err e /\
    (e = TypeCheckError \/ e = ValueError /\ resolve g approx = true /\ In 0%nat s).
Proof.
  intros N H Ax Ne. rewrite a_red_eq. pose proof (entered_shapes true xs s H) as H'.
  destruct (check_all_ok s (map (enter true) xs) None H' (or_introl eq_refl)) as (m & -> & Hm). cbn [rbind].
  assert (N' : map (enter true) xs <> []) by (intros K; apply map_eq_nil in K; contradiction).
  assert (m = Some s). { destruct Hm as [Hm|(_ & _ & F)]; auto. destruct xs as [|v xs]; [contradiction|]. cbn in F. inversion F; subst. exfalso. eapply python_enter; eauto. }
  subst m. destruct (stack_ok _ s N' H') as (arr & -> & Sa & Ga). cbn [rbind]. rewrite map_length in Sa. rewrite Sa. cbn [length]. rewrite Ax. cbn [rbind].
  assert (Bad : forall r, shp r = without 0 ps (length xs :: s) -> ret_truthy (Some s) r = Err TypeCheckError).
  { intros r E. unfold ret_truthy, bind_shape. rewrite E, shape_eqb_false by auto. reflexivity. }
  destruct (resolve g approx) eqn:R.
  - unfold jnp_extremum. destruct (existsb _ ps) eqn:Z.
    + exists ValueError. split; [reflexivity|]. right. split; auto. split; auto. apply existsb_exists in Z. destruct Z as (p & _ & Z). apply Nat.eqb_eq in Z.
      rewrite Sa in Z. destruct p as [|p]; [destruct xs; [contradiction|discriminate]|]. cbn in Z.
      destruct (nth_error s p) as [d|] eqn:D; [|apply nth_error_None in D; rewrite nth_overflow in Z by auto; discriminate].
      rewrite (nth_error_nth _ _ _ D) in Z. subst d. eapply nth_error_In; eauto.
    + cbn [rbind]. rewrite Bad; [eauto|]. destruct arr; cbn in *; now rewrite Sa.
  - cbn [rbind]. rewrite Bad; [eauto|]. cbn. now rewrite Sa.
Qed.
Lemma red_axis_err ex jit g xs s ax approx e : xs <> [] -> Forall (fun v => shape_of v = s) xs ->
  axes_of (S (length s)) ax = Err e -> a_red ex jit g xs ax approx = Err e.
Proof.
  intros N H Ax. rewrite a_red_eq. pose proof (entered_shapes jit xs s H) as H'.
  destruct (check_all_ok s (map (enter jit) xs) None H' (or_introl eq_refl)) as (m & -> & Hm). cbn [rbind].
  assert (N' : map (enter jit) xs <> []) by (intros K; apply map_eq_nil in K; contradiction).
  destruct (stack_ok _ s N' H') as (arr & -> & Sa & Ga). cbn [rbind]. rewrite map_length in Sa. rewrite Sa. cbn [length]. now rewrite Ax.
Qed.
Lemma red_mixed ex g xs ax approx v w : In v xs -> In w xs -> shape_of v <> shape_of w ->
  a_red ex true g xs ax approx = Err TypeCheckError.
Proof.
  intros Hv Hw Ne. rewrite a_red_eq. destruct (check_all_err (map (enter true) xs) None) as [(s & _ & F)|K]; [| |now rewrite K].
  - apply Forall_forall. intros u Hu. apply in_map_iff in Hu. destruct Hu as (u' & <- & _). apply python_enter.
  - exfalso. apply Ne. rewrite Forall_forall in F. rewrite <- (shape_of_enter true v), <- (shape_of_enter true w).
    rewrite (F (enter true v)), (F (enter true w)); auto; now apply in_map.
Qed.
(** Without jit. *)
Lemma check_all_arrays s : forall xs m, (forall v, In v xs -> ~ is_python v -> shape_of v = s) -> (m = None \/ m = Some s) ->
  exists m', check_all m xs = Ok m' /\ (m' = None \/ m' = Some s).
Proof.
  induction xs as [|v xs IH]; intros m H M; cbn [check_all]; [eauto|].
  destruct v as [a|q|b]; cbn [check_truthy rbind]; try (apply IH; [intros; apply H; auto; now right|auto]).
  assert (Ha : shp a = s) by (rewrite <- (H (PArr a) (or_introl eq_refl) (fun f => f)); now destruct a).
  unfold bind_shape. destruct M as [->| ->]; [|rewrite Ha, shape_eqb_refl]; cbn [rbind]; apply IH; auto; try (intros; apply H; auto; now right).
  right. congruence.
Qed.
Lemma check_all_clash s t : forall xs m, (exists v, In v xs /\ ~ is_python v /\ shape_of v = s) ->
  (m = Some t \/ exists w, In w xs /\ ~ is_python w /\ shape_of w = t) -> s <> t -> check_all m xs = Err TypeCheckError.
Proof.
  induction xs as [|u xs IH]; intros m (v & Iv & Pv & Sv) M Ne; [destruct Iv|]. cbn [check_all].
  assert (Sh : forall a, shape_of (PArr a) = shp a) by now destruct a.
  destruct u as [a|q|b]; cbn [check_truthy rbind].
  - unfold bind_shape. destruct m as [t0|].
    + destruct (shape_eqb (shp a) t0) eqn:E; [|reflexivity]. apply shape_eqb_spec in E. cbn [rbind].
      destruct M as [M|(w & Iw & Pw & Sw)].
      * injection M as ->. apply IH; auto. destruct Iv as [<-|Iv]; [exfalso; apply Ne; rewrite <- Sv, Sh; auto|eauto].
      * destruct Iv as [<-|Iv].
        -- destruct Iw as [<-|Iw]; [exfalso; apply Ne; congruence|]. rewrite Sh in Sv. subst t0 s.
           assert (Q : check_all (Some (shp a)) xs = Err TypeCheckError); [|exact Q].
           clear IH. revert Iw. clear -Pw Sw Ne. induction xs as [|u xs IH]; intro Iw; [destruct Iw|]. cbn [check_all].
           destruct Iw as [->|Iw].
           ++ destruct w as [b| |]; cbn in Pw; try tauto. cbn [check_truthy bind_shape]. rewrite shape_eqb_false; [reflexivity|]. intro E. apply Ne. rewrite <- Sw. now destruct b.
           ++ destruct u as [b| |]; cbn [check_truthy rbind]; auto. unfold bind_shape. destruct (shape_eqb (shp b) (shp a)); cbn [rbind]; auto.
        -- destruct Iw as [<-|Iw]; [|apply IH; [eauto| |auto]; right; eauto]. apply IH; eauto. left. rewrite <- E, <- Sw. now destruct a.
    + cbn [rbind]. destruct M as [M|(w & Iw & Pw & Sw)]; [discriminate|].
      destruct Iv as [<-|Iv].
      * destruct Iw as [<-|Iw]; [exfalso; apply Ne; congruence|]. rewrite Sh in Sv. subst s.
        clear IH. revert Iw. clear -Pw Sw Ne. induction xs as [|u xs IH]; intro Iw; [destruct Iw|]. cbn [check_all].
        destruct Iw as [->|Iw].
        -- destruct w as [b| |]; cbn in Pw; try tauto. cbn [check_truthy bind_shape]. rewrite shape_eqb_false; [reflexivity|]. intro E. apply Ne. rewrite <- Sw. now destruct b.
        -- destruct u as [b| |]; cbn [check_truthy rbind]; auto. unfold bind_shape. destruct (shape_eqb (shp b) (shp a)); cbn [rbind]; auto.
      * destruct Iw as [<-|Iw]; [|apply IH; [eauto| |auto]; right; eauto]. apply IH; eauto. left. rewrite <- Sw. now destruct a.
  - apply IH; auto; [destruct Iv as [<-|Iv]; [cbn in Pv; tauto|eauto]|]. destruct M as [M|(w & [<-|Iw] & Pw & Sw)]; [auto|cbn in Pw; tauto|right; eauto].
  - apply IH; auto; [destruct Iv as [<-|Iv]; [cbn in Pv; tauto|eauto]|]. destruct M as [M|(w & [<-|Iw] & Pw & Sw)]; [auto|cbn in Pw; tauto|right; eauto].
Qed.
Lemma enter_false xs : map (enter false) xs = xs.
Proof. induction xs as [|[a| |] xs IH]; cbn; congruence. Qed.
Lemma red_mixed_nojit ex g xs ax approx v w : In v xs -> In w xs -> shape_of v <> shape_of w ->
  (~ is_python v -> ~ is_python w -> a_red ex false g xs ax approx = Err TypeCheckError) /\
  ((forall a b, In a xs -> In b xs -> ~ is_python a -> ~ is_python b -> shape_of a = shape_of b) -> a_red ex false g xs ax approx = Err ValueError).
Proof.
  intros Hv Hw Ne. rewrite a_red_eq, enter_false. split.
  - intros Pv Pw. rewrite (check_all_clash (shape_of v) (shape_of w)); [reflexivity|eauto|right; eauto|auto].
  - intro A. assert (S : exists s, forall u, In u xs -> ~ is_python u -> shape_of u = s).
    { destruct v as [a|q|b] eqn:Ev; [|destruct w as [a|q'|b'] eqn:Ew|destruct w as [a|q'|b'] eqn:Ew].
      - exists (shape_of v). intros u Iu Pu. apply A; auto; subst; auto.
      - exists (shape_of w). intros u Iu Pu. apply A; auto; subst; auto.
      - exfalso. apply Ne. reflexivity.
      - exfalso. apply Ne. reflexivity.
      - exists (shape_of w). intros u Iu Pu. apply A; auto; subst; auto.
      - exfalso. apply Ne. reflexivity.
      - exfalso. apply Ne. reflexivity. }
    destruct S as [s S]. destruct (check_all_arrays s xs None S) as (m' & -> & _); [auto|]. cbn [rbind].
    assert (J : jnp_stack (map asarray xs) = Err ValueError); [|rewrite J; reflexivity].
    unfold jnp_stack. destruct xs as [|u xs]; [destruct Hv|]. cbn [map]. change (asarray u :: map asarray xs) with (map asarray (u :: xs)).
    destruct (forallb (fun b => shape_eqb (shp b) (shp (asarray u))) (map asarray (u :: xs))) eqn:E; [|reflexivity]. exfalso. apply Ne.
    rewrite forallb_forall in E. assert (Q : forall y, In y (u :: xs) -> shape_of y = shp (asarray u)).
    { intros y Iy. specialize (E (asarray y) (in_map asarray _ _ Iy)). apply shape_eqb_spec in E. rewrite <- E. now destruct y as [[]| |]. }
    rewrite (Q v Hv), (Q w Hw). reflexivity.
Qed.
Lemma red_axis_other ex g xs s k p approx : xs <> [] -> Forall (fun v => shape_of v = s) xs ->
  (p <= length s)%nat -> (k = Z.of_nat p \/ k = Z.of_nat p - Z.of_nat (S (length s)))%Z ->
  ~ (forall q, (q < p)%nat -> nth_error s q = Some (length xs)) ->
  exists e, a_red ex true g xs (AxInt k) approx = Err e /\
    (e = TypeCheckError \/ e = ValueError /\ resolve g approx = true /\ In 0%nat s).
Proof.
  intros N H Hp Hk Hq. apply red_raises with (s := s) (ps := [p]); auto.
  - cbn [axes_of]. now rewrite (norm_axis_ok _ k p) by (auto; lia).
  - intros K. apply Hq. now apply keeps_shape.
Qed.
Lemma red_none ex jit g xs s approx : xs <> [] -> Forall (fun v => shape_of v = s) xs ->
  (s = [] -> exists r, a_red ex jit g xs AxNone approx = Ok r /\ shp r = [] /\ red ex g (map (fun v => elem v []) xs) approx = Ok (get r [])) /\
  (s <> [] -> jit = true -> exists e, a_red ex jit g xs AxNone approx = Err e /\
    (e = TypeCheckError \/ e = ValueError /\ resolve g approx = true /\ In 0%nat s)).
Proof.
  intros N H. split.
  - intros ->. destruct (red_axis0 ex jit g xs [] approx N H) as (r & E & S & G). exists r. split.
    + rewrite <- E, !a_red_eq. destruct (check_all _ _) as [m|]; cbn [rbind]; auto.
      destruct (stack_ok (map (enter jit) xs) [] ltac:(intros K; apply map_eq_nil in K; contradiction) (entered_shapes jit xs [] H)) as (arr & -> & Sa & _).
      cbn [rbind]. rewrite Sa. reflexivity.
    + split; auto. apply G. constructor.
  - intros Ne ->. apply red_raises with (s := s) (ps := seq 0 (S (length s))); auto.
    change (S (length s)) with (length (length xs :: s)). now rewrite without_all; auto.
Qed.
Lemma red_tuple_one ex jit g xs s k approx : xs <> [] -> Forall (fun v => shape_of v = s) xs ->
  a_red ex jit g xs (AxTuple [k]) approx = a_red ex jit g xs (AxInt k) approx.
Proof.
  intros N H. rewrite !a_red_eq. destruct (check_all _ _) as [m|]; cbn [rbind]; auto.
  destruct (jnp_stack _) as [arr|]; cbn [rbind]; auto. cbn [axes_of norm_axes]. destruct (norm_axis _ k); reflexivity.
Qed.
Lemma red_tuple ex g xs s ks approx : xs <> [] -> Forall (fun v => shape_of v = s) xs -> length ks <> 1%nat ->
  exists e, a_red ex true g xs (AxTuple ks) approx = Err e /\ (e = TypeCheckError \/ e = ValueError).
Proof.
  intros N H L. destruct (axes_of (S (length s)) (AxTuple ks)) as [ps|e] eqn:Ax.
  - assert (Ne : without 0 ps (length xs :: s) <> s).
    { cbn [axes_of] in Ax. destruct (norm_axes _ ks) as [ps'|] eqn:K; [|discriminate]. cbn [rbind] in Ax. destruct (has_dup ps') eqn:D; [discriminate|]. inversion Ax; subst.
      destruct (norm_axes_spec _ _ _ K) as [L1 L2]. intros E. pose proof (length_kept ps (length xs :: s) (has_dup_spec _ D) L2) as Q.
      rewrite E in Q. cbn [length] in Q. lia. }
    destruct (red_raises ex g xs s (AxTuple ks) approx ps N H Ax Ne) as (e & E & K). exists e. split; auto. tauto.
  - exists e. split; [eapply red_axis_err; eauto|]. cbn [axes_of] in Ax.
    assert (G : forall ks e, norm_axes (S (length s)) ks = Err e -> e = ValueError).
    { clear. induction ks as [|k ks IH]; cbn [norm_axes]; intros e E; [discriminate|]. destruct (norm_axis _ k) eqn:K; cbn [rbind] in E.
      - destruct (norm_axes _ ks) eqn:K2; cbn [rbind] in E; [discriminate|]. inversion E; subst. auto.
      - unfold norm_axis in K. destruct (_ && _)%Z; congruence. }
    destruct (norm_axes _ ks) eqn:K; cbn [rbind] in Ax; [destruct (has_dup _); inversion Ax; auto|]. inversion Ax; subst. right. eapply G; eauto.
Qed.
Lemma red_out ex jit g xs s k approx : xs <> [] -> Forall (fun v => shape_of v = s) xs ->
  ~ (- Z.of_nat (S (length s)) <= k < Z.of_nat (S (length s)))%Z -> a_red ex jit g xs (AxInt k) approx = Err ValueError.
Proof. intros N H K. eapply red_axis_err; eauto. cbn [axes_of]. now rewrite norm_axis_err. Qed.
Lemma red_empty ex jit g ax approx : ax = AxNone \/ ax = AxInt 0 \/ ax = AxInt (-1) ->
  (resolve g approx = true -> a_red ex jit g [] ax approx = Err ValueError) /\
  (resolve g approx = false -> exists r, a_red ex jit g [] ax approx = Ok r /\ shp r = [] /\ get r [] = TB (negb ex)).
Proof.
  intros Ha. rewrite a_red_eq. cbn [map check_all rbind jnp_stack shp length].
  assert (E : axes_of 1 ax = Ok [0%nat]) by (destruct Ha as [->|[->| ->]]; reflexivity). rewrite E. cbn [rbind]. split; intros ->.
  - reflexivity.
  - cbn. eexists. split; [reflexivity|]. split; [reflexivity|]. destruct ex; reflexivity.
Qed.
