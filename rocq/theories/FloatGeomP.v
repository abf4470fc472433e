(** Single precision: validity score, lengths and power. *)
From Coq Require Import Reals List Bool ZArith Lra Lia Psatz Permutation.
From Flocq Require Import Core.Core IEEE754.BinarySingleNaN Relative.
From Verif Require Import Base BaseP LogicM GeometryM PathM PathP FloatM SpecFloat32 FloatP FloatLogicP FloatCmpP FloatAccP.
Import ListNotations.
Open Scope R_scope.
Local Instance p24g : Prec_gt_0 24 := eq_refl.

(** ** The validity score *)
Lemma seg_test_unit approx num den tol k : unit_function (fk_function k) -> unit_or_nan (f_seg_test approx num den tol k).
Proof. intro U. unfold f_seg_test. apply and_unit; apply (compare_unit approx _ _ k U). Qed.
Lemma seg_unit approx P1 P2 P3 P4 tol k : unit_function (fk_function k) -> unit_or_nan (f_segments_intersect approx P1 P2 P3 P4 tol k).
Proof. intro U. unfold f_segments_intersect. apply and_unit; apply seg_test_unit; auto. Qed.
Lemma contains_unit approx o p k : unit_function (fk_function k) -> unit_or_nan (f_obj_contains approx o p k).
Proof. intro U. destruct o; cbn [f_obj_contains]; try apply true_unit; apply and_unit; apply (compare_unit approx _ _ k U). Qed.
Lemma intersects_unit approx o r0 r1 patch k : unit_function (fk_function k) -> unit_or_nan (f_obj_intersects approx o r0 r1 patch k).
Proof. intro U. destruct o; cbn [f_obj_intersects]; try apply false_unit; apply seg_unit; auto. Qed.
Lemma fold_left_inv {A B} (P : A -> Prop) (h : A -> B -> A) l : (forall a b, P a -> P (h a b)) -> forall a, P a -> P (fold_left h l a).
Proof. intro H. induction l as [|b l IH]; intros a Pa; cbn; auto. Qed.
Lemma on_objects_unit approx p objects k : unit_function (fk_function k) -> unit_or_nan (f_on_objects approx p objects k).
Proof.
  intro U. unfold f_on_objects. apply (fold_left_inv unit_or_nan); [|apply true_unit]. intros a [i o] A. apply and_unit; auto. apply contains_unit; auto.
Qed.
Lemma intersects_with_unit approx p objects cand patch k r : unit_function (fk_function k) ->
  f_intersects_with_objects approx p objects cand patch k = Ok r -> unit_or_nan r.
Proof.
  intros U H. unfold f_intersects_with_objects in H. destruct (_ && _); [discriminate|]. apply (f_equal (fun x => match x with Ok y => y | Err _ => f_false approx end)) in H.
  cbn beta iota in H. rewrite <- H. apply (fold_left_inv unit_or_nan); [|apply false_unit]. intros a i A.
  apply (fold_left_inv unit_or_nan); auto. intros b [j o] B. destruct (_ || _); auto. apply or_unit; auto. apply intersects_unit; auto.
Qed.
Lemma is_valid_unit approx p objects cand inter tol patch k v : unit_function (fk_function k) ->
  f_is_valid approx p objects cand inter tol patch k = Ok v -> unit_truth v.
Proof.
  intros U H. unfold f_is_valid in H. destruct (f_intersects_with_objects approx p objects cand patch k) as [r|] eqn:E; cbn [rbind] in H; [|discriminate].
  injection H as <-. apply nan_to_num_unit. apply all_unit; [apply on_objects_unit; auto|].
  constructor; [apply not_unit; eapply intersects_with_unit; eauto|]. constructor; auto. apply (compare_unit approx _ _ k U).
Qed.
Lemma min_nan_l x y : fval x = NaN -> fval (f_min x y) = NaN.
Proof. intro H. rewrite val_min, H. reflexivity. Qed.
Lemma min_nan_r x y : fval y = NaN -> fval (f_min x y) = NaN.
Proof. intro H. rewrite val_min, H. destruct (fval x); reflexivity. Qed.
Lemma nan_num x : fval x = NaN -> f_nan_to_num x = f_zero.
Proof. intro H. apply fval_nan in H. destruct x; try discriminate. reflexivity. Qed.
(** A truth value that makes a conjunction fail: NaN or [false]. *)
Definition bad (approx : bool) (t : ftruthy) : Prop := if approx then exists f, t = FF f /\ fval f = NaN else t = FB false.
Lemma and_bad_l approx x y : bad approx x -> bad approx (f_and approx x y).
Proof.
  intros B. unfold f_and. destruct approx; cbn [bad] in *.
  - destruct B as (f & -> & N). eexists. split; [reflexivity|]. apply min_nan_l. exact N.
  - subst x. reflexivity.
Qed.
Lemma and_bad_r approx x y : bad approx y -> bad approx (f_and approx x y).
Proof.
  intros B. unfold f_and. destruct approx; cbn [bad] in *.
  - destruct B as (f & -> & N). exists (f_min (f_to_f x) f). split; [destruct x; reflexivity|]. apply min_nan_r. exact N.
  - subst y. cbn. rewrite andb_false_r. reflexivity.
Qed.
Lemma bad_truth approx t : bad approx t -> f_tnan_to_num t = f_false approx.
Proof.
  destruct approx; cbn [bad]; [|intros ->; reflexivity]. intros (f & -> & N). cbn. rewrite (nan_num f N). reflexivity.
Qed.
Lemma all_bad approx t ts : bad approx t \/ Exists (bad approx) ts -> bad approx (f_all approx t ts).
Proof.
  intro H. assert (I : exists u, In u (t :: ts) /\ bad approx u).
  { destruct H as [H|H]; [exists t; split; cbn; auto|]. apply Exists_exists in H. destruct H as (u & A & B). exists u. split; cbn; auto. }
  unfold f_all. destruct approx; cbn [bad] in *.
  - assert (F : forallb (fun u => match u with FB _ => true | FF _ => false end) (t :: ts) = false).
    { destruct I as (u & A & f & -> & _). destruct (forallb _ _) eqn:E; auto. rewrite forallb_forall in E. apply E in A. discriminate. }
    rewrite F. eexists. split; [reflexivity|]. clear F I.
    assert (G : forall ts m, fval m = NaN -> fval (fold_left (fun m u => f_min m (f_to_f u)) ts m) = NaN).
    { clear. induction ts as [|u ts IH]; intros m M; cbn; auto. apply IH. apply min_nan_l. auto. }
    destruct H as [(f & -> & N)|H]; [apply G; auto|]. generalize (f_to_f t). induction H as [u ts (f & -> & N)|u ts H IH]; intro m; cbn.
    + apply G. apply min_nan_r. auto.
    + apply IH.
  - f_equal. destruct I as (u & A & ->). destruct (forallb f_to_b (t :: ts)) eqn:E; auto. rewrite forallb_forall in E. apply E in A. discriminate.
Qed.
Definition nan_function (h : f32 -> f32 -> f32) : Prop := forall x alpha, fval x = NaN -> fval (h x alpha) = NaN.
Lemma hs_nan_function inv : nan_function (hs_fun inv).
Proof. intros x alpha X. rewrite val_hs, val_mul, X. destruct (fval alpha); reflexivity. Qed.
Lemma ge_nan approx x y k : nan_function (fk_function k) -> fval x = NaN -> bad approx (f_greater_equal approx x y k).
Proof.
  intros H X. unfold f_greater_equal, f_activation. destruct approx; cbn [bad].
  - eexists. split; [reflexivity|]. apply H. rewrite val_sub, X. reflexivity.
  - rewrite val_leb, X. destruct (fval y); reflexivity.
Qed.
Lemma less_nan approx x y k : nan_function (fk_function k) -> fval x = NaN -> bad approx (f_less approx x y k).
Proof.
  intros H X. unfold f_less, f_activation. destruct approx; cbn [bad].
  - eexists. split; [reflexivity|]. apply H. rewrite val_sub, X. destruct (fval y); reflexivity.
  - rewrite val_ltb, X. reflexivity.
Qed.
Lemma xround_NaN : xround NaN = NaN. Proof. reflexivity. Qed.
Lemma c2p_nan w (p : fvec) : fval (fst p) = NaN \/ fval (snd p) = NaN -> fval (f_c2p w p) = NaN.
Proof.
  intro H. unfold f_c2p. set (D := if f_eqb _ _ then _ else _).
  assert (N : fval (f_dot (fw_t w) (fv_sub p (fw_origin w))) = NaN).
  { unfold f_dot. cbn [fst snd fv_sub]. rewrite val_add, !val_mul, !val_sub.
    destruct H as [H|H]; rewrite H; cbn [xsub xadd]; rewrite xround_NaN.
    - destruct (fval (fst (fw_t w))); reflexivity.
    - destruct (fval (snd (fw_t w))); cbn [xmul xround]; match goal with |- xround (xadd ?a _) = _ => destruct a; reflexivity end. }
  apply fval_nan in N. clearbody D. destruct (f_dot (fw_t w) (fv_sub p (fw_origin w))); try discriminate. unfold f_div. destruct D; reflexivity.
Qed.
Lemma contains_nan approx o p k : nan_function (fk_function k) -> (forall q, o <> FVertex q) -> fval (fst p) = NaN \/ fval (snd p) = NaN ->
  bad approx (f_obj_contains approx o p k).
Proof.
  intros H O P. destruct o as [w|w phi|q]; cbn [f_obj_contains]; [| |elim (O q); reflexivity]; unfold f_contains; apply and_bad_l, ge_nan; auto; apply c2p_nan; auto.
Qed.
Lemma on_objects_bad approx p objects k i o : nan_function (fk_function k) -> nth_error objects i = Some o -> (forall q, o <> FVertex q) ->
  (fval (fst (f_row (f_xys p) (i + 1))) = NaN \/ fval (snd (f_row (f_xys p) (i + 1))) = NaN) -> bad approx (f_on_objects approx p objects k).
Proof.
  intros H E O P. unfold f_on_objects.
  assert (I : In (i, o) (enumerate objects)) by (apply in_enumerate; auto).
  apply in_split in I. destruct I as (l1 & l2 & ->). rewrite fold_left_app. cbn [fold_left].
  apply (fold_left_inv (bad approx)); [intros a [j u] A; apply and_bad_l; auto|]. apply and_bad_r. apply contains_nan; auto.
Qed.

(** ** Lengths and power *)
(** Non-negative, possibly infinite. *)
Definition nneg (x : f32) : Prop := xle (Fin 0) (fval x).
Lemma nneg_not_nan x : nneg x -> not_nan x.
Proof. unfold nneg, not_nan, xle. intros H E. rewrite E in H. discriminate. Qed.
Lemma nneg_add x y : nneg x -> nneg y -> nneg (f_add x y) /\ xle (fval x) (fval (f_add x y)).
Proof.
  unfold nneg. intros X Y. rewrite val_add. assert (K : xle (fval x) (xround (xadd (fval x) (fval y)))).
  { rewrite <- (xround_val x) at 1. apply xround_le. destruct (fval x) as [a| | |], (fval y) as [b| | |]; try discriminate; try reflexivity.
    apply xle_fin in Y. apply xle_fin. lra. }
  split; auto. apply xle_trans with (fval x); auto.
Qed.
Lemma nneg_mul x y : nneg x -> nneg y -> not_nan (f_mul x y) -> nneg (f_mul x y).
Proof.
  unfold nneg, not_nan. rewrite val_mul. intros X Y N.
  rewrite <- xround_zero at 1. apply xround_le. destruct (fval x) as [a| | |], (fval y) as [b| | |]; try discriminate; cbn [xmul] in *; unfold inf_times in *.
  - apply xle_fin in X. apply xle_fin in Y. apply xle_fin. nra.
  - apply xle_fin in X. destruct (Reqb_spec a 0); [elim N; reflexivity|]. destruct (Rltb_spec 0 a); [reflexivity|lra].
  - apply xle_fin in Y. destruct (Reqb_spec b 0); [elim N; reflexivity|]. destruct (Rltb_spec 0 b); [reflexivity|lra].
  - reflexivity.
Qed.
Lemma square_nneg x : not_nan x -> nneg (f_mul x x).
Proof.
  unfold nneg, not_nan. rewrite val_mul. intro N. rewrite <- xround_zero at 1. apply xround_le.
  destruct (fval x) as [a| | |]; try reflexivity; [|elim N; reflexivity]. cbn [xmul]. apply xle_fin. nra.
Qed.
Lemma norm_nneg (u : fvec) : not_nan (fst u) -> not_nan (snd u) -> nneg (f_norm u).
Proof.
  intros A B. unfold f_norm, f_dot. destruct (nneg_add _ _ (square_nneg _ A) (square_nneg _ B)) as [H _].
  unfold nneg. rewrite val_sqrt. unfold nneg in H. destruct (fval (f_add _ _)) as [r| | |]; try discriminate; [|reflexivity].
  apply xle_fin in H. destruct (Rltb_spec r 0); [lra|]. apply xle_fin. apply rnd_pos. apply sqrt_pos.
Qed.
Lemma sub_not_nan x y : finite x -> finite y -> not_nan (f_sub x y).
Proof. intros [a A] [b B]. unfold not_nan. rewrite val_sub, A, B. cbn [xsub xadd xopp]. rewrite xround_nan. discriminate. Qed.
Lemma val_eps : fval F_EPS = Fin (bpow radix2 (-23)).
Proof. unfold F_EPS. rewrite val_scaled by (cbn; lia). f_equal. ring. Qed.
Lemma add_eps_not_nan x : not_nan x -> not_nan (f_add x F_EPS).
Proof. unfold not_nan. rewrite val_add, val_eps, xround_nan. destruct (fval x); cbn; congruence. Qed.
Definition fpt (p : fvec) : Prop := finite (fst p) /\ finite (snd p).
Lemma lengths_nneg pts : Forall fpt pts -> Forall nneg (f_lengths pts).
Proof.
  intro H. unfold f_lengths. apply Forall_map. induction H as [|p pts P H IH]; [constructor|].
  cbn. destruct pts as [|q pts]; [constructor|]. inversion_clear H as [|? ? Q]. destruct P, Q. constructor; auto.
  apply norm_nneg; cbn [fst snd fv_sub]; apply add_eps_not_nan, sub_not_nan; auto.
Qed.
Lemma sum_nneg l r : f_sum l r -> Forall nneg l -> nneg r.
Proof.
  induction 1 as [|x|l l' a b A IHa B IHb|l l' a P A IH]; intro F.
  - unfold nneg. apply xle_fin. cbn. lra.
  - inversion F; auto.
  - apply Forall_app in F. apply nneg_add; tauto.
  - apply IH. eapply Permutation_Forall; [apply Permutation_sym, P|auto].
Qed.
(** The length is at least every summand. *)
Lemma sum_ge l r : f_sum l r -> Forall nneg l -> forall x, In x l -> xle (fval x) (fval r).
Proof.
  induction 1 as [|x|l l' a b A IHa B IHb|l l' a P A IH]; intros F x0 I.
  - contradiction.
  - inversion_clear F. destruct I as [<-|[]]. apply xle_refl. apply nneg_not_nan. auto.
  - apply Forall_app in F. destruct F as [F F']. assert (Ha := sum_nneg _ _ A F). assert (Hb := sum_nneg _ _ B F').
    destruct (nneg_add _ _ Ha Hb) as [_ L]. destruct (nneg_add _ _ Hb Ha) as [_ L'].
    assert (C : fval (f_add b a) = fval (f_add a b)) by (rewrite !val_add; f_equal; destruct (fval a), (fval b); cbn; auto; f_equal; ring).
    rewrite C in L'. apply in_app_or in I. destruct I; eapply xle_trans; eauto.
  - apply IH. eapply Permutation_Forall; [apply Permutation_sym, P|auto]. eapply Permutation_in; [apply Permutation_sym, P|auto].
Qed.
Lemma unit_mul x y : unit_float x -> unit_float y -> unit_float (f_mul x y).
Proof.
  intros (a & A & Ha) (b & B & Hb). unfold unit_float. rewrite val_mul, A, B. cbn [xmul]. apply unit_round. nra.
Qed.
Lemma power_unit x n c : unit_float x -> f_power x n c -> unit_float c.
Proof.
  intros X H. induction H; auto; [exists 1; split; [apply val_one|lra]|apply unit_mul; auto].
Qed.
Lemma received_power_bounds pts r_coef height x h : Forall fpt pts -> unit_float r_coef ->
  fval (f_mul height height) = Fin h -> 0 < h -> f_received_power pts r_coef height x ->
  xle (Fin 0) (fval x) /\ xle (fval x) (xround (Fin (/ h))).
Proof.
  intros P C Hh Ph (r & c & L & PW & ->). destruct (power_unit _ _ _ C PW) as (g & G & Ug).
  pose proof (sum_nneg _ _ L (lengths_nneg _ P)) as NR.
  assert (NH : nneg (f_mul height height)) by (unfold nneg; rewrite Hh; apply xle_fin; lra).
  assert (NRR : nneg (f_mul r r)) by (apply square_nneg, nneg_not_nan; auto).
  destruct (nneg_add _ _ NH NRR) as [ND LD]. unfold nneg in ND. rewrite Hh in LD.
  destruct (fval (f_add (f_mul height height) (f_mul r r))) as [d| | |] eqn:D; try discriminate.
  - apply xle_fin in LD. rewrite (val_div _ _ d D) by lra. rewrite G. cbn [xmul].
    assert (/ d <= / h) by (apply Rinv_le_contravar; lra). assert (0 < / d) by (apply Rinv_0_lt_compat; lra).
    split; [rewrite <- xround_zero|]; apply xround_le, xle_fin; nra.
  - rewrite (val_div_inf _ _ g D G). split; [apply xle_fin; lra|]. rewrite <- xround_zero. apply xround_le, xle_fin.
    assert (0 < / h) by (apply Rinv_0_lt_compat; lra). lra.
Qed.
Lemma term_nneg v x : unit_truth v -> nneg x -> finite x -> nneg (f_mul (f_to_f v) x).
Proof.
  intros V X [b B]. assert (U : unit_float (f_to_f v)) by (destruct v as [b0|f]; [eapply unit_of_b; reflexivity|exact V]).
  destruct U as (u & E & U). apply nneg_mul; auto; [unfold nneg; rewrite E; apply xle_fin; lra|].
  unfold not_nan. rewrite val_mul, E, B. cbn [xmul]. rewrite xround_nan. discriminate.
Qed.
Lemma accumulate_snoc terms v x : f_accumulate (terms ++ [(v, x)]) = f_add (f_accumulate terms) (f_mul (f_to_f v) x).
Proof. unfold f_accumulate. rewrite fold_left_app. reflexivity. Qed.
Lemma accumulate_nneg terms : Forall (fun '(v, x) => unit_truth v /\ nneg x /\ finite x) terms -> nneg (f_accumulate terms).
Proof.
  induction terms as [|[v x] terms IH] using rev_ind; intro H; [unfold nneg; apply xle_fin; cbn; lra|].
  apply Forall_app in H. destruct H as [H H1]. apply Forall_inv in H1. cbn beta iota in H1. destruct H1 as (V & X & F). rewrite accumulate_snoc.
  apply nneg_add; auto. apply term_nneg; auto.
Qed.
