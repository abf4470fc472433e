(** Gradients of the traced code: where they are not finite. *)
From Coq Require Import Reals List Bool ZArith Arith Lia Lra Psatz.
From Verif Require Import Base BaseP LogicM GeometryM OptimizeM PathM UtilsM SceneM AdM SpecAd AdPos AdP AdSoundP AdGeomP AdGradP.
Import ListNotations.
Open Scope R_scope.
Local Notation length := List.length.

Lemma Reqb_refl x : Reqb x x = true.
Proof. unfold Reqb. destruct (Req_EM_T x x); congruence. Qed.

Section Nan.
Variable env : nat -> R.
Variable i : nat.

(** A NaN sent down [e] reaches the variable [i]. *)
Fixpoint reaches (e : expr) : bool :=
  match e with
  | EVar j => Nat.eqb i j
  | ECst _ => false
  | ENeg a | ESqrt a | ESq a | ELogistic a => reaches a
  | EAdd a b | ESub a b | EMul a b | EDiv a b | EMax a b | EMin a b => reaches a || reaches b
  | EMin3 a b c => reaches a || reaches b || reaches c
  | EWhere c l a b => if holds c (eval env l) then reaches a else reaches b
  end.
Lemma xadd_nan_l x : xadd NaN x = NaN.
Proof. reflexivity. Qed.
Lemma xadd_nan_r x : xadd x NaN = NaN.
Proof. destruct x; reflexivity. Qed.
Lemma nan_reaches e : reaches e = true -> bp env e NaN i = NaN.
Proof.
  induction e; cbn [reaches bp]; intros H; cbv zeta; cbn [xopp xmul xdiv];
    try (repeat (apply orb_true_iff in H; destruct H as [H|H]));
    try (match goal with IH : _ -> bp env ?e NaN i = NaN, H : reaches ?e = true |- _ => rewrite (IH H) end;
         rewrite ?xadd_nan_l, ?xadd_nan_r; reflexivity).
  - rewrite H. reflexivity.
  - discriminate.
  - destruct (holds c (eval env e1)).
    + rewrite (IHe2 H). reflexivity.
    + rewrite (IHe3 H). apply xadd_nan_r.
Qed.

(** Whatever is sent down [e], the variable [i] receives a NaN. *)
Definition poison (e : expr) : Prop := forall ct, bp env e ct i = NaN.
(** [s] occurs in [e], not only in conditions. *)
Inductive sub (s : expr) : expr -> Prop :=
| sub_refl : sub s s
| sub_neg a : sub s a -> sub s (ENeg a)
| sub_sqrt a : sub s a -> sub s (ESqrt a)
| sub_sq a : sub s a -> sub s (ESq a)
| sub_log a : sub s a -> sub s (ELogistic a)
| sub_add1 a b : sub s a -> sub s (EAdd a b)
| sub_add2 a b : sub s b -> sub s (EAdd a b)
| sub_sub1 a b : sub s a -> sub s (ESub a b)
| sub_sub2 a b : sub s b -> sub s (ESub a b)
| sub_mul1 a b : sub s a -> sub s (EMul a b)
| sub_mul2 a b : sub s b -> sub s (EMul a b)
| sub_div1 a b : sub s a -> sub s (EDiv a b)
| sub_div2 a b : sub s b -> sub s (EDiv a b)
| sub_max1 a b : sub s a -> sub s (EMax a b)
| sub_max2 a b : sub s b -> sub s (EMax a b)
| sub_min1 a b : sub s a -> sub s (EMin a b)
| sub_min2 a b : sub s b -> sub s (EMin a b)
| sub_m31 a b c : sub s a -> sub s (EMin3 a b c)
| sub_m32 a b c : sub s b -> sub s (EMin3 a b c)
| sub_m33 a b c : sub s c -> sub s (EMin3 a b c)
| sub_w2 c l a b : sub s a -> sub s (EWhere c l a b)
| sub_w3 c l a b : sub s b -> sub s (EWhere c l a b).
Lemma poison_sub s e : sub s e -> poison s -> poison e.
Proof.
  intros H P. induction H; auto; intros ct; cbn [bp]; cbv zeta; try (apply IHsub); try (destruct (holds _ _));
    rewrite ?IHsub, ?xadd_nan_r, ?xadd_nan_l; reflexivity.
Qed.
Lemma sub_trans a b c : sub a b -> sub b c -> sub a c.
Proof. intros H K. induction K; auto using sub. Qed.

(** The three sources. *)
Lemma poison_div num l a : eval env l = Fin 0 -> reaches num = true -> poison (EWhere IsZero l a (EDiv num l)).
Proof.
  intros E H ct. cbn [bp]. rewrite E. cbn [holds]. rewrite (Reqb_refl 0). cbn [xdiv]. unfold fdiv. rewrite (Reqb_refl 0).
  rewrite (nan_reaches _ H). rewrite ?xadd_nan_l, ?xadd_nan_r. reflexivity.
Qed.
Lemma zero_norm v : evv env v (0, 0) -> eval env (e_dot v v) = Fin 0 /\ eval env (e_norm v) = Fin 0.
Proof.
  intros H. assert (Z : eval env (e_dot v v) = Fin 0) by (rewrite (ev_dot _ _ _ _ _ H H); unfold dot; cbn; f_equal; ring).
  split; auto. rewrite (ev_norm _ _ _ H). unfold norm, dot. cbn. f_equal. replace (0 * 0 + 0 * 0) with 0 by ring. apply sqrt_0.
Qed.
Lemma dot_reaches u v : reaches (fst u) = true \/ reaches (snd u) = true -> reaches (e_dot u v) = true.
Proof. intros H. cbn. destruct H as [-> | ->]; rewrite ?orb_true_r, ?orb_true_l; auto. Qed.
Lemma poison_norm v : evv env v (0, 0) -> reaches (fst v) = true \/ reaches (snd v) = true -> poison (e_norm v).
Proof.
  intros H K ct. destruct (zero_norm v H) as [Z _]. unfold e_norm. cbn [bp]. rewrite Z. cbn [xsqrt]. unfold Rltb.
  destruct (Rlt_dec 0 0); [lra|]. rewrite sqrt_0. cbn [xdiv]. unfold fdiv. rewrite (Reqb_refl 0).
  replace (Reqb (1 / 2) 0) with false by (unfold Reqb; destruct (Req_EM_T (1 / 2) 0); [lra|auto]).
  replace (Rltb 0 (1 / 2)) with true by (unfold Rltb; destruct (Rlt_dec 0 (1 / 2)); [auto|lra]).
  assert (I : xmul (xmul ct PInf) (Fin 0) = NaN).
  { destruct ct; cbn; auto; unfold inf_times; rewrite ?Reqb_refl; auto. destruct (Reqb r 0) eqn:E; auto.
    destruct (Rltb 0 r); cbn; unfold inf_times; rewrite Reqb_refl; auto. }
  unfold e_dot. cbn [bp]. destruct H as [-> ->]. cbn [fst snd]. rewrite I.
  destruct K as [K|K]; rewrite (nan_reaches _ K), ?xadd_nan_l, ?xadd_nan_r; reflexivity.
Qed.
End Nan.

Lemma sub_normalize v : sub (e_norm v) (fst (e_normalize v)).
Proof. unfold e_normalize. cbn [fst]. apply sub_div2. apply sub_w3. constructor. Qed.
Lemma sub_evaluate1 w a b c : sub (e_norm (e_vsub b a)) (e_evaluate w a b c).
Proof.
  unfold e_evaluate. cbv zeta. unfold e_dot at 1. apply sub_add1, sub_mul1. unfold e_vsub at 2. cbn [fst].
  apply sub_sub2. unfold e_vsub at 2. cbn [fst]. apply sub_sub1. apply sub_normalize.
Qed.
Lemma sub_evaluate2 w a b c : sub (e_norm (e_vsub c b)) (e_evaluate w a b c).
Proof.
  unfold e_evaluate. cbv zeta. unfold e_dot at 1. apply sub_add1, sub_mul1. unfold e_vsub at 2. cbn [fst].
  apply sub_sub1. apply sub_normalize.
Qed.
Lemma sub_fold_add {A} (h : A -> expr) l : forall e s, (sub s e \/ exists x, In x l /\ sub s (h x)) ->
  sub s (fold_left (fun acc x => EAdd acc (h x)) l e).
Proof.
  induction l as [|y l IH]; intros e s [H|(x & I & H)]; cbn [fold_left]; auto; try (destruct I; fail).
  - apply IH. left. apply sub_add1; auto.
  - apply IH. destruct I as [->|I]; [left; apply sub_add2; auto|right; eauto].
Qed.
Lemma sub_nan_to_num s e : sub s e -> sub s (e_nan_to_num e).
Proof. intros H. unfold e_nan_to_num. cbv zeta. apply sub_w3, sub_w3, sub_w3; auto. Qed.
Lemma sub_activation k s e : sub s e -> sub s (e_activation k e).
Proof.
  intros H. unfold e_activation. destruct (ek_act k).
  - apply sub_div1, sub_min1, sub_max1, sub_add1, sub_mul2; auto.
  - apply sub_log, sub_mul2; auto.
Qed.
Lemma sub_is_valid_loss k s es le objs cand inter tol patch : sub s le -> sub s (e_is_valid k es le objs cand inter tol patch).
Proof. intros H. unfold e_is_valid. apply sub_nan_to_num, sub_m33. unfold e_less. apply sub_activation, sub_sub2; auto. Qed.
Lemma sub_path_loss ws es j w s : nth_error ws j = Some w ->
  sub s (e_evaluate (cwall w) (e_row es j) (e_row es (j + 1)) (e_row es (j + 2))) -> sub s (e_path_loss (map OWall ws) es).
Proof.
  intros E H. unfold e_path_loss.
  assert (G : forall m e, In (j, OWall w) m \/ sub s e ->
    sub s (fold_left (fun l '(i, obj) => EAdd l (e_obj_evaluate obj (e_row es i) (e_row es (i + 1)) (e_row es (i + 2)))) m e)).
  { induction m as [|[i o] m IH]; intros e [I|I]; cbn [fold_left]; auto; try (destruct I; fail).
    - destruct I as [I|I]; apply IH; [right|left; auto]. inversion I; subst. apply sub_add2. exact H.
    - apply IH. right. apply sub_add1; auto. }
  apply G. left. unfold enumerate. rewrite map_length.
  assert (Q : forall l s0, nth_error l j = Some w -> In ((s0 + j)%nat, OWall w) (combine (seq s0 (length l)) (map OWall l))).
  { clear. intros l. revert j. induction l as [|x l IH]; intros [|j] s0 E; cbn in *; try discriminate.
    - inversion E; subst. left. f_equal. lia.
    - right. replace (s0 + S j)%nat with (S s0 + j)%nat by lia. apply IH; auto. }
  apply (Q ws O); auto.
Qed.
Lemma sub_path_length s eps es d : In d (e_diffs es) -> sub s (e_norm (EAdd (fst d) (C eps), EAdd (snd d) (C eps))) ->
  sub s (e_path_length eps es).
Proof.
  unfold e_path_length. induction (e_diffs es) as [|x l IH]; intros I H; [destruct I|]. cbn [map fold_right].
  destruct I as [->|I]; [apply sub_add1; auto|apply sub_add2; auto].
Qed.
Lemma sub_power s eps es rc h : sub s (e_path_length eps es) -> sub s (e_received_power eps es rc h).
Proof. intros H. unfold e_received_power. cbv zeta. apply sub_div2, sub_add2, sub_mul1; auto. Qed.
(* a point of the path occurs in its length *)
Lemma point_in_diffs es q : (2 <= length es)%nat -> In q es -> exists d, In d (e_diffs es) /\ sub (fst q) (fst d).
Proof.
  induction es as [|a es IH]; cbn [length]; intros L I; [lia|]. destruct es as [|b es]; cbn [length] in L; [lia|].
  destruct I as [->|I].
  - exists (e_vsub b q). split; [left; auto|]. apply sub_sub2. constructor.
  - destruct es as [|c es].
    + destruct I as [->|[]]. exists (e_vsub q a). split; [left; auto|]. apply sub_sub1. constructor.
    + destruct IH as (d & J & S); [cbn; lia|auto|]. exists d. split; [right; auto|auto].
Qed.

(** ** Paths *)
Section Paths.
Variable env : nat -> R.
Definition rch (u : evec) : Prop := reaches env 0 (fst u) = true /\ reaches env 1 (snd u) = true.
Definition rch2 (u : evec) : Prop :=
  forall i, (i < 2)%nat -> reaches env i (fst u) = true /\ reaches env i (snd u) = true.
Lemma rch2_rch u : rch2 u -> rch u.
Proof. intros H. split; apply (H _); lia. Qed.
Lemma rch_any u : rch u -> forall i, (i < 2)%nat -> reaches env i (fst u) = true \/ reaches env i (snd u) = true.
Proof. intros [A B] i Hi. destruct i as [|[|i]]; auto; lia. Qed.
Lemma rch_sub1 u v : rch u -> rch (e_vsub u v).
Proof. intros [A B]. split; cbn [fst snd e_vsub reaches]; rewrite ?A, ?B; auto. Qed.
Lemma rch_sub2 u v : rch v -> rch (e_vsub u v).
Proof. intros [A B]. split; cbn [fst snd e_vsub reaches]; rewrite ?A, ?B; rewrite ?orb_true_r; auto. Qed.
Lemma rch_image w u : rch u -> rch2 (e_image_of (cwall w) u).
Proof.
  intros H i Hi. pose proof (rch_any _ (rch_sub1 u (fst (cwall w)) H) i Hi) as K.
  apply (dot_reaches _ _ _ (e_normal (cwall w))) in K.
  unfold e_image_of. cbv zeta. cbn [e_vsub e_vscale fst snd reaches].
  split; apply orb_true_iff; right; apply orb_true_iff; left; apply orb_true_iff; right; exact K.
Qed.
Lemma rch_images u ws : rch u -> Forall rch2 (e_images u ws).
Proof. revert u. induction ws as [|w ws IH]; intros u H; cbn; constructor; auto using rch_image, rch2_rch. Qed.

Lemma poison_backward u p w im q i : (i < 2)%nat -> evv env u p -> evv env im q -> dot (vsub p q) (normal w) = 0 -> rch u \/ rch2 im ->
  poison env i (fst (e_backward u (w, im))).
Proof.
  intros Hi U I Z H. pose proof (ev_normal env _ _ (ev_cwall env w)) as Nn.
  pose proof (ev_dot env _ _ _ _ (ev_vsub env _ _ _ _ U I) Nn) as UN. rewrite Z in UN.
  unfold e_backward. cbv zeta. cbn [e_vadd fst].
  eapply poison_sub; [apply sub_add2, sub_refl|]. apply poison_div; [exact UN|].
  cbn [reaches]. apply orb_true_iff. destruct H as [H|H].
  - left. apply (dot_reaches env i (e_vsub (fst (cwall w)) u)). apply rch_any; [apply rch_sub2; auto|auto].
  - right. cbn [e_vsub fst reaches]. destruct (H i Hi) as [-> _]. apply orb_true_r.
Qed.
Lemma rch_backward_point u w im : rch u -> rch (e_backward u (w, im)).
Proof. intros [A B]. unfold e_backward. cbv zeta. split; cbn [e_vadd fst snd reaches]; rewrite ?A, ?B; auto. Qed.
Lemma rch_backward_image u p w im q : evv env u p -> evv env im q -> dot (vsub p q) (normal w) <> 0 -> rch2 im ->
  rch (e_backward u (w, im)).
Proof.
  intros U I Z H. pose proof (ev_normal env _ _ (ev_cwall env w)) as Nn.
  pose proof (ev_dot env _ _ _ _ (ev_vsub env _ _ _ _ U I) Nn) as UN.
  assert (Hh : holds IsZero (eval env (e_dot (e_vsub u im) (e_normal (cwall w)))) = false).
  { rewrite UN. cbn. unfold Reqb. destruct (Req_EM_T _ 0); [contradiction|auto]. }
  unfold e_backward. cbv zeta. split; cbn [e_vadd fst snd]; (change (reaches env ?i (EAdd ?a ?b)) with (reaches env i a || reaches env i b)%bool);
    apply orb_true_iff; right;
    match goal with |- reaches env ?i (EWhere ?c ?l ?a ?b) = true => change ((if holds c (eval env l) then reaches env i a else reaches env i b) = true) end;
    rewrite Hh; cbn [reaches]; apply orb_true_iff; left; apply orb_true_iff; right; cbn [e_vsub fst snd reaches];
    apply orb_true_iff; right; apply H; lia.
Qed.

Notation evl := (Forall2 (evv env)).
(* a parallel approach poisons a point *)
Lemma scan_poison i rx r ws es qs : (i < 2)%nat -> evv env rx r -> evl es qs -> length qs = length ws ->
  rch rx \/ Forall rch2 es ->
  (exists j w, nth_error ws j = Some w /\
     dot (vsub (nth (j + 1) (snd (backward_scan r (combine ws qs)) ++ [r]) (0, 0)) (nth j qs (0, 0))) (normal w) = 0) ->
  exists q, In q (snd (e_backward_scan rx (combine ws es))) /\ poison env i (fst q).
Proof.
  intros Hi H L0 Len0 Rc. revert es qs L0 Len0 Rc. induction ws as [|w ws IH]; intros es qs L Len Rc (j & w' & Ej & Z);
    [destruct j; discriminate|].
  destruct L as [|e q es qs E L]; [discriminate|]. cbn in Len. cbn [combine e_backward_scan].
  destruct (ev_backward_scan env rx r ws es qs H L) as [A B].
  pose proof (scan_head r ws qs) as Sh.
  assert (Rc' : rch rx \/ Forall rch2 es) by (destruct Rc as [Rc|Rc]; [auto|inversion Rc; auto]).
  destruct j as [|j].
  - cbn in Ej. inversion Ej; subst w'. cbn [combine backward_scan Nat.add] in Z.
    assert (Rc2 : rch (fst (e_backward_scan rx (combine ws es))) \/ rch2 e).
    { destruct Rc as [Rc|Rc]; [left|right; inversion Rc; auto]. clear - Rc. generalize (combine ws es). intros xs.
      induction xs as [|[w e] xs IH]; cbn; auto. destruct (e_backward_scan rx xs). cbn in *. apply rch_backward_point; auto. }
    destruct (e_backward_scan rx (combine ws es)) as [c ys], (backward_scan r (combine ws qs)) as [c' ys']. cbn [fst snd app nth] in *.
    rewrite <- Sh in Z. exists (e_backward c (w, e)). split; [left; auto|]. eapply poison_backward; eauto.
  - cbn in Ej. destruct (IH es qs L ltac:(lia) Rc') as (x & I & P).
    { exists j, w'. split; auto. cbn [combine backward_scan] in Z. destruct (backward_scan r (combine ws qs)). cbn [snd app Nat.add nth] in *. exact Z. }
    destruct (e_backward_scan rx (combine ws es)). cbn in *. exists x. auto.
Qed.
(* otherwise every point depends on both coordinates *)
Lemma scan_rch rx r ws es qs : evv env rx r -> evl es qs -> length qs = length ws ->
  rch rx \/ Forall rch2 es ->
  (forall j w, nth_error ws j = Some w ->
     dot (vsub (nth (j + 1) (snd (backward_scan r (combine ws qs)) ++ [r]) (0, 0)) (nth j qs (0, 0))) (normal w) <> 0) ->
  Forall rch (snd (e_backward_scan rx (combine ws es))).
Proof.
  intros H L0 Len0 Rc. revert es qs L0 Len0 Rc. induction ws as [|w ws IH]; intros es qs L Len Rc Nz; cbn; [constructor|].
  destruct L as [|e q es qs E L]; [discriminate|]. cbn in Len. cbn [combine e_backward_scan].
  destruct (ev_backward_scan env rx r ws es qs H L) as [A B].
  pose proof (scan_head r ws qs) as Sh.
  assert (Rc' : rch rx \/ Forall rch2 es) by (destruct Rc as [Rc|Rc]; [auto|inversion Rc; auto]).
  assert (Nz' : forall j w', nth_error ws j = Some w' ->
     dot (vsub (nth (j + 1) (snd (backward_scan r (combine ws qs)) ++ [r]) (0, 0)) (nth j qs (0, 0))) (normal w') <> 0).
  { intros j w' Ej. specialize (Nz (S j) w' Ej). cbn [combine backward_scan] in Nz.
    destruct (backward_scan r (combine ws qs)). cbn [snd app Nat.add nth] in *. exact Nz. }
  pose proof (IH es qs L ltac:(lia) Rc' Nz') as F. specialize (Nz O w eq_refl). cbn [combine backward_scan Nat.add] in Nz.
  assert (Rc2 : rch (fst (e_backward_scan rx (combine ws es))) \/ rch2 e).
  { destruct Rc as [Rc|Rc]; [left|right; inversion Rc; auto]. clear - Rc. generalize (combine ws es). intros xs.
    induction xs as [|[w e] xs IH]; cbn; auto. destruct (e_backward_scan rx xs). cbn in *. apply rch_backward_point; auto. }
  destruct (e_backward_scan rx (combine ws es)) as [c ys], (backward_scan r (combine ws qs)) as [c' ys']. cbn [fst snd app nth] in *.
  rewrite <- Sh in Nz. constructor; auto. destruct Rc2 as [Rc2|Rc2]; [apply rch_backward_point; auto|].
  eapply rch_backward_image; eauto.
Qed.
Lemma diffs_rch_tail p qs : Forall rch qs -> Forall rch (e_diffs (p :: qs)).
Proof.
  intros F. revert p. induction F as [|q qs Q F IH]; intros p; [constructor|].
  change (Forall rch (e_vsub q p :: e_diffs (q :: qs))). constructor; auto. apply rch_sub1; auto.
Qed.
Lemma diffs_rch_init ps q : Forall rch ps -> Forall rch (e_diffs (ps ++ [q])).
Proof.
  intros F. induction F as [|p ps P F IH]; [constructor|].
  destruct ps as [|p' ps]; cbn [app] in *.
  - constructor; [apply rch_sub2; auto|constructor].
  - change (Forall rch (e_vsub p' p :: e_diffs (p' :: ps ++ [q]))). constructor; auto. apply rch_sub2; auto.
Qed.
Lemma ev_diffs es ps : evl es ps -> evl (e_diffs es) (diffs ps).
Proof.
  intros L. induction L as [|e p es ps E L IH]; cbn; [constructor|]. destruct L as [|e' p' es ps E' L]; [constructor|].
  constructor; auto. apply ev_vsub; auto.
Qed.
Lemma f2_in es ps v : evl es ps -> In v ps -> exists e, In e es /\ evv env e v.
Proof.
  induction 1 as [|x y es ps Hxy H0 IHForall2]; intros I; [destruct I|]. destruct I as [->|I]; [exists x; cbn; auto|]. destruct (IHForall2 I) as (e & J & K). exists e. cbn; auto. Qed.

Lemma e_diffs_row es d : In d (e_diffs es) -> exists j, (j + 1 < length es)%nat /\ d = e_vsub (e_row es (j + 1)) (e_row es j).
Proof.
  unfold e_row. induction es as [|a es IH]; intros I; [destruct I|]. destruct es as [|b es]; [destruct I|].
  destruct I as [<-|I].
  - exists O. cbn [length]. split; [lia|reflexivity].
  - destruct (IH I) as (j & Hj & ->). exists (S j). split; [cbn [length] in *; lia|]. cbn [length] in *.
    rewrite !Nat.min_l by lia. reflexivity.
Qed.
(* a step (-eps, -eps) poisons the length *)
Lemma eps_poison i eps es ps : (i < 2)%nat -> evl es ps -> Forall rch (e_diffs es) -> In (- eps, - eps) (diffs ps) ->
  poison env i (e_path_length eps es).
Proof.
  intros Hi L F I. destruct (f2_in _ _ _ (ev_diffs _ _ L) I) as (d & J & [E1 E2]). rewrite Forall_forall in F. specialize (F d J).
  eapply poison_sub; [eapply sub_path_length; [exact J|constructor]|]. apply poison_norm.
  - split; cbn [fst snd eval] in *; rewrite ?E1, ?E2; cbn; f_equal; ring.
  - destruct (rch_any _ F i Hi) as [K|K]; [left|right]; cbn [fst snd reaches]; rewrite K; reflexivity.
Qed.
(* a zero step poisons the loss *)
Lemma zero_poison i ws es ps : (i < 2)%nat -> evl es ps -> length es = (length ws + 2)%nat -> ws <> [] ->
  Forall rch (e_diffs es) -> In (0, 0) (diffs ps) -> poison env i (e_path_loss (map OWall ws) es).
Proof.
  intros Hi L Len Nw F I. destruct (f2_in _ _ _ (ev_diffs _ _ L) I) as (d & J & E). rewrite Forall_forall in F. specialize (F d J).
  pose proof (poison_norm env i d E (rch_any _ F i Hi)) as P. destruct (e_diffs_row _ _ J) as (j & Hj & Ed). subst d.
  destruct (Nat.lt_ge_cases j (length ws)) as [Lt|Ge].
  - destruct (nth_error ws j) as [w|] eqn:Ew; [|apply nth_error_None in Ew; lia].
    eapply poison_sub; [|exact P]. eapply sub_path_loss; [exact Ew|]. apply sub_evaluate1.
  - assert (length ws <> O) by (destruct ws; cbn; congruence).
    destruct (nth_error ws (j - 1)) as [w|] eqn:Ew; [|apply nth_error_None in Ew; lia].
    eapply poison_sub; [|exact P]. eapply sub_path_loss; [exact Ew|]. replace (j - 1 + 1)%nat with j by lia.
    replace (j - 1 + 2)%nat with (j + 1)%nat by lia. apply sub_evaluate2.
Qed.

(** A candidate that is not in general position poisons its term. *)
Lemma term_poison i k eps rc h tol patch objs tx rx t r cand ws : (i < 2)%nat -> evv env tx t -> evv env rx r -> rch tx \/ rch rx ->
  ~ gen_pos eps t ws r -> poison env i (e_term k eps rc h tol patch objs tx rx (cand, ws)).
Proof.
  intros Hi T Rr Rc NG. pose proof (ev_image_points env tx t ws rx r T Rr) as L.
  assert (Len : length (e_image_points tx ws rx) = (length ws + 2)%nat) by (rewrite (F2_length _ _ L); apply image_points_length).
  assert (Im : evl (e_images tx ws) (images t ws)) by (apply ev_images; auto).
  assert (Ln : length (images t ws) = length ws) by apply images_length.
  assert (Rc' : rch rx \/ Forall rch2 (e_images tx ws)) by (destruct Rc; auto using rch_images).
  assert (PL : poison env i (e_path_length eps (e_image_points tx ws rx)) ->
     poison env i (e_term k eps rc h tol patch objs tx rx (cand, ws))).
  { intros P. unfold e_term. eapply poison_sub; [apply sub_mul2, sub_power, sub_refl|]. exact P. }
  destruct (Exists_dec (fun '(j, w) => approach t ws r j w = 0) (combine (seq 0 (length ws)) ws)) as [Ex|Nx].
  { intros [j w]. apply Req_EM_T. }
  - apply PL. apply Exists_exists in Ex. destruct Ex as ([j w] & Ij & Z).
    change (combine (seq 0 (length ws)) ws) with (enumerate ws) in Ij. apply in_enumerate in Ij. destruct Ij as [Hj Ej].
    destruct (scan_poison i rx r ws (e_images tx ws) (images t ws) Hi Rr Im Ln Rc') as (q & Iq & Pq).
    { exists j, w. split; auto. unfold approach, image_points in Z. replace (j + 2)%nat with (S (j + 1)) in Z by lia. exact Z. }
    destruct (point_in_diffs (e_image_points tx ws rx) q) as (d & Id & Sd); [lia|right; apply in_or_app; auto|].
    eapply poison_sub; [|exact Pq]. eapply sub_path_length; [exact Id|]. eapply sub_trans; [exact Sd|].
    unfold e_norm. apply sub_sqrt. unfold e_dot. cbn [fst]. apply sub_add1, sub_mul1, sub_add1, sub_refl.
  - assert (G1 : forall j w, nth_error ws j = Some w -> approach t ws r j w <> 0).
    { intros j w Ej Z. apply Nx. apply Exists_exists. exists (j, w). split; auto.
      assert (Q : forall l s, nth_error l j = Some w -> In ((s + j)%nat, w) (combine (seq s (length l)) l)).
      { clear. intros l. revert j. induction l as [|x l IH]; intros [|j] s E; cbn in *; try discriminate.
        - inversion E; subst. left. f_equal. lia.
        - right. replace (s + S j)%nat with (S s + j)%nat by lia. apply IH; auto. }
      apply (Q ws O Ej). }
    assert (FD : Forall rch (e_diffs (e_image_points tx ws rx))).
    { assert (FS : Forall rch (snd (e_backward_scan rx (combine ws (e_images tx ws))))).
      { apply (scan_rch rx r ws (e_images tx ws) (images t ws)); auto.
        intros j w Ej. specialize (G1 j w Ej). unfold approach, image_points in G1. replace (j + 2)%nat with (S (j + 1)) in G1 by lia. exact G1. }
      unfold e_image_points. destruct Rc as [Rc|Rc].
      - change (tx :: ?a ++ [rx]) with ((tx :: a) ++ [rx]). apply diffs_rch_init. constructor; auto.
      - apply diffs_rch_tail. apply Forall_app. split; auto. }
    destruct (Exists_dec (fun v => v = (- eps, - eps)) (diffs (image_points t ws r))) as [Ex|Nx2].
    { intros [a b]. destruct (Req_EM_T a (- eps)); [|right; congruence]. destruct (Req_EM_T b (- eps)); [left; congruence|right; congruence]. }
    + apply PL. apply Exists_exists in Ex. destruct Ex as (v & Iv & ->). eapply eps_poison; eauto.
    + destruct (Exists_dec (fun v => v = (0, 0)) (diffs (image_points t ws r))) as [Ex|Nx3].
      { intros [a b]. destruct (Req_EM_T a 0); [|right; congruence]. destruct (Req_EM_T b 0); [left; congruence|right; congruence]. }
      * apply Exists_exists in Ex. destruct Ex as (v & Iv & ->).
        destruct ws as [|w ws].
        { exfalso. apply NG. split; [auto|]. split; [|intros; congruence].
          intros v Hv E. apply Nx2. apply Exists_exists. eauto. }
        unfold e_term. eapply poison_sub; [apply sub_mul1, sub_is_valid_loss, sub_refl|].
        eapply zero_poison; eauto. discriminate.
      * exfalso. apply NG. split; [auto|]. split; intros v Hv; [|intros _]; intros E.
        -- apply Nx2. apply Exists_exists. eauto.
        -- apply Nx3. apply Exists_exists. eauto.
Qed.
Lemma facc_poison i k eps rc h tol patch objs tx rx t r work cand ws : (i < 2)%nat -> evv env tx t -> evv env rx r -> rch tx \/ rch rx ->
  In (cand, ws) work -> ~ gen_pos eps t ws r -> poison env i (e_facc k eps rc h tol patch objs work tx rx).
Proof.
  intros Hi T Rr Rc I NG. unfold e_facc. eapply poison_sub; [apply sub_fold_add; right; exists (cand, ws); split; [exact I|apply sub_refl]|].
  eapply term_poison; eauto.
Qed.
Lemma facc_finite_iff i k eps rc h tol patch objs tx rx t r work : (i < 2)%nat ->
  gvv 2 env tx t -> gvv 2 env rx r -> rch tx \/ rch rx -> ek_alpha k <> 0 -> h <> 0 ->
  (is_fin (grad env (e_facc k eps rc h tol patch objs work tx rx) i) <->
   forall cand ws, In (cand, ws) work -> gen_pos eps t ws r).
Proof.
  intros Hi T Rr Rc Ha Hh. split.
  - intros [x F] cand ws I. destruct (Classical_Prop.classic (gen_pos eps t ws r)) as [G|NG]; auto.
    exfalso. pose proof (facc_poison i k eps rc h tol patch objs tx rx t r work cand ws Hi (gvv_evv _ _ _ _ T) (gvv_evv _ _ _ _ Rr) Rc I NG (Fin 1)) as P.
    unfold grad in F. congruence.
  - intros G. destruct (sf_facc 2 env k Ha eps rc h tol patch objs work tx rx t r T Rr Hh G) as [S _].
    rewrite grad_safe by auto. eexists; reflexivity.
Qed.
Lemma facc_fin_or_nan i k eps rc h tol patch objs tx rx t r work : (i < 2)%nat ->
  gvv 2 env tx t -> gvv 2 env rx r -> rch tx \/ rch rx -> ek_alpha k <> 0 -> h <> 0 ->
  let d := grad env (e_facc k eps rc h tol patch objs work tx rx) i in is_fin d \/ d = NaN.
Proof.
  intros Hi T Rr Rc Ha Hh d.
  destruct (Classical_Prop.classic (forall cand ws, In (cand, ws) work -> gen_pos eps t ws r)) as [G|NG].
  - left. apply (facc_finite_iff i k eps rc h tol patch objs tx rx t r work); auto.
  - right. apply Classical_Pred_Type.not_all_ex_not in NG. destruct NG as [cand NG].
    apply Classical_Pred_Type.not_all_ex_not in NG. destruct NG as [ws NG].
    apply Classical_Prop.imply_to_and in NG. destruct NG as [I NG].
    exact (facc_poison i k eps rc h tol patch objs tx rx t r work cand ws Hi (gvv_evv _ _ _ _ T) (gvv_evv _ _ _ _ Rr) Rc I NG (Fin 1)).
Qed.
End Paths.
