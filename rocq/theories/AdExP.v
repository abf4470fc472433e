(** Gradients of the traced code: the functions one by one, and examples. *)
From Coq Require Import Reals List Bool ZArith Arith Lia Lra Psatz FunctionalExtensionality.
From Verif Require Import Base BaseP LogicM GeometryM OptimizeM PathM UtilsM SceneM AdM SpecAd AdPos.
From Verif Require Import AdP AdSoundP AdGeomP AdGradP AdNanP AdRightP.
Import ListNotations.
Open Scope R_scope.
Local Notation length := List.length.

(** ** Uniqueness *)
Lemma gradient_unique n F x g h : is_gradient n F x g -> is_gradient n F x h -> forall i, (i < n)%nat -> g i = h i.
Proof.
  intros G H i Hi.
  set (v := fun j => if Nat.eqb j i then 1 else 0). set (curve := fun t j => x j + t * v j).
  assert (Hv : forall j, derivable_pt_lim (fun t => curve t j) 0 (v j)).
  { intros j eps He. exists (mkposreal 1 ltac:(lra)). intros d Nd _. unfold curve.
    replace ((x j + (0 + d) * v j - (x j + 0 * v j)) / d - v j) with 0 by (field; auto). rewrite Rabs_R0. auto. }
  assert (H0 : forall j, curve 0 j = x j) by (intros; unfold curve; ring).
  destruct (G curve v 0 Hv H0) as (f & d & Hd & E & L). destruct (H curve v 0 Hv H0) as (f' & d' & Hd' & E' & L').
  assert (Q : derivable_pt_lim f' 0 (fold_right Rplus 0 (map (fun i => g i * v i) (seq 0 n)))).
  { eapply deriv_local; [|exact L]. exists (Rmin d d'). split; [apply Rmin_pos; auto|].
    intros t Ht. apply lt_min in Ht. destruct Ht as [A B]. specialize (E t A). specialize (E' t B). rewrite E in E'. inversion E'; auto. }
  pose proof (uniqueness_limite _ _ _ _ L' Q) as U.
  assert (S : forall w : nat -> R, fold_right Rplus 0 (map (fun j => w j * v j) (seq 0 n)) = w i).
  { intros w. rewrite <- (dotn_var n i w Hi). unfold dotn. f_equal. apply map_ext. intros j. unfold v. ring. }
  rewrite !S in U. auto.
Qed.

Lemma ex_c80 :
  let e := EMul (EMax (EVar 0) (C 1)) (EDiv (EVar 1) (ESqrt (EVar 0))) in
  let x := fun i => match i with O => 4 | _ => 3 end in
  vars_below 2 e /\ safe x e /\ regular x e /\ eval x e = Fin 6.
Proof.
  intros e x. subst e x.
  assert (S4 : sqrt 4 = 2) by (replace 4 with (2 * 2) by ring; apply sqrt_square; lra).
  assert (Es : eval (fun i => match i with O => 4 | _ => 3 end) (ESqrt (EVar 0)) = Fin 2).
  { cbn. unfold Rltb. destruct (Rlt_dec 4 0); [lra|]. rewrite S4. reflexivity. }
  assert (Ed : eval (fun i => match i with O => 4 | _ => 3 end) (EDiv (EVar 1) (ESqrt (EVar 0))) = Fin (3 / 2)) by (apply ev_div; auto; lra).
  split; [cbn; lia|]. split; [|split].
  - cbn [safe]. right. split; [cbn; auto|]. split; [|split].
    + right. split; [cbn; auto|]. split; [right; split; [cbn; auto|exists 4; split; [reflexivity|lra]]|].
      split; [exists 2; split; [exact Es|lra]|]. right. exists 3. reflexivity.
    + right. rewrite Ed. eexists; reflexivity.
    + right. eexists. reflexivity.
  - cbn [regular]. right. split.
    + right. split; [right; auto|]. split; [right; eexists; reflexivity|]. unfold tie. cbn [eval]. intros Q. inversion Q. lra.
    + right. split; [right; auto|]. split; [|rewrite Es; intros Q; inversion Q; lra].
      right. split; [right; auto|]. exists 4. split; [reflexivity|lra].
  - change (xmul (xmax (Fin 4) (Fin 1)) (eval (fun i => match i with O => 4 | _ => 3 end) (EDiv (EVar 1) (ESqrt (EVar 0)))) = Fin 6).
    rewrite Ed. cbn. rewrite Rmax_left by lra. f_equal. lra.
Qed.

(** ** From [gval] *)
Lemma gr_of n e F x r : gval n x e r -> (forall y, eval y e = Fin (F y)) -> exists g, gradient_right n e F x g.
Proof.
  intros [G _] E. destruct (good_gradient n x e G) as [A B]. exists (D x e). split; auto.
  replace (fun y => Fin (F y)) with (fun y => eval y e); auto. apply functional_extensionality. auto.
Qed.
Lemma gvv_point n x j : (2 * j + 1 < n)%nat -> gvv n x (epoint j) (point_of x j).
Proof. intros H. split; cbn [fst snd epoint point_of]; apply gv_var; lia. Qed.
Lemma evv_point y j : evv y (epoint j) (point_of y j).
Proof. split; reflexivity. Qed.
Lemma gvv_evar x : gvv 2 x evar (x 0%nat, x 1%nat).
Proof. split; cbn [fst snd evar]; apply gv_var; lia. Qed.
Lemma evv_evar y : evv y evar (y 0%nat, y 1%nat).
Proof. split; reflexivity. Qed.
Lemma vsub_ne p q : p <> q -> vsub p q <> (0, 0).
Proof. intros N E. apply N. destruct p, q. unfold vsub in E. cbn in E. inversion E. f_equal; lra. Qed.
Lemma vsub_eq p q : p = q -> vsub p q = (0, 0).
Proof. intros ->. unfold vsub. f_equal; ring. Qed.

(** ** Lengths *)
Lemma gvl_points m x : Forall2 (gvv (2 * m) x) (evars m) (points_at m x).
Proof.
  unfold evars, points_at. assert (G : forall l, (forall i, In i l -> (i < m)%nat) ->
    Forall2 (gvv (2 * m) x) (map (fun i => (EVar (2 * i), EVar (2 * i + 1))) l) (map (fun i => (x (2 * i)%nat, x (2 * i + 1)%nat)) l)).
  { induction l as [|i l IH]; intros H; [constructor|]. cbn [map]. constructor; [|apply IH; intros; apply H; right; auto].
    assert (i < m)%nat by (apply H; left; auto). apply (gvv_point (2 * m) x i). lia. }
  apply G. intros i I. apply in_seq in I. lia.
Qed.
Lemma evl_points m y : Forall2 (evv y) (evars m) (points_at m y).
Proof. eapply gvl_evl, gvl_points. Qed.
Lemma length_gradient eps m x :
  (forall v, In v (diffs (points_at m x)) -> v <> (- eps, - eps)) ->
  exists g, gradient_right (2 * m) (e_path_length eps (evars m)) (fun y => path_length eps (points_at m y)) x g.
Proof.
  intros H. eapply gr_of; [apply gv_path_length; [apply gvl_points|exact H]|].
  intros y. apply ev_path_length. apply evl_points.
Qed.
Lemma evars_row m j : (j < m)%nat -> e_row (evars m) j = epoint j.
Proof.
  intros H. unfold e_row, evars. rewrite map_length, seq_length. rewrite Nat.min_l by lia.
  rewrite (nth_indep _ _ (epoint 0)) by (rewrite map_length, seq_length; lia). unfold epoint.
  rewrite (map_nth (fun i => (EVar (2 * i), EVar (2 * i + 1))) (seq 0 m) O). rewrite seq_nth by lia. reflexivity.
Qed.
Lemma length_gradient_fails eps m x :
  In (- eps, - eps) (diffs (points_at m x)) ->
  exists i, (i < 2 * m)%nat /\ grad x (e_path_length eps (evars m)) i = NaN.
Proof.
  intros I. destruct (f2_in x _ _ _ (ev_diffs x _ _ (evl_points m x)) I) as (d & J & [E1 E2]).
  destruct (e_diffs_row _ _ J) as (j & Hj & Ed). unfold evars in Hj. rewrite map_length, seq_length in Hj.
  rewrite !evars_row in Ed by lia. exists (2 * j)%nat. split; [lia|].
  assert (P : poison x (2 * j) (e_path_length eps (evars m))).
  { eapply poison_sub; [eapply sub_path_length; [exact J|constructor]|]. apply poison_norm.
    - split; cbn [fst snd eval] in *; rewrite ?E1, ?E2; cbn; f_equal; ring.
    - left. rewrite Ed. cbn [fst reaches e_vsub epoint]. rewrite Nat.eqb_refl, orb_true_r. reflexivity. }
  exact (P (Fin 1)).
Qed.

(** ** Normalisation and interactions *)
Lemma normalize_gradient x : (x 0%nat, x 1%nat) <> (0, 0) ->
  (exists g, gradient_right 2 (fst (e_normalize evar)) (fun y => fst (fst (normalize (y 0%nat, y 1%nat)))) x g) /\
  (exists g, gradient_right 2 (snd (e_normalize evar)) (fun y => snd (fst (normalize (y 0%nat, y 1%nat)))) x g).
Proof.
  intros H. destruct (gvv_normalize 2 x _ _ (gvv_evar x) H) as [A B].
  split; eapply gr_of; eauto; intros y; apply (ev_normalize y _ _ (evv_evar y)).
Qed.
Lemma sub_normalize2 v : sub (e_norm v) (snd (e_normalize v)).
Proof. unfold e_normalize. cbn [snd]. apply sub_div2. apply sub_w3. constructor. Qed.
Lemma poison_nf x i e : poison x i e -> grad x e i = NaN.
Proof. intros P. exact (P (Fin 1)). Qed.
Lemma normalize_gradient_fails x i : (x 0%nat, x 1%nat) = (0, 0) -> (i < 2)%nat ->
  grad x (fst (e_normalize evar)) i = NaN /\ grad x (snd (e_normalize evar)) i = NaN.
Proof.
  intros E Hi. assert (P : poison x i (e_norm evar)).
  { apply poison_norm; [rewrite <- E; apply evv_evar|]. destruct i as [|[|i]]; [left|right|lia]; reflexivity. }
  split; apply poison_nf; (eapply poison_sub; [|exact P]); [apply sub_normalize|apply sub_normalize2].
Qed.
Lemma evaluate_gradient w x :
  point_of x 1 <> point_of x 0 -> point_of x 2 <> point_of x 1 ->
  exists g, gradient_right 6 (e_evaluate (cwall w) (epoint 0) (epoint 1) (epoint 2))
    (fun y => wall_evaluate w (point_of y 0) (point_of y 1) (point_of y 2)) x g.
Proof.
  intros N1 N2. eapply gr_of; [apply gv_evaluate; try (apply gvv_point; lia); apply vsub_ne; auto|].
  intros y. apply ev_evaluate; auto using ev_cwall, evv_point.
Qed.
Lemma evaluate_gradient_fails w x :
  point_of x 1 = point_of x 0 \/ point_of x 2 = point_of x 1 ->
  grad x (e_evaluate (cwall w) (epoint 0) (epoint 1) (epoint 2)) 2 = NaN.
Proof.
  intros H. apply poison_nf. destruct H as [H|H].
  - eapply poison_sub; [apply sub_evaluate1|]. apply poison_norm; [|left; reflexivity].
    rewrite <- (vsub_eq _ _ H). apply ev_vsub; apply evv_point.
  - eapply poison_sub; [apply sub_evaluate2|]. apply poison_norm; [|left; reflexivity].
    rewrite <- (vsub_eq _ _ H). apply ev_vsub; apply evv_point.
Qed.
Lemma ris_evaluate_gradient w phi x :
  point_of x 2 <> point_of x 1 ->
  exists g, gradient_right 6 (e_ris_evaluate (cwall w) phi (epoint 1) (epoint 2))
    (fun y => ris_evaluate w phi (point_of y 0) (point_of y 1) (point_of y 2)) x g.
Proof.
  intros N2. eapply gr_of; [apply (gv_ris_evaluate 6 x w phi (point_of x 0)); try (apply gvv_point; lia); apply vsub_ne; auto|].
  intros y. apply ev_ris_evaluate; auto using ev_cwall, evv_point.
Qed.
Lemma sub_ris_evaluate w phi b c : sub (e_norm (e_vsub c b)) (e_ris_evaluate w phi b c).
Proof.
  unfold e_ris_evaluate. cbv zeta. apply sub_add1, sub_sq, sub_sub1. unfold e_cross. apply sub_sub1, sub_mul1. cbn [fst].
  apply sub_neg. apply sub_normalize.
Qed.
Lemma ris_evaluate_gradient_fails w phi x :
  point_of x 2 = point_of x 1 ->
  grad x (e_ris_evaluate (cwall w) phi (epoint 1) (epoint 2)) 2 = NaN.
Proof.
  intros H. apply poison_nf. eapply poison_sub; [apply sub_ris_evaluate|]. apply poison_norm; [|left; reflexivity].
  rewrite <- (vsub_eq _ _ H). apply ev_vsub; apply evv_point.
Qed.

(** ** The steps of the image method *)
Lemma c2p_gradient w x :
  exists g, gradient_right 2 (e_c2p (cwall w) evar) (fun y => wall_c2p w (y 0%nat, y 1%nat)) x g.
Proof. eapply gr_of; [apply gv_c2p, gvv_evar|]. intros y. apply ev_c2p; [apply ev_cwall|apply evv_evar]. Qed.
Lemma image_gradient w x :
  (exists g, gradient_right 2 (fst (e_image_of (cwall w) evar)) (fun y => fst (image_of w (y 0%nat, y 1%nat))) x g) /\
  (exists g, gradient_right 2 (snd (e_image_of (cwall w) evar)) (fun y => snd (image_of w (y 0%nat, y 1%nat))) x g).
Proof.
  destruct (gvv_image_of 2 x w _ _ (gvv_evar x)) as [A B].
  split; eapply gr_of; eauto; intros y; apply (ev_image_of y _ _ _ _ (ev_cwall y w) (evv_evar y)).
Qed.
Lemma backward_gradient w x :
  dot (vsub (point_of x 0) (point_of x 1)) (normal w) <> 0 ->
  (exists g, gradient_right 4 (fst (e_backward (epoint 0) (w, epoint 1)))
     (fun y => fst (backward (point_of y 0) (w, point_of y 1))) x g) /\
  (exists g, gradient_right 4 (snd (e_backward (epoint 0) (w, epoint 1)))
     (fun y => snd (backward (point_of y 0) (w, point_of y 1))) x g).
Proof.
  intros N. destruct (gvv_backward 4 x (epoint 0) (point_of x 0) w (epoint 1) (point_of x 1)) as [A B]; auto; try (apply gvv_point; lia).
  split; eapply gr_of; eauto; intros y; apply (ev_backward y _ _ w _ _ (evv_point y 0) (evv_point y 1)).
Qed.
Lemma backward_gradient_fails w x i :
  dot (vsub (point_of x 0) (point_of x 1)) (normal w) = 0 -> (i < 2)%nat ->
  backward (point_of x 0) (w, point_of x 1) = point_of x 0 /\
  grad x (fst (e_backward (epoint 0) (w, epoint 1))) i = NaN.
Proof.
  intros Z Hi. split.
  - unfold backward. cbv zeta. rewrite Z. unfold Reqb. destruct (Req_EM_T 0 0); [|lra].
    destruct (point_of x 0). unfold vadd. cbn. f_equal; ring.
  - apply poison_nf. eapply poison_backward; [auto|apply evv_point|apply evv_point|exact Z|].
    left. split; reflexivity.
Qed.

(** ** Crossing *)
Lemma gvl_sf n x u p : gvv n x u p -> sfv x u.
Proof. apply sfv_of_gvv. Qed.
Lemma crossing_finite k tol x i : ek_alpha k <> 0 ->
  is_fin (grad x (e_segments_intersect k (epoint 0) (epoint 1) (epoint 2) (epoint 3) tol) i).
Proof.
  intros Ha. rewrite grad_safe; [eexists; reflexivity|].
  apply (sf_segments_intersect x k Ha); eapply sfv_of_gvv; apply (gvv_point 8); lia.
Qed.
Lemma crossing_fun alpha tol :
  (fun y => eval y (e_segments_intersect (mkeakw alpha Hard) (epoint 0) (epoint 1) (epoint 2) (epoint 3) tol)) =
  (fun y => to_f (segments_intersect false (point_of y 0) (point_of y 1) (point_of y 2) (point_of y 3)
    tol (Some true) (mkakw alpha hard_sigmoid))).
Proof.
  apply functional_extensionality. intros y. change (mkakw alpha hard_sigmoid) with (akw_of (mkeakw alpha Hard)).
  rewrite <- (ev_segments_intersect y false (mkeakw alpha Hard) (epoint 0) (epoint 1) (epoint 2) (epoint 3)
    (point_of y 0) (point_of y 1) (point_of y 2) (point_of y 3) tol); auto using evv_point.
Qed.
Lemma crossing_settled alpha tol x : 0 < alpha ->
  seg_set alpha (point_of x 0) (point_of x 1) (point_of x 2) (point_of x 3) tol ->
  let e := e_segments_intersect (mkeakw alpha Hard) (epoint 0) (epoint 1) (epoint 2) (epoint 3) tol in
  (forall i, grad x e i = Fin 0) /\
  is_gradient 8 (fun y => to_f (segments_intersect false (point_of y 0) (point_of y 1) (point_of y 2) (point_of y 3)
    tol (Some true) (mkakw alpha hard_sigmoid))) x (fun _ => 0).
Proof.
  intros Ha St e.
  destruct (segments_flat 8 x alpha Ha (epoint 0) (epoint 1) (epoint 2) (epoint 3) _ _ _ _ tol
    (gvv_point 8 x 0 ltac:(lia)) (gvv_point 8 x 1 ltac:(lia)) (gvv_point 8 x 2 ltac:(lia)) (gvv_point 8 x 3 ltac:(lia)) St) as (c & Hc & F).
  pose proof (flat_gval 8 x _ _ F) as [G _]. destruct (good_gradient 8 x _ G) as [A B].
  destruct F as (_ & Z & _). rewrite crossing_fun in B. split.
  - intros i. unfold e. rewrite A, Z. reflexivity.
  - replace (fun _ : nat => 0) with (D x e); [exact B|]. apply functional_extensionality. exact Z.
Qed.

(* [tame]: flat wherever it is 0 or 1 *)
Definition tame n x e r := gval n x e r /\ (r = 0 \/ r = 1 -> forall i, D x e i = 0).
Lemma D_min x a b r s i : eval x a = Fin r -> eval x b = Fin s ->
  D x (EMin a b) i = (if Rlt_dec r s then D x a i else if Rlt_dec s r then D x b i else (D x a i + D x b i) / 2).
Proof.
  intros E F. cbn [D]. cbv zeta. rewrite E, F. cbn [xmin]. destruct (Rlt_dec r s) as [L|L]; [|destruct (Rlt_dec s r) as [M|M]].
  - rewrite Rmin_left by lra. rewrite (shares_won r s), (shares_lost r s) by lra. ring.
  - rewrite Rmin_right by lra. rewrite (shares_won s r), (shares_lost s r) by lra. ring.
  - assert (r = s) by lra. subst s. rewrite Rmin_left by lra. rewrite shares_eq. field.
Qed.
Lemma tame_min n x a b r s : tame n x a r -> tame n x b s -> (r = s -> r = 0 \/ r = 1) -> tame n x (EMin a b) (Rmin r s).
Proof.
  intros [[[Sa Fa] Ea] Za] [[[Sb Fb] Eb] Zb] T. split.
  - split; [|cbn; rewrite Ea, Eb; reflexivity]. split; [cbn; auto|]. intros. apply fol_min; auto. rewrite Ea, Eb.
    intros Q i. assert (r = s) by (inversion Q; auto). subst s. rewrite Za, Zb by auto. reflexivity.
  - intros H i. rewrite (D_min x a b r s i Ea Eb). destruct (Rlt_dec r s) as [L|L]; [|destruct (Rlt_dec s r) as [M|M]].
    + rewrite Rmin_left in H by lra. auto.
    + rewrite Rmin_right in H by lra. auto.
    + assert (r = s) by lra. subst s. rewrite Za, Zb by auto. field.
Qed.
Lemma tame_act n x alpha e r : 0 < alpha -> gval n x e r -> alpha * r <> 3 -> alpha * r <> -3 ->
  tame n x (e_activation (mkeakw alpha Hard) e) (hs alpha r).
Proof.
  intros Ha G N1 N2. assert (Cs : settled alpha r \/ -3 < alpha * r < 3) by (unfold settled; lra). destruct Cs as [St|Tr].
  - destruct (settled_act n x alpha Ha e r G St) as (c & Hc & F).
    assert (E : eval x (e_activation (mkeakw alpha Hard) e) = Fin (hs alpha r)) by (apply eval_act; apply G).
    assert (c = hs alpha r) by (destruct F as (_ & _ & F & _); rewrite E in F; inversion F; auto). subst c.
    split; [apply flat_gval; auto|]. intros _ i. apply F.
  - split; [apply smooth_act; auto|]. intros H. exfalso. unfold hs in H. rewrite Rmax_left, Rmin_left in H by lra. lra.
Qed.
Lemma hs_sep alpha r s : 0 < alpha -> alpha * r <> 3 -> alpha * r <> -3 -> alpha * s <> 3 -> alpha * s <> -3 ->
  settled alpha r \/ settled alpha s \/ r <> s -> hs alpha r = hs alpha s -> hs alpha r = 0 \/ hs alpha r = 1.
Proof.
  intros Ha N1 N2 N3 N4 H E.
  assert (B : forall z, settled alpha z -> hs alpha z = 0 \/ hs alpha z = 1) by (intros z [L|L]; [left; apply hs_low; auto|right; apply hs_high; auto]).
  assert (Cr : settled alpha r \/ -3 < alpha * r < 3) by (unfold settled; lra).
  assert (Cs : settled alpha s \/ -3 < alpha * s < 3) by (unfold settled; lra).
  destruct Cr as [Cr|Cr]; [apply B; auto|]. destruct Cs as [Cs|Cs]; [rewrite E; apply B; auto|].
  exfalso. destruct H as [H|[H|H]]; [unfold settled in H; lra|unfold settled in H; lra|].
  unfold hs in E. rewrite !Rmax_left, !Rmin_left in E by lra. apply H.
  apply (Rmult_eq_reg_l alpha); lra.
Qed.
Lemma crossing_transition alpha tol x : 0 < alpha ->
  decid alpha (point_of x 0) (point_of x 1) (point_of x 2) (point_of x 3) tol ->
  exists g, 
  let e := e_segments_intersect (mkeakw alpha Hard) (epoint 0) (epoint 1) (epoint 2) (epoint 3) tol in
  (forall i, grad x e i = Fin (g i)) /\
  is_gradient 8 (fun y => to_f (segments_intersect false (point_of y 0) (point_of y 1) (point_of y 2) (point_of y 3)
    tol (Some true) (mkakw alpha hard_sigmoid))) x g.
Proof.
  intros Ha Dc.
  pose proof (gvv_point 8 x 0 ltac:(lia)) as H1. pose proof (gvv_point 8 x 1 ltac:(lia)) as H2.
  pose proof (gvv_point 8 x 2 ltac:(lia)) as H3. pose proof (gvv_point 8 x 3 ltac:(lia)) as H4.
  pose proof (gvv_vsub _ _ _ _ _ _ H2 H1) as [A1 A2]. pose proof (gvv_vsub _ _ _ _ _ _ H3 H4) as [B1 B2].
  pose proof (gvv_vsub _ _ _ _ _ _ H1 H3) as [C1 C2]. unfold decid in Dc. cbv zeta in Dc.
  set (pA := vsub (point_of x 1) (point_of x 0)) in *. set (pB := vsub (point_of x 2) (point_of x 3)) in *.
  set (pC := vsub (point_of x 0) (point_of x 2)) in *.
  pose proof (gv_sub _ _ _ _ _ _ (gv_mul _ _ _ _ _ _ B2 C1) (gv_mul _ _ _ _ _ _ B1 C2)) as Ga.
  pose proof (gv_sub _ _ _ _ _ _ (gv_mul _ _ _ _ _ _ A1 C2) (gv_mul _ _ _ _ _ _ A2 C1)) as Gb.
  pose proof (gv_sub _ _ _ _ _ _ (gv_mul _ _ _ _ _ _ A2 B1) (gv_mul _ _ _ _ _ _ A1 B2)) as Gd.
  set (a := snd pB * fst pC - fst pB * snd pC) in *. set (b := fst pA * snd pC - snd pA * fst pC) in *.
  set (d := snd pA * fst pB - fst pA * snd pB) in *. destruct Dc as (Nd & Fa & Pr).
  assert (Q : forall num u, gval 8 x num u ->
    alpha * (u / d + tol) <> 3 -> alpha * (u / d + tol) <> -3 -> alpha * (1 + tol - u / d) <> 3 -> alpha * (1 + tol - u / d) <> -3 ->
    (settled alpha (u / d + tol) \/ settled alpha (1 + tol - u / d) \/ u / d + tol <> 1 + tol - u / d) ->
    forall den, gval 8 x den d -> 
    tame 8 x (e_seg_test (mkeakw alpha Hard) num den tol) (Rmin (hs alpha (u / d + tol)) (hs alpha (1 + tol - u / d)))).
  { intros num u G N1 N2 N3 N4 Sp den Gden. unfold e_seg_test. cbv zeta.
    assert (W1 : gval 8 x (EWhere IsZero den (C 1) den) d) by (apply (gv_where0 8 x den (C 1) den d); auto; cbn; auto).
    assert (W2 : gval 8 x (EWhere IsZero den (ECst PInf) (EDiv num (EWhere IsZero den (C 1) den))) (u / d)).
    { apply (gv_where0 8 x den _ _ d); auto; [apply gv_div; auto|cbn; auto]. }
    apply tame_min; [| |apply hs_sep; auto].
    - apply tame_act; auto. replace (u / d + tol) with (u / d - - tol) by ring. apply gv_sub; auto. apply gv_c.
    - apply tame_act; auto. apply gv_sub; auto. apply gv_c. }
  inversion Fa as [|? ? [F11 F12] Fa1]; subst. inversion Fa1 as [|? ? [F21 F22] Fa2]; subst.
  inversion Fa2 as [|? ? [F31 F32] Fa3]; subst. inversion Fa3 as [|? ? [F41 F42] _]; subst. clear Fa Fa1 Fa2 Fa3.
  inversion Pr as [|? ? P1 Pr1]; subst. inversion Pr1 as [|? ? P2 Pr2]; subst. inversion Pr2 as [|? ? P3 _]; subst. clear Pr Pr1 Pr2.
  rewrite Forall_forall in P1, P2, P3.
  assert (T : exists r, tame 8 x (e_segments_intersect (mkeakw alpha Hard) (epoint 0) (epoint 1) (epoint 2) (epoint 3) tol) r).
  { eexists. unfold e_segments_intersect. cbv zeta. apply tame_min.
    - apply (Q _ a Ga); auto. apply P1; cbn; auto.
    - apply (Q _ b Gb); auto. apply P3; cbn; auto.
    - assert (Z : forall p q r s, Rmin p q = Rmin r s ->
        (p = r -> p = 0 \/ p = 1) -> (p = s -> p = 0 \/ p = 1) -> (q = r -> q = 0 \/ q = 1) -> (q = s -> q = 0 \/ q = 1) ->
        Rmin p q = 0 \/ Rmin p q = 1).
      { intros p q r s. unfold Rmin. destruct (Rle_dec p q), (Rle_dec r s); intros E K1 K2 K3 K4; auto. }
      intros E. apply (Z _ _ _ _ E); apply hs_sep; auto; first [apply P1; cbn; auto; fail|apply P2; cbn; auto]. }
  destruct T as (r & [G _] & _). destruct (good_gradient 8 x _ G) as [A B]. rewrite crossing_fun in B. eexists. split; [exact A|exact B].
Qed.

Lemma ex_parallel : seg_set 100 (-2, 0) (2, 0) (0, 1) (1 / 2, 1) SEG_TOL.
Proof. left. unfold vsub. cbn. lra. Qed.
Lemma ex_crossing : seg_set 100 (-1, 0) (1, 0) (0, -1) (0, 1) SEG_TOL.
Proof.
  right. unfold settled, vsub, SEG_TOL. cbn. 
  repeat split; try lra; right; lra.
Qed.
Lemma ex_transition : decid 100 (0, 0) (1, 0) (0, -1) (0, 1) SEG_TOL.
Proof.
  unfold decid, vsub, SEG_TOL. cbn. 
  split; [lra|]. split.
  - repeat constructor; try lra.
  - unfold settled. repeat constructor; lra.
Qed.

(** ** Accumulations *)
Lemma gvv_at rx : gvv 2 (env_at rx) evar rx.
Proof. destruct rx. apply (gvv_evar (env_at (r, r0))). Qed.
Lemma rch_evar x : rch x evar.
Proof. split; reflexivity. Qed.
Lemma receiver_finite k eps rc h tol patch objs work tx rx i :
  ek_alpha k <> 0 -> h <> 0 -> (i < 2)%nat ->
  (is_fin (grad (env_at rx) (e_facc k eps rc h tol patch objs work (cvec tx) evar) i) <->
   forall cand ws, In (cand, ws) work -> gen_pos eps tx ws rx).
Proof. intros Ha Hh Hi. apply facc_finite_iff; auto using gvv_cvec, gvv_at, rch_evar. Qed.
Lemma transmitter_finite k eps rc h tol patch objs work tx rx i :
  ek_alpha k <> 0 -> h <> 0 -> (i < 2)%nat ->
  (is_fin (grad (env_at tx) (e_facc k eps rc h tol patch objs work evar (cvec rx)) i) <->
   forall cand ws, In (cand, ws) work -> gen_pos eps tx ws rx).
Proof. intros Ha Hh Hi. apply facc_finite_iff; auto using gvv_cvec, gvv_at, rch_evar. Qed.
Lemma receiver_fin_or_nan k eps rc h tol patch objs work tx rx i :
  ek_alpha k <> 0 -> h <> 0 -> (i < 2)%nat ->
  let d := grad (env_at rx) (e_facc k eps rc h tol patch objs work (cvec tx) evar) i in is_fin d \/ d = NaN.
Proof. intros Ha Hh Hi. apply (facc_fin_or_nan _ i k eps rc h tol patch objs _ _ tx rx); auto using gvv_cvec, gvv_at, rch_evar. Qed.
Lemma transmitter_fin_or_nan k eps rc h tol patch objs work tx rx i :
  ek_alpha k <> 0 -> h <> 0 -> (i < 2)%nat ->
  let d := grad (env_at tx) (e_facc k eps rc h tol patch objs work evar (cvec rx)) i in is_fin d \/ d = NaN.
Proof. intros Ha Hh Hi. apply (facc_fin_or_nan _ i k eps rc h tol patch objs _ _ tx rx); auto using gvv_cvec, gvv_at, rch_evar. Qed.
Lemma receiver_right (P : prng) g s alpha eps rc h tol patch (work : list (list Z * option (key_t P))) wss tx rx :
  0 < alpha -> h <> 0 ->
  Forall2 (fun c ws => get_interacting_objects s (fst c) = Ok (map OWall ws)) work wss ->
  (forall cand ws, In (cand, ws) (combine (map fst work) wss) -> gen_pos eps tx ws rx /\
     path_set alpha tol patch (objects s) cand ws (image_points tx ws rx)
       (match ws with [] => 0 | _ => path_loss (map OWall ws) (image_points tx ws rx) end)) ->
  exists F gr,
    (forall y, facc P g s ClsImage (mkvalidargs tol patch (Some true) (mkakw alpha hard_sigmoid))
       (fun t r p inter => received_power eps t r p inter rc h) work tx (y 0%nat, y 1%nat) = Ok (F y)) /\
    (forall i, grad (env_at rx) (e_facc (mkeakw alpha Hard) eps rc h tol patch (objects s) (combine (map fst work) wss) (cvec tx) evar) i = Fin (gr i)) /\
    is_gradient 2 F (env_at rx) gr.
Proof.
  intros Ha Hh Fw G.
  destruct (gv_facc 2 (env_at rx) alpha Ha eps rc h tol patch (objects s) _ (cvec tx) evar tx rx (gvv_cvec _ _ _) (gvv_at _) Hh G) as (y & [Gd _]).
  destruct (good_gradient _ _ _ Gd) as [A B].
  exists (fun y => eval y (e_facc (mkeakw alpha Hard) eps rc h tol patch (objects s) (combine (map fst work) wss) (cvec tx) evar)).
  eexists. split; [|split; [exact A|exact B]].
  intros z. exact (facc_traced P z g s (mkeakw alpha Hard) eps rc h tol patch work wss (cvec tx) evar tx (z 0%nat, z 1%nat) (ev_cvec _ _) (evv_evar z) Fw).
Qed.
Lemma transmitter_right (P : prng) g s alpha eps rc h tol patch (work : list (list Z * option (key_t P))) wss tx rx :
  0 < alpha -> h <> 0 ->
  Forall2 (fun c ws => get_interacting_objects s (fst c) = Ok (map OWall ws)) work wss ->
  (forall cand ws, In (cand, ws) (combine (map fst work) wss) -> gen_pos eps tx ws rx /\
     path_set alpha tol patch (objects s) cand ws (image_points tx ws rx)
       (match ws with [] => 0 | _ => path_loss (map OWall ws) (image_points tx ws rx) end)) ->
  exists F gr,
    (forall y, facc P g s ClsImage (mkvalidargs tol patch (Some true) (mkakw alpha hard_sigmoid))
       (fun t r p inter => received_power eps t r p inter rc h) work (y 0%nat, y 1%nat) rx = Ok (F y)) /\
    (forall i, grad (env_at tx) (e_facc (mkeakw alpha Hard) eps rc h tol patch (objects s) (combine (map fst work) wss) evar (cvec rx)) i = Fin (gr i)) /\
    is_gradient 2 F (env_at tx) gr.
Proof.
  intros Ha Hh Fw G.
  destruct (gv_facc 2 (env_at tx) alpha Ha eps rc h tol patch (objects s) _ evar (cvec rx) tx rx (gvv_at _) (gvv_cvec _ _ _) Hh G) as (y & [Gd _]).
  destruct (good_gradient _ _ _ Gd) as [A B].
  exists (fun y => eval y (e_facc (mkeakw alpha Hard) eps rc h tol patch (objects s) (combine (map fst work) wss) evar (cvec rx))).
  eexists. split; [|split; [exact A|exact B]].
  intros z. exact (facc_traced P z g s (mkeakw alpha Hard) eps rc h tol patch work wss evar (cvec rx) (z 0%nat, z 1%nat) rx (evv_evar z) (ev_cvec _ _) Fw).
Qed.

Lemma zero_wall k eps rc h tol patch objs work tx rx cand ws w i :
  In (cand, ws) work -> In w ws -> w_origin w = w_dest w -> (i < 2)%nat ->
  grad (env_at rx) (e_facc k eps rc h tol patch objs work (cvec tx) evar) i = NaN.
Proof.
  intros I Iw E Hi. apply poison_nf.
  apply (facc_poison (env_at rx) i k eps rc h tol patch objs (cvec tx) evar tx rx work cand ws); auto using ev_cvec, rch_evar.
  - apply (gvv_evv 2), gvv_at.
  - intros (G1 & _). apply In_nth_error in Iw. destruct Iw as [j Ej]. apply (G1 j w Ej). unfold approach.
    assert (N : normal w = (0, 0)).
    { unfold normal, wall_t, origin, dest. cbv zeta. rewrite (vsub_eq _ _ (eq_sym E)). cbn [fst snd]. rewrite Ropp_0.
      unfold normalize. cbn [fst snd]. unfold Rdiv. f_equal; ring. }
    rewrite N. unfold dot. cbn. ring.
Qed.

Lemma norm_axis a : 0 <= a -> norm (0, - a) = a.
Proof. intros H. unfold norm, dot. cbn [fst snd]. replace (0 * 0 + - a * - a) with (a * a) by ring. apply sqrt_square; auto. Qed.
Lemma normal_flat a b : a < b -> normal (mkwall (a, 0) (b, 0)) = (0, -1).
Proof.
  intros H. unfold normal, wall_t, vsub, origin, dest. cbn [fst snd w_origin w_dest]. cbv zeta. cbn [fst snd].
  replace (0 - 0) with 0 by ring. unfold normalize. rewrite norm_axis by lra. cbn [fst snd].
  unfold Reqb. destruct (Req_EM_T (b - a) 0); [lra|]. f_equal; field; lra.
Qed.
Lemma eps_pos : 0 < float32_eps.
Proof. unfold float32_eps. apply Rinv_0_lt_compat. apply pow_lt. lra. Qed.
Lemma image_flat a b x y : a < b -> image_of (mkwall (a, 0) (b, 0)) (x, y) = (x, - y).
Proof.
  intros H. unfold image_of. cbv zeta. rewrite normal_flat by auto. unfold vsub, vscale, dot, origin. cbn [fst snd w_origin]. f_equal; ring.
Qed.

Lemma ex_settled :
  let w := mkwall (-2, 0) (2, 0) in
  forall cand ws, In (cand, ws) [([], []); ([0%Z], [w])] ->
    gen_pos float32_eps (0, 1) ws (1 / 2, 1) /\
    path_set 100 (1 / 100) 0 [OWall w] cand ws (image_points (0, 1) ws (1 / 2, 1))
      (match ws with [] => 0 | _ => path_loss (map OWall ws) (image_points (0, 1) ws (1 / 2, 1)) end).
Proof.
  intros w cand ws [E|[E|[]]]; inversion E; subst cand ws; clear E; pose proof eps_pos as Ep.
  - unfold image_points. cbn [combine images backward_scan snd app]. split.
    + split; [intros [|j] v; discriminate|]. split; [|congruence].
      unfold image_points. cbn. intros v [<-|[]]. unfold vsub. cbn. intros Q. inversion Q. lra.
    + split; [intros [|j] v; discriminate|]. split; [|lra].
      intros i m o Hi Em _ _. cbn in Hi. destruct i as [|i]; [|lia]. destruct m as [|[|m]]; cbn in Em; try discriminate.
      inversion Em; subst o. cbn [obj_set nth]. left. unfold vsub, vadd, vscale, w. cbn. lra.
  - assert (Nw : normal w = (0, -1)) by (apply normal_flat; lra).
    assert (Ip : image_points (0, 1) [w] (1 / 2, 1) = [(0, 1); (1 / 4, 0); (1 / 2, 1)]).
    { unfold image_points. cbn [combine images backward_scan snd app]. unfold w at 2. rewrite image_flat by lra. fold w.
      unfold backward. cbv zeta. rewrite Nw. unfold origin, w, vsub, dot, vadd. cbn [fst snd w_origin].
      unfold Reqb. destruct (Req_EM_T _ 0) as [Q|Q]; [lra|]. cbn [fst snd app].
      apply (f_equal (fun p : vec => [(0, 1); p; (1 / 2, 1)])). f_equal; field. }
    rewrite Ip. split.
    + split; [|split].
      * intros j v Ej. destruct j as [|[|j]]; cbn in Ej; try discriminate. inversion Ej; subst v. unfold approach. rewrite Ip, Nw.
        cbn [images nth Nat.add]. unfold w. rewrite image_flat by lra. unfold vsub, dot. cbn. lra.
      * rewrite Ip. cbn. intros v [<-|[<-|[]]]; unfold vsub; cbn; intros Q; inversion Q; lra.
      * rewrite Ip. cbn. intros v [<-|[<-|[]]] _; unfold vsub; cbn; intros Q; inversion Q; lra.
    + split; [|split].
      * intros j v Ej. destruct j as [|[|j]]; cbn in Ej; try discriminate. inversion Ej; subst v. cbn [Nat.add nth].
        assert (Cp : wall_c2p w (1 / 4, 0) = 9 / 16).
        { unfold wall_c2p, wall_t, vsub, dot, origin, dest, w. cbn. unfold Reqb. destruct (Req_EM_T _ 0); [lra|]. field. }
        rewrite Cp. unfold settled. lra.
      * intros i m o Hi Em N1 N2. cbn in Hi. destruct m as [|[|m]]; cbn in Em; try discriminate.
        destruct i as [|[|i]]; [| |lia]; cbn in N1, N2; congruence.
      * assert (Lo : path_loss (map OWall [w]) [(0, 1); (1 / 4, 0); (1 / 2, 1)] = 0).
        { unfold path_loss, enumerate. cbn [map length seq combine fold_left obj_evaluate Nat.add]. unfold row. cbn [length Nat.sub Nat.min nth].
          unfold wall_evaluate. cbv zeta. rewrite Nw. unfold vsub. cbn [fst snd].
          replace (1 / 4 - 0) with (1 / 4) by ring. replace (0 - 1) with (-1) by ring. replace (1 / 2 - 1 / 4) with (1 / 4) by field.
          replace (1 - 0) with 1 by ring. unfold normalize. cbv zeta. cbn [fst snd].
          assert (Nn : norm (1 / 4, -1) = norm (1 / 4, 1)) by (unfold norm, dot; cbn; f_equal; field).
          rewrite Nn. set (L := if Reqb (norm (1 / 4, 1)) 0 then 1 else norm (1 / 4, 1)).
          assert (HL : L <> 0) by (apply reqb_guard). unfold vscale, dot. cbn [fst snd]. field. auto. }
        rewrite Lo. lra.
Qed.

(** ** A smooth accumulation with a NaN gradient *)
Definition nan_w : wall := mkwall (0, 0) (1, 0).
Definition nan_e : expr :=
  e_facc (mkeakw 100 Hard) float32_eps (5 / 10) (1 / 10) (1 / 100) 0 [OWall nan_w] [([0%Z], [nan_w])] (cvec (0, 1)) evar.
Lemma nan_points y : image_points (0, 1) [nan_w] y = [(0, 1); backward y (nan_w, (0, -1)); y].
Proof.
  unfold image_points. cbn [combine images backward_scan snd app]. unfold nan_w at 2. rewrite image_flat by lra. reflexivity.
Qed.
Lemma contains_range env e s : eval env e = Fin s ->
  exists c, eval env (e_contains (mkeakw 100 Hard) e) = Fin c /\ 0 <= c <= 1 /\ ((s <= -1 \/ 2 <= s) -> c = 0).
Proof.
  intros E. exists (Rmin (hs 100 (s - 0)) (hs 100 (1 - s))). split; [|split].
  - unfold e_contains, e_greater_equal, e_less_equal.
    change (xmin (eval env (e_activation (mkeakw 100 Hard) (ESub e (C 0)))) (eval env (e_activation (mkeakw 100 Hard) (ESub (C 1) e))) = Fin (Rmin (hs 100 (s - 0)) (hs 100 (1 - s)))).
    rewrite (eval_act 100 (ESub e (C 0)) (s - 0)), (eval_act 100 (ESub (C 1) e) (1 - s)); [reflexivity| |];
      cbn [eval]; rewrite E; reflexivity.
  - pose proof (hs_range 100 (s - 0)). pose proof (hs_range 100 (1 - s)). unfold Rmin. destruct (Rle_dec _ _); lra.
  - pose proof (hs_range 100 (s - 0)). pose proof (hs_range 100 (1 - s)).
    intros [L|L].
    + rewrite (hs_low 100 (s - 0)) in * by lra. apply Rmin_left. lra.
    + rewrite (hs_low 100 (1 - s)) in * by lra. apply Rmin_right. lra.
Qed.
Lemma nan_value y0 y1 env : evv env evar (y0, y1) -> 1 / 4 < y0 -> -1 - 1 / 8 < y1 < -1 + 1 / 8 -> eval env nan_e = Fin 0.
Proof.
  intros Ev H0 H1. pose proof (ev_image_points env (cvec (0, 1)) (0, 1) [nan_w] evar (y0, y1) (ev_cvec _ _) Ev) as L.
  rewrite nan_points in L. set (P := backward (y0, y1) (nan_w, (0, -1))) in *.
  assert (Nw : normal nan_w = (0, -1)) by (apply normal_flat; lra).
  set (es := e_image_points (cvec (0, 1)) [nan_w] evar) in *.
  pose proof (ev_path_loss env (map OWall [nan_w]) es _ L) as Lo.
  destruct (contains_range env (e_c2p (cwall nan_w) (e_row es (0 + 1))) (wall_c2p nan_w P)) as (c & Ec & Rc & Zc).
  { apply ev_c2p; [apply ev_cwall|]. apply (ev_row env es _ (0 + 1) L). }
  assert (On : eval env (e_on_objects (mkeakw 100 Hard) es (map OWall [nan_w])) = Fin (Rmin 1 c)).
  { unfold e_on_objects. cbn [map length seq combine enumerate fold_left e_obj_contains].
    change (xmin (Fin 1) (eval env (e_contains (mkeakw 100 Hard) (e_c2p (cwall nan_w) (e_row es (0 + 1))))) = Fin (Rmin 1 c)).
    rewrite Ec. reflexivity. }
  set (l := path_loss (map OWall [nan_w]) [(0, 1); P; (y0, y1)]) in *.
  assert (Le : eval env (e_less (mkeakw 100 Hard) (e_path_loss (map OWall [nan_w]) es) (C (1 / 100))) = Fin (hs 100 (1 / 100 - l))).
  { apply eval_act. cbn [eval]. rewrite Lo. reflexivity. }
  pose proof (hs_range 100 (1 / 100 - l)) as Rl.
  assert (Key : c = 0 \/ hs 100 (1 / 100 - l) = 0).
  { destruct (Req_dec y1 (-1)) as [Ey|Ny].
    - right. apply hs_low.
      assert (EP : P = (y0, y1)).
      { unfold P, backward. cbv zeta. rewrite Nw. unfold vsub, dot, vadd. cbn [fst snd]. unfold Reqb. destruct (Req_EM_T _ 0) as [Q|Q]; [|lra].
        cbn [fst snd]. f_equal; ring. }
      assert (El : l = 1).
      { unfold l, path_loss, enumerate. cbn [map length seq combine fold_left obj_evaluate Nat.add]. unfold row. cbn [length Nat.sub Nat.min nth].
        rewrite EP. unfold wall_evaluate. cbv zeta. rewrite Nw. rewrite (vsub_eq (y0, y1) (y0, y1) eq_refl). unfold vsub, normalize. cbv zeta. cbn [fst snd].
        set (q := (y0 - 0, y1 - 1)). assert (Pq : 0 < norm q) by (apply norm_pos; unfold q; intros Q; inversion Q; lra).
        replace (Reqb (norm q) 0) with false by (unfold Reqb; destruct (Req_EM_T (norm q) 0); [lra|auto]).
        assert (Sq : norm q * norm q = fst q * fst q + snd q * snd q) by (unfold norm; apply sqrt_sqrt; unfold dot; nra).
        set (N := norm q) in *. set (z := if Reqb (norm (0, 0)) 0 then 1 else norm (0, 0)).
        assert (Nz : z <> 0) by apply reqb_guard. unfold q in Sq. cbn [fst snd] in Sq.
        unfold vscale, dot. cbn [fst snd].
        replace (0 / z) with 0 by (field; auto).
        replace (0 + _) with (((y0 - 0) * (y0 - 0) + (y1 - 1) * (y1 - 1)) / (N * N)) by (field; lra).
        rewrite <- Sq. field. lra. }
      rewrite El. lra.
    - left. apply Zc.
      assert (EP : P = (y0 / (1 + y1), 0)).
      { unfold P, backward. cbv zeta. rewrite Nw. unfold origin, nan_w, vsub, dot, vadd. cbn [fst snd w_origin]. unfold Reqb. destruct (Req_EM_T _ 0) as [Q|Q]; [lra|].
        cbn [fst snd]. f_equal; field; lra. }
      assert (Ew : wall_c2p nan_w P = y0 / (1 + y1)).
      { rewrite EP. unfold wall_c2p, wall_t, vsub, dot, origin, dest, nan_w. cbn. unfold Reqb. destruct (Req_EM_T _ 0); [lra|]. field. lra. }
      rewrite Ew. destruct (Rlt_dec (1 + y1) 0) as [Ln|Ln].
      + left. apply (Rmult_le_reg_r (- (1 + y1))); [lra|]. replace (y0 / (1 + y1) * - (1 + y1)) with (- y0) by (field; lra). lra.
      + right. apply (Rmult_le_reg_r (1 + y1)); [lra|]. replace (y0 / (1 + y1) * (1 + y1)) with y0 by (field; lra). lra. }
  assert (Va : eval env (e_is_valid (mkeakw 100 Hard) es (e_path_loss (map OWall [nan_w]) es) [OWall nan_w] [0%Z] (map OWall [nan_w]) (1 / 100) 0) = Fin 0).
  { unfold e_is_valid. rewrite ev_nan_to_num.
    change (eval env (EMin3 ?a ?b ?d)) with (xmin (xmin (eval env a) (eval env b)) (eval env d)). rewrite On, Le.
    assert (Ei : eval env (ESub (C 1) (e_intersects_with_objects (mkeakw 100 Hard) es [OWall nan_w] [0%Z] 0)) = Fin (1 - 0)).
    { unfold e_intersects_with_objects. cbv zeta. rewrite (F2_length _ _ L). cbn [length Nat.sub seq fold_left enumerate combine interacting_object_indices app nth Nat.add].
      cbn [Z.of_nat Z.eqb orb]. reflexivity. }
    rewrite Ei. cbn [xmin xnan_to_num]. f_equal.
    rewrite (Rmin_right 1 c) by lra. rewrite (Rmin_left c) by lra. destruct Key as [K|K]; rewrite K in *; [apply Rmin_left|apply Rmin_right]; lra. }
  assert (Pw : exists p, eval env (e_received_power float32_eps es (5 / 10) (1 / 10)) = Fin p).
  { unfold e_received_power. cbv zeta. pose proof (ev_path_length env float32_eps es _ L) as Pl. eexists. apply ev_div; [reflexivity| |].
    - cbn [eval]. rewrite Pl. reflexivity.
    - match goal with |- _ + ?p * ?p <> 0 => assert (0 <= p * p) by nra end. apply Rgt_not_eq. lra. }
  destruct Pw as [p Pw].
  unfold nan_e, e_facc. cbn [fold_left].
  change (xadd (Fin 0) (xmul (eval env (e_is_valid (mkeakw 100 Hard) es (e_path_loss (map OWall [nan_w]) es) [OWall nan_w] [0%Z] (map OWall [nan_w]) (1 / 100) 0))
    (eval env (e_received_power float32_eps es (5 / 10) (1 / 10)))) = Fin 0).
  rewrite Va, Pw. cbn. f_equal. ring.
Qed.
Lemma nan_example :
  let w := mkwall (0, 0) (1, 0) in
  let F := fun y => eval y (e_facc (mkeakw 100 Hard) float32_eps (5 / 10) (1 / 10) (1 / 100) 0 [OWall w] [([0%Z], [w])] (cvec (0, 1)) evar) in
  let x := env_at (1 / 2, -1) in
  is_gradient 2 F x (fun _ => 0) /\
  forall i, (i < 2)%nat ->
    grad x (e_facc (mkeakw 100 Hard) float32_eps (5 / 10) (1 / 10) (1 / 100) 0 [OWall w] [([0%Z], [w])] (cvec (0, 1)) evar) i = NaN.
Proof.
  cbv zeta. split.
  - intros curve v t0 Hv H0.
    assert (A0 : curve t0 0%nat = 1 / 2) by (rewrite H0; reflexivity). assert (A1 : curve t0 1%nat = -1) by (rewrite H0; reflexivity).
    destruct (near_and _ _ _ (deriv_gt _ _ _ (1 / 4) (Hv 0%nat) ltac:(cbv beta; lra))
      (near_and _ _ _ (deriv_gt _ _ _ (-1 - 1 / 8) (Hv 1%nat) ltac:(cbv beta; lra)) (deriv_lt _ _ _ (-1 + 1 / 8) (Hv 1%nat) ltac:(cbv beta; lra)))) as (d & Hd & N).
    exists (fun _ => 0), d. split; [auto|]. split.
    + intros t Ht. destruct (N t Ht) as (B0 & B1 & B2). apply (nan_value (curve t 0%nat) (curve t 1%nat)); [apply evv_evar|auto|auto].
    + cbn. replace (0 * v 0%nat + (0 * v 1%nat + 0)) with 0 by ring. apply derivable_pt_lim_const.
  - intros i Hi. destruct (receiver_fin_or_nan (mkeakw 100 Hard) float32_eps (5 / 10) (1 / 10) (1 / 100) 0 [OWall nan_w] [([0%Z], [nan_w])] (0, 1) (1 / 2, -1) i ltac:(cbn; lra) ltac:(lra) Hi) as [F|F]; [exfalso|exact F].
    pose proof (proj1 (receiver_finite (mkeakw 100 Hard) _ _ (1 / 10) _ _ _ _ (0, 1) (1 / 2, -1) i ltac:(cbn; lra) ltac:(lra) Hi) F) as K. clear F. rename K into F.
    destruct (F [0%Z] [nan_w] (or_introl eq_refl)) as (G1 & _). apply (G1 O nan_w eq_refl). unfold approach. rewrite nan_points.
    cbn [Nat.add nth images]. unfold nan_w. rewrite image_flat, normal_flat by lra. unfold vsub, dot. cbn. ring.
Qed.

Lemma ex_c84 :
  let w := mkwall (0, 0) (1, 0) in
  let x := fun i => match i with 1%nat => 1 | 3%nat => -1 | _ => 0 end in
  let y := fun i => match i with 0%nat => 1 | _ => 0 end in
  dot (vsub (point_of x 0) (point_of x 1)) (normal w) <> 0 /\
  dot (vsub (point_of y 0) (point_of y 1)) (normal w) = 0.
Proof. cbv zeta. rewrite normal_flat by lra. unfold dot, vsub. cbn. lra. Qed.
Lemma norm_unit_x : norm (1, 0) = 1.
Proof. unfold norm, dot. cbn. replace (1 * 1 + 0 * 0) with (1 * 1) by ring. apply sqrt_square. lra. Qed.
Lemma norm_unit_y : norm (0, 1) = 1.
Proof. unfold norm, dot. cbn. replace (0 * 0 + 1 * 1) with (1 * 1) by ring. apply sqrt_square. lra. Qed.
Lemma ex_c82 :
  let x := fun i => match i with 2%nat | 4%nat | 5%nat => 1 | _ => 0 end in
  point_of x 1 <> point_of x 0 /\ point_of x 2 <> point_of x 1 /\
  wall_evaluate (mkwall (0, 0) (1, 1)) (point_of x 0) (point_of x 1) (point_of x 2) = 0.
Proof.
  intros x. unfold point_of, x. cbn [Nat.mul Nat.add]. split; [intros Q; inversion Q; lra|]. split; [intros Q; inversion Q; lra|].
  unfold wall_evaluate. cbv zeta. unfold normal, wall_t, vsub, origin, dest. cbn [fst snd w_origin w_dest].
  replace (1 - 0) with 1 by ring. replace (0 - 0) with 0 by ring. replace (1 - 1) with 0 by ring.
  unfold normalize. cbv zeta. cbn [fst snd]. rewrite norm_unit_x, norm_unit_y.
  set (N := norm (1, - (1))). assert (P : 0 < N) by (apply norm_pos; intros Q; inversion Q; lra).
  assert (S : N * N = 2) by (unfold N, norm; rewrite sqrt_sqrt; unfold dot; cbn; lra).
  unfold Reqb. destruct (Req_EM_T 1 0); [lra|]. destruct (Req_EM_T N 0); [lra|].
  unfold dot, vscale. cbn [fst snd].
  assert (I : / N * / N = 1 / 2) by (rewrite <- Rinv_mult, S; lra).
  assert (E1 : 1 / N = / N) by (field; lra). assert (E2 : - (1) / N = - / N) by (field; lra). rewrite !E1, !E2.
  set (q := / N) in *. replace (0 / 1) with 0 by field. replace (1 / 1) with 1 by field.
  replace (0 - (1 - 2 * (1 * q + 0 * - q) * q)) with (2 * (q * q) - 1) by ring.
  replace (1 - (0 - 2 * (1 * q + 0 * - q) * - q)) with (1 - 2 * (q * q)) by ring. rewrite I. field.
Qed.
