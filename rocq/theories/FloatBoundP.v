(** Single precision: no NaN appears in the validity test of a scene of moderate size. *)
From Coq Require Import Reals List Bool ZArith Lra Lia Psatz.
From Flocq Require Import Core.Core IEEE754.BinarySingleNaN.
From Verif Require Import Base BaseP LogicM GeometryM PathM FloatM SpecFloat32 FloatP FloatLogicP FloatCmpP FloatAccP FloatGeomP FloatSegP FloatAgreeP.
Import ListNotations.
Open Scope R_scope.
Local Instance p24b : Prec_gt_0 24 := eq_refl.

Definition bd (n : Z) (x : f32) : Prop := exists r, fval x = Fin r /\ Rabs r <= bpow radix2 n.
Lemma bpow_format n : (-149 <= n)%Z -> format (bpow radix2 n).
Proof. intro H. rewrite <- Rmult_1_l. apply (format_scaled 1); cbn; lia. Qed.
Lemma round_bd n r : (-149 <= n < 128)%Z -> Rabs r <= bpow radix2 n -> exists q, xround (Fin r) = Fin q /\ Rabs q <= bpow radix2 n.
Proof.
  intros N H. apply Rabs_le_inv in H. assert (B : Rabs (rnd r) <= bpow radix2 n).
  { apply Rabs_le. split.
    - rewrite <- (rnd_id (bpow radix2 n)) by (apply bpow_format; lia). rewrite <- rnd_opp. apply rnd_le. lra.
    - rewrite <- (rnd_id (bpow radix2 n)) by (apply bpow_format; lia). apply rnd_le. lra. }
  exists (rnd r). split; auto. cbn [xround]. destruct (Rltb_spec (Rabs (rnd r)) (bpow radix2 128)) as [|K]; auto. elim K.
  apply Rle_lt_trans with (bpow radix2 n); auto. apply bpow_lt. lia.
Qed.
Lemma bd_le n m x : bd n x -> (n <= m)%Z -> bd m x.
Proof. intros (r & R & B) L. exists r. split; auto. apply Rle_trans with (bpow radix2 n); auto. apply bpow_le. auto. Qed.
Lemma bpow_S n : bpow radix2 (n + 1) = bpow radix2 n + bpow radix2 n.
Proof. rewrite bpow_plus. change (bpow radix2 1) with 2. ring. Qed.
Lemma bd_add n x y : (-149 <= n < 127)%Z -> bd n x -> bd n y -> bd (n + 1) (f_add x y).
Proof.
  intros N (r & R & B) (q & Q & C). unfold bd. rewrite val_add, R, Q. cbn [xadd]. apply round_bd; [lia|].
  rewrite bpow_S. eapply Rle_trans; [apply Rabs_triang|lra].
Qed.
Lemma bd_sub n x y : (-149 <= n < 127)%Z -> bd n x -> bd n y -> bd (n + 1) (f_sub x y).
Proof.
  intros N (r & R & B) (q & Q & C). unfold bd. rewrite val_sub, R, Q. cbn [xsub xopp xadd]. apply round_bd; [lia|].
  rewrite bpow_S. eapply Rle_trans; [apply Rabs_triang|rewrite Rabs_Ropp; lra].
Qed.
Lemma bd_mul n m x y : (-149 <= n + m < 128)%Z -> bd n x -> bd m y -> bd (n + m) (f_mul x y).
Proof.
  intros N (r & R & B) (q & Q & C). unfold bd. rewrite val_mul, R, Q. cbn [xmul]. apply round_bd; [lia|].
  rewrite bpow_plus, Rabs_mult. apply Rmult_le_compat; auto; apply Rabs_pos.
Qed.
Lemma bd_not_nan n x : bd n x -> not_nan x. Proof. intros (r & R & _). unfold not_nan. congruence. Qed.
Lemma bd_finite n x : bd n x -> finite x. Proof. intros (r & R & _). exists r. auto. Qed.
Lemma div_not_nan n x y : bd n x -> (exists d, fval y = Fin d /\ d <> 0) -> not_nan (f_div x y).
Proof.
  intros (r & R & _) (d & D & Z). unfold not_nan. rewrite (val_div _ _ d D Z), R. cbn [xmul]. rewrite xround_nan. discriminate.
Qed.

Definition bdv (n : Z) (v : fvec) : Prop := bd n (fst v) /\ bd n (snd v).
Lemma bdv_sub n u v : (-149 <= n < 127)%Z -> bdv n u -> bdv n v -> bdv (n + 1) (fv_sub u v).
Proof. intros N [A B] [C D]. split; cbn [fst snd fv_sub]; apply bd_sub; auto. Qed.
Lemma bdv_add n u v : (-149 <= n < 127)%Z -> bdv n u -> bdv n v -> bdv (n + 1) (fv_add u v).
Proof. intros N [A B] [C D]. split; cbn [fst snd fv_add]; apply bd_add; auto. Qed.
Lemma bdv_scale n m c v : (-149 <= m + n < 128)%Z -> bd m c -> bdv n v -> bdv (m + n) (fv_scale c v).
Proof. intros N C [A B]. split; cbn [fst snd fv_scale]; apply bd_mul; auto. Qed.
Lemma bdv_le n m v : bdv n v -> (n <= m)%Z -> bdv m v.
Proof. intros [A B] L. split; eapply bd_le; eauto. Qed.
Lemma bd_cross n m u v : (-149 <= n + m < 127)%Z -> bdv n u -> bdv m v -> bd (n + m + 1) (f_sub (f_mul (snd u) (fst v)) (f_mul (fst u) (snd v))).
Proof. intros N [A B] [C D]. apply bd_sub; [lia|apply bd_mul; auto; lia|apply bd_mul; auto; lia]. Qed.
Lemma bd_cross' n m u v : (-149 <= n + m < 127)%Z -> bdv n u -> bdv m v -> bd (n + m + 1) (f_sub (f_mul (fst u) (snd v)) (f_mul (snd u) (fst v))).
Proof. intros N [A B] [C D]. apply bd_sub; [lia|apply bd_mul; auto; lia|apply bd_mul; auto; lia]. Qed.
Lemma bd_dot n m u v : (-149 <= n + m < 127)%Z -> bdv n u -> bdv m v -> bd (n + m + 1) (f_dot u v).
Proof. intros N [A B] [C D]. unfold f_dot. apply bd_add; [lia|apply bd_mul; auto; lia|apply bd_mul; auto; lia]. Qed.

(** Truth values that are not NaN. *)
Lemma sound_and x y : smooth x -> smooth y -> sound x -> sound y -> sound (f_and true x y).
Proof.
  unfold sound, not_nan. intros X Y A B. rewrite and_to_f, val_min. destruct (smooth_cases x X) as [N|(r & R & _)]; [contradiction|]. destruct (smooth_cases y Y) as [N|(q & Q & _)]; [contradiction|].
  rewrite R, Q, xmin_fin. discriminate.
Qed.
Lemma sound_or x y : smooth x -> smooth y -> sound x -> sound y -> sound (f_or true x y).
Proof.
  unfold sound, not_nan. intros X Y A B. rewrite or_to_f, val_max. destruct (smooth_cases x X) as [N|(r & R & _)]; [contradiction|]. destruct (smooth_cases y Y) as [N|(q & Q & _)]; [contradiction|].
  rewrite R, Q, xmax_fin. discriminate.
Qed.
Lemma sound_not x : smooth x -> sound x -> sound (f_not true x).
Proof.
  unfold sound, not_nan. intros X A. destruct (smooth_cases x X) as [N|(r & R & B)]; [contradiction|]. cbn [f_not f_to_f]. destruct (not_val _ r R B) as [E _]. rewrite E. discriminate.
Qed.

Section Slope.
Variables (inv : bool) (alpha : f32) (a : R).
Hypothesis A : fval alpha = Fin a.
Hypothesis P : 0 < a.
Local Notation k := (mkfkw alpha (hs_fun inv)).
Let U : unit_function (fk_function k) := hard_sigmoid_unit inv.

Lemma hs_sound x y : not_nan x -> finite y -> not_nan (hs_fun inv (f_sub x y) alpha) /\ not_nan (hs_fun inv (f_sub y x) alpha).
Proof.
  intros X [r Y].
  assert (K : forall z, not_nan z -> not_nan (hs_fun inv z alpha)).
  { intros z Z. unfold not_nan in *. rewrite val_hs. rewrite hs_val_nan, val_mul, xround_nan, A. destruct (fval z); cbn; unfold inf_times; try discriminate; auto;
    destruct (Reqb_spec a 0); try lra; destruct (Rltb 0 a); discriminate. }
  unfold not_nan in *. split; apply K; unfold not_nan; rewrite val_sub, xround_nan, Y; destruct (fval x); cbn; congruence.
Qed.
Lemma sound_ge x y : not_nan x -> finite y -> sound (f_greater_equal true x y k).
Proof. intros X Y. unfold sound, f_greater_equal, f_activation. cbn [f_to_f fk_function fk_alpha]. apply (hs_sound x y X Y). Qed.
Lemma sound_le x y : not_nan x -> finite y -> sound (f_less_equal true x y k).
Proof. intros X Y. unfold sound, f_less_equal, f_activation. cbn [f_to_f fk_function fk_alpha]. apply (hs_sound x y X Y). Qed.
Lemma sound_lt x y : not_nan x -> finite y -> sound (f_less true x y k).
Proof. intros X Y. unfold sound, f_less, f_activation. cbn [f_to_f fk_function fk_alpha]. apply (hs_sound x y X Y). Qed.

Lemma tol_facts : finite (f_opp F_SEG_TOL) /\ finite (f_add f_one F_SEG_TOL).
Proof. split; eexists; [eapply (fval_of_SF _ true)|eapply (fval_of_SF _ false)]; vm_compute; reflexivity. Qed.
Lemma sound_seg_test n num den : bd n num -> finite den -> sound (f_seg_test true num den F_SEG_TOL k).
Proof.
  intros N [d D]. unfold f_seg_test. destruct tol_facts as [T1 T2].
  assert (X : not_nan (if f_eqb den f_zero then f_inf else f_div num (if f_eqb den f_zero then f_one else den))).
  { destruct (f_eqb den f_zero) eqn:Z; [unfold not_nan; discriminate|]. eapply div_not_nan; eauto. exists d. split; auto. intro K. subst d. apply val_eqb_zero in D. congruence. }
  apply sound_and; [apply smooth_ge|apply smooth_le|apply sound_ge; auto|apply sound_le; auto].
Qed.
Lemma sound_seg n P1 P2 P3 P4 : (-149 <= n <= 60)%Z -> bdv n P1 -> bdv n P2 -> bdv n P3 -> bdv n P4 -> sound (f_segments_intersect true P1 P2 P3 P4 F_SEG_TOL k).
Proof.
  intros N B1 B2 B3 B4. unfold f_segments_intersect.
  assert (E : bdv 60 P1 /\ bdv 60 P2 /\ bdv 60 P3 /\ bdv 60 P4) by (repeat split; eapply bd_le; try apply B1; try apply B2; try apply B3; try apply B4; lia).
  clear B1 B2 B3 B4. destruct E as (B1 & B2 & B3 & B4).
  pose proof (bdv_sub 60 _ _ ltac:(lia) B2 B1) as BA. pose proof (bdv_sub 60 _ _ ltac:(lia) B3 B4) as BB. pose proof (bdv_sub 60 _ _ ltac:(lia) B1 B3) as BC.
  cbn [Z.add Pos.add Pos.succ] in *. set (VA := fv_sub P2 P1) in *. set (VB := fv_sub P3 P4) in *. set (VC := fv_sub P1 P3) in *.
  pose proof (bd_cross 61 61 _ _ ltac:(lia) BB BC) as Na. pose proof (bd_cross' 61 61 _ _ ltac:(lia) BA BC) as Nb. pose proof (bd_cross 61 61 _ _ ltac:(lia) BA BB) as Nd.
  apply sound_and; try apply (seg_test_unit true _ _ _ k U); eapply sound_seg_test; eauto; eapply bd_finite; exact Nd.
Qed.
Definition bdo (n : Z) (o : fobject) : Prop :=
  match o with FWall w | FRIS w _ => bdv n (fw_origin w) /\ bdv n (fw_dest w) | FVertex _ => True end.
Lemma sound_contains o p : bdo 50 o -> bdv 50 p -> sound (f_obj_contains true o p k).
Proof.
  assert (W : forall w, bdv 50 (fw_origin w) -> bdv 50 (fw_dest w) -> bdv 50 p -> sound (f_contains true (f_c2p w p) k)).
  { intros w B1 B2 Bp. pose proof (bdv_sub 50 _ _ ltac:(lia) B2 B1) as BT. pose proof (bdv_sub 50 _ _ ltac:(lia) Bp B1) as BO. fold (fw_t w) in BT.
    pose proof (bd_dot 51 51 _ _ ltac:(lia) BT BO) as Nn. pose proof (bd_dot 51 51 _ _ ltac:(lia) BT BT) as (d & D & _).
    assert (X : not_nan (f_c2p w p)).
    { unfold f_c2p. eapply div_not_nan; [exact Nn|]. destruct (f_eqb (f_dot (fw_t w) (fw_t w)) f_zero) eqn:Z; [exists 1; split; [apply val_one|lra]|].
      exists d. split; auto. intro K. subst d. apply val_eqb_zero in D. congruence. }
    unfold f_contains. apply sound_and; [apply smooth_ge|apply smooth_le|apply sound_ge; auto; exists 0; apply val_zero|apply sound_le; auto; exists 1; apply val_one]. }
  destruct o; cbn [f_obj_contains bdo]; [intros [B1 B2] Bp; auto|intros [B1 B2] Bp; auto|].
  intros _ _. unfold sound. change (f_to_f (f_true true)) with f_one. unfold not_nan. rewrite val_one. discriminate.
Qed.
Lemma sound_intersects o r0 r1 patch : bdo 50 o -> bdv 50 r0 -> bdv 50 r1 -> bd 0 patch -> sound (f_obj_intersects true o r0 r1 patch k).
Proof.
  assert (W : forall w, bdv 50 (fw_origin w) -> bdv 50 (fw_dest w) -> bdv 50 r0 -> bdv 50 r1 -> bd 0 patch ->
    sound (f_segments_intersect true (fv_sub (fw_origin w) (fv_scale patch (fw_t w))) (fv_add (fw_dest w) (fv_scale patch (fw_t w))) r0 r1 F_SEG_TOL k)).
  { intros w B1 B2 R0 R1 Bp. pose proof (bdv_sub 50 _ _ ltac:(lia) B2 B1) as BT. fold (fw_t w) in BT. pose proof (bdv_scale 51 0 _ _ ltac:(lia) Bp BT) as BS.
    apply (sound_seg 60); [lia| | |eapply bdv_le; eauto; lia|eapply bdv_le; eauto; lia].
    - eapply bdv_le; [apply (bdv_sub 51); [lia|eapply bdv_le; eauto; lia|eapply bdv_le; eauto; lia]|lia].
    - eapply bdv_le; [apply (bdv_add 51); [lia|eapply bdv_le; eauto; lia|eapply bdv_le; eauto; lia]|lia]. }
  destruct o; cbn [f_obj_intersects bdo]; [intros [B1 B2]; auto|intros [B1 B2]; auto|]. intros. unfold sound, not_nan. discriminate.
Qed.
Lemma row_bd pts i : Forall (bdv 50) pts -> bdv 50 (f_row pts i).
Proof.
  intro F. unfold f_row. destruct (nth_in_or_default (Nat.min i (length pts - 1)) pts (f_zero, f_zero)) as [I|E]; [rewrite Forall_forall in F; auto|]. rewrite E.
  assert (bd 50 f_zero) by (exists 0; split; [reflexivity|rewrite Rabs_R0; apply bpow_ge_0]). split; auto.
Qed.
Lemma fold_sound {B} (hs : ftruthy -> B -> ftruthy) l :
  (forall s b, In b l -> smooth s /\ sound s -> smooth (hs s b) /\ sound (hs s b)) ->
  forall s, smooth s /\ sound s -> smooth (fold_left hs l s) /\ sound (fold_left hs l s).
Proof.
  induction l as [|b l IH]; intros H s S; cbn [fold_left]; auto. apply IH; [intros; apply H; auto; right; auto|]. apply H; auto. left. auto.
Qed.
Lemma num_id s : smooth s -> sound s -> f_nan_to_num (f_to_f s) = f_to_f s.
Proof.
  intros M S. destruct (smooth_cases s M) as [N|(r & R & _)]; [contradiction|]. destruct (f_to_f s); cbn in R; try discriminate; try reflexivity. destruct s0; discriminate.
Qed.
Lemma valid_sound p objects cand inter tol patch v : Forall (bdv 50) (f_xys p) -> Forall (bdo 50) objects -> Forall (bdo 50) inter -> bd 0 patch ->
  not_nan (f_loss p) -> finite tol -> f_is_valid true p objects cand inter tol patch k = Ok v ->
  exists x e, v = FF x /\ f_is_valid false p objects cand inter tol patch k = Ok (FB e) /\ agree (FF x) (FB e) /\ finite x.
Proof.
  intros Fp Fo Fi Bp Lo To H. destruct (agree_valid inv alpha a A P _ _ _ _ _ _ _ H) as (r & s & e & R & Es & Ev & E & G & M). clear H.
  assert (Sr : smooth r /\ sound r).
  { unfold f_intersects_with_objects in R. destruct (_ && _); [discriminate|].
    apply (f_equal (fun x => match x with Ok y => y | Err _ => f_false true end)) in R. cbn beta iota in R. subst r.
    apply fold_sound; [|split; [apply false_unit|unfold sound, not_nan; discriminate]]. intros t i _ S. apply fold_sound; auto. clear t S. intros t [j o] I [S1 S2].
    destruct (_ || _); auto. assert (bdo 50 o) by (apply PathP.in_enumerate in I; rewrite Forall_forall in Fo; apply Fo; eapply nth_error_In; eapply I).
    pose proof (intersects_unit true o (f_row (f_xys p) i) (f_row (f_xys p) (i + 1)) patch k U) as C. split; [apply or_unit; auto|].
    apply sound_or; auto. apply sound_intersects; auto using row_bd. }
  assert (So : smooth (f_on_objects true p inter k) /\ sound (f_on_objects true p inter k)).
  { unfold f_on_objects. apply fold_sound; [|split; [apply true_unit|unfold sound, not_nan; change (f_to_f (f_true true)) with f_one; rewrite val_one; discriminate]].
    intros t [i o] I [S1 S2]. assert (bdo 50 o) by (apply PathP.in_enumerate in I; rewrite Forall_forall in Fi; apply Fi; eapply nth_error_In; eapply I).
    pose proof (contains_unit true o (f_row (f_xys p) (i + 1)) k U) as C. split; [apply and_unit; auto|]. apply sound_and; auto. apply sound_contains; auto using row_bd. }
  destruct Sr as [Sr1 Sr2], So as [So1 So2].
  pose proof (sound_and _ _ So1 (not_unit true r Sr1) So2 (sound_not _ Sr1 Sr2)) as A1.
  pose proof (sound_and _ _ (and_unit true _ _ So1 (not_unit true r Sr1)) (smooth_lt inv alpha (f_loss p) tol) A1 (sound_lt _ _ Lo To)) as A2.
  rewrite <- Es in A2. rewrite (num_id s M A2) in Ev. exists (f_to_f s), e. split; auto. split; auto. split; [exact G|].
  destruct (smooth_cases s M) as [N|(q & Q & _)]; [contradiction|exists q; auto].
Qed.
End Slope.
