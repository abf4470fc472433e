(** Proofs about logic.py. *)
From Coq Require Import Reals List Bool Lra Psatz.
From Verif Require Import Base BaseP LogicM SpecLogic.
Import ListNotations.
Open Scope R_scope.

Definition hs (r : R) : R := Rmin (Rmax (r + 3) 0) 6 * / 6.
Definition sg (r : R) : R := 1 / (1 + exp (- r)).

Lemma hard_sigmoid_fin r alpha : hard_sigmoid (Fin r) alpha = Fin (hs (alpha * r)).
Proof. reflexivity. Qed.
Lemma sigmoid_fin r alpha : sigmoid (Fin r) alpha = Fin (sg (alpha * r)).
Proof. reflexivity. Qed.

Lemma hs_range r : 0 <= hs r <= 1.
Proof. unfold hs. repeat mmcase; lra. Qed.
Lemma hs_sum r : hs r + hs (- r) = 1.
Proof. unfold hs. repeat mmcase; lra. Qed.
Lemma hs_half_lt r : 1 / 2 < hs r <-> 0 < r.
Proof. unfold hs. repeat mmcase; lra. Qed.
Lemma hs_half_gt r : hs r < 1 / 2 <-> r < 0.
Proof. unfold hs. repeat mmcase; lra. Qed.
Lemma hs_zero : hs 0 = 1 / 2.
Proof. unfold hs. repeat mmcase; lra. Qed.
Lemma hs_mono r s : r <= s -> hs r <= hs s.
Proof. unfold hs. intro. repeat mmcase; lra. Qed.
Lemma hs_sat_hi r : 3 <= r -> hs r = 1.
Proof. unfold hs. intro. repeat mmcase; lra. Qed.
Lemma hs_sat_lo r : r <= -3 -> hs r = 0.
Proof. unfold hs. intro. repeat mmcase; lra. Qed.

Lemma sg_range r : 0 < sg r < 1.
Proof.
  unfold sg. pose proof (exp_pos (- r)) as H.
  split.
  - apply Rdiv_lt_0_compat; lra.
  - apply Rmult_lt_reg_r with (1 + exp (- r)); [lra|].
    unfold Rdiv. rewrite Rmult_assoc, Rinv_l; lra.
Qed.
Lemma sg_sum r : sg r + sg (- r) = 1.
Proof.
  unfold sg. rewrite Ropp_involutive.
  assert (E : exp (- r) * exp r = 1).
  { rewrite <- exp_plus. replace (- r + r) with 0 by lra. apply exp_0. }
  pose proof (exp_pos r). pose proof (exp_pos (- r)).
  field_simplify; [|lra..].
  replace (exp (- r) * exp r) with 1 by lra.
  replace (exp r * exp (- r)) with 1 by lra.
  field. lra.
Qed.
Lemma sg_zero : sg 0 = 1 / 2.
Proof. unfold sg. rewrite Ropp_0, exp_0. lra. Qed.
Lemma sg_mono r s : r < s -> sg r < sg s.
Proof.
  intro H. unfold sg. pose proof (exp_pos (- r)). pose proof (exp_pos (- s)).
  assert (exp (- s) < exp (- r)) by (apply exp_increasing; lra).
  unfold Rdiv. rewrite !Rmult_1_l. apply Rinv_lt_contravar; [|lra].
  apply Rmult_lt_0_compat; lra.
Qed.
Lemma sg_half_lt r : 1 / 2 < sg r <-> 0 < r.
Proof.
  rewrite <- sg_zero. split; intro H.
  - destruct (Rtotal_order 0 r) as [|[<-|L]]; auto; [lra|].
    apply sg_mono in L. lra.
  - apply sg_mono; auto.
Qed.
Lemma sg_half_gt r : sg r < 1 / 2 <-> r < 0.
Proof.
  pose proof (sg_sum r). pose proof (sg_half_lt (- r)). split; intro.
  - assert (0 < - r) by (apply H0; lra). lra.
  - assert (1 / 2 < sg (- r)) by (apply H0; lra). lra.
Qed.

(** A shipped activation on a finite number. *)
Lemma activation_fin k r : shipped k ->
  exists v, activation (Fin r) k = Fin v /\ 0 <= v <= 1 /\
    (ak_alpha k > 0 -> (1 / 2 < v <-> 0 < r) /\ (v < 1 / 2 <-> r < 0)) /\
    (r = 0 -> v = 1 / 2) /\
    activation (Fin (- r)) k = Fin (1 - v).
Proof.
  intros [H|H]; unfold activation; rewrite H.
  - rewrite !sigmoid_fin. eexists. split; [reflexivity|].
    pose proof (sg_range (ak_alpha k * r)). split; [lra|]. split; [|split].
    + intro A. rewrite sg_half_lt, sg_half_gt. split; split; intro; nra.
    + intros ->. rewrite Rmult_0_r. apply sg_zero.
    + pose proof (sg_sum (ak_alpha k * r)).
      replace (ak_alpha k * - r) with (- (ak_alpha k * r)) by ring. f_equal. lra.
  - rewrite !hard_sigmoid_fin. eexists. split; [reflexivity|].
    pose proof (hs_range (ak_alpha k * r)). split; [lra|]. split; [|split].
    + intro A. rewrite hs_half_lt, hs_half_gt. split; split; intro; nra.
    + intros ->. rewrite Rmult_0_r. apply hs_zero.
    + pose proof (hs_sum (ak_alpha k * r)).
      replace (ak_alpha k * - r) with (- (ak_alpha k * r)) by ring. f_equal. lra.
Qed.

Lemma activation_pinf k : shipped k -> 0 < ak_alpha k -> activation PInf k = Fin 1.
Proof.
  intros [H|H] A; unfold activation; rewrite H; cbv [sigmoid hard_sigmoid xmul inf_times];
  repeat rcase; try lra; cbn; f_equal; repeat mmcase; lra.
Qed.
Lemma activation_ninf k : shipped k -> 0 < ak_alpha k -> activation NInf k = Fin 0.
Proof.
  intros [H|H] A; unfold activation; rewrite H; cbv [sigmoid hard_sigmoid xmul inf_times];
  repeat rcase; try lra; cbn; f_equal; repeat mmcase; lra.
Qed.

(** A shipped activation never leaves [0,1] except by NaN. *)
Lemma activation_range k x : shipped k ->
  (exists v, activation x k = Fin v /\ 0 <= v <= 1) \/
  (activation x k = NaN /\ (x = NaN \/ (ak_alpha k = 0 /\ (x = PInf \/ x = NInf)))).
Proof.
  intro H. destruct x as [r| | |].
  - left. destruct (activation_fin k r H) as (v & E & R1 & _). eauto.
  - destruct H as [H|H]; unfold activation; rewrite H; cbv [sigmoid hard_sigmoid xmul inf_times];
    repeat rcase; cbn; try (right; auto 10; fail); left; eexists; (split; [reflexivity|]); repeat mmcase; lra.
  - destruct H as [H|H]; unfold activation; rewrite H; cbv [sigmoid hard_sigmoid xmul inf_times];
    repeat rcase; cbn; try (right; auto 10; fail); left; eexists; (split; [reflexivity|]); repeat mmcase; lra.
  - right. destruct H as [H|H]; unfold activation; rewrite H; cbn; auto.
Qed.

Lemma cmp_approx c g x y k :
  run_cmp c g (Fin x) (Fin y) (Some true) k =
  TF (activation (Fin (match c with Gt | Ge => x - y | Lt | Le => y - x end)) k).
Proof. destruct c; reflexivity. Qed.

Lemma cmp_exact c g x y k :
  exists b, run_cmp c g (Fin x) (Fin y) (Some false) k = TB b /\ (b = true <-> cmp_holds c x y).
Proof.
  destruct c; cbn; eexists; (split; [reflexivity|]); rewrite ?Rltb_true, ?Rleb_true; lra.
Qed.

(** C01 *)
Lemma cmp_in01 c g x y k : shipped k -> in01 (run_cmp c g (Fin x) (Fin y) (Some true) k).
Proof.
  intro H. rewrite cmp_approx.
  destruct (activation_fin k (match c with Gt | Ge => x - y | Lt | Le => y - x end) H)
    as (v & -> & R1 & _). exact R1.
Qed.
Lemma cmp_is_float c g x y k : shipped k ->
  exists r, run_cmp c g (Fin x) (Fin y) (Some true) k = fl r /\ 0 <= r <= 1.
Proof.
  intro H. rewrite cmp_approx.
  destruct (activation_fin k (match c with Gt | Ge => x - y | Lt | Le => y - x end) H)
    as (v & -> & R1 & _). exists v. split; [reflexivity|exact R1].
Qed.

Lemma in01_float t : in01 t -> exists r, to_f t = Fin r /\ 0 <= r <= 1.
Proof.
  destruct t as [[|]|[r| | |]]; cbn; intro H; try contradiction;
  eexists; (split; [reflexivity|]); lra.
Qed.

Lemma logical_or_in01 g x y : in01 x -> in01 y -> in01 (logical_or g x y (Some true)).
Proof.
  intros Hx Hy. destruct (in01_float x Hx) as (a & Ea & Ra).
  destruct (in01_float y Hy) as (b & Eb & Rb).
  unfold logical_or; cbn [resolve]. rewrite Ea, Eb.
  destruct x, y; cbn; auto; mmcase; lra.
Qed.
Lemma logical_and_in01 g x y : in01 x -> in01 y -> in01 (logical_and g x y (Some true)).
Proof.
  intros Hx Hy. destruct (in01_float x Hx) as (a & Ea & Ra).
  destruct (in01_float y Hy) as (b & Eb & Rb).
  unfold logical_and; cbn [resolve]. rewrite Ea, Eb.
  destruct x, y; cbn; auto; mmcase; lra.
Qed.
Lemma logical_not_in01 g x : in01 x -> in01 (logical_not g x (Some true)).
Proof.
  intros Hx. destruct (in01_float x Hx) as (a & Ea & Ra).
  unfold logical_not; cbn [resolve]. rewrite Ea. cbn. lra.
Qed.

Lemma fold_xmin_in01 ts : Forall in01 ts -> forall r, 0 <= r <= 1 ->
  exists s, fold_left (fun m u => xmin m (to_f u)) ts (Fin r) = Fin s /\ 0 <= s <= 1.
Proof.
  induction 1 as [|t ts Ht _ IH]; intros r Hr; cbn [fold_left]; [eauto|].
  destruct (in01_float t Ht) as (a & -> & Ra). cbn [xmin].
  apply IH. mmcase; lra.
Qed.
Lemma fold_xmax_in01 ts : Forall in01 ts -> forall r, 0 <= r <= 1 ->
  exists s, fold_left (fun m u => xmax m (to_f u)) ts (Fin r) = Fin s /\ 0 <= s <= 1.
Proof.
  induction 1 as [|t ts Ht _ IH]; intros r Hr; cbn [fold_left]; [eauto|].
  destruct (in01_float t Ht) as (a & -> & Ra). cbn [xmax].
  apply IH. mmcase; lra.
Qed.
Lemma logical_all_in01 g xs : xs <> [] -> Forall in01 xs ->
  exists t, logical_all g xs (Some true) = Ok t /\ in01 t.
Proof.
  intros Hn H. unfold logical_all; cbn [resolve].
  destruct xs as [|t ts]; [congruence|]. inversion H as [|? ? Ht Hts]; subst.
  destruct (all_bools (t :: ts)).
  - eexists; split; [reflexivity|exact I].
  - destruct (in01_float t Ht) as (a & -> & Ra).
    destruct (fold_xmin_in01 ts Hts a Ra) as (s & -> & Rs).
    eexists; split; [reflexivity|exact Rs].
Qed.
Lemma logical_any_in01 g xs : xs <> [] -> Forall in01 xs ->
  exists t, logical_any g xs (Some true) = Ok t /\ in01 t.
Proof.
  intros Hn H. unfold logical_any; cbn [resolve].
  destruct xs as [|t ts]; [congruence|]. inversion H as [|? ? Ht Hts]; subst.
  destruct (all_bools (t :: ts)).
  - eexists; split; [reflexivity|exact I].
  - destruct (in01_float t Ht) as (a & -> & Ra).
    destruct (fold_xmax_in01 ts Hts a Ra) as (s & -> & Rs).
    eexists; split; [reflexivity|exact Rs].
Qed.

(** C02 *)
Lemma or_crisp g a b : logical_or g (enc a) (enc b) (Some true) = enc (a || b).
Proof. unfold enc, fl, logical_or. cbn. do 2 f_equal. destruct a, b; cbn; mmcase; lra. Qed.
Lemma and_crisp g a b : logical_and g (enc a) (enc b) (Some true) = enc (a && b).
Proof. unfold enc, fl, logical_and. cbn. do 2 f_equal. destruct a, b; cbn; mmcase; lra. Qed.
Lemma not_crisp g a : logical_not g (enc a) (Some true) = enc (negb a).
Proof. unfold enc, fl, logical_not. cbn. do 2 f_equal. destruct a; cbn; lra. Qed.
Lemma fold_min_crisp (bs : list bool) : forall b : bool,
  fold_left (fun m u => xmin m (to_f u)) (map enc bs) (Fin (if b then 1 else 0))
  = Fin (if forallb (fun x => x) (b :: bs) then 1 else 0).
Proof.
  induction bs as [|c bs IH]; intro b; cbn [map fold_left].
  - cbn. rewrite andb_true_r. reflexivity.
  - cbn [to_f enc fl xmin].
    replace (Rmin (if b then 1 else 0) (if c then 1 else 0)) with (if (b && c)%bool then 1 else 0)
      by (destruct b, c; cbn; mmcase; lra).
    rewrite IH. cbn [forallb]. rewrite andb_assoc. reflexivity.
Qed.
Lemma fold_max_crisp (bs : list bool) : forall b : bool,
  fold_left (fun m u => xmax m (to_f u)) (map enc bs) (Fin (if b then 1 else 0))
  = Fin (if existsb (fun x => x) (b :: bs) then 1 else 0).
Proof.
  induction bs as [|c bs IH]; intro b; cbn [map fold_left].
  - cbn. rewrite orb_false_r. reflexivity.
  - cbn [to_f enc fl xmax].
    replace (Rmax (if b then 1 else 0) (if c then 1 else 0)) with (if (b || c)%bool then 1 else 0)
      by (destruct b, c; cbn; mmcase; lra).
    rewrite IH. cbn [existsb]. rewrite orb_assoc. reflexivity.
Qed.
Lemma all_crisp g (bs : list bool) : bs <> [] ->
  logical_all g (map enc bs) (Some true) = Ok (enc (forallb (fun x => x) bs)).
Proof.
  destruct bs as [|b bs]; [congruence|]. intros _. unfold logical_all. cbn [resolve map].
  cbn [all_bools forallb enc fl andb to_f].
  change (TF (Fin (if b then 1 else 0))) with (enc b). rewrite fold_min_crisp. reflexivity.
Qed.
Lemma any_crisp g (bs : list bool) : bs <> [] ->
  logical_any g (map enc bs) (Some true) = Ok (enc (existsb (fun x => x) bs)).
Proof.
  destruct bs as [|b bs]; [congruence|]. intros _. unfold logical_any. cbn [resolve map].
  cbn [all_bools forallb enc fl andb to_f]. rewrite fold_max_crisp. reflexivity.
Qed.

(** The exact connectives are Boolean logic. *)
Lemma exact_connectives g a b :
  logical_or g (TB a) (TB b) (Some false) = TB (a || b) /\
  logical_and g (TB a) (TB b) (Some false) = TB (a && b) /\
  logical_not g (TB a) (Some false) = TB (negb a).
Proof. repeat split. Qed.
Lemma exact_all_any g bs :
  logical_all g (map TB bs) (Some false) = Ok (TB (forallb (fun x => x) bs)) /\
  logical_any g (map TB bs) (Some false) = Ok (TB (existsb (fun x => x) bs)).
Proof.
  unfold logical_all, logical_any; cbn [resolve]. split; do 2 f_equal.
  - induction bs; cbn; congruence.
  - induction bs; cbn; congruence.
Qed.

Section Lattice.
  Variable g : bool.
  Local Notation OR x y := (logical_or g x y (Some true)).
  Local Notation AND x y := (logical_and g x y (Some true)).
  Local Notation NOT x := (logical_not g x (Some true)).
  Lemma lattice_laws r s t :
    OR (fl r) (fl s) = OR (fl s) (fl r) /\
    AND (fl r) (fl s) = AND (fl s) (fl r) /\
    OR (OR (fl r) (fl s)) (fl t) = OR (fl r) (OR (fl s) (fl t)) /\
    AND (AND (fl r) (fl s)) (fl t) = AND (fl r) (AND (fl s) (fl t)) /\
    OR (fl r) (fl r) = fl r /\ AND (fl r) (fl r) = fl r /\
    OR (fl r) (AND (fl r) (fl s)) = fl r /\
    AND (fl r) (OR (fl r) (fl s)) = fl r /\
    AND (fl r) (OR (fl s) (fl t)) = OR (AND (fl r) (fl s)) (AND (fl r) (fl t)) /\
    NOT (OR (fl r) (fl s)) = AND (NOT (fl r)) (NOT (fl s)) /\
    NOT (AND (fl r) (fl s)) = OR (NOT (fl r)) (NOT (fl s)) /\
    NOT (NOT (fl r)) = fl r.
  Proof.
    unfold logical_or, logical_and, logical_not, fl; cbn.
    repeat split; do 2 f_equal; repeat mmcase; lra.
  Qed.
End Lattice.

Lemma fold_min_fl rs : forall r,
  fold_left (fun m u => xmin m (to_f u)) (map fl rs) (Fin r) = Fin (fold_left Rmin rs r).
Proof. induction rs as [|s rs IH]; intro r; cbn; auto. Qed.
Lemma fold_max_fl rs : forall r,
  fold_left (fun m u => xmax m (to_f u)) (map fl rs) (Fin r) = Fin (fold_left Rmax rs r).
Proof. induction rs as [|s rs IH]; intro r; cbn; auto. Qed.
Lemma all_fl g r rs : logical_all g (map fl (r :: rs)) (Some true) = Ok (fl (fold_left Rmin rs r)).
Proof. unfold logical_all. cbn [resolve map all_bools forallb andb]. cbn [fl to_f]. rewrite fold_min_fl. reflexivity. Qed.
Lemma any_fl g r rs : logical_any g (map fl (r :: rs)) (Some true) = Ok (fl (fold_left Rmax rs r)).
Proof. unfold logical_any. cbn [resolve map all_bools forallb andb]. cbn [fl to_f]. rewrite fold_max_fl. reflexivity. Qed.
Lemma fold_min_max rs : forall r,
  1 - fold_left Rmin rs r = fold_left Rmax (map (fun s => 1 - s) rs) (1 - r).
Proof.
  induction rs as [|s rs IH]; intro r; cbn; auto.
  rewrite IH. f_equal. repeat mmcase; lra.
Qed.
Lemma de_morgan_all g rs : rs <> [] ->
  exists a b, logical_all g (map fl rs) (Some true) = Ok a /\
    logical_any g (map (fun r => logical_not g (fl r) (Some true)) rs) (Some true) = Ok b /\
    logical_not g a (Some true) = b.
Proof.
  destruct rs as [|r rs]; [congruence|]. intros _.
  rewrite all_fl. exists (fl (fold_left Rmin rs r)).
  replace (map (fun r0 => logical_not g (fl r0) (Some true)) (r :: rs))
    with (map fl (map (fun s => 1 - s) (r :: rs))).
  2:{ rewrite map_map. apply map_ext. intro. reflexivity. }
  cbn [map]. rewrite <- map_cons. rewrite any_fl.
  eexists. split; [reflexivity|]. split; [reflexivity|].
  unfold logical_not; cbn. rewrite <- fold_min_max. reflexivity.
Qed.

(** C03 *)
Lemma cmp_threshold c g x y k : shipped k -> 0 < ak_alpha k ->
  (is_true g (run_cmp c g (Fin x) (Fin y) (Some true) k) DEFAULT_TRUTH_TOL (Some true) = Ok true
     <-> cmp_strict c x y) /\
  (is_false g (run_cmp c g (Fin x) (Fin y) (Some true) k) DEFAULT_TRUTH_TOL (Some true) = Ok true
     <-> cmp_strict c y x).
Proof.
  intros H A. rewrite cmp_approx.
  destruct (activation_fin k (match c with Gt | Ge => x - y | Lt | Le => y - x end) H)
    as (v & -> & _ & T & _). specialize (T A).
  unfold is_true, is_false, DEFAULT_TRUTH_TOL; cbn.
  assert (E : forall b, Ok b = Ok true <-> b = true)
    by (intro b; split; congruence).
  rewrite !E, !Rltb_true. replace (1 - 1 / 2) with (1 / 2) by lra.
  destruct T as [-> ->]. destruct c; cbn; lra.
Qed.
Lemma greater_less_sum g x y k : shipped k ->
  exists a b, greater g (Fin x) (Fin y) (Some true) k = fl a /\
              less g (Fin x) (Fin y) (Some true) k = fl b /\ a + b = 1.
Proof.
  intro H.
  destruct (activation_fin k (x - y) H) as (v & E & _ & _ & _ & E').
  exists v, (1 - v). unfold greater, less; cbn. unfold Rminus in E. rewrite E.
  split; [reflexivity|]. split; [|lra].
  replace (y + - x) with (- (x - y)) by lra. rewrite E'. reflexivity.
Qed.

(** C04 *)
Lemma nonstrict_equality c g x k : shipped k ->
  run_cmp c g (Fin x) (Fin x) (Some true) k = fl (1 / 2).
Proof.
  intro H. rewrite cmp_approx.
  destruct (activation_fin k (match c with Gt | Ge => x - x | Lt | Le => x - x end) H)
    as (v & -> & _ & _ & Z & _).
  rewrite Z; [reflexivity|]. destruct c; lra.
Qed.

(** C05 *)
Lemma hard_exact c g x y k : ak_function k = hard_sigmoid -> x <> y ->
  3 <= ak_alpha k * Rabs (x - y) ->
  exists b, run_cmp c g (Fin x) (Fin y) (Some true) k = enc b /\ (b = true <-> cmp_holds c x y).
Proof.
  intros H D A. rewrite cmp_approx. unfold activation. rewrite H, hard_sigmoid_fin.
  unfold Rabs in A.
  assert (C : (y < x /\ 3 <= ak_alpha k * (x - y)) \/ (x < y /\ 3 <= ak_alpha k * (y - x))).
  { destruct (Rcase_abs (x - y)); [right|left]; split; lra. }
  destruct c; destruct C as [[L M]|[L M]];
  (exists true; rewrite hs_sat_hi by lra; split; [reflexivity|cbn; split; auto; intros; try discriminate; lra]) ||
  (exists false; rewrite hs_sat_lo by lra; split; [reflexivity|cbn; split; [discriminate|lra]]).
Qed.

Lemma sg_limit d eps : 0 < eps -> 0 < d ->
  exists A, 0 < A /\ forall alpha, A <= alpha -> 1 - eps < sg (alpha * d) /\ sg (- (alpha * d)) < eps.
Proof.
  intros He Hd. exists (Rmax 1 (/ eps / d)). split; [mmcase; lra|].
  intros alpha HA.
  assert (L : / eps <= alpha * d).
  { assert (/ eps / d <= alpha) by (revert HA; mmcase; lra).
    apply Rmult_le_compat_r with (r := d) in H; [|lra].
    replace (/ eps / d * d) with (/ eps) in H by (field; lra). lra. }
  assert (Ie : 0 < / eps) by (apply Rinv_0_lt_compat; lra).
  pose proof (exp_ineq1 (alpha * d)) as E1. specialize (E1 ltac:(lra)).
  pose proof (sg_sum (alpha * d)) as S.
  assert (B : sg (- (alpha * d)) < eps).
  { unfold sg. rewrite Ropp_involutive. unfold Rdiv. rewrite Rmult_1_l.
    rewrite <- (Rinv_involutive eps) by lra.
    apply Rinv_lt_contravar; [apply Rmult_lt_0_compat; lra|lra]. }
  lra.
Qed.
Lemma sigmoid_limit c x y eps : 0 < eps -> x <> y ->
  exists A, 0 < A /\ forall g alpha, A <= alpha ->
    exists v, run_cmp c g (Fin x) (Fin y) (Some true) (mkakw alpha sigmoid) = fl v /\
      ((cmp_holds c x y -> Rabs (v - 1) < eps) /\ (~ cmp_holds c x y -> Rabs v < eps)).
Proof.
  intros He D.
  destruct (sg_limit (Rabs (x - y)) eps He) as (A & HA & L).
  { apply Rabs_pos_lt; lra. }
  exists A. split; auto. intros g alpha Ha. specialize (L alpha Ha).
  rewrite cmp_approx. unfold activation; cbn [ak_alpha ak_function]. rewrite sigmoid_fin.
  eexists. split; [reflexivity|].
  unfold Rabs in L. destruct (Rcase_abs (x - y)) as [Hn|Hn].
  - replace (alpha * - (x - y)) with (alpha * (y - x)) in L by ring.
    replace (- (alpha * (y - x))) with (alpha * (x - y)) in L by ring.
    pose proof (sg_range (alpha * (y - x))). pose proof (sg_range (alpha * (x - y))).
    destruct c; cbn; split; intro; try lra;
    unfold Rabs; destruct Rcase_abs; lra.
  - replace (- (alpha * (x - y))) with (alpha * (y - x)) in L by ring.
    pose proof (sg_range (alpha * (y - x))). pose proof (sg_range (alpha * (x - y))).
    destruct c; cbn; split; intro; try lra;
    unfold Rabs; destruct Rcase_abs; lra.
Qed.

(** C06 *)
Lemma ok_true (b : bool) : Ok b = Ok true <-> b = true.
Proof. split; congruence. Qed.
Lemma is_true_approx g r tol : is_true g (fl r) tol (Some true) = Ok true <-> r > 1 - tol.
Proof. unfold is_true; cbn. rewrite ok_true, Rltb_true. lra. Qed.
Lemma is_false_approx g r tol : is_false g (fl r) tol (Some true) = Ok true <-> r < tol.
Proof. unfold is_false; cbn. rewrite ok_true, Rltb_true. lra. Qed.

Lemma all_any_empty g : logical_all g [] (Some true) = Err ValueError /\
  logical_any g [] (Some true) = Err ValueError /\
  logical_all g [] (Some false) = Ok (TB true) /\ logical_any g [] (Some false) = Ok (TB false).
Proof. repeat split. Qed.

(** Infinite operands. *)
Lemma cmp_infinite c g k : shipped k -> 0 < ak_alpha k ->
  forall y, run_cmp c g PInf (Fin y) (Some true) k = enc (match c with Gt | Ge => true | _ => false end) /\
            run_cmp c g NInf (Fin y) (Some true) k = enc (match c with Lt | Le => true | _ => false end) /\
            run_cmp c g (Fin y) PInf (Some true) k = enc (match c with Lt | Le => true | _ => false end) /\
            run_cmp c g (Fin y) NInf (Some true) k = enc (match c with Gt | Ge => true | _ => false end).
Proof.
  intros H A y. pose proof (activation_pinf k H A). pose proof (activation_ninf k H A).
  destruct c; cbn -[activation]; rewrite ?H0, ?H1; auto.
Qed.

Lemma C04_lemma g x y k : shipped k -> 0 < ak_alpha k -> forall c, c = Ge \/ c = Le ->
  (x <> y ->
     (is_true g (run_cmp c g (Fin x) (Fin y) (Some true) k) DEFAULT_TRUTH_TOL (Some true) = Ok true
      <-> run_cmp c g (Fin x) (Fin y) (Some false) k = TB true)) /\
  (x = y ->
     run_cmp c g (Fin x) (Fin y) (Some false) k = TB true /\
     run_cmp c g (Fin x) (Fin y) (Some true) k = fl (1 / 2) /\
     is_true g (run_cmp c g (Fin x) (Fin y) (Some true) k) DEFAULT_TRUTH_TOL (Some true) = Ok false).
Proof.
  intros H A c Hc.
  destruct (cmp_exact c g x y k) as (b & Eb & Hb).
  split.
  - intro D. rewrite (proj1 (cmp_threshold c g x y k H A)), Eb.
    assert (E : TB b = TB true <-> b = true) by (split; congruence).
    rewrite E, Hb. destruct Hc as [-> | ->]; cbn; lra.
  - intros ->. rewrite nonstrict_equality by auto. rewrite Eb.
    split; [f_equal; apply Hb; destruct Hc as [-> | ->]; cbn; lra|].
    split; [reflexivity|]. unfold is_true, DEFAULT_TRUTH_TOL; cbn. f_equal.
    rewrite Rltb_false. lra.
Qed.

Lemma C06_lemma g :
  (forall r tol, tol <= 1 / 2 ->
     ~ (is_true g (fl r) tol (Some true) = Ok true /\ is_false g (fl r) tol (Some true) = Ok true)) /\
  (forall tol, tol > 1 / 2 -> exists r, 0 <= r <= 1 /\
     is_true g (fl r) tol (Some true) = Ok true /\ is_false g (fl r) tol (Some true) = Ok true) /\
  (forall r tol,
     (is_true g (fl r) tol (Some true) = Ok false /\ is_false g (fl r) tol (Some true) = Ok false)
     <-> tol <= r <= 1 - tol) /\
  (forall b tol, is_true g (TB b) tol (Some false) = Ok b /\
                 is_false g (TB b) tol (Some false) = Ok (negb b)) /\
  (forall x tol, is_true g (TF x) tol (Some false) = Err TypeCheckError) /\
  (forall a tol, 0 < tol < 1 ->
     is_true g (true_value g a) tol a = Ok true /\ is_false g (true_value g a) tol a = Ok false /\
     is_true g (false_value g a) tol a = Ok false /\ is_false g (false_value g a) tol a = Ok true).
Proof.
  split; [|split; [|split; [|split; [|split]]]].
  - intros r tol Ht [A B]. rewrite is_true_approx in A. rewrite is_false_approx in B. lra.
  - intros tol Ht. exists (1 / 2). split; [lra|].
    rewrite is_true_approx, is_false_approx. lra.
  - intros r tol. unfold is_true, is_false; cbn.
    assert (E : forall b, Ok b = Ok false <-> b = false) by (intro; split; congruence).
    rewrite !E, !Rltb_false. lra.
  - intros b tol. split; reflexivity.
  - reflexivity.
  - intros a tol Ht. unfold is_true, is_false, true_value, false_value.
    destruct (resolve g a); cbn.
    + repeat split; f_equal; rewrite ?Rltb_true, ?Rltb_false; lra.
    + repeat split.
Qed.
