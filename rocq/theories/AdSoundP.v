(** Soundness of reverse mode: the proof. *)
From Coq Require Import Reals List Bool ZArith Arith Lia Lra Psatz FunctionalExtensionality.
From Verif Require Import Base BaseP LogicM GeometryM AdM SpecAd AdP.
Import ListNotations.
Open Scope R_scope.
Local Notation length := List.length.

Definition dotn (n : nat) (g v : nat -> R) : R := fold_right Rplus 0 (map (fun i => g i * v i) (seq 0 n)).
Lemma dotn_lin l (g h v : nat -> R) a b :
  fold_right Rplus 0 (map (fun i => (a * g i + b * h i) * v i) l) =
  a * fold_right Rplus 0 (map (fun i => g i * v i) l) + b * fold_right Rplus 0 (map (fun i => h i * v i) l).
Proof. induction l as [|x l IH]; cbn; [ring|]. rewrite IH. ring. Qed.
Lemma dotn_comb n f g h v a b : (forall i, f i = a * g i + b * h i) -> dotn n f v = a * dotn n g v + b * dotn n h v.
Proof.
  intros E. unfold dotn. rewrite <- dotn_lin. f_equal. apply map_ext. intros i. rewrite E. reflexivity.
Qed.
Lemma dotn_scale n f g v a : (forall i, f i = a * g i) -> dotn n f v = a * dotn n g v.
Proof. intros E. rewrite (dotn_comb n f g g v a 0) by (intros; rewrite E; ring). ring. Qed.
Lemma dotn_ext n f g v : (forall i, f i = g i) -> dotn n f v = dotn n g v.
Proof. intros E. rewrite (dotn_scale n f g v 1) by (intros; rewrite E; ring). ring. Qed.
Lemma dotn_0 n f v : (forall i, f i = 0) -> dotn n f v = 0.
Proof. intros E. rewrite (dotn_scale n f f v 0) by (intros; rewrite E; ring). ring. Qed.
Lemma dotn_var n i v : (i < n)%nat -> dotn n (fun j => if Nat.eqb j i then 1 else 0) v = v i.
Proof.
  intros H. unfold dotn.
  assert (G : forall l, NoDup l ->
     fold_right Rplus 0 (map (fun j => (if Nat.eqb j i then 1 else 0) * v j) l) = if existsb (Nat.eqb i) l then v i else 0).
  { induction l as [|x l IH]; intros ND; cbn; auto. inversion ND; subst. rewrite IH by auto.
    rewrite (Nat.eqb_sym i x). destruct (Nat.eqb_spec x i) as [->|Nx]; cbn [orb].
    - replace (existsb (Nat.eqb i) l) with false; [ring|]. symmetry. apply not_true_iff_false. rewrite existsb_exists.
      intros (y & Hy & E). apply Nat.eqb_eq in E. subst. auto.
    - ring. }
  rewrite G by apply seq_NoDup.
  replace (existsb (Nat.eqb i) (seq 0 n)) with true; auto. symmetry. apply existsb_exists. exists i. split.
  - apply in_seq. lia.
  - apply Nat.eqb_refl.
Qed.

Lemma lt_min x a b : x < Rmin a b -> x < a /\ x < b.
Proof. intros H. pose proof (Rmin_l a b). pose proof (Rmin_r a b). lra. Qed.

Section Curve.
Variable t0 : R.

Definition near (P : R -> Prop) : Prop := exists d, 0 < d /\ forall t, Rabs (t - t0) < d -> P t.
Lemma near_and P Q : near P -> near Q -> near (fun t => P t /\ Q t).
Proof.
  intros (d & Hd & H) (e & He & K). exists (Rmin d e). split; [apply Rmin_pos; auto|].
  intros t Ht. split; [apply H|apply K]; eapply Rlt_le_trans; eauto; [apply Rmin_l|apply Rmin_r].
Qed.
Lemma near_mono (P Q : R -> Prop) : (forall t, P t -> Q t) -> near P -> near Q.
Proof. intros I (d & Hd & H). exists d. auto. Qed.
Lemma near_all (P : R -> Prop) : (forall t, P t) -> near P.
Proof. exists 1. split; auto. lra. Qed.
Lemma near_here P : near P -> P t0.
Proof. intros (d & Hd & H). apply H. rewrite Rminus_diag_eq, Rabs_R0; auto. Qed.

Lemma deriv_local f g l : near (fun t => f t = g t) -> derivable_pt_lim f t0 l -> derivable_pt_lim g t0 l.
Proof.
  intros N H. pose proof (near_here _ N) as E0. destruct N as (d & Hd & N). cbv beta in E0.
  intros eps He. destruct (H eps He) as (del & K).
  assert (P : 0 < Rmin d del) by (apply Rmin_pos; auto; apply cond_pos).
  exists (mkposreal _ P). intros h Hh Hl. cbn in Hl.
  rewrite <- E0, <- (N (t0 + h)).
  - apply K; auto. eapply Rlt_le_trans; eauto. apply Rmin_r.
  - replace (t0 + h - t0) with h by ring. eapply Rlt_le_trans; eauto. apply Rmin_l.
Qed.
Lemma deriv_sel m f g l : m t0 = f t0 -> m t0 = g t0 -> near (fun t => m t = f t \/ m t = g t) ->
  derivable_pt_lim f t0 l -> derivable_pt_lim g t0 l -> derivable_pt_lim m t0 l.
Proof.
  intros E1 E2 (d & Hd & N) F G eps He. destruct (F eps He) as (d1 & K1). destruct (G eps He) as (d2 & K2).
  assert (P : 0 < Rmin d (Rmin d1 d2)) by (repeat apply Rmin_pos; auto; apply cond_pos).
  exists (mkposreal _ P). intros h Hh Hl. cbn in Hl.
  apply lt_min in Hl. destruct Hl as [L0 Hl]. apply lt_min in Hl. destruct Hl as [L1 L2].
  destruct (N (t0 + h)) as [E|E]; [replace (t0 + h - t0) with h by ring; auto| |]; rewrite E.
  - rewrite E1. apply K1; auto.
  - rewrite E2. apply K2; auto.
Qed.
Lemma deriv_lt f lf c : derivable_pt_lim f t0 lf -> f t0 < c -> near (fun t => f t < c).
Proof.
  intros H L. assert (C : continuity_pt f t0) by (apply derivable_continuous_pt; exists lf; auto).
  destruct (C (c - f t0)) as (d & Hd & K); [lra|]. cbn in K. unfold R_dist in K. exists d. split; auto.
  intros t Ht. destruct (Req_dec t0 t) as [->|Nt]; auto.
  specialize (K t). assert (Rabs (f t - f t0) < c - f t0) by (apply K; split; auto; split; auto; exact I).
  unfold Rabs in *. destruct (Rcase_abs (f t - f t0)); lra.
Qed.
Lemma deriv_opp f lf : derivable_pt_lim f t0 lf -> derivable_pt_lim (fun t => - f t) t0 (- lf).
Proof. apply derivable_pt_lim_opp. Qed.
Lemma deriv_gt f lf c : derivable_pt_lim f t0 lf -> c < f t0 -> near (fun t => c < f t).
Proof.
  intros H L. apply deriv_opp in H. apply (deriv_lt _ _ (- c)) in H; [|lra].
  eapply near_mono; [|apply H]. cbn. intros; lra.
Qed.
Lemma deriv_lt2 f lf g lg : derivable_pt_lim f t0 lf -> derivable_pt_lim g t0 lg -> f t0 < g t0 -> near (fun t => f t < g t).
Proof.
  intros F G L. set (c := (f t0 + g t0) / 2). assert (f t0 < c < g t0) by (unfold c; lra).
  eapply near_mono; [|apply near_and; [apply (deriv_lt _ _ c F)|apply (deriv_gt _ _ c G)]]; cbn; intros; lra.
Qed.

Lemma deriv_min f lf g lg l : derivable_pt_lim f t0 lf -> derivable_pt_lim g t0 lg ->
  (f t0 < g t0 -> l = lf) -> (g t0 < f t0 -> l = lg) -> (f t0 = g t0 -> l = lf /\ l = lg) ->
  derivable_pt_lim (fun t => Rmin (f t) (g t)) t0 l.
Proof.
  intros F G L1 L2 L3. destruct (Rtotal_order (f t0) (g t0)) as [L|[L|L]].
  - rewrite (L1 L). eapply deriv_local; [|apply F]. eapply near_mono; [|apply (deriv_lt2 _ _ _ _ F G L)].
    cbn. intros. rewrite Rmin_left; lra.
  - destruct (L3 L) as [-> E]. rewrite <- E in G.
    eapply (deriv_sel _ f g); auto; [rewrite Rmin_left; lra|rewrite Rmin_right; lra|].
    apply near_all. intros. unfold Rmin. destruct Rle_dec; auto.
  - rewrite (L2 L). eapply deriv_local; [|apply G]. eapply near_mono; [|apply (deriv_lt2 _ _ _ _ G F L)].
    cbn. intros. rewrite Rmin_right; lra.
Qed.
Lemma deriv_max f lf g lg l : derivable_pt_lim f t0 lf -> derivable_pt_lim g t0 lg ->
  (f t0 < g t0 -> l = lg) -> (g t0 < f t0 -> l = lf) -> (f t0 = g t0 -> l = lf /\ l = lg) ->
  derivable_pt_lim (fun t => Rmax (f t) (g t)) t0 l.
Proof.
  intros F G L1 L2 L3. destruct (Rtotal_order (f t0) (g t0)) as [L|[L|L]].
  - rewrite (L1 L). eapply deriv_local; [|apply G]. eapply near_mono; [|apply (deriv_lt2 _ _ _ _ F G L)].
    cbn. intros. rewrite Rmax_right; lra.
  - destruct (L3 L) as [-> E]. rewrite <- E in G.
    eapply (deriv_sel _ f g); auto; [rewrite Rmax_left; lra|rewrite Rmax_right; lra|].
    apply near_all. intros. unfold Rmax. destruct Rle_dec; auto.
  - rewrite (L2 L). eapply deriv_local; [|apply F]. eapply near_mono; [|apply (deriv_lt2 _ _ _ _ G F L)].
    cbn. intros. rewrite Rmax_left; lra.
Qed.

Lemma deriv_logistic f lf : derivable_pt_lim f t0 lf ->
  let a := 1 / (1 + exp (- f t0)) in
  derivable_pt_lim (fun t => 1 / (1 + exp (- f t))) t0 (lf * ((1 - a) * a)).
Proof.
  intros F a. set (g := fun t => 1 + exp (- f t)).
  assert (P : g t0 <> 0) by (unfold g; pose proof (exp_pos (- f t0)); lra).
  assert (G : derivable_pt_lim g t0 (exp (- f t0) * - lf)).
  { unfold g. replace (exp (- f t0) * - lf) with (0 + exp (- f t0) * - lf) by ring.
    apply (derivable_pt_lim_plus (fct_cte 1) (fun t => exp (- f t))); [apply derivable_pt_lim_const|].
    apply (derivable_pt_lim_comp (fun t => - f t) exp); [apply deriv_opp; auto|apply derivable_pt_lim_exp]. }
  pose proof (derivable_pt_lim_div (fct_cte 1) g t0 0 (exp (- f t0) * - lf) (derivable_pt_lim_const 1 t0) G P) as Q.
  replace (lf * ((1 - a) * a)) with ((0 * g t0 - exp (- f t0) * - lf * fct_cte 1 t0) / Rsqr (g t0)); [exact Q|].
  unfold a, fct_cte, Rsqr. change (1 + exp (- f t0)) with (g t0).
  replace (exp (- f t0)) with (g t0 - 1) by (unfold g; ring). field. auto.
Qed.

Variable n : nat.
Variable curve : R -> nat -> R.
Variable v : nat -> R.
Variable env : nat -> R.
Hypothesis Hv : forall i, derivable_pt_lim (fun t => curve t i) t0 (v i).
Hypothesis H0 : forall i, curve t0 i = env i.

Definition follows (e : expr) (g : nat -> R) : Prop :=
  exists f, near (fun t => eval (curve t) e = Fin (f t)) /\ derivable_pt_lim f t0 (dotn n g v).

Lemma curve0 : curve t0 = env.
Proof. apply functional_extensionality. auto. Qed.
Lemma follows_val e f : near (fun t => eval (curve t) e = Fin (f t)) -> eval env e = Fin (f t0).
Proof. intros N. apply near_here in N. rewrite curve0 in N. exact N. Qed.
Lemma closed_safe e : closed e = true -> safe env e.
Proof. destruct e; cbn [safe]; auto. Qed.

Lemma tie_D a b : safe env a -> safe env b -> tie env a b -> eval env a = eval env b -> forall i, D env a i = D env b i.
Proof. intros Sa Sb T E i. specialize (T E i). rewrite !grad_safe in T by auto. inversion T; auto. Qed.

Lemma xeqb_fin a b : xeqb (Fin a) (Fin b) = true <-> a = b.
Proof. cbn. unfold Reqb. destruct (Req_EM_T a b); split; auto; discriminate. Qed.
Lemma xeqb_fin_f a b : xeqb (Fin a) (Fin b) = false <-> a <> b.
Proof. cbn. unfold Reqb. destruct (Req_EM_T a b); split; auto; try discriminate. contradiction. Qed.

(* the two shares of a minimum or a maximum *)
Lemma shares_eq a : rshare (Fin a) (Fin a) (Fin a) = 1 / 2.
Proof. unfold rshare, share. rewrite (proj2 (xeqb_fin a a)) by auto. reflexivity. Qed.
Lemma shares_won a b : a <> b -> rshare (Fin a) (Fin a) (Fin b) = 1.
Proof. intros N. unfold rshare, share. rewrite (proj2 (xeqb_fin a a)), (proj2 (xeqb_fin_f b a)) by auto. reflexivity. Qed.
Lemma shares_lost a b : a <> b -> rshare (Fin b) (Fin a) (Fin a) = 0.
Proof. intros N. unfold rshare, share. rewrite (proj2 (xeqb_fin_f b a)) by auto. reflexivity. Qed.

(** One lemma per primitive. *)
Lemma fol_ext e g h : (forall i, g i = h i) -> follows e g -> follows e h.
Proof. intros E (f & N & F). exists f. split; auto. rewrite <- (dotn_ext n g h v E). exact F. Qed.
Lemma fol_const e r : near (fun t => eval (curve t) e = Fin r) -> (forall i, D env e i = 0) -> follows e (D env e).
Proof. intros N E. exists (fun _ => r). split; auto. rewrite dotn_0 by auto. apply derivable_pt_lim_const. Qed.
Lemma fol_closed e : closed e = true -> is_fin (eval env e) -> follows e (D env e).
Proof.
  intros H [r E]. apply (fol_const e r); [|apply closed_D; auto].
  apply near_all. intros t. rewrite <- E. apply closed_eval; auto.
Qed.
Lemma fol_var i : (i < n)%nat -> follows (EVar i) (D env (EVar i)).
Proof.
  intros H. exists (fun t => curve t i). split; [apply near_all; reflexivity|]. cbn [D]. rewrite dotn_var by auto. apply Hv.
Qed.
Lemma fol_neg e : follows e (D env e) -> follows (ENeg e) (D env (ENeg e)).
Proof.
  intros (f & N & F). exists (fun t => - f t). split.
  - eapply near_mono; [|apply N]. cbn. intros t ->. reflexivity.
  - rewrite (dotn_scale n _ (D env e) v (-1)) by (intros; cbn [D]; ring).
    replace (-1 * dotn n (D env e) v) with (- dotn n (D env e) v) by ring. apply deriv_opp. auto.
Qed.
Section Two.
Variable e1 e2 : expr.
Hypothesis F1 : follows e1 (D env e1).
Hypothesis F2 : follows e2 (D env e2).
Lemma fol_add : follows (EAdd e1 e2) (D env (EAdd e1 e2)).
Proof.
  destruct F1 as (f & N & F). destruct F2 as (g & M & G). exists (fun t => f t + g t). split.
  - eapply near_mono; [|apply near_and; [apply N|apply M]]. cbn. intros t [-> ->]. reflexivity.
  - rewrite (dotn_comb n _ (D env e1) (D env e2) v 1 1) by (intros; cbn [D]; ring). rewrite !Rmult_1_l.
    apply (derivable_pt_lim_plus f g); auto.
Qed.
Lemma fol_sub : follows (ESub e1 e2) (D env (ESub e1 e2)).
Proof.
  destruct F1 as (f & N & F). destruct F2 as (g & M & G). exists (fun t => f t - g t). split.
  - eapply near_mono; [|apply near_and; [apply N|apply M]]. cbn. intros t [-> ->]. reflexivity.
  - rewrite (dotn_comb n _ (D env e1) (D env e2) v 1 (-1)) by (intros; cbn [D]; ring).
    replace (1 * dotn n (D env e1) v + -1 * dotn n (D env e2) v) with (dotn n (D env e1) v - dotn n (D env e2) v) by ring.
    apply (derivable_pt_lim_minus f g); auto.
Qed.
Lemma fol_mul : follows (EMul e1 e2) (D env (EMul e1 e2)).
Proof.
  destruct F1 as (f & N & F). destruct F2 as (g & M & G). exists (fun t => f t * g t). split.
  - eapply near_mono; [|apply near_and; [apply N|apply M]]. cbn. intros t [-> ->]. reflexivity.
  - rewrite (dotn_comb n _ (D env e1) (D env e2) v (g t0) (f t0)).
    + replace (g t0 * dotn n (D env e1) v + f t0 * dotn n (D env e2) v)
        with (dotn n (D env e1) v * g t0 + f t0 * dotn n (D env e2) v) by ring.
      apply (derivable_pt_lim_mult f g); auto.
    + intros i. cbn [D]. rewrite (follows_val _ _ N), (follows_val _ _ M). cbn [rv]. ring.
Qed.
Lemma near_nz g l : derivable_pt_lim g t0 l -> g t0 <> 0 -> near (fun t => g t <> 0).
Proof.
  intros G G0. destruct (Rtotal_order (g t0) 0) as [L|[L|L]]; [|contradiction|].
  - eapply near_mono; [|apply (deriv_lt _ _ 0 G L)]. cbn. intros; lra.
  - eapply near_mono; [|apply (deriv_gt _ _ 0 G L)]. cbn. intros; lra.
Qed.
Lemma fol_div : eval env e2 <> Fin 0 -> follows (EDiv e1 e2) (D env (EDiv e1 e2)).
Proof.
  intros Nz. destruct F1 as (f & N & F). destruct F2 as (g & M & G).
  assert (G0 : g t0 <> 0) by (intro E; apply Nz; rewrite (follows_val _ _ M), E; reflexivity).
  pose proof (near_nz g _ G G0) as NZ.
  exists (fun t => f t / g t). split.
  - eapply near_mono; [|apply near_and; [apply near_and; [apply N|apply M]|apply NZ]]. cbn. intros t [[-> ->] K]. cbn.
    unfold fdiv, Reqb. destruct (Req_EM_T (g t) 0); [contradiction|reflexivity].
  - rewrite (dotn_comb n _ (D env e1) (D env e2) v (/ g t0) (- (f t0 / (g t0 * g t0)))).
    + replace (/ g t0 * dotn n (D env e1) v + - (f t0 / (g t0 * g t0)) * dotn n (D env e2) v)
        with ((dotn n (D env e1) v * g t0 - dotn n (D env e2) v * f t0) / Rsqr (g t0)) by (unfold Rsqr; field; auto).
      apply (derivable_pt_lim_div f g); auto.
    + intros i. cbn [D]. rewrite (follows_val _ _ N), (follows_val _ _ M). cbn [rv]. field. auto.
Qed.
Hypothesis T : eval env e1 = eval env e2 -> forall i, D env e1 i = D env e2 i.
Lemma fol_max : follows (EMax e1 e2) (D env (EMax e1 e2)).
Proof.
  destruct F1 as (f & N & F). destruct F2 as (g & M & G).
  pose proof (follows_val _ _ N) as E1. pose proof (follows_val _ _ M) as E2.
  exists (fun t => Rmax (f t) (g t)). split.
  - eapply near_mono; [|apply near_and; [apply N|apply M]]. cbn. intros t [-> ->]. reflexivity.
  - eapply deriv_max; eauto; intros L.
    + apply dotn_ext. intros i. cbn [D]. rewrite E1, E2. cbn [xmax]. rewrite Rmax_right by lra.
      rewrite (shares_won (g t0) (f t0)), (shares_lost (g t0) (f t0)) by lra. ring.
    + apply dotn_ext. intros i. cbn [D]. rewrite E1, E2. cbn [xmax]. rewrite Rmax_left by lra.
      rewrite (shares_won (f t0) (g t0)), (shares_lost (f t0) (g t0)) by lra. ring.
    + pose proof T as Q. rewrite E1, E2, L in Q. specialize (Q eq_refl).
      split; apply dotn_ext; intros i; cbn [D]; rewrite E1, E2, L; cbn [xmax]; rewrite Rmax_left, shares_eq by lra;
        rewrite Q; field.
Qed.
Lemma fol_min : follows (EMin e1 e2) (D env (EMin e1 e2)).
Proof.
  destruct F1 as (f & N & F). destruct F2 as (g & M & G).
  pose proof (follows_val _ _ N) as E1. pose proof (follows_val _ _ M) as E2.
  exists (fun t => Rmin (f t) (g t)). split.
  - eapply near_mono; [|apply near_and; [apply N|apply M]]. cbn. intros t [-> ->]. reflexivity.
  - eapply deriv_min; eauto; intros L.
    + apply dotn_ext. intros i. cbn [D]. rewrite E1, E2. cbn [xmin]. rewrite Rmin_left by lra.
      rewrite (shares_won (f t0) (g t0)), (shares_lost (f t0) (g t0)) by lra. ring.
    + apply dotn_ext. intros i. cbn [D]. rewrite E1, E2. cbn [xmin]. rewrite Rmin_right by lra.
      rewrite (shares_won (g t0) (f t0)), (shares_lost (g t0) (f t0)) by lra. ring.
    + pose proof T as Q. rewrite E1, E2, L in Q. specialize (Q eq_refl).
      split; apply dotn_ext; intros i; cbn [D]; rewrite E1, E2, L; cbn [xmin]; rewrite Rmin_left, shares_eq by lra;
        rewrite Q; field.
Qed.
Variable e3 : expr.
Hypothesis F3 : follows e3 (D env e3).
Hypothesis T13 : eval env e1 = eval env e3 -> forall i, D env e1 i = D env e3 i.
Hypothesis T23 : eval env e2 = eval env e3 -> forall i, D env e2 i = D env e3 i.
Lemma fol_min3 : follows (EMin3 e1 e2 e3) (D env (EMin3 e1 e2 e3)).
Proof.
  destruct F1 as (f & N & F). destruct F2 as (g & M & G). destruct F3 as (h & K & H).
  pose proof (follows_val _ _ N) as E1. pose proof (follows_val _ _ M) as E2. pose proof (follows_val _ _ K) as E3.
  pose proof T as Q12. pose proof T13 as Q13. pose proof T23 as Q23.
  rewrite E1, E2 in Q12. rewrite E1, E3 in Q13. rewrite E2, E3 in Q23.
  exists (fun t => Rmin (Rmin (f t) (g t)) (h t)). split.
  - eapply near_mono; [|apply near_and; [apply near_and; [apply N|apply M]|apply K]]. cbn. intros t [[-> ->] ->]. reflexivity.
  - assert (DD : forall i, (f t0 = Rmin (Rmin (f t0) (g t0)) (h t0) -> D env (EMin3 e1 e2 e3) i = D env e1 i) /\
       (g t0 = Rmin (Rmin (f t0) (g t0)) (h t0) -> D env (EMin3 e1 e2 e3) i = D env e2 i) /\
       (h t0 = Rmin (Rmin (f t0) (g t0)) (h t0) -> D env (EMin3 e1 e2 e3) i = D env e3 i)).
    { intros i. cbn [D]. rewrite E1, E2, E3. cbn [xmin]. set (z := Rmin (Rmin (f t0) (g t0)) (h t0)).
      unfold hits. cbn [filter].
      destruct (xeqb (Fin (f t0)) (Fin z)) eqn:B1; destruct (xeqb (Fin (g t0)) (Fin z)) eqn:B2;
        destruct (xeqb (Fin (h t0)) (Fin z)) eqn:B3;
        repeat match goal with
               | B : xeqb (Fin _) (Fin _) = true |- _ => apply (proj1 (xeqb_fin _ _)) in B
               | B : xeqb (Fin _) (Fin _) = false |- _ => apply (proj1 (xeqb_fin_f _ _)) in B
               end; cbn [List.length INR xflag rv];
        repeat split; intros X; try contradiction;
        try (rewrite <- (Q12 ltac:(congruence))); try (rewrite <- (Q13 ltac:(congruence)));
        try (rewrite <- (Q23 ltac:(congruence))); field. }
    eapply (deriv_min (fun t => Rmin (f t) (g t)) (if Rle_dec (f t0) (g t0) then dotn n (D env e1) v else dotn n (D env e2) v) h).
    + eapply deriv_min; eauto; intros L; destruct (Rle_dec (f t0) (g t0)); try lra; auto.
      split; auto. apply dotn_ext. intros i. rewrite (Q12 ltac:(congruence)). reflexivity.
    + eauto.
    + intros L. destruct (Rle_dec (f t0) (g t0)) as [A|A]; apply dotn_ext; intros i; destruct (DD i) as (X & Y & Z).
      * apply X. rewrite (Rmin_left (f t0) (g t0)) in * by lra. rewrite Rmin_left; lra.
      * apply Y. rewrite (Rmin_right (f t0) (g t0)) in * by lra. rewrite Rmin_left; lra.
    + intros L. apply dotn_ext. intros i. destruct (DD i) as (X & Y & Z). apply Z. rewrite Rmin_right; lra.
    + intros L. split; [destruct (Rle_dec (f t0) (g t0)) as [A|A]|]; apply dotn_ext; intros i; destruct (DD i) as (X & Y & Z).
      * apply X. rewrite (Rmin_left (f t0) (g t0)) in * by lra. rewrite Rmin_left; lra.
      * apply Y. rewrite (Rmin_right (f t0) (g t0)) in * by lra. rewrite Rmin_left; lra.
      * apply Z. rewrite Rmin_right; lra.
Qed.
End Two.
Lemma fol_sqrt e r : follows e (D env e) -> eval env e = Fin r -> 0 < r -> follows (ESqrt e) (D env (ESqrt e)).
Proof.
  intros (f & N & F) E P.
  assert (Ef : f t0 = r) by (pose proof (follows_val _ _ N) as Q; rewrite E in Q; inversion Q; auto).
  assert (P' : 0 < f t0) by lra.
  exists (fun t => sqrt (f t)). split.
  - eapply near_mono; [|apply near_and; [apply N|apply (deriv_gt _ _ 0 F P')]]. cbn. intros t [-> K]. cbn.
    unfold Rltb. destruct (Rlt_dec (f t) 0); [lra|reflexivity].
  - rewrite (dotn_scale n _ (D env e) v (/ (2 * sqrt (f t0)))).
    + apply (derivable_pt_lim_comp f sqrt); auto. apply derivable_pt_lim_sqrt. auto.
    + intros i. cbn [D]. rewrite E. cbn [rv]. rewrite Ef. assert (0 < sqrt r) by (apply sqrt_lt_R0; auto). field. lra.
Qed.
Lemma fol_sq e : follows e (D env e) -> follows (ESq e) (D env (ESq e)).
Proof.
  intros (f & N & F). exists (fun t => f t * f t). split.
  - eapply near_mono; [|apply N]. cbn. intros t ->. reflexivity.
  - rewrite (dotn_scale n _ (D env e) v (2 * f t0)).
    + replace (2 * f t0 * dotn n (D env e) v) with (dotn n (D env e) v * f t0 + f t0 * dotn n (D env e) v) by ring.
      apply (derivable_pt_lim_mult f f); auto.
    + intros i. cbn [D]. rewrite (follows_val _ _ N). cbn [rv]. ring.
Qed.
Lemma fol_logistic e : follows e (D env e) -> follows (ELogistic e) (D env (ELogistic e)).
Proof.
  intros (f & N & F). exists (fun t => 1 / (1 + exp (- f t))). split.
  - eapply near_mono; [|apply N]. cbn. intros t ->. reflexivity.
  - set (a := 1 / (1 + exp (- f t0))). rewrite (dotn_scale n _ (D env e) v ((1 - a) * a)).
    + rewrite Rmult_comm. apply deriv_logistic. auto.
    + intros i. cbn [D]. rewrite (follows_val _ _ N). cbn [rv xlogistic]. fold a. ring.
Qed.
Lemma fol_where c l a b : near (fun t => holds c (eval (curve t) l) = holds c (eval env l)) ->
  (if holds c (eval env l) then follows a (D env a) else follows b (D env b)) ->
  follows (EWhere c l a b) (D env (EWhere c l a b)).
Proof.
  intros NH H. destruct (holds c (eval env l)) eqn:Hh; destruct H as (f & N & F); exists f; split.
  - eapply near_mono; [|apply near_and; [apply NH|apply N]]. cbn [eval]. intros t [-> E]. exact E.
  - erewrite dotn_ext; [apply F|]. intros i. cbn [D]. rewrite Hh. reflexivity.
  - eapply near_mono; [|apply near_and; [apply NH|apply N]]. cbn [eval]. intros t [-> E]. exact E.
  - erewrite dotn_ext; [apply F|]. intros i. cbn [D]. rewrite Hh. reflexivity.
Qed.
Lemma near_holds c l g : follows l g -> holds c (eval env l) = false -> near (fun t => holds c (eval (curve t) l) = holds c (eval env l)).
Proof.
  intros (f & M & G) Hh. rewrite Hh.
  destruct c; try (eapply near_mono; [|apply M]; cbn; intros t ->; reflexivity).
  rewrite (follows_val _ _ M) in Hh. cbn in Hh. unfold Reqb in Hh. destruct (Req_EM_T (f t0) 0); [discriminate|].
  eapply near_mono; [|apply near_and; [apply M|apply (near_nz _ _ G)]]; auto. cbn. intros t [-> Q]. cbn. unfold Reqb.
  destruct (Req_EM_T (f t) 0); [contradiction|reflexivity].
Qed.

Theorem follows_D e : vars_below n e -> safe env e -> regular env e -> follows e (D env e).
Proof.
  assert (CS : forall a b, closed a && closed b = true -> safe env a /\ safe env b).
  { intros a b E. apply andb_true_iff in E. destruct E. split; apply closed_safe; auto. }
  induction e; intros VB S Rg; cbn [vars_below] in VB; cbn [regular] in Rg; cbn [safe] in S;
    (destruct Rg as [Rg|Rg]; [destruct Rg; apply fol_closed; auto|]).
  - apply fol_var; auto.
  - apply fol_closed; auto.
  - assert (S' : safe env e) by (destruct S as [S|S]; [apply closed_safe; auto|auto]). apply fol_neg; auto.
  - assert (S' : safe env e1 /\ safe env e2) by (destruct S as [S|S]; [apply CS; auto|auto]). apply fol_add; tauto.
  - assert (S' : safe env e1 /\ safe env e2) by (destruct S as [S|S]; [apply CS; auto|auto]). apply fol_sub; tauto.
  - assert (S' : safe env e1 /\ safe env e2) by (destruct S as [S|S]; [apply CS; auto|tauto]). apply fol_mul; tauto.
  - assert (S' : safe env e1 /\ safe env e2) by (destruct S as [S|S]; [apply CS; auto|tauto]). apply fol_div; tauto.
  - assert (S' : safe env e) by (destruct S as [S|S]; [apply closed_safe; auto|tauto]).
    destruct Rg as (Rg & r & E & P). apply (fol_sqrt e r); auto.
  - assert (S' : safe env e) by (destruct S as [S|S]; [apply closed_safe; auto|tauto]). apply fol_sq; auto.
  - assert (S' : safe env e) by (destruct S as [S|S]; [apply closed_safe; auto|tauto]). apply fol_logistic; auto.
  - assert (S' : safe env e1 /\ safe env e2) by (destruct S as [S|S]; [apply CS; auto|tauto]).
    apply fol_max; try tauto. intros E. apply tie_D; tauto.
  - assert (S' : safe env e1 /\ safe env e2) by (destruct S as [S|S]; [apply CS; auto|tauto]).
    apply fol_min; try tauto. intros E. apply tie_D; tauto.
  - assert (S' : safe env e1 /\ safe env e2 /\ safe env e3).
    { destruct S as [S|S]; [|tauto]. cbn [closed] in S. apply andb_true_iff in S. destruct S as [S ?].
      destruct (CS _ _ S). auto using closed_safe. }
    apply fol_min3; try tauto; intros E; apply tie_D; tauto.
  - assert (S' : safe env e2 /\ safe env e3).
    { destruct S as [S|S]; [|tauto]. cbn [closed] in S. apply andb_true_iff in S. destruct S as [S ?].
      apply andb_true_iff in S. destruct S. auto using closed_safe. }
    destruct S' as [S2 S3], VB as (V1 & V2 & V3). destruct Rg as [[Cl Rg]|(Sl & Rl & Hh & Rg)].
    + apply fol_where; [apply near_all; intros t; rewrite (closed_eval _ Cl (curve t) env); auto|].
      destruct (holds c (eval env e1)); auto.
    + apply fol_where; [eapply near_holds; eauto|]. rewrite Hh. auto.
Qed.
End Curve.

(** Reverse mode computes the gradient. *)
Theorem ad_sound n env e : vars_below n e -> safe env e -> regular env e ->
  (forall i, grad env e i = Fin (D env e i)) /\ is_gradient n (fun x => eval x e) env (D env e).
Proof.
  intros VB S Rg. split; [apply grad_safe; auto|].
  intros curve v t0 Hv H0. destruct (follows_D t0 n curve v env Hv H0 e VB S Rg) as (f & (d & Hd & N) & F).
  exists f, d. auto.
Qed.
