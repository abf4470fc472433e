(** The smoothed validity is capped by its test on the loss. *)
From Coq Require Import Reals List Bool ZArith Arith Lia Lra Psatz.
From Verif Require Import Base BaseP LogicM SpecLogic LogicP GeometryM OptimizeM PathM PathSmoothP UtilsM SceneM SpecCap.
Import ListNotations.
Open Scope R_scope.
Local Notation length := List.length.

Lemma cap_any g p objects cand interacting tol patch k t l a : shipped k ->
  is_valid g p objects cand interacting tol patch (Some true) k = Ok t -> loss p = Fin l ->
  activation (Fin (tol - l)) k = Fin a -> 0 <= a ->
  exists r, t = TF (Fin r) /\ 0 <= r <= a.
Proof.
  intros H E El Ea Pa. destruct (C39_lemma g p objects cand interacting tol patch k t H E) as (r & -> & Rr).
  exists r. split; [reflexivity|]. split; [lra|].
  destruct (intersects_with_objects g p objects cand patch (Some true) k) as [inter|e] eqn:I;
    [|unfold is_valid in E; rewrite I in E; discriminate].
  rewrite (valid_smooth_eq _ _ _ _ _ _ _ _ inter H I), El in E. cbn [xsub xopp xadd] in E.
  change (tol + - l) with (tol - l) in E. rewrite Ea in E.
  set (m := xmin (to_f _) (to_f _)) in E. unfold fl in E.
  assert (Q : xnan_to_num (xmin m (Fin a)) = Fin r) by (clear - E; congruence).
  destruct m as [x| | |]; cbn in Q.
  - assert (r = Rmin x a) by congruence. subst r. apply Rmin_r.
  - assert (r = a) by congruence. lra.
  - assert (r = - float32_max) by congruence. assert (0 < float32_max) by (unfold float32_max; lra). lra.
  - assert (r = 0) by congruence. lra.
Qed.
Lemma hard_cap_eq alpha tol l : activation (Fin (tol - l)) (mkakw alpha hard_sigmoid) = Fin (hard_cap alpha tol l).
Proof.
  unfold activation, hard_sigmoid, relu6. cbn. f_equal. unfold hard_cap, Rmax, Rmin.
  repeat destruct (Rle_dec _ _); lra.
Qed.
Lemma sigmoid_cap_eq alpha tol l : activation (Fin (tol - l)) (mkakw alpha sigmoid) = Fin (sigmoid_cap alpha tol l).
Proof. reflexivity. Qed.
Lemma hard_cap_pos alpha tol l : 0 <= hard_cap alpha tol l.
Proof. apply Rmax_l. Qed.
Lemma sigmoid_cap_pos alpha tol l : 0 <= sigmoid_cap alpha tol l.
Proof. unfold sigmoid_cap. pose proof (exp_pos (- (alpha * (tol - l)))). apply Rlt_le, Rdiv_lt_0_compat; lra. Qed.

Lemma cap_hard g p objects cand interacting alpha tol patch t l :
  is_valid g p objects cand interacting tol patch (Some true) (mkakw alpha hard_sigmoid) = Ok t -> loss p = Fin l ->
  exists r, t = TF (Fin r) /\ 0 <= r <= hard_cap alpha tol l.
Proof.
  intros E L. eapply (cap_any _ _ _ _ _ tol _ (mkakw alpha hard_sigmoid) t l); [right; reflexivity|exact E|exact L|apply hard_cap_eq|apply hard_cap_pos].
Qed.
Lemma cap_sigmoid g p objects cand interacting alpha tol patch t l :
  is_valid g p objects cand interacting tol patch (Some true) (mkakw alpha sigmoid) = Ok t -> loss p = Fin l ->
  exists r, t = TF (Fin r) /\ 0 <= r <= sigmoid_cap alpha tol l.
Proof.
  intros E L. eapply (cap_any _ _ _ _ _ tol _ (mkakw alpha sigmoid) t l); [left; reflexivity|exact E|exact L|apply sigmoid_cap_eq|apply sigmoid_cap_pos].
Qed.
Lemma cap_default l : 0 <= l -> hard_cap DEFAULT_ALPHA DEFAULT_TOL l <= 2 / 3.
Proof. intros H. unfold hard_cap, DEFAULT_ALPHA, DEFAULT_TOL, Rmax, Rmin. repeat destruct (Rle_dec _ _); lra. Qed.
Lemma default_score g p objects cand interacting patch t l :
  is_valid g p objects cand interacting DEFAULT_TOL patch (Some true) default_akw = Ok t -> loss p = Fin l -> 0 <= l ->
  exists r, t = TF (Fin r) /\ 0 <= r <= 2 / 3.
Proof.
  intros E L P. destruct (cap_hard _ _ _ _ _ _ _ _ _ _ E L) as (r & -> & H). exists r. split; auto. pose proof (cap_default l P). lra.
Qed.
Lemma free_space g tx rx :
  is_valid g (mkpath [tx; rx] (Fin 0)) [] [] [] DEFAULT_TOL DEFAULT_PATCH (Some true) default_akw = Ok (TF (Fin (2 / 3))) /\
  is_valid g (mkpath [tx; rx] (Fin 0)) [] [] [] DEFAULT_TOL DEFAULT_PATCH (Some false) default_akw = Ok (TB true).
Proof.
  split.
  - cbn. unfold activation, default_akw, DEFAULT_ALPHA, DEFAULT_TOL. cbn. unfold hard_sigmoid, relu6. cbn. do 3 f_equal.
    unfold Rmin, Rmax. repeat destruct (Rle_dec _ _); lra.
  - cbn. unfold DEFAULT_TOL, Rltb. destruct (Rlt_dec 0 (1 / 100)); [reflexivity|lra].
Qed.
(* losses of image paths are not negative *)
Lemma evaluate_nonneg o a b c : 0 <= obj_evaluate o a b c.
Proof.
  destruct o; cbn [obj_evaluate]; [| |lra].
  - unfold wall_evaluate. cbv zeta. unfold dot. nra.
  - unfold ris_evaluate. cbv zeta. try (apply Rplus_le_le_0_compat; first [apply pow2_ge_0|apply Rle_0_sqr]).
Qed.
Lemma path_loss_nonneg objs pts : 0 <= path_loss objs pts.
Proof.
  unfold path_loss. assert (G : forall m x, 0 <= x -> 0 <= fold_left
    (fun l '(i, obj) => l + obj_evaluate obj (row pts i) (row pts (i + 1)) (row pts (i + 2))) m x).
  { induction m as [|[i o] m IH]; intros x H; cbn [fold_left]; auto. apply IH. pose proof (evaluate_nonneg o (row pts i) (row pts (i + 1)) (row pts (i + 2))). lra. }
  apply G. lra.
Qed.
Lemma image_loss tx objs rx p : ImagePath_from tx objs rx = Ok p -> exists l, loss p = Fin l /\ 0 <= l.
Proof.
  unfold ImagePath_from. destruct objs as [|o objs].
  - intros E. inversion E. cbn. exists 0. split; auto. lra.
  - destruct (stack_leaves (o :: objs)); cbn [rbind]; [|discriminate]. destruct (as_walls (o :: objs)); [|discriminate].
    cbv zeta. intros E. inversion E. cbn [loss]. eexists. split; [reflexivity|]. apply path_loss_nonneg.
Qed.
Lemma facc_cap (P : prng) g s f tx rx :
  (forall p inter, exists v, f tx rx p inter = Fin v /\ 0 <= v) ->
  forall (work : list (list Z * option (key_t P))) z,
  facc P g s ClsImage (mkvalidargs DEFAULT_TOL DEFAULT_PATCH (Some true) default_akw) f work tx rx = Ok z ->
  exists r vals, z = Fin r /\
    Forall2 (fun c v => exists inter p, get_interacting_objects s (fst c) = Ok inter /\
       ImagePath_from tx inter rx = Ok p /\ f tx rx p inter = Fin v) work vals /\
    0 <= r <= 2 / 3 * fold_right Rplus 0 vals.
Proof.
  intros Hf work z. unfold facc.
  set (step := fun acc _ => _).
  assert (G : forall w a, 0 <= a -> forall z, fold_left step w (Ok (Fin a)) = Ok z ->
    exists r vals, z = Fin r /\ Forall2 (fun c v => exists inter p, get_interacting_objects s (fst c) = Ok inter /\
       ImagePath_from tx inter rx = Ok p /\ f tx rx p inter = Fin v) w vals /\
      0 <= r <= a + 2 / 3 * fold_right Rplus 0 vals).
  { induction w as [|[cand key] w IH]; intros a Ha y E; cbn [fold_left] in E.
    - inversion E. exists a, []. split; auto. split; [constructor|]. cbn. lra.
    - assert (NE : forall w e, fold_left step w (Err e) = Err e) by (clear; induction w as [|[c k] w IH]; intros e; cbn; auto).
      unfold step at 2 in E. cbn [rbind] in E.
      destruct (get_interacting_objects s cand) as [inter|e] eqn:Eg; cbn [rbind] in E; [|rewrite NE in E; discriminate].
      cbn [from_tx_objects_rx] in E.
      destruct (ImagePath_from tx inter rx) as [p|e] eqn:Ep; cbn [rbind] in E; [|rewrite NE in E; discriminate].
      destruct (is_valid _ _ _ _ _ _ _ _ _) as [t|e] eqn:Ev; cbn [rbind] in E; [|rewrite NE in E; discriminate].
      cbn [va_tol va_patch va_approx va_kw] in Ev.
      destruct (image_loss _ _ _ _ Ep) as (l & El & Pl).
      destruct (default_score _ _ _ _ _ _ _ _ Ev El Pl) as (r & -> & Rr). destruct (Hf p inter) as (v & Fv & Pv).
      rewrite Fv in E. cbn [to_f xmul xadd] in E.
      destruct (IH (a + r * v) ltac:(nra) y E) as (r' & vals & -> & Fo & Rr').
      exists r', (v :: vals). split; auto. split; [constructor; auto; exists inter, p; auto|]. cbn [fold_right]. nra. }
  intros E. destruct (G work 0 ltac:(lra) z E) as (r & vals & -> & Fo & B). exists r, vals. split; auto. split; auto. lra.
Qed.
