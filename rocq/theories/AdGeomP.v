(** The traced expressions have the values of the functions they trace. *)
From Coq Require Import Reals List Bool ZArith Arith Lia Lra Psatz.
From Verif Require Import Base BaseP LogicM GeometryM OptimizeM PathM UtilsM SceneM AdM SpecAd AdP.
Import ListNotations.
Open Scope R_scope.
Local Notation length := List.length.

Section Env.
Variable env : nat -> R.
Definition evv (u : evec) (p : vec) : Prop := eval env (fst u) = Fin (fst p) /\ eval env (snd u) = Fin (snd p).

Lemma ev_cvec p : evv (cvec p) p.
Proof. split; reflexivity. Qed.
Lemma ev_vadd u p v q : evv u p -> evv v q -> evv (e_vadd u v) (vadd p q).
Proof. intros [A B] [C D]. split; cbn; rewrite ?A, ?B, ?C, ?D; reflexivity. Qed.
Lemma ev_vsub u p v q : evv u p -> evv v q -> evv (e_vsub u v) (vsub p q).
Proof. intros [A B] [C D]. split; cbn; rewrite ?A, ?B, ?C, ?D; reflexivity. Qed.
Lemma ev_vscale e k u p : eval env e = Fin k -> evv u p -> evv (e_vscale e u) (vscale k p).
Proof. intros E [A B]. split; cbn; rewrite ?A, ?B, ?E; reflexivity. Qed.
Lemma ev_dot u p v q : evv u p -> evv v q -> eval env (e_dot u v) = Fin (dot p q).
Proof. intros [A B] [C D]. cbn. rewrite A, B, C, D. reflexivity. Qed.
Lemma ev_cross u p v q : evv u p -> evv v q -> eval env (e_cross u v) = Fin (cross p q).
Proof. intros [A B] [C D]. cbn. rewrite A, B, C, D. reflexivity. Qed.
Lemma dot_self_nonneg p : 0 <= dot p p.
Proof. unfold dot. nra. Qed.
Lemma ev_norm u p : evv u p -> eval env (e_norm u) = Fin (norm p).
Proof.
  intros H. unfold e_norm. cbn [eval]. rewrite (ev_dot _ _ _ _ H H). cbn [xsqrt]. unfold Rltb.
  pose proof (dot_self_nonneg p). destruct (Rlt_dec (dot p p) 0); [lra|reflexivity].
Qed.
Lemma ev_div a b x y : eval env a = Fin x -> eval env b = Fin y -> y <> 0 -> eval env (EDiv a b) = Fin (x / y).
Proof. intros A B N. cbn. rewrite A, B. cbn. unfold fdiv, Reqb. destruct (Req_EM_T y 0); [contradiction|reflexivity]. Qed.
Lemma ev_where0 l a b x y z : eval env l = Fin x -> eval env a = Fin y -> eval env b = Fin z ->
  eval env (EWhere IsZero l a b) = Fin (if Reqb x 0 then y else z).
Proof. intros A B C. cbn. rewrite A, B, C. cbn. destruct (Reqb x 0); reflexivity. Qed.
Lemma reqb_guard x : (if Reqb x 0 then 1 else x) <> 0.
Proof. unfold Reqb. destruct (Req_EM_T x 0); lra. Qed.
Lemma ev_normalize u p : evv u p -> evv (e_normalize u) (fst (normalize p)).
Proof.
  intros H. pose proof (ev_norm _ _ H) as Nm. destruct H as [A B].
  assert (W : eval env (EWhere IsZero (e_norm u) (C 1) (e_norm u)) = Fin (if Reqb (norm p) 0 then 1 else norm p))
    by (apply ev_where0; auto).
  unfold e_normalize, normalize. cbv zeta. cbn [fst snd]. split; cbn [fst snd]; apply ev_div; auto using reqb_guard.
Qed.
Definition evw (ew : ewall) (w : wall) : Prop := evv (fst ew) (w_origin w) /\ evv (snd ew) (w_dest w).
Lemma ev_cwall w : evw (cwall w) w.
Proof. split; apply ev_cvec. Qed.
Lemma ev_t ew w : evw ew w -> evv (e_t ew) (wall_t w).
Proof. intros [A B]. apply ev_vsub; auto. Qed.
Lemma ev_normal ew w : evw ew w -> evv (e_normal ew) (normal w).
Proof.
  intros H. apply ev_t in H. unfold e_normal, normal. cbv zeta. apply ev_normalize. destruct H as [A B].
  split; cbn [fst snd eval]; rewrite ?A, ?B; reflexivity.
Qed.
Lemma ev_c2p ew w u p : evw ew w -> evv u p -> eval env (e_c2p ew u) = Fin (wall_c2p w p).
Proof.
  intros H K. pose proof (ev_t _ _ H) as T. destruct H as [A B]. unfold e_c2p, wall_c2p. cbv zeta.
  apply ev_div; auto using reqb_guard; [apply ev_dot; auto; apply ev_vsub; auto|].
  apply ev_where0; auto; apply ev_dot; auto.
Qed.
Lemma ev_evaluate ew w u p v q x r : evw ew w -> evv u p -> evv v q -> evv x r ->
  eval env (e_evaluate ew u v x) = Fin (wall_evaluate w p q r).
Proof.
  intros H U V X. pose proof (ev_normal _ _ H) as Nn. unfold e_evaluate, wall_evaluate. cbv zeta.
  pose proof (ev_normalize _ _ (ev_vsub _ _ _ _ V U)) as I. pose proof (ev_normalize _ _ (ev_vsub _ _ _ _ X V)) as Rr.
  assert (Z : evv (e_vsub (e_normalize (e_vsub x v)) (e_vsub (e_normalize (e_vsub v u))
      (e_vscale (EMul (C 2) (e_dot (e_normalize (e_vsub v u)) (e_normal ew))) (e_normal ew))))
    (vsub (fst (normalize (vsub r q))) (vsub (fst (normalize (vsub q p)))
      (vscale (2 * dot (fst (normalize (vsub q p))) (normal w)) (normal w))))).
  { apply ev_vsub; auto. apply ev_vsub; auto. apply ev_vscale; auto. cbn [eval]. rewrite (ev_dot _ _ _ _ I Nn). reflexivity. }
  apply ev_dot; auto.
Qed.
Lemma ev_image_of ew w u p : evw ew w -> evv u p -> evv (e_image_of ew u) (image_of w p).
Proof.
  intros H U. pose proof (ev_normal _ _ H) as Nn. unfold e_image_of, image_of. cbv zeta.
  apply ev_vsub; auto. apply ev_vscale; auto. cbn [eval].
  rewrite (ev_dot _ _ _ _ (ev_vsub _ _ _ _ U (proj1 H)) Nn). reflexivity.
Qed.
Lemma ev_ris_evaluate ew w phi a v q x r : evw ew w -> evv v q -> evv x r ->
  eval env (e_ris_evaluate ew phi v x) = Fin (ris_evaluate w phi a q r).
Proof.
  intros H V X. pose proof (ev_normal _ _ H) as Nn. unfold e_ris_evaluate, ris_evaluate. cbv zeta.
  pose proof (ev_normalize _ _ (ev_vsub _ _ _ _ X V)) as Rr.
  assert (O : evv (ENeg (fst (e_normalize (e_vsub x v))), ENeg (snd (e_normalize (e_vsub x v)))) (vopp (fst (normalize (vsub r q))))).
  { destruct Rr as [A B]. split; cbn [fst snd eval]; rewrite ?A, ?B; reflexivity. }
  cbn [eval]. rewrite (ev_cross _ _ _ _ O Nn), (ev_dot _ _ _ _ O Nn). cbn. f_equal. ring.
Qed.

(** Activations. *)
Definition akw_of (k : eakw) : akw :=
  mkakw (ek_alpha k) (match ek_act k with Hard => hard_sigmoid | Sigm => sigmoid end).
Lemma ev_activation k e x : eval env e = x -> eval env (e_activation k e) = activation x (akw_of k).
Proof.
  intros E. unfold e_activation, activation, akw_of. cbn [ak_function ak_alpha]. destruct (ek_act k); cbn [eval]; rewrite E.
  - unfold hard_sigmoid, relu6. destruct (xadd (xmul (Fin (ek_alpha k)) x) (Fin 3)); cbn; unfold fdiv, Reqb;
      destruct (Req_EM_T 6 0); try lra; reflexivity.
  - reflexivity.
Qed.
Lemma ev_seg_test g k n d num den tol : eval env n = Fin num -> eval env d = Fin den ->
  TF (eval env (e_seg_test k n d tol)) = seg_test g num den tol (Some true) (akw_of k).
Proof.
  intros A B. unfold e_seg_test, seg_test, logical_and, greater_equal, less_equal. cbn [resolve]. cbv zeta.
  set (t := EWhere IsZero d (ECst PInf) (EDiv n (EWhere IsZero d (C 1) d))).
  assert (T : eval env t = (if Reqb den 0 then PInf else Fin (num / (if Reqb den 0 then 1 else den)))).
  { unfold t. cbn [eval]. rewrite A, B. cbn [holds]. destruct (Reqb den 0) eqn:E; auto. cbn. unfold fdiv. rewrite E. reflexivity. }
  cbn [eval to_f]. f_equal. f_equal; apply ev_activation; cbn [eval]; rewrite T; reflexivity.
Qed.
Lemma ev_segments_intersect g k P1 P2 P3 P4 p1 p2 p3 p4 tol : evv P1 p1 -> evv P2 p2 -> evv P3 p3 -> evv P4 p4 ->
  TF (eval env (e_segments_intersect k P1 P2 P3 P4 tol)) = segments_intersect g p1 p2 p3 p4 tol (Some true) (akw_of k).
Proof.
  intros H1 H2 H3 H4. pose proof (ev_vsub _ _ _ _ H2 H1) as [A1 A2]. pose proof (ev_vsub _ _ _ _ H3 H4) as [B1 B2].
  pose proof (ev_vsub _ _ _ _ H1 H3) as [C1 C2]. unfold e_segments_intersect, segments_intersect. cbv zeta.
  set (A := e_vsub P2 P1) in *. set (B := e_vsub P3 P4) in *. set (Cc := e_vsub P1 P3) in *.
  rewrite <- (ev_seg_test g k (ESub (EMul (snd B) (fst Cc)) (EMul (fst B) (snd Cc))) (ESub (EMul (snd A) (fst B)) (EMul (fst A) (snd B)))).
  2, 3: cbn [eval]; rewrite ?A1, ?A2, ?B1, ?B2, ?C1, ?C2; reflexivity.
  rewrite <- (ev_seg_test g k (ESub (EMul (fst A) (snd Cc)) (EMul (snd A) (fst Cc))) (ESub (EMul (snd A) (fst B)) (EMul (fst A) (snd B)))).
  2, 3: cbn [eval]; rewrite ?A1, ?A2, ?B1, ?B2, ?C1, ?C2; reflexivity.
  reflexivity.
Qed.
Lemma ev_intersects g k ew w r0 r1 p q patch : evw ew w -> evv r0 p -> evv r1 q ->
  TF (eval env (e_intersects k ew r0 r1 patch)) = wall_intersects g w p q patch (Some true) (akw_of k).
Proof.
  intros H A B. pose proof (ev_t _ _ H) as T. destruct H as [O Dd]. unfold e_intersects, wall_intersects.
  apply ev_segments_intersect; auto; [apply ev_vsub|apply ev_vadd]; auto; apply ev_vscale; auto.
Qed.
Lemma ev_contains g k e s : eval env e = Fin s -> TF (eval env (e_contains k e)) = wall_contains g s (Some true) (akw_of k).
Proof.
  intros E. unfold e_contains, wall_contains, logical_and, greater_equal, less_equal. cbn [resolve eval to_f]. f_equal.
  f_equal; apply ev_activation; cbn [eval]; rewrite E; reflexivity.
Qed.

(** The image method. *)
Notation evl := (Forall2 evv).
Lemma F2_length {A B} {P : A -> B -> Prop} l m : Forall2 P l m -> length l = length m.
Proof. induction 1; cbn; auto. Qed.
Lemma ev_images u p ws : evv u p -> evl (e_images u ws) (images p ws).
Proof.
  revert u p. induction ws as [|w ws IH]; intros u p H; cbn; constructor; auto using ev_image_of, ev_cwall.
Qed.
Lemma ev_backward u p w im q : evv u p -> evv im q -> evv (e_backward u (w, im)) (backward p (w, q)).
Proof.
  intros U I. pose proof (ev_normal _ _ (ev_cwall w)) as Nn. pose proof (ev_cvec (w_origin w)) as O.
  unfold e_backward, backward. cbv zeta.
  pose proof (ev_vsub _ _ _ _ U I) as UI. pose proof (ev_dot _ _ _ _ UI Nn) as UN.
  pose proof (ev_dot _ _ _ _ (ev_vsub _ _ _ _ O U) Nn) as VN. destruct UI as [U1 U2].
  change (fst (cwall w)) with (cvec (w_origin w)). change (origin w) with (w_origin w).
  set (un := e_dot (e_vsub u im) (e_normal (cwall w))) in *. set (vn := e_dot (e_vsub (cvec (w_origin w)) u) (e_normal (cwall w))) in *.
  apply ev_vadd; auto. unfold evv. cbn [fst snd eval]. rewrite U1, U2, UN, VN. cbn [holds xmul].
  destruct (Reqb (dot (vsub p q) (normal w)) 0) eqn:E; cbn [fst snd xdiv]; auto.
  unfold fdiv. rewrite E. auto.
Qed.
Lemma ev_backward_scan rx r ws es qs : evv rx r -> evl es qs ->
  evv (fst (e_backward_scan rx (combine ws es))) (fst (backward_scan r (combine ws qs))) /\
  evl (snd (e_backward_scan rx (combine ws es))) (snd (backward_scan r (combine ws qs))).
Proof.
  intros H. revert es qs. induction ws as [|w ws IH]; intros es qs L; cbn; [auto|].
  destruct L as [|e q es qs E L]; cbn; [auto|].
  destruct (IH _ _ L) as [A B]. destruct (e_backward_scan rx (combine ws es)), (backward_scan r (combine ws qs)). cbn [fst snd] in *.
  split; [|constructor; auto]; apply ev_backward; auto.
Qed.
Lemma ev_image_points tx t ws rx r : evv tx t -> evv rx r -> evl (e_image_points tx ws rx) (image_points t ws r).
Proof.
  intros T H. constructor; auto. apply Forall2_app; [|constructor; auto].
  apply ev_backward_scan; auto. apply ev_images; auto.
Qed.
Lemma ev_row es ps i : evl es ps -> evv (e_row es i) (row ps i).
Proof.
  intros L. unfold e_row, row. rewrite (F2_length _ _ L). generalize (Nat.min i (length ps - 1)). clear i.
  induction L; intros i; destruct i; cbn; auto; apply ev_cvec.
Qed.
Lemma ev_path_length eps es ps : evl es ps -> eval env (e_path_length eps es) = Fin (path_length eps ps).
Proof.
  intros L. unfold e_path_length, path_length. cbv zeta.
  assert (Df : evl (e_diffs es) (diffs ps)).
  { induction L as [|e p es ps E L IH]; cbn; [constructor|]. destruct L as [|e' p' es ps E' L]; [constructor|].
    constructor; auto. apply ev_vsub; auto. }
  induction Df as [|e p es' ps' E Df IH]; [reflexivity|].
  cbn [map fold_right eval]. rewrite IH. erewrite ev_norm with (p := (fst p + eps, snd p + eps)); [reflexivity|].
  destruct E as [A B]. split; cbn; rewrite ?A, ?B; reflexivity.
Qed.
Lemma ev_received_power eps tx rx es ps l inter rc h : evl es ps ->
  eval env (e_received_power eps es rc h) = received_power eps tx rx (mkpath ps l) inter rc h.
Proof.
  intros L. unfold e_received_power, received_power, Path_length. cbn [xys]. cbv zeta.
  rewrite (F2_length _ _ L). cbn [eval]. rewrite (ev_path_length eps _ _ L). reflexivity.
Qed.
Lemma ev_path_loss objs es ps : evl es ps -> eval env (e_path_loss objs es) = Fin (path_loss objs ps).
Proof.
  intros L. unfold e_path_loss, path_loss.
  assert (G : forall l e a, eval env e = Fin a ->
    eval env (fold_left (fun l '(i, obj) => EAdd l (e_obj_evaluate obj (e_row es i) (e_row es (i + 1)) (e_row es (i + 2)))) l e)
    = Fin (fold_left (fun l '(i, obj) => l + obj_evaluate obj (row ps i) (row ps (i + 1)) (row ps (i + 2))) l a)).
  { induction l as [|[i o] l IH]; intros e a E; cbn; auto. apply IH. cbn [eval]. rewrite E.
    assert (Q : eval env (e_obj_evaluate o (e_row es i) (e_row es (i + 1)) (e_row es (i + 2))) =
       Fin (obj_evaluate o (row ps i) (row ps (i + 1)) (row ps (i + 2)))).
    { destruct o; cbn [e_obj_evaluate obj_evaluate].
      - apply ev_evaluate; auto using ev_cwall, ev_row.
      - apply ev_ris_evaluate; auto using ev_cwall, ev_row.
      - reflexivity. }
    rewrite Q. reflexivity. }
  apply G. reflexivity.
Qed.

(** Validity. *)
Lemma ev_on_objects g k objs es ps l : evl es ps ->
  TF (eval env (e_on_objects k es objs)) = on_objects g (mkpath ps l) objs (Some true) (akw_of k).
Proof.
  intros L. unfold e_on_objects, on_objects. cbn [true_value resolve xys].
  change (true_value g (Some true)) with (TF (Fin 1)).
  assert (G : forall m e a, TF (eval env e) = a ->
    TF (eval env (fold_left (fun contains '(i, obj) => EMin contains (e_obj_contains k obj (e_row es (i + 1)))) m e)) =
    fold_left (fun contains '(i, obj) => logical_and g contains
       (obj_contains g obj (obj_c2p obj (row ps (i + 1))) (Some true) (akw_of k)) (Some true)) m a).
  { induction m as [|[i o] m IH]; intros e a E; cbn; auto. apply IH. subst a.
    assert (Q : TF (eval env (e_obj_contains k o (e_row es (i + 1)))) = obj_contains g o (obj_c2p o (row ps (i + 1))) (Some true) (akw_of k)).
    { destruct o; cbn [e_obj_contains obj_contains obj_c2p nth]; try (apply ev_contains; apply ev_c2p; auto using ev_cwall, ev_row).
      reflexivity. }
    rewrite <- Q. reflexivity. }
  apply G. reflexivity.
Qed.
Lemma ev_obj_intersects g k o r0 r1 p q patch : evv r0 p -> evv r1 q ->
  TF (eval env (e_obj_intersects k o r0 r1 patch)) = obj_intersects g o p q patch (Some true) (akw_of k).
Proof.
  intros A B. destruct o; cbn [e_obj_intersects obj_intersects]; try (apply ev_intersects; auto using ev_cwall). reflexivity.
Qed.
Lemma ev_iwo g k objs cand es ps l patch : evl es ps -> (length ps <= length cand + 2)%nat ->
  intersects_with_objects g (mkpath ps l) objs cand patch (Some true) (akw_of k) =
  Ok (TF (eval env (e_intersects_with_objects k es objs cand patch))).
Proof.
  intros L Hl. unfold intersects_with_objects, e_intersects_with_objects. cbv zeta. cbn [xys].
  replace (Nat.ltb (length cand + 1) (length ps - 1)) with false by (symmetry; apply Nat.ltb_ge; lia). cbn [andb].
  rewrite (F2_length _ _ L). f_equal. change (false_value g (Some true)) with (TF (Fin 0)).
  change (TF (Fin 0)) with (TF (eval env (C 0))). generalize (C 0). generalize (seq 0 (length ps - 1)).
  induction l0 as [|i l0 IH]; intros e; cbn [fold_left]; auto. rewrite <- IH. f_equal.
  generalize (enumerate objs). clear IH. intros m. revert e.
  induction m as [|[j o] m IH]; intros e; cbn [fold_left]; auto. rewrite <- IH. f_equal.
  destruct (_ || _)%bool; auto. rewrite <- (ev_obj_intersects g k o _ _ _ _ patch (ev_row _ _ i L) (ev_row _ _ (i + 1) L)). reflexivity.
Qed.
Lemma ev_nan_to_num e : eval env (e_nan_to_num e) = xnan_to_num (eval env e).
Proof.
  unfold e_nan_to_num. cbv zeta. cbn [eval]. destruct (eval env e); reflexivity.
Qed.
Lemma ev_is_valid g k es ps le l objs cand inter tol patch : evl es ps -> eval env le = l ->
  (length ps <= length cand + 2)%nat ->
  is_valid g (mkpath ps l) objs cand inter tol patch (Some true) (akw_of k) =
  Ok (TF (eval env (e_is_valid k es le objs cand inter tol patch))).
Proof.
  intros L E Hl. unfold is_valid. rewrite (ev_iwo g k objs cand es ps l patch L Hl). cbn [rbind].
  unfold logical_all, logical_not, less. cbn [resolve]. rewrite <- (ev_on_objects g k inter es ps l L).
  cbn [all_bools forallb andb fold_left to_f rbind tnan_to_num loss]. unfold e_is_valid. rewrite ev_nan_to_num. cbn [eval].
  do 3 f_equal. f_equal. symmetry. apply ev_activation. cbn [eval]. rewrite E. reflexivity.
Qed.
Lemma stack_walls w ws : exists s, stack_leaves (map OWall (w :: ws)) = Ok s.
Proof.
  unfold stack_leaves. cbn [map].
  match goal with |- context [if ?b then _ else _] => replace b with true end; eauto.
  symmetry. apply forallb_forall. intros o H. change (OWall w :: map OWall ws) with (map OWall (w :: ws)) in H. apply in_map_iff in H. destruct H as (x & <- & _). reflexivity.
Qed.
Lemma as_walls_map ws : as_walls (map OWall ws) = Some ws.
Proof. induction ws as [|w ws IH]; cbn; auto. rewrite IH. reflexivity. Qed.
Lemma image_points_length tx ws rx : length (image_points tx ws rx) = (length ws + 2)%nat.
Proof.
  unfold image_points. cbn. rewrite app_length. cbn.
  assert (forall xs, length (snd (backward_scan rx xs)) = length xs).
  { induction xs as [|x xs IH]; cbn; auto. destruct (backward_scan rx xs). cbn in *. lia. }
  rewrite H, combine_length.
  assert (forall ws p, length (images p ws) = length ws) by (induction ws0; cbn; auto).
  rewrite H0. lia.
Qed.
End Env.

(** One candidate, then the whole accumulation. *)
Definition rp_fun (eps rc h : R) : pathfun := fun tx rx p inter => received_power eps tx rx p inter rc h.
Theorem facc_traced (P : prng) env g s k eps rc h tol patch (work : list (list Z * option (key_t P))) wss tx rx t r :
  evv env tx t -> evv env rx r ->
  Forall2 (fun x ws => get_interacting_objects s (fst x) = Ok (map OWall ws)) work wss ->
  facc P g s ClsImage (mkvalidargs tol patch (Some true) (akw_of k)) (rp_fun eps rc h) work t r =
  Ok (eval env (e_facc k eps rc h tol patch (objects s) (combine (map fst work) wss) tx rx)).
Proof.
  intros T Rr F. unfold facc, e_facc. change (Ok (Fin 0)) with (Ok (eval env (C 0))). generalize (C 0) as acc.
  induction F as [|[cand key] ws work wss E F IH]; intros acc; cbn [fold_left combine map fst]; auto.
  rewrite <- IH. f_equal. cbn [fst] in E. rewrite E. cbn [rbind].
  assert (LC : length cand = length ws).
  { clear - E. unfold get_interacting_objects in E. rewrite <- (map_length OWall ws). revert E.
    assert (G : forall (A : Type) (l : list (res A)) y, rseq l = Ok y -> length l = length y).
    { intros A. induction l as [|x l IH]; cbn; intros y H; [inversion H; reflexivity|].
      destruct x; cbn in H; try discriminate. destruct (rseq l) eqn:Q; cbn in H; try discriminate.
      inversion H. cbn. f_equal. apply IH. reflexivity. }
    destruct (_ || _)%bool; intros E; apply G in E; rewrite map_length in E; exact E. }
  cbn [from_tx_objects_rx va_tol va_patch va_approx va_kw]. unfold e_term.
  pose proof (ev_image_points env tx t ws rx r T Rr) as L.
  assert (V : forall le l, eval env le = l ->
    is_valid g (mkpath (image_points t ws r) l) (objects s) cand (map OWall ws) tol patch (Some true) (akw_of k) =
    Ok (TF (eval env (e_is_valid k (e_image_points tx ws rx) le (objects s) cand (map OWall ws) tol patch)))).
  { intros le l El. apply ev_is_valid; auto. rewrite image_points_length. lia. }
  destruct ws as [|w ws].
  - change [t; r] with (image_points t [] r). cbn [ImagePath_from map rbind]. change [t; r] with (image_points t [] r). change (@nil object) with (map OWall []) at 1. rewrite (V (C 0) (Fin 0) eq_refl). cbn [rbind to_f eval].
    unfold rp_fun. rewrite (ev_received_power env eps t r _ _ (Fin 0) [] rc h L). reflexivity.
  - unfold ImagePath_from. cbn [map]. destruct (stack_walls w ws) as [st Es]. cbn [map] in Es. rewrite Es. cbn [rbind].
    pose proof (as_walls_map (w :: ws)) as Aw. cbn [map] in Aw. rewrite Aw. cbn [rbind]. change (OWall w :: map OWall ws) with (map OWall (w :: ws)).
    rewrite (V _ _ (ev_path_loss env (map OWall (w :: ws)) _ _ L)). cbn [rbind to_f eval].
    unfold rp_fun. rewrite (ev_received_power env eps t r _ _ (Fin (path_loss (map OWall (w :: ws)) (image_points t (w :: ws) r))) (map OWall (w :: ws)) rc h L). reflexivity.
Qed.
