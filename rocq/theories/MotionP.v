(** Proofs about moving a whole scene: geometry. *)
From Coq Require Import Reals List Bool ZArith String Lia Lra Psatz FunctionalExtensionality.
From Verif Require Import Base BaseP LogicM GeometryM SpecGeometry VecP ShapeP OptimizeM PathM CandidatesM
  SceneM SpecScene SpecRun SpecMotion.
Import ListNotations.
Open Scope R_scope.
Local Notation length := List.length.

(** ** Isometries of the plane are affine. *)
Definition form (c s e ox oy : R) (q : vec) : vec :=
  (ox + (c * fst q - e * s * snd q), oy + (s * fst q + e * c * snd q)).
Lemma dist2 p q : dist p q * dist p q = (fst p - fst q) ^ 2 + (snd p - snd q) ^ 2.
Proof. unfold dist. apply sqrt_sqrt. apply Rplus_le_le_0_compat; apply pow2_ge_0. Qed.
Lemma iso2 f p q : isometry f ->
  (fst (f p) - fst (f q)) ^ 2 + (snd (f p) - snd (f q)) ^ 2 = (fst p - fst q) ^ 2 + (snd p - snd q) ^ 2.
Proof. intro H. rewrite <- !dist2. rewrite H. reflexivity. Qed.
Lemma ortho_coords ux uy vx vy zx zy x y : ux * ux + uy * uy = 1 -> vx * vx + vy * vy = 1 -> ux * vx + uy * vy = 0 ->
  zx * ux + zy * uy = x -> zx * vx + zy * vy = y -> zx = x * ux + y * vx /\ zy = x * uy + y * vy.
Proof.
  intros U V O X Y.
  assert (D : (ux * vy - uy * vx) * (ux * vy - uy * vx) = 1).
  { replace ((ux * vy - uy * vx) * (ux * vy - uy * vx)) with
      ((ux * ux + uy * uy) * (vx * vx + vy * vy) - (ux * vx + uy * vy) * (ux * vx + uy * vy)) by ring. rewrite U, V, O. ring. }
  set (d := ux * vy - uy * vx) in *.
  (* rows are orthonormal too *)
  assert (R1 : ux * ux + vx * vx = 1 /\ uy * uy + vy * vy = 1 /\ ux * uy + vx * vy = 0).
  { assert (A1 : vx = - (d * uy) ).
    { assert (d * (vx + d * uy) = 0 -> d <> 0 -> vx = - (d * uy)).
      { intros E N. apply Rmult_integral in E. destruct E; [contradiction|lra]. }
      apply H; [|intro Z; rewrite Z in D; lra].
      replace (d * (vx + d * uy)) with (d * vx + (d * d) * uy) by ring. rewrite D. unfold d.
      replace ((ux * vy - uy * vx) * vx + 1 * uy) with ((ux * vx) * vy - uy * (vx * vx) + uy) by ring.
      replace (ux * vx) with (- (uy * vy)) by lra. 
      replace (- (uy * vy) * vy - uy * (vx * vx) + uy) with (uy - uy * (vx * vx + vy * vy)) by ring. rewrite V. ring. }
    assert (A2 : vy = d * ux).
    { assert (d * (vy - d * ux) = 0 -> d <> 0 -> vy = d * ux).
      { intros E N. apply Rmult_integral in E. destruct E; [contradiction|lra]. }
      apply H; [|intro Z; rewrite Z in D; lra].
      replace (d * (vy - d * ux)) with (d * vy - (d * d) * ux) by ring. rewrite D. unfold d.
      replace ((ux * vy - uy * vx) * vy - 1 * ux) with (ux * (vy * vy) - (uy * vy) * vx - ux) by ring.
      replace (uy * vy) with (- (ux * vx)) by lra.
      replace (ux * (vy * vy) - - (ux * vx) * vx - ux) with (ux * (vx * vx + vy * vy) - ux) by ring. rewrite V. ring. }
    clearbody d. rewrite A1, A2.
    split; [|split].
    - replace (ux * ux + - (d * uy) * - (d * uy)) with (ux * ux + (d * d) * (uy * uy)) by ring. rewrite D. lra.
    - replace (uy * uy + d * ux * (d * ux)) with (uy * uy + (d * d) * (ux * ux)) by ring. rewrite D. lra.
    - replace (ux * uy + - (d * uy) * (d * ux)) with (ux * uy - (d * d) * (ux * uy)) by ring. rewrite D. lra. }
  destruct R1 as (R1 & R2 & R3). rewrite <- X, <- Y. split.
  - replace ((zx * ux + zy * uy) * ux + (zx * vx + zy * vy) * vx) with (zx * (ux * ux + vx * vx) + zy * (ux * uy + vx * vy)) by ring.
    rewrite R1, R3. ring.
  - replace ((zx * ux + zy * uy) * uy + (zx * vx + zy * vy) * vy) with (zx * (ux * uy + vx * vy) + zy * (uy * uy + vy * vy)) by ring.
    rewrite R2, R3. ring.
Qed.
Lemma iso_form f : isometry f -> exists c s e ox oy, c * c + s * s = 1 /\ (e = 1 \/ e = -1) /\ forall q, f q = form c s e ox oy q.
Proof.
  intro H. set (o := f (0,0)). set (ux := fst (f (1,0)) - fst o). set (uy := snd (f (1,0)) - snd o).
  set (vx := fst (f (0,1)) - fst o). set (vy := snd (f (0,1)) - snd o).
  assert (U : ux * ux + uy * uy = 1).
  { pose proof (iso2 f (1,0) (0,0) H) as E. cbn [fst snd] in E. unfold ux, uy, o. nra. }
  assert (V : vx * vx + vy * vy = 1).
  { pose proof (iso2 f (0,1) (0,0) H) as E. cbn [fst snd] in E. unfold vx, vy, o. nra. }
  assert (O : ux * vx + uy * vy = 0).
  { pose proof (iso2 f (1,0) (0,1) H) as E. cbn [fst snd] in E.
    assert (E' : (ux - vx) ^ 2 + (uy - vy) ^ 2 = 2).
    { unfold ux, uy, vx, vy. etransitivity; [|etransitivity; [exact E|ring]]. ring. }
    nra. }
  assert (Q : forall q, f q = (fst o + (fst q * ux + snd q * vx), snd o + (fst q * uy + snd q * vy))).
  { intro q. set (zx := fst (f q) - fst o). set (zy := snd (f q) - snd o).
    pose proof (iso2 f q (0,0) H) as E0. pose proof (iso2 f q (1,0) H) as E1. pose proof (iso2 f q (0,1) H) as E2.
    fold o in E0. cbn [fst snd] in E0, E1, E2. fold zx zy in E0.
    assert (X : zx * ux + zy * uy = fst q).
    { assert (E' : (zx - ux) ^ 2 + (zy - uy) ^ 2 = (fst q - 1) ^ 2 + (snd q - 0) ^ 2).
      { unfold zx, zy, ux, uy. etransitivity; [|exact E1]. ring. }
      nra. }
    assert (Y : zx * vx + zy * vy = snd q).
    { assert (E' : (zx - vx) ^ 2 + (zy - vy) ^ 2 = (fst q - 0) ^ 2 + (snd q - 1) ^ 2).
      { unfold zx, zy, vx, vy. etransitivity; [|exact E2]. ring. }
      nra. }
    destruct (ortho_coords ux uy vx vy zx zy (fst q) (snd q) U V O X Y) as [A B].
    rewrite (surjective_pairing (f q)). f_equal; [rewrite <- A|rewrite <- B]; unfold zx, zy; ring. }
  set (e := ux * vy - uy * vx).
  assert (D : e * e = 1).
  { unfold e. replace ((ux * vy - uy * vx) * (ux * vy - uy * vx)) with
      ((ux * ux + uy * uy) * (vx * vx + vy * vy) - (ux * vx + uy * vy) * (ux * vx + uy * vy)) by ring. rewrite U, V, O. ring. }
  destruct (ortho_coords ux uy (- uy) ux vx vy 0 e) as [A B]; [exact U|nra|ring|lra|unfold e; ring|].
  exists ux, uy, e, (fst o), (snd o). split; [exact U|]. split.
  - assert (Z : (e - 1) * (e + 1) = 0) by nra. apply Rmult_integral in Z. destruct Z; [left|right]; lra.
  - intro q. rewrite Q. unfold form. f_equal; [rewrite A at 1|rewrite B at 1]; ring.
Qed.
Lemma direct_form f : direct f -> exists c s ox oy, c * c + s * s = 1 /\ forall q, f q = form c s 1 ox oy q.
Proof.
  intros [I O]. destruct (iso_form f I) as (c & s & e & ox & oy & C & E & F). exists c, s, ox, oy. split; [auto|].
  destruct E as [-> | ->]; [auto|]. exfalso. specialize (O (0,0) (1,0) (0,1)). rewrite !F in O.
  unfold orientation, form in O. cbn [fst snd] in O. nra.
Qed.
Lemma form_iso c s e ox oy : c * c + s * s = 1 -> e = 1 \/ e = -1 -> isometry (form c s e ox oy).
Proof.
  intros C E p q. unfold dist. f_equal. unfold form. cbn [fst snd].
  replace ((ox + (c * fst p - e * s * snd p) - (ox + (c * fst q - e * s * snd q))) ^ 2 +
    (oy + (s * fst p + e * c * snd p) - (oy + (s * fst q + e * c * snd q))) ^ 2)
    with ((c * c + s * s) * ((fst p - fst q) ^ 2 + (e * e) * (snd p - snd q) ^ 2)) by ring.
  rewrite C. destruct E as [-> | ->]; ring.
Qed.
Lemma form_direct c s ox oy : c * c + s * s = 1 -> direct (form c s 1 ox oy).
Proof.
  intro C. split; [apply form_iso; auto|]. intros p q r. unfold orientation, form. cbn [fst snd].
  match goal with |- ?l = ?r => replace l with ((c * c + s * s) * r) by ring end. rewrite C. ring.
Qed.

Section Form.
  Variables (c s e ox oy : R).
  Hypothesis C : c * c + s * s = 1.
  Hypothesis E : e = 1 \/ e = -1.
  Let f := form c s e ox oy.
  Definition M (v : vec) : vec := (c * fst v - e * s * snd v, s * fst v + e * c * snd v).
  Lemma e2 : e * e = 1.
  Proof. destruct E as [-> | ->]; ring. Qed.
  Lemma f_sub p q : vsub (f p) (f q) = M (vsub p q).
  Proof. unfold f, form, M, vsub. cbn [fst snd]. apply vec_eq; cbn; ring. Qed.
  Lemma f_add p v : vadd (f p) (M v) = f (vadd p v).
  Proof. unfold f, form, M, vadd. cbn [fst snd]. apply vec_eq; cbn; ring. Qed.
  Lemma f_subv p v : vsub (f p) (M v) = f (vsub p v).
  Proof. unfold f, form, M, vsub. cbn [fst snd]. apply vec_eq; cbn; ring. Qed.
  Lemma M_scale k v : vscale k (M v) = M (vscale k v).
  Proof. unfold M, vscale. cbn [fst snd]. apply vec_eq; cbn; ring. Qed.
  Lemma M_sub u v : vsub (M u) (M v) = M (vsub u v).
  Proof. unfold M, vsub. cbn [fst snd]. apply vec_eq; cbn; ring. Qed.
  Lemma M_opp u : vopp (M u) = M (vopp u).
  Proof. unfold M, vopp. cbn [fst snd]. apply vec_eq; cbn; ring. Qed.
  Lemma M_dot u v : dot (M u) (M v) = dot u v.
  Proof.
    unfold dot, M. cbn [fst snd].
    match goal with |- ?l = _ => replace l with ((c * c + s * s) * (fst u * fst v + (e * e) * (snd u * snd v))) by ring end.
    rewrite C, e2. ring.
  Qed.
  Lemma M_cross u v : cross (M u) (M v) = e * cross u v.
  Proof.
    unfold cross, M. cbn [fst snd].
    match goal with |- ?l = _ => replace l with ((c * c + s * s) * (e * (fst u * snd v - snd u * fst v))) by ring end.
    rewrite C. ring.
  Qed.
  Lemma M_norm v : norm (M v) = norm v.
  Proof. unfold norm. rewrite M_dot. reflexivity. Qed.
  Lemma M_normalize v : normalize (M v) = (M (fst (normalize v)), snd (normalize v)).
  Proof.
    unfold normalize. rewrite M_norm. cbn zeta. cbn [fst snd]. set (l := if Reqb (norm v) 0 then 1 else norm v).
    apply (f_equal2 pair); [|reflexivity]. unfold M. cbn [fst snd]. apply vec_eq; cbn [fst snd]; unfold Rdiv; ring.
  Qed.
  Lemma normalize_scale_e v : fst (normalize (vscale e v)) = vscale e (fst (normalize v)).
  Proof.
    assert (N : norm (vscale e v) = norm v).
    { unfold norm, dot, vscale. cbn [fst snd]. f_equal.
      replace (e * fst v * (e * fst v) + e * snd v * (e * snd v)) with ((e * e) * (fst v * fst v + snd v * snd v)) by ring.
      rewrite e2. ring. }
    unfold normalize. rewrite N. cbn zeta. cbn [fst snd]. unfold vscale. cbn [fst snd]. apply vec_eq; cbn [fst snd]; unfold Rdiv; ring.
  Qed.
  Lemma t_move w : wall_t (move_wall f w) = M (wall_t w).
  Proof. unfold wall_t, origin, dest, move_wall. cbn [w_origin w_dest]. apply f_sub. Qed.
  Lemma normal_move w : normal (move_wall f w) = vscale e (M (normal w)).
  Proof.
    unfold normal. rewrite t_move. cbn zeta.
    assert (X : (snd (M (wall_t w)), - fst (M (wall_t w))) = vscale e (M (snd (wall_t w), - fst (wall_t w)))).
    { unfold M, vscale. cbn [fst snd]. pose proof e2 as Q. apply vec_eq; cbn [fst snd].
      - replace (e * (c * snd (wall_t w) - e * s * - fst (wall_t w))) with (e * c * snd (wall_t w) + (e * e) * s * fst (wall_t w)) by ring.
        rewrite Q. ring.
      - replace (e * (s * snd (wall_t w) + e * c * - fst (wall_t w))) with (e * s * snd (wall_t w) - (e * e) * c * fst (wall_t w)) by ring.
        rewrite Q. ring. }
    etransitivity; [apply (f_equal (fun v => fst (normalize v)) X)|]. rewrite normalize_scale_e, M_normalize. reflexivity.
  Qed.
  Lemma image_move w p : image_of (move_wall f w) (f p) = f (image_of w p).
  Proof.
    unfold image_of. cbn zeta. rewrite normal_move. unfold origin. cbn [move_wall w_origin]. rewrite f_sub.
    set (i := vsub p (w_origin w)). set (n := normal w).
    assert (X : vscale (2 * dot (M i) (vscale e (M n))) (vscale e (M n)) = M (vscale (2 * dot i n) n)).
    { rewrite <- M_scale. assert (D : dot (M i) (vscale e (M n)) = e * dot i n).
      { rewrite <- (M_dot i n). unfold dot, vscale. cbn [fst snd]. ring. }
      rewrite D. unfold vscale. cbn [fst snd]. pose proof e2 as Q.
      apply vec_eq; cbn [fst snd].
      - replace (2 * (e * dot i n) * (e * fst (M n))) with ((e * e) * (2 * dot i n * fst (M n))) by ring. rewrite Q. ring.
      - replace (2 * (e * dot i n) * (e * snd (M n))) with ((e * e) * (2 * dot i n * snd (M n))) by ring. rewrite Q. ring. }
    rewrite X. apply f_subv.
  Qed.
  Lemma c2p_move w p : wall_c2p (move_wall f w) (f p) = wall_c2p w p.
  Proof.
    unfold wall_c2p. rewrite t_move. unfold origin. cbn [move_wall w_origin]. rewrite f_sub, !M_dot. reflexivity.
  Qed.
  Lemma p2c_move w t : wall_p2c (move_wall f w) t = f (wall_p2c w t).
  Proof. unfold wall_p2c. rewrite t_move. unfold origin. cbn [move_wall w_origin]. rewrite M_scale, f_add. reflexivity. Qed.
  Lemma evaluate_move w a b d : wall_evaluate (move_wall f w) (f a) (f b) (f d) = wall_evaluate w a b d.
  Proof.
    unfold wall_evaluate. cbn zeta. rewrite normal_move, !f_sub, !M_normalize. cbn [fst].
    set (i := fst (normalize (vsub b a))). set (r := fst (normalize (vsub d b))). set (n := normal w).
    assert (X : vscale (2 * dot (M i) (vscale e (M n))) (vscale e (M n)) = M (vscale (2 * dot i n) n)).
    { rewrite <- M_scale. assert (D : dot (M i) (vscale e (M n)) = e * dot i n).
      { rewrite <- (M_dot i n). unfold dot, vscale. cbn [fst snd]. ring. }
      rewrite D. unfold vscale. cbn [fst snd]. pose proof e2 as Q.
      apply vec_eq; cbn [fst snd].
      - replace (2 * (e * dot i n) * (e * fst (M n))) with ((e * e) * (2 * dot i n * fst (M n))) by ring. rewrite Q. ring.
      - replace (2 * (e * dot i n) * (e * snd (M n))) with ((e * e) * (2 * dot i n * snd (M n))) by ring. rewrite Q. ring. }
    rewrite X, M_sub, M_sub, M_dot. reflexivity.
  Qed.
  Lemma ris_move w phi a b d : e = 1 -> ris_evaluate (move_wall f w) phi (f a) (f b) (f d) = ris_evaluate w phi a b d.
  Proof.
    intro E1. unfold ris_evaluate. cbn zeta. rewrite normal_move, f_sub, M_normalize. cbn [fst].
    rewrite M_opp. rewrite (M_scale e). rewrite M_cross, M_dot.
    assert (X : vscale e (normal w) = normal w).
    { rewrite E1. unfold vscale. rewrite (surjective_pairing (normal w)) at 3. f_equal; ring. }
    rewrite X. rewrite E1. rewrite Rmult_1_l. reflexivity.
  Qed.
  Lemma backward_move w q i : backward (f q) (move_wall f w, f i) = f (backward q (w, i)).
  Proof.
    unfold backward. rewrite normal_move. unfold origin. cbn [move_wall w_origin]. rewrite !f_sub.
    set (n := normal w). set (u := vsub q i). set (v := vsub (w_origin w) q).
    assert (D : forall x, dot (M x) (vscale e (M n)) = e * dot x n).
    { intro x. rewrite <- (M_dot x n). unfold dot, vscale. cbn [fst snd]. ring. }
    rewrite !D. pose proof e2 as Q.
    assert (Z : Reqb (e * dot u n) 0 = Reqb (dot u n) 0).
    { unfold Reqb. destruct (Req_EM_T (dot u n) 0) as [A|A], (Req_EM_T (e * dot u n) 0) as [B|B]; auto; exfalso.
      - apply B. rewrite A. ring.
      - apply A. apply Rmult_integral in B. destruct B; [nra|auto]. }
    rewrite Z. rewrite <- f_add. f_equal. unfold Reqb. destruct (Req_EM_T (dot u n) 0) as [A|A].
    - unfold M. cbn [fst snd]. apply vec_eq; cbn; ring.
    - unfold M. cbn [fst snd]. assert (e <> 0) by (intro; nra). apply vec_eq; cbn [fst snd]; field; auto.
  Qed.
  Lemma seg_test_scale g num den tol a k : seg_test g (e * num) (e * den) tol a k = seg_test g num den tol a k.
  Proof.
    unfold seg_test. assert (e <> 0) by (pose proof e2; intro; nra).
    assert (Z : Reqb (e * den) 0 = Reqb den 0).
    { unfold Reqb. destruct (Req_EM_T den 0) as [A|A], (Req_EM_T (e * den) 0) as [B|B]; auto; exfalso.
      - apply B. rewrite A. ring.
      - apply Rmult_integral in B. destruct B; auto. }
    rewrite Z. unfold Reqb. destruct (Req_EM_T den 0) as [A|A]; [reflexivity|].
    replace (e * num / (e * den)) with (num / den) by (field; auto). reflexivity.
  Qed.
  Lemma segments_move g P1 P2 P3 P4 tol a k :
    segments_intersect g (f P1) (f P2) (f P3) (f P4) tol a k = segments_intersect g P1 P2 P3 P4 tol a k.
  Proof.
    unfold segments_intersect. rewrite !f_sub. cbn zeta.
    set (A := vsub P2 P1). set (B := vsub P3 P4). set (D := vsub P1 P3).
    assert (X1 : snd (M B) * fst (M D) - fst (M B) * snd (M D) = e * (snd B * fst D - fst B * snd D)).
    { pose proof (M_cross D B) as Q. unfold cross in Q. lra. }
    assert (X2 : fst (M A) * snd (M D) - snd (M A) * fst (M D) = e * (fst A * snd D - snd A * fst D)).
    { pose proof (M_cross A D) as Q. unfold cross in Q. lra. }
    assert (X3 : snd (M A) * fst (M B) - fst (M A) * snd (M B) = e * (snd A * fst B - fst A * snd B)).
    { pose proof (M_cross B A) as Q. unfold cross in Q. lra. }
    rewrite X1, X2, X3, !seg_test_scale. reflexivity.
  Qed.
  Lemma intersects_move g w r0 r1 patch a k :
    wall_intersects g (move_wall f w) (f r0) (f r1) patch a k = wall_intersects g w r0 r1 patch a k.
  Proof.
    unfold wall_intersects. rewrite t_move. unfold origin, dest. cbn [move_wall w_origin w_dest].
    rewrite M_scale, f_subv, f_add. apply segments_move.
  Qed.
  Lemma length_move pts : path_length 0 (map f pts) = path_length 0 pts.
  Proof.
    induction pts as [|p [|q l] IH]; auto.
    change (map f (p :: q :: l)) with (f p :: f q :: map f l). rewrite !path_length_cons.
    change (f q :: map f l) with (map f (q :: l)). rewrite IH. f_equal.
    rewrite !Rplus_0_r. exact (eq_trans (f_equal norm (f_sub q p)) (M_norm (vsub q p))).
  Qed.
End Form.

(** ** Scaling *)
Section Scale.
  Variable k : R.
  Hypothesis K : 0 < k.
  Let f := vscale k.
  Lemma sc_sub p q : vsub (f p) (f q) = vscale k (vsub p q).
  Proof. unfold f, vsub, vscale. cbn [fst snd]. apply vec_eq; cbn; ring. Qed.
  Lemma sc_norm v : norm (vscale k v) = k * norm v.
  Proof.
    unfold norm, dot, vscale. cbn [fst snd].
    replace (k * fst v * (k * fst v) + k * snd v * (k * snd v)) with ((k * k) * (fst v * fst v + snd v * snd v)) by ring.
    rewrite sqrt_mult_alt by nra. rewrite sqrt_square by lra. reflexivity.
  Qed.
  Lemma sc_zero x : Reqb (k * x) 0 = Reqb x 0.
  Proof.
    unfold Reqb. destruct (Req_EM_T x 0) as [A|A], (Req_EM_T (k * x) 0) as [B|B]; auto; exfalso.
    - apply B. rewrite A. ring.
    - apply Rmult_integral in B. destruct B; [lra|auto].
  Qed.
  Lemma sc_normalize v : fst (normalize (vscale k v)) = fst (normalize v).
  Proof.
    unfold normalize. rewrite sc_norm, sc_zero. cbn zeta. cbn [fst]. unfold vscale. cbn [fst snd]. unfold Reqb.
    destruct (Req_EM_T (norm v) 0) as [Z|Z]; [|apply vec_eq; cbn; field; split; lra].
    pose proof Z as Z'. unfold norm in Z. apply sqrt_eq_0 in Z; [|unfold dot; nra]. unfold dot in Z.
    assert (fst v = 0) by nra. assert (snd v = 0) by nra. rewrite H, H0. apply vec_eq; cbn; field.
  Qed.
  Lemma sc_t w : wall_t (move_wall f w) = vscale k (wall_t w).
  Proof. unfold wall_t, origin, dest, move_wall. cbn [w_origin w_dest]. apply sc_sub. Qed.
  Lemma sc_normal w : normal (move_wall f w) = normal w.
  Proof.
    unfold normal. rewrite sc_t. cbn zeta.
    assert (X : (snd (vscale k (wall_t w)), - fst (vscale k (wall_t w))) = vscale k (snd (wall_t w), - fst (wall_t w))).
    { unfold vscale. cbn [fst snd]. apply vec_eq; cbn; ring. }
    etransitivity; [apply (f_equal (fun v => fst (normalize v)) X)|]. apply sc_normalize.
  Qed.
  Lemma sc_dot u n : dot (vscale k u) n = k * dot u n.
  Proof. unfold dot, vscale. cbn [fst snd]. ring. Qed.
  Lemma sc_image w p : image_of (move_wall f w) (f p) = f (image_of w p).
  Proof.
    unfold image_of. cbn zeta. rewrite sc_normal. unfold origin. cbn [move_wall w_origin]. rewrite sc_sub, sc_dot.
    unfold f, vsub, vscale. cbn [fst snd]. apply vec_eq; cbn; ring.
  Qed.
  Lemma sc_c2p w p : wall_c2p (move_wall f w) (f p) = wall_c2p w p.
  Proof.
    unfold wall_c2p. rewrite sc_t. unfold origin. cbn [move_wall w_origin]. rewrite sc_sub.
    set (t := wall_t w). set (v := vsub p (w_origin w)).
    assert (D : forall a b, dot (vscale k a) (vscale k b) = k * (k * dot a b)).
    { intros. unfold dot, vscale. cbn [fst snd]. ring. }
    rewrite !D, !sc_zero. unfold Reqb. destruct (Req_EM_T (dot t t) 0) as [Z|Z].
    - unfold dot in Z. assert (Z1 : fst t = 0) by nra. assert (Z2 : snd t = 0) by nra.
      unfold dot. rewrite Z1, Z2. unfold Rdiv. ring.
    - field. split; [auto|lra].
  Qed.
  Lemma sc_p2c w t : wall_p2c (move_wall f w) t = f (wall_p2c w t).
  Proof.
    unfold wall_p2c. rewrite sc_t. unfold origin. cbn [move_wall w_origin]. unfold f, vadd, vscale. cbn [fst snd]. apply vec_eq; cbn; ring.
  Qed.
  Lemma sc_evaluate w a b d : wall_evaluate (move_wall f w) (f a) (f b) (f d) = wall_evaluate w a b d.
  Proof. unfold wall_evaluate. cbn zeta. rewrite sc_normal, !sc_sub, !sc_normalize. reflexivity. Qed.
  Lemma sc_ris w phi a b d : ris_evaluate (move_wall f w) phi (f a) (f b) (f d) = ris_evaluate w phi a b d.
  Proof. unfold ris_evaluate. cbn zeta. rewrite sc_normal, !sc_sub, !sc_normalize. reflexivity. Qed.
  Lemma sc_backward w q i : backward (f q) (move_wall f w, f i) = f (backward q (w, i)).
  Proof.
    unfold backward. rewrite sc_normal. unfold origin. cbn [move_wall w_origin]. rewrite !sc_sub, !sc_dot, sc_zero.
    set (n := normal w). set (u := vsub q i). set (v := vsub (w_origin w) q). unfold Reqb.
    destruct (Req_EM_T (dot u n) 0) as [A|A]; unfold f, vadd, vscale; cbn [fst snd]; apply vec_eq; cbn [fst snd]; try ring;
      field; split; auto; lra.
  Qed.
  Lemma sc_test g num den tol a kw : seg_test g (k * num) (k * den) tol a kw = seg_test g num den tol a kw.
  Proof.
    unfold seg_test. rewrite sc_zero. unfold Reqb. destruct (Req_EM_T den 0) as [A|A]; [reflexivity|].
    replace (k * num / (k * den)) with (num / den) by (field; split; [auto|lra]). reflexivity.
  Qed.
  Lemma sc_segments g P1 P2 P3 P4 tol a kw :
    segments_intersect g (f P1) (f P2) (f P3) (f P4) tol a kw = segments_intersect g P1 P2 P3 P4 tol a kw.
  Proof.
    unfold segments_intersect. rewrite !sc_sub. cbn zeta.
    set (A := vsub P2 P1). set (B := vsub P3 P4). set (D := vsub P1 P3). unfold vscale. cbn [fst snd].
    replace (k * snd B * (k * fst D) - k * fst B * (k * snd D)) with (k * (k * (snd B * fst D - fst B * snd D))) by ring.
    replace (k * fst A * (k * snd D) - k * snd A * (k * fst D)) with (k * (k * (fst A * snd D - snd A * fst D))) by ring.
    replace (k * snd A * (k * fst B) - k * fst A * (k * snd B)) with (k * (k * (snd A * fst B - fst A * snd B))) by ring.
    rewrite !sc_test. reflexivity.
  Qed.
  Lemma sc_intersects g w r0 r1 patch a kw :
    wall_intersects g (move_wall f w) (f r0) (f r1) patch a kw = wall_intersects g w r0 r1 patch a kw.
  Proof.
    unfold wall_intersects. rewrite sc_t. unfold origin, dest. cbn [move_wall w_origin w_dest].
    rewrite <- (sc_segments g _ _ r0 r1). f_equal; unfold f, vsub, vadd, vscale; cbn [fst snd]; apply vec_eq; cbn; ring.
  Qed.
  Lemma sc_length eps pts : path_length (k * eps) (map f pts) = k * path_length eps pts.
  Proof.
    induction pts as [|p [|q l] IH]; [cbn; ring|cbn; ring|].
    change (map f (p :: q :: l)) with (f p :: f q :: map f l). rewrite !path_length_cons.
    change (f q :: map f l) with (map f (q :: l)). rewrite IH. rewrite Rmult_plus_distr_l. f_equal.
    rewrite <- sc_norm. f_equal. unfold f, vscale. cbn [fst snd]. apply vec_eq; cbn; ring.
  Qed.
End Scale.

(** ** What the rest of the code sees of a motion *)
Record geo (f : vec -> vec) : Prop := mkgeo {
  geo_c2p : forall w p, wall_c2p (move_wall f w) (f p) = wall_c2p w p;
  geo_p2c : forall w t, wall_p2c (move_wall f w) t = f (wall_p2c w t);
  geo_intersects : forall g w r0 r1 patch a k,
    wall_intersects g (move_wall f w) (f r0) (f r1) patch a k = wall_intersects g w r0 r1 patch a k;
  geo_image : forall w p, image_of (move_wall f w) (f p) = f (image_of w p);
  geo_backward : forall w q i, backward (f q) (move_wall f w, f i) = f (backward q (w, i));
  geo_evaluate : forall w a b d, wall_evaluate (move_wall f w) (f a) (f b) (f d) = wall_evaluate w a b d
}.
Definition geo_ris (f : vec -> vec) : Prop := forall w phi a b d,
  ris_evaluate (move_wall f w) phi (f a) (f b) (f d) = ris_evaluate w phi a b d.
Lemma iso_eq f : isometry f -> exists c s e ox oy, c * c + s * s = 1 /\ (e = 1 \/ e = -1) /\ f = form c s e ox oy.
Proof.
  intro I. destruct (iso_form f I) as (c & s & e & ox & oy & C & E & F). exists c, s, e, ox, oy.
  repeat split; auto. extensionality q. auto.
Qed.
Lemma direct_eq f : direct f -> exists c s ox oy, c * c + s * s = 1 /\ f = form c s 1 ox oy.
Proof.
  intro I. destruct (direct_form f I) as (c & s & ox & oy & C & F). exists c, s, ox, oy. split; auto. extensionality q. auto.
Qed.
Ltac iso H := let c := fresh "c" in let s := fresh "s" in let e := fresh "e" in let ox := fresh "ox" in let oy := fresh "oy" in
  destruct (iso_eq _ H) as (c & s & e & ox & oy & ?HC & ?HE & ->).
Lemma iso_geo f : isometry f -> geo f.
Proof.
  intro I. iso I. constructor; intros; [apply c2p_move|apply p2c_move|apply intersects_move|apply image_move|apply backward_move|apply evaluate_move]; auto.
Qed.
Lemma direct_ris f : direct f -> geo_ris f.
Proof. intros D w phi a b d. destruct (direct_eq _ D) as (c & s & ox & oy & C & ->). apply ris_move; auto. Qed.
Lemma scale_geo k : 0 < k -> geo (vscale k) /\ geo_ris (vscale k).
Proof.
  intro K. split; [constructor|]; repeat intro;
    [apply sc_c2p|apply sc_p2c|apply sc_intersects|apply sc_image|apply sc_backward|apply sc_evaluate|apply sc_ris]; auto.
Qed.
Lemma move_wall_comp f h w : move_wall (fun q => f (h q)) w = move_wall f (move_wall h w).
Proof. reflexivity. Qed.
Lemma geo_comp f h : geo f -> geo h -> geo (fun q => f (h q)).
Proof.
  intros [F1 F2 F3 F4 F5 F6] [H1 H2 H3 H4 H5 H6]. constructor; intros; rewrite move_wall_comp.
  - rewrite F1. apply H1.
  - rewrite F2, H2. reflexivity.
  - rewrite F3. apply H3.
  - rewrite F4, H4. reflexivity.
  - rewrite F5, H5. reflexivity.
  - rewrite F6. apply H6.
Qed.
Lemma ris_comp f h : geo_ris f -> geo_ris h -> geo_ris (fun q => f (h q)).
Proof. intros F H w phi a b d. rewrite move_wall_comp. rewrite F. apply H. Qed.
