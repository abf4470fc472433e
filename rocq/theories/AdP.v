(** Soundness of reverse mode. *)
From Coq Require Import Reals List Bool ZArith Arith Lia Lra Psatz FunctionalExtensionality.
From Verif Require Import Base BaseP LogicM GeometryM AdM SpecAd.
Import ListNotations.
Open Scope R_scope.
Local Notation length := List.length.

Definition rv (x : xreal) : R := match x with Fin r => r | _ => 0 end.
Definition rshare (x z y : xreal) : R := rv (share x z y).

(** The slopes, as real numbers. *)
Fixpoint D (env : nat -> R) (e : expr) (i : nat) : R :=
  match e with
  | EVar j => if Nat.eqb i j then 1 else 0
  | ECst _ => 0
  | ENeg a => - D env a i
  | EAdd a b => D env a i + D env b i
  | ESub a b => D env a i - D env b i
  | EMul a b => D env a i * rv (eval env b) + D env b i * rv (eval env a)
  | EDiv a b => D env a i / rv (eval env b) - D env b i * (rv (eval env a) / (rv (eval env b) * rv (eval env b)))
  | ESqrt a => D env a i * (1 / 2 / sqrt (rv (eval env a)))
  | ESq a => D env a i * (2 * rv (eval env a))
  | ELogistic a => let ans := rv (xlogistic (eval env a)) in D env a i * ((1 - ans) * ans)
  | EMax a b =>
      let x := eval env a in let y := eval env b in let z := xmax x y in
      D env a i * rshare x z y + D env b i * rshare y z x
  | EMin a b =>
      let x := eval env a in let y := eval env b in let z := xmin x y in
      D env a i * rshare x z y + D env b i * rshare y z x
  | EMin3 a b c =>
      let x := eval env a in let y := eval env b in let w := eval env c in
      let z := xmin (xmin x y) w in
      let h := hits z [x; y; w] in
      D env a i * (rv (xflag (xeqb x z)) / h) + D env b i * (rv (xflag (xeqb y z)) / h) + D env c i * (rv (xflag (xeqb w z)) / h)
  | EWhere c l a b => if holds c (eval env l) then D env a i else D env b i
  end.

Lemma closed_bp env e : closed e = true -> forall ct j, bp env e ct j = Fin 0.
Proof.
  induction e; cbn [closed]; intros H ct j; try discriminate; repeat (apply andb_true_iff in H; destruct H as [H ?]);
    cbn [bp]; try reflexivity; cbv zeta;
    repeat match goal with IH : _ -> forall ct j, bp env ?e ct j = _, H : closed ?e = true |- _ => rewrite !(IH H); clear IH end;
    try reflexivity; cbn [xadd]; rewrite ?Rplus_0_r; try reflexivity.
  destruct (holds _ _); rewrite ?Rplus_0_r; reflexivity.
Qed.
Lemma closed_D env e : closed e = true -> forall j, D env e j = 0.
Proof.
  induction e; cbn [closed]; intros H j; try discriminate; repeat (apply andb_true_iff in H; destruct H as [H ?]);
    cbn [D]; try reflexivity; cbv zeta;
    repeat match goal with IH : _ -> forall j, D env ?e j = _, H : closed ?e = true |- _ => rewrite !(IH H); clear IH end;
    unfold Rdiv; try ring.
  destruct (holds _ _); reflexivity.
Qed.
Lemma closed_eval e : closed e = true -> forall env env', eval env e = eval env' e.
Proof.
  induction e; cbn [closed]; intros H env env'; try discriminate; repeat (apply andb_true_iff in H; destruct H as [H ?]);
    cbn [eval]; try reflexivity;
    repeat match goal with IH : _ -> forall env env', eval env ?e = _, H : closed ?e = true |- _ => rewrite (IH H env env'); clear IH end;
    reflexivity.
Qed.

Lemma share_fin x z y : is_fin (share x z y).
Proof. unfold share, is_fin. destruct (xeqb x z); [destruct (xeqb y z)|]; eauto. Qed.
Lemma fin_rv x : is_fin x -> x = Fin (rv x).
Proof. intros [r ->]. reflexivity. Qed.
Lemma mul_fin c x : is_fin x -> xmul (Fin c) x = Fin (c * rv x).
Proof. intros [r ->]. reflexivity. Qed.
Lemma xflag_fin b : is_fin (xflag b).
Proof. destruct b; unfold is_fin; cbn; eauto. Qed.
Lemma xeqb_refl x : x <> NaN -> xeqb x x = true.
Proof. destruct x; cbn; intro H; try congruence. unfold Reqb. destruct (Req_EM_T r r); congruence. Qed.
Lemma xmin_sel x y : x <> NaN -> y <> NaN -> xmin x y = x \/ xmin x y = y.
Proof.
  intros X Y. destruct x, y; cbn; auto; try congruence. unfold Rmin. destruct (Rle_dec r r0); auto.
Qed.
Lemma xmin_nn x y : x <> NaN -> y <> NaN -> xmin x y <> NaN.
Proof. intros X Y. destruct (xmin_sel x y X Y) as [-> | ->]; auto. Qed.
Lemma hits_pos x y w : x <> NaN -> y <> NaN -> w <> NaN -> hits (xmin (xmin x y) w) [x; y; w] <> 0.
Proof.
  intros X Y W. set (z := xmin (xmin x y) w). unfold hits. apply not_0_INR.
  assert (I : In z [x; y; w]).
  { unfold z. destruct (xmin_sel (xmin x y) w (xmin_nn _ _ X Y) W) as [-> | ->]; [|cbn; auto].
    destruct (xmin_sel x y X Y) as [-> | ->]; cbn; auto. }
  assert (J : In z (filter (fun u => xeqb u z) [x; y; w])).
  { apply filter_In. split; auto. apply xeqb_refl. unfold z. apply xmin_nn; auto. apply xmin_nn; auto. }
  intro E. destruct (filter (fun u => xeqb u z) [x; y; w]); [destruct J|discriminate].
Qed.
Lemma logistic_fin x : x <> NaN -> is_fin (xlogistic x).
Proof. destruct x; cbn; unfold is_fin; intros; eauto. congruence. Qed.

Lemma bp_fin env e : safe env e -> forall c i, bp env e (Fin c) i = Fin (c * D env e i).
Proof.
  assert (CL : forall e, closed e = true -> forall c i, bp env e (Fin c) i = Fin (c * D env e i)).
  { intros x H c i. rewrite closed_bp, closed_D by auto. f_equal. ring. }
  assert (CM : forall a x, (forall c i, bp env a (Fin c) i = Fin (c * D env a i)) -> (closed a = true \/ is_fin x) ->
     forall c i, bp env a (xmul (Fin c) x) i = Fin (c * (D env a i * rv x))).
  { intros a x IH [H|H] c i; [rewrite closed_bp, closed_D by auto; f_equal; ring|]. rewrite mul_fin, IH by auto. f_equal. ring. }
  induction e; cbn [safe]; intros S c0 j.
  - cbn [bp D]. destruct (Nat.eqb j i); f_equal; ring.
  - cbn [bp D]. f_equal. ring.
  - destruct S as [S|S]; [apply CL; auto|]. cbn [bp D xopp]. rewrite IHe by auto. f_equal. ring.
  - destruct S as [S|[S1 S2]]; [apply CL; auto|]. cbn [bp D]. rewrite IHe1, IHe2 by auto. cbn. f_equal. ring.
  - destruct S as [S|[S1 S2]]; [apply CL; auto|]. cbn [bp D xopp]. rewrite IHe1, IHe2 by auto. cbn. f_equal. ring.
  - destruct S as [S|(S1 & S2 & S3 & S4)]; [apply CL; auto|]. cbn [bp D].
    rewrite (CM e1), (CM e2) by auto. cbn. f_equal. ring.
  - destruct S as [S|(S1 & S2 & (d & E & Nd) & S4)]; [apply CL; auto|]. cbn [bp D]. rewrite E. cbn [rv xdiv xinvsq].
    unfold fdiv, Reqb. destruct (Req_EM_T d 0); [contradiction|]. rewrite (IHe1 S1). change (xmul (Fin c0) (Fin (1 / (d * d)))) with (Fin (c0 * (1 / (d * d)))).
    assert (X : bp env e2 (xopp (xmul (Fin (c0 * (1 / (d * d)))) (eval env e1))) j =
      Fin (- (c0 * (D env e2 j * (rv (eval env e1) / (d * d)))))).
    { destruct S4 as [H|H]; [rewrite closed_bp, closed_D by auto; f_equal; ring|].
      rewrite mul_fin by auto. cbn [xopp]. rewrite IHe2 by auto. f_equal. field. auto. }
    rewrite X. cbn [xadd]. f_equal. field. auto.
  - destruct S as [S|(S1 & r & E & P)]; [apply CL; auto|]. cbn [bp D]. rewrite E. cbn [xsqrt rv].
    unfold Rltb. destruct (Rlt_dec r 0); [lra|]. cbn [xdiv]. unfold fdiv, Reqb.
    assert (0 < sqrt r) by (apply sqrt_lt_R0; auto). destruct (Req_EM_T (sqrt r) 0); [lra|].
    cbn [xmul]. rewrite IHe by auto. f_equal. ring.
  - destruct S as [S|(S1 & r & E)]; [apply CL; auto|]. cbn [bp D]. rewrite E. cbn [xmul rv]. rewrite IHe by auto. f_equal. ring.
  - destruct S as [S|(S1 & E)]; [apply CL; auto|]. cbn [bp D]. cbv zeta. destruct (logistic_fin _ E) as [a ->].
    cbn [xsub xopp xadd xmul rv]. rewrite IHe by auto. f_equal. ring.
  - destruct S as [S|[S1 S2]]; [apply CL; auto|]. cbn [bp D]. cbv zeta.
    rewrite (CM e1), (CM e2) by (auto; right; apply share_fin). cbn [xadd]. f_equal. unfold rshare. ring.
  - destruct S as [S|[S1 S2]]; [apply CL; auto|]. cbn [bp D]. cbv zeta.
    rewrite (CM e1), (CM e2) by (auto; right; apply share_fin). cbn [xadd]. f_equal. unfold rshare. ring.
  - destruct S as [S|(S1 & S2 & S3 & N1 & N2 & N3)]; [apply CL; auto|]. cbn [bp D]. cbv zeta.
    pose proof (hits_pos _ _ _ N1 N2 N3) as H. set (h := hits _ _) in *. cbn [xdiv]. unfold fdiv, Reqb.
    destruct (Req_EM_T h 0); [contradiction|].
    rewrite (CM e1), (CM e2), (CM e3) by (auto; right; apply xflag_fin). cbn [xadd]. f_equal. field. auto.
  - destruct S as [S|[S1 S2]]; [apply CL; auto|]. cbn [bp D]. destruct (holds c (eval env e1)); rewrite IHe2, IHe3 by auto; cbn [xadd]; f_equal; ring.
Qed.
Lemma grad_safe env e : safe env e -> forall i, grad env e i = Fin (D env e i).
Proof. intros S i. unfold grad. rewrite bp_fin by auto. f_equal. ring. Qed.
