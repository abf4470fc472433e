(** Proofs about the solvers. *)
From Coq Require Import Reals List Bool Arith Lia Lra.
From Verif Require Import Base BaseP GeometryM OptimizeM ShapeP SpecOptimize.
Import ListNotations.
Open Scope R_scope.
Local Notation length := List.length.

Lemma ladd_moved x : forall u, ladd x u = moved x u.
Proof. unfold moved. induction x as [|a x IH]; intros [|b u]; cbn; auto. now rewrite IH. Qed.
Section Traj.
  Variables (f : list R -> R) (grad : list R -> list R) (o : optimizer).
  Fixpoint iter_carry (n : nat) (c : list R * opt_state o) : list R * opt_state o :=
    match n with O => c | S n' => iter_carry n' (fst (min_step f grad o c)) end.
  Lemma min_step_snd c : snd (min_step f grad o c) = f (fst c).
  Proof. destruct c as [x st]. unfold min_step. destruct (opt_update o (grad x) st). reflexivity. Qed.
  Lemma min_scan_eq n : forall c, min_scan f grad o n c =
    (iter_carry n c, map (fun i => f (fst (iter_carry i c))) (seq 0 n)).
  Proof.
    induction n as [|n IH]; intro c; [reflexivity|]. cbn [min_scan seq map].
    pose proof (min_step_snd c) as E. destruct (min_step f grad o c) as [c1 l] eqn:Es. cbn in E. subst l.
    rewrite IH. cbn [iter_carry]. rewrite Es. cbn [fst]. f_equal. f_equal.
    rewrite <- seq_shift, map_map. apply map_ext. intro i. cbn [iter_carry]. rewrite Es. reflexivity.
  Qed.
  Lemma iter_carry_S n : forall c, iter_carry (S n) c = fst (min_step f grad o (iter_carry n c)).
  Proof. induction n as [|n IH]; intro c; [reflexivity|]. change (iter_carry (S (S n)) c) with (iter_carry (S n) (fst (min_step f grad o c))). rewrite IH. reflexivity. Qed.
  Lemma min_step_fst x st : fst (min_step f grad o (x, st)) =
    (moved x (fst (opt_update o (grad x) st)), snd (opt_update o (grad x) st)).
  Proof. unfold min_step. rewrite <- ladd_moved. destruct (opt_update o (grad x) st). reflexivity. Qed.
  Lemma traj_iter n x st : trajectory grad o x st n -> forall i, (i <= n)%nat -> iter_carry i (x 0%nat, opt_init o (x 0%nat)) = (x i, st i).
  Proof.
    intros [H0 H] i. induction i as [|i IH]; intro L; [cbn; congruence|].
    rewrite iter_carry_S, IH by lia. rewrite min_step_fst. destruct (H i ltac:(lia)) as [-> ->]. reflexivity.
  Qed.
  Lemma last_elem_map (g : nat -> R) n : last_elem (map g (seq 0 (S n))) = Ok (g n).
  Proof.
    unfold last_elem. rewrite seq_S, map_app, rev_app_distr. reflexivity.
  Qed.
  Lemma minimize_traj n x st : (1 <= n)%nat -> trajectory grad o x st n ->
    minimize f grad o n (x 0%nat) = Ok (x n, f (x (n - 1)%nat)).
  Proof.
    intros L T. unfold minimize. rewrite min_scan_eq. rewrite (traj_iter n x st T n) by lia.
    destruct n as [|n]; [lia|]. rewrite last_elem_map. cbn [rbind].
    rewrite (traj_iter (S n) x st T n) by lia. cbn [fst]. replace (S n - 1)%nat with n by lia. reflexivity.
  Qed.
  Lemma traj_exists n x0 : exists x st, x 0%nat = x0 /\ trajectory grad o x st n.
  Proof.
    exists (fun i => fst (iter_carry i (x0, opt_init o x0))), (fun i => snd (iter_carry i (x0, opt_init o x0))).
    split; [reflexivity|]. split; [reflexivity|]. intros i L. cbv beta. rewrite iter_carry_S.
    destruct (iter_carry i (x0, opt_init o x0)) as [x st]. rewrite min_step_fst. split; reflexivity.
  Qed.
  Lemma minimize_zero x0 : minimize f grad o 0 x0 = Err IndexError.
  Proof. reflexivity. Qed.
  Lemma minimize_ok n x0 : (1 <= n)%nat -> exists r, minimize f grad o n x0 = Ok r.
  Proof.
    intro L. destruct (traj_exists n x0) as (x & st & E & T). subst x0. rewrite (minimize_traj n x st L T). eauto.
  Qed.
End Traj.

Lemma C43_lemma f grad o n x0 : (1 <= n)%nat ->
  (exists x st, x 0%nat = x0 /\ trajectory grad o x st n) /\
  (forall x st, x 0%nat = x0 -> trajectory grad o x st n ->
     minimize f grad o n x0 = Ok (x n, f (x (n - 1)%nat))).
Proof.
  intro L. split; [apply (traj_exists f)|]. intros x st <- T. eapply minimize_traj; eauto.
Qed.

(** A concrete plain gradient descent on x^2 in dimension one. *)
Definition gd : optimizer := mkoptimizer unit (fun _ => tt) (fun g st => (map (fun a => - (1 / 4) * a) g, st)).
Definition sq1 (x : list R) : R := nth 0 x 0 * nth 0 x 0.
Definition dsq1 (x : list R) : list R := [2 * nth 0 x 0].
Lemma C43_stale : exists x l, minimize sq1 dsq1 gd 1 [1] = Ok (x, l) /\ l <> sq1 x.
Proof.
  eexists _, _. split; [cbn; reflexivity|]. unfold sq1. cbn. lra.
Qed.

Lemma rseq_ok_nth {A} (l : list (res A)) r : rseq l = Ok r ->
  length r = length l /\ forall i d, (i < length l)%nat -> nth i l (Err IndexError) = Ok (nth i r d).
Proof.
  revert r. induction l as [|x l IH]; intros r; cbn.
  - intro E. inversion E. split; auto. intros i d H. cbn in H. lia.
  - destruct x as [a|e]; cbn; [|discriminate]. destruct (rseq l) as [r'|e]; cbn; [|discriminate].
    intro E. inversion E; subst. destruct (IH r' eq_refl) as [A1 B1]. split; [cbn; congruence|].
    intros [|i] d H; cbn; auto. apply B1. lia.
Qed.
Lemma rseq_all_ok {A} (l : list (res A)) : (forall x, In x l -> exists a, x = Ok a) -> exists r, rseq l = Ok r.
Proof.
  induction l as [|x l IH]; intro H; [eexists; reflexivity|].
  destruct (H x (or_introl eq_refl)) as [a ->]. destruct IH as [r E]; [intros; apply H; right; auto|].
  cbn. rewrite E. eexists; reflexivity.
Qed.

Lemma C44_lemma P f grad o steps key n many :
  (2 <= many)%nat -> length (rsplit P key many) = many -> (1 <= steps)%nat ->
  exists trials i,
    length trials = many /\ (i < many)%nat /\
    (forall j dk d, (j < many)%nat ->
       minimize_random_uniform P f grad o steps (nth j (rsplit P key many) dk) n = Ok (nth j trials d)) /\
    (forall d, minimize_many_random_uniform P f grad o steps key n many = Ok (nth i trials d)) /\
    (forall j d, (j < many)%nat -> snd (nth i trials d) <= snd (nth j trials d)) /\
    (forall j d, (j < i)%nat -> snd (nth i trials d) < snd (nth j trials d)).
Proof.
  intros M L S.
  set (ts := map (fun k => minimize_random_uniform P f grad o steps k n) (rsplit P key many)).
  destruct (rseq_all_ok ts) as [trials E].
  { intros x I. apply in_map_iff in I. destruct I as (k & <- & _). apply minimize_ok; auto. }
  destruct (rseq_ok_nth ts trials E) as [Lt Nt]. unfold ts in Lt, Nt. rewrite map_length in Lt, Nt. rewrite L in Lt, Nt.
  assert (A : exists i, argmin (map snd trials) = Ok i).
  { destruct trials as [|t trials]; [cbn in Lt; lia|]. eexists; reflexivity. }
  destruct A as [i A]. destruct (argmin_spec _ _ A) as (B & C & D). rewrite map_length in B, C.
  assert (SN : forall j d, (j < length trials)%nat -> nth j (map snd trials) 0 = snd (nth j trials d)).
  { intros j d J. apply nth_map_in; auto. }
  exists trials, i. split; [auto|]. split; [lia|]. split; [|split; [|split]].
  - intros j dk d J. specialize (Nt j d J). rewrite <- Nt. symmetry. 
    rewrite nth_map_in with (d := dk) by lia. reflexivity.
  - intro d. unfold minimize_many_random_uniform. assert (X : Nat.eqb many 1 = false) by (apply Nat.eqb_neq; lia).
    rewrite X. fold ts. rewrite E. cbn [rbind]. rewrite A. cbn [rbind]. f_equal. apply nth_indep. lia.
  - intros j d J. specialize (C j ltac:(lia)). rewrite !(SN _ d) in C by lia. auto.
  - intros j d J. specialize (D j ltac:(lia)). rewrite !(SN _ d) in D by lia. auto.
Qed.
Lemma C44_single P f grad o steps key n :
  minimize_many_random_uniform P f grad o steps key n 1 = minimize f grad o steps (runiform P key n).
Proof. reflexivity. Qed.
Lemma C44_zero P f grad o steps key n : length (rsplit P key 0) = 0%nat ->
  minimize_many_random_uniform P f grad o steps key n 0 = Err ValueError.
Proof. intro H. unfold minimize_many_random_uniform. cbn [Nat.eqb]. apply length_zero_iff_nil in H. rewrite H. reflexivity. Qed.

(** Preservation of the number of parameters. *)
Definition keeps_shape (o : optimizer) : Prop :=
  forall g st, length (fst (opt_update o g st)) = length g.
Lemma ladd_length x : forall y, length y = length x -> length (ladd x y) = length x.
Proof. induction x as [|a x IH]; intros [|b y] H; cbn in *; auto; try discriminate. Qed.
Lemma minimize_length f grad o n x0 r : keeps_shape o -> (forall x, length (grad x) = length x) ->
  minimize f grad o n x0 = Ok r -> length (fst r) = length x0.
Proof.
  intros K G. unfold minimize. rewrite min_scan_eq.
  assert (H : forall i c, length (fst (iter_carry f grad o i c)) = length (fst c)).
  { induction i as [|i IH]; intro c; [reflexivity|]. cbn [iter_carry]. rewrite IH. destruct c as [x st].
    rewrite min_step_fst. cbn [fst]. rewrite <- ladd_moved. apply ladd_length. rewrite K. apply G. }
  specialize (H n (x0, opt_init o x0)). destruct (iter_carry f grad o n (x0, opt_init o x0)) as [x st].
  destruct (last_elem _); cbn; [|discriminate]. intro E. inversion E; subst. exact H.
Qed.
Lemma many_is_trial P f grad o steps key n many r :
  minimize_many_random_uniform P f grad o steps key n many = Ok r ->
  exists k, minimize_random_uniform P f grad o steps k n = Ok r.
Proof.
  unfold minimize_many_random_uniform. destruct (Nat.eqb many 1); [eauto|].
  set (ts := map _ _). destruct (rseq ts) as [trials|] eqn:E; cbn [rbind]; [|discriminate].
  destruct (argmin (map snd trials)) as [i|] eqn:A; cbn [rbind]; [|discriminate]. intro Er. inversion Er; subst r.
  destruct (argmin_spec _ _ A) as (B & _). rewrite map_length in B.
  destruct (rseq_ok_nth ts trials E) as [Lt Nt]. rewrite Lt in B. specialize (Nt i ([], 0) B).
  assert (I : In (Ok (nth i trials ([], 0))) ts) by (rewrite <- Nt; apply nth_In; auto).
  apply in_map_iff in I. destruct I as (k & Ek & _). eauto.
Qed.
