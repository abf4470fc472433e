(** Proofs about the switch, for all programs and all schedules. *)
From Coq Require Import List Bool Arith Lia.
From Verif Require Import SwitchM SpecSwitch.
Import ListNotations.

(** What remains to be observed from a stack, run alone. *)
Fixpoint den (st : list item) (r f : bool) : list obs * bool * bool :=
  match st with
  | [] => ([], f, r)
  | i :: k =>
      let ins := Nat.ltb 0 (depth k) in
      if r then
        match i with
        | IRestore s => den k true s
        | ICatch h =>
            let '(f1, tr, e) := alone ins h f in
            let '(tr2, f2, e2) := den k e f1 in (tr ++ tr2, f2, e2)
        | _ => den k true f
        end
      else
        match i with
        | IDo c =>
            let '(f1, tr, e) := alone ins c f in
            let '(tr2, f2, e2) := den k e f1 in (tr ++ tr2, f2, e2)
        | IAcqWith s b body | IWriteWith s b body =>
            let '(_, tr, e) := alone true body b in
            let '(tr2, f2, e2) := den k e s in (tr ++ tr2, f2, e2)
        | IRestore s => den k false s
        | IAcqSet b | IWriteSet b => den k false b
        | IRelease | ICatch _ => den k false f
        end
  end.

(** Writes to the switch happen under the lock. *)
Fixpoint wf (st : list item) : Prop :=
  match st with
  | [] => True
  | i :: k =>
      match i with
      | IWriteWith _ _ _ | IRestore _ | IWriteSet _ => 0 < depth k
      | _ => True
      end /\ wf k
  end.

Definition total (th : thread) (f : bool) : list obs * bool * bool :=
  let '(tr, f', e) := den (stack th) (raising th) f in (reads th ++ tr, f', e).

Lemma den_restore k r s f : den (IRestore s :: k) r f = den k r s.
Proof. destruct r; reflexivity. Qed.
Lemma den_release k r f : den (IRelease :: k) r f = den k r f.
Proof. destruct r; reflexivity. Qed.

Lemma app_total (l tr tr2 : list obs) (f2 e2 : bool) :
  (l ++ tr ++ tr2, f2, e2) = ((l ++ tr) ++ tr2, f2, e2).
Proof. rewrite app_assoc. reflexivity. Qed.

(** A step of a thread does not change what it will have observed, run alone. *)
Lemma step_total t f o th f' o' th' : wf (stack th) ->
  step t f o th = Some (f', o', th') -> total th' f' = total th f /\ wf (stack th').
Proof.
  intros W S. destruct th as [st r rd]. unfold step in S. cbn [stack raising reads] in *.
  destruct st as [|i k]; [discriminate|]. destruct W as [Wi Wk].
  unfold total. destruct r.
  - destruct i; inversion S; subst; clear S; cbn [stack raising reads]; split; auto;
      try reflexivity; try (cbn; auto; fail).
  - destruct i as [c|s b body|s b body|s|b|b| |h].
    + destruct c as [|a b|b|b body| | |body h]; inversion S; subst; clear S;
        cbn [stack raising reads]; (split; [|cbn; auto]).
      * cbn [den alone]. destruct (den k false f') as [[tr f2] e2]. reflexivity.
      * cbn [den alone depth]. destruct (alone _ a f') as [[f1 tr] e].
        destruct e; [destruct (den k true f1) as [[tr2 f2] e2]; reflexivity|].
        destruct (alone _ b f1) as [[f3 tr3] e3].
        destruct (den k e3 f3) as [[tr2 f2] e2]. rewrite <- !app_assoc. reflexivity.
      * cbn [den alone]. destruct (den k false b) as [[tr f2] e2]. reflexivity.
      * cbn [den alone]. destruct (alone true body b) as [[f1 tr] e].
        destruct (den k e f') as [[tr2 f2] e2]. reflexivity.
      * cbn [den alone]. destruct (den k false f') as [[tr f2] e2].
        rewrite <- app_assoc. reflexivity.
      * cbn [den alone]. destruct (den k true f') as [[tr f2] e2]. reflexivity.
      * cbn [den alone depth]. destruct (alone _ body f') as [[f1 tr] e].
        destruct e; [|destruct (den k false f1) as [[tr2 f2] e2]; reflexivity].
        destruct (alone _ h f1) as [[f3 tr3] e3].
        destruct (den k e3 f3) as [[tr2 f2] e2]. rewrite <- !app_assoc. reflexivity.
    + destruct (acquire o t); inversion S; subst; clear S; cbn [stack raising reads].
      split; [|cbn; auto with arith]. cbn [den].
      destruct (alone true body b) as [[f1 tr] e]. destruct e; reflexivity.
    + inversion S; subst; clear S; cbn [stack raising reads]. split; [|cbn; auto].
      cbn [den depth]. destruct (Nat.ltb_spec 0 (depth k)); [|cbn in Wi; lia].
      destruct (alone true body f') as [[f1 tr] e]. cbn [den]. rewrite ?den_restore.
      destruct e; reflexivity.
    + inversion S; subst; clear S; cbn [stack raising reads]. split; auto.
    + destruct (acquire o t); inversion S; subst; clear S; cbn [stack raising reads].
      split; [|cbn; auto with arith]. cbn [den]. reflexivity.
    + inversion S; subst; clear S; cbn [stack raising reads]. split; auto.
    + inversion S; subst; clear S; cbn [stack raising reads]. split; auto.
    + inversion S; subst; clear S; cbn [stack raising reads]. split; auto.
Qed.

Lemma inside_app a b : inside_values (a ++ b) = inside_values a ++ inside_values b.
Proof. unfold inside_values. rewrite filter_app, map_app. reflexivity. Qed.

(** ** Values read inside blocks do not depend on the switch outside. *)
Lemma alone_indep c : forall f f',
  inside_values (snd (fst (alone false c f))) = inside_values (snd (fst (alone false c f'))) /\
  snd (alone false c f) = snd (alone false c f').
Proof.
  induction c as [|a IHa b IHb|b|b body IH| | |body IHb h IHh]; intros f f'; cbn; auto.
  - destruct (IHa f f') as [Ea Eb].
    destruct (alone false a f) as [[f1 r1] e1], (alone false a f') as [[f1' r1'] e1'].
    cbn [fst snd] in Ea, Eb. subst e1'. destruct e1; cbn; auto.
    destruct (IHb f1 f1') as [E1 E2].
    destruct (alone false b f1) as [[f2 r2] e2], (alone false b f1') as [[f2' r2'] e2'].
    cbn [fst snd] in *. split; auto. rewrite !inside_app. congruence.
  - destruct (alone true body b) as [[f1 r1] e1]. cbn. auto.
  - destruct (IHb f f') as [Ea Eb].
    destruct (alone false body f) as [[f1 r1] e1], (alone false body f') as [[f1' r1'] e1'].
    cbn [fst snd] in Ea, Eb. subst e1'. destruct e1; cbn; auto.
    destruct (IHh f1 f1') as [E1 E2].
    destruct (alone false h f1) as [[f2 r2] e2], (alone false h f1') as [[f2' r2'] e2'].
    cbn [fst snd] in *. split; auto. rewrite !inside_app. congruence.
Qed.

Lemma den_indep st : depth st = 0 -> wf st -> forall r f f',
  inside_values (fst (fst (den st r f))) = inside_values (fst (fst (den st r f'))).
Proof.
  induction st as [|i k IH]; intros D W r f f'; [reflexivity|].
  destruct W as [Wi Wk].
  assert (Dk : depth k = 0) by (destruct i; cbn in D; lia).
  specialize (IH Dk Wk).
  assert (STEP : forall c,
    inside_values (fst (fst (let '(f1, tr, e) := alone false c f in
            let '(tr2, f2, e2) := den k e f1 in (tr ++ tr2, f2, e2)))) =
    inside_values (fst (fst (let '(f1, tr, e) := alone false c f' in
            let '(tr2, f2, e2) := den k e f1 in (tr ++ tr2, f2, e2))))).
  { intro c. destruct (alone_indep c f f') as [E1 E2].
    destruct (alone false c f) as [[f1 tr] e], (alone false c f') as [[f1' tr'] e'].
    cbn [fst snd] in E1, E2. subst e'. specialize (IH e f1 f1').
    destruct (den k e f1) as [[tr2 f2] e2], (den k e f1') as [[tr2' f2'] e2'].
    cbn [fst snd] in *. rewrite !inside_app. congruence. }
  cbn [den]. rewrite Dk. cbn [Nat.ltb Nat.leb].
  destruct r; destruct i; auto; try (cbn in Wi; lia); try (cbn in D; discriminate).
Qed.

(** ** The global invariant. *)
Definition goal (c : cmd) : list bool := inside_values (alone_reads c false).

Definition lock_ok (s : sys) : Prop :=
  forall t th, nth_error (threads s) t = Some th ->
    depth (stack th) =
      match owner s with Some (o, n) => if Nat.eqb t o then n else 0 | None => 0 end.

Record Inv (progs : list cmd) (s : sys) : Prop := {
  inv_len : length (threads s) = length progs;
  inv_owner : match owner s with
              | Some (o, n) => o < length (threads s) /\ 0 < n
              | None => True end;
  inv_lock : lock_ok s;
  inv_wf : forall t th, nth_error (threads s) t = Some th -> wf (stack th);
  inv_obs : forall t th c, nth_error (threads s) t = Some th -> nth_error progs t = Some c ->
      inside_values (fst (fst (total th (flag s)))) = goal c }.

Lemma set_thread_length ts t th : length (set_thread ts t th) = length ts.
Proof. revert t; induction ts as [|x ts IH]; intros [|t]; cbn; auto. Qed.
Lemma set_thread_same ts t th x : nth_error ts t = Some x ->
  nth_error (set_thread ts t th) t = Some th.
Proof. revert t; induction ts as [|y ts IH]; intros [|t]; cbn; intro H; try discriminate; auto. Qed.
Lemma set_thread_other ts t u th : u <> t -> nth_error (set_thread ts t th) u = nth_error ts u.
Proof.
  revert t u; induction ts as [|y ts IH]; intros [|t] [|u] H; cbn; auto; try congruence.
Qed.

Lemma start_inv f progs : Inv progs (start f progs).
Proof.
  constructor; cbn.
  - apply map_length.
  - exact I.
  - intros t th H. cbn in H. rewrite nth_error_map in H.
    destruct (nth_error progs t); inversion H; subst. reflexivity.
  - intros t th H. rewrite nth_error_map in H.
    destruct (nth_error progs t); inversion H; subst. cbn; auto.
  - intros t th c H E. rewrite nth_error_map, E in H. inversion H; subst. clear H.
    unfold total; cbn. unfold goal, alone_reads.
    destruct (alone_indep c f false) as [E1 _].
    destruct (alone false c f) as [[f1 tr] e], (alone false c false) as [[f1' tr'] e'].
    cbn in *. rewrite app_nil_r. exact E1.
Qed.

(** Effect of a step on the lock. *)
Lemma step_depth t f o th f' o' th' :
  step t f o th = Some (f', o', th') ->
  (depth (stack th') = depth (stack th) /\ o' = o) \/
  (depth (stack th') = S (depth (stack th)) /\ acquire o t = Some o' /\ f' = f) \/
  (depth (stack th) = S (depth (stack th')) /\ o' = release o /\ f' = f).
Proof.
  intro S. destruct th as [st r rd]. unfold step in S. cbn [stack raising reads] in *.
  destruct st as [|i k]; [discriminate|].
  destruct r; destruct i as [c|s b body|s b body|s|b|b| |h];
    try destruct c; try destruct (acquire o t) eqn:A; inversion S; subst; cbn; auto 10.
Qed.
(** The switch is written only under the lock. *)
Lemma step_flag t f o th f' o' th' : wf (stack th) ->
  step t f o th = Some (f', o', th') -> depth (stack th) = 0 -> f' = f.
Proof.
  intros W S D. destruct th as [st r rd]. unfold step in S. cbn [stack raising reads] in *.
  destruct st as [|i k]; [discriminate|]. destruct W as [Wi _].
  destruct r; destruct i as [c|s b body|s b body|s|b|b| |h];
    try destruct c; try destruct (acquire o t) eqn:A; inversion S; subst; cbn in *; auto; try lia.
Qed.

Lemma sched1_inv progs s t : Inv progs s -> Inv progs (sched1 s t).
Proof.
  intros [L O K W OB]. unfold sched1.
  destruct (nth_error (threads s) t) as [th|] eqn:Et; [|constructor; auto].
  destruct (step t (flag s) (owner s) th) as [[[f' o'] th']|] eqn:S; [|constructor; auto].
  pose proof (step_total _ _ _ _ _ _ _ (W t th Et) S) as [TT W'].
  pose proof (K t th Et) as Kt.
  assert (Hlt : t < length (threads s)) by (apply nth_error_Some; congruence).
  assert (KO : forall u thu, nth_error (set_thread (threads s) t th') u = Some thu ->
            depth (stack thu) = match o' with Some (o, n) => if Nat.eqb u o then n else 0 | None => 0 end).
  { intros u thu Hu. destruct (Nat.eq_dec u t) as [->|N].
    - rewrite (set_thread_same _ _ _ _ Et) in Hu. inversion Hu; subst thu; clear Hu.
      destruct (step_depth _ _ _ _ _ _ _ S) as [[D ->]|[[D [A _]]|[D [-> _]]]].
      + congruence.
      + unfold acquire in A. destruct (owner s) as [[o n]|].
        * destruct (Nat.eqb_spec t o); inversion A; subst.
          rewrite Nat.eqb_refl. congruence.
        * inversion A; subst. rewrite Nat.eqb_refl. congruence.
      + rewrite Kt in D. destruct (owner s) as [[o n]|]; [|lia].
        destruct (Nat.eqb_spec t o); [|lia]. subst o. cbn in O.
        destruct n as [|[|n]]; try lia; cbn.
        * lia.
        * rewrite Nat.eqb_refl. lia.
    - rewrite set_thread_other in Hu by auto. pose proof (K u thu Hu) as Ku.
      destruct (step_depth _ _ _ _ _ _ _ S) as [[D ->]|[[D [A _]]|[D [-> _]]]].
      + exact Ku.
      + unfold acquire in A. destruct (owner s) as [[o n]|].
        * destruct (Nat.eqb_spec t o); inversion A; subst.
          destruct (Nat.eqb_spec u o); [congruence|exact Ku].
        * inversion A; subst. destruct (Nat.eqb_spec u t); [congruence|exact Ku].
      + rewrite Kt in D. destruct (owner s) as [[o n]|]; [|lia].
        destruct (Nat.eqb_spec t o); [|lia]. subst o.
        destruct (Nat.eqb_spec u t); [congruence|].
        destruct n as [|[|n]]; cbn; auto. destruct (Nat.eqb_spec u t); [congruence|auto]. }
  constructor; cbn [threads flag owner].
  - rewrite set_thread_length. auto.
  - rewrite set_thread_length.
    destruct (step_depth _ _ _ _ _ _ _ S) as [[D ->]|[[D [A _]]|[D [-> _]]]].
    + exact O.
    + unfold acquire in A. destruct (owner s) as [[o n]|]; [|inversion A; subst; auto with arith].
      destruct (Nat.eqb_spec t o); inversion A; subst. auto with arith.
    + destruct (owner s) as [[o n]|]; cbn; auto. destruct n as [|[|n]]; auto. split; [tauto|lia].
  - exact KO.
  - intros u thu Hu. destruct (Nat.eq_dec u t) as [->|N].
    + rewrite (set_thread_same _ _ _ _ Et) in Hu. inversion Hu; subst; auto.
    + rewrite set_thread_other in Hu by auto. eauto.
  - intros u thu c Hu Ec. destruct (Nat.eq_dec u t) as [->|N].
    + rewrite (set_thread_same _ _ _ _ Et) in Hu. inversion Hu; subst thu.
      rewrite TT. eauto.
    + rewrite set_thread_other in Hu by auto.
      pose proof (K u thu Hu) as Ku.
      destruct (Nat.eq_dec (depth (stack th)) 0) as [D0|D1].
      * rewrite (step_flag _ _ _ _ _ _ _ (W t th Et) S D0). eauto.
      * assert (Du : depth (stack thu) = 0).
        { rewrite Ku. rewrite Kt in D1. destruct (owner s) as [[o n]|]; auto.
          destruct (Nat.eqb_spec t o); [|lia]. subst.
          destruct (Nat.eqb_spec u o); [congruence|reflexivity]. }
        rewrite <- (OB u thu c Hu Ec). unfold total.
        pose proof (den_indep (stack thu) Du (W u thu Hu) (raising thu) f' (flag s)) as E.
        destruct (den (stack thu) (raising thu) f') as [[tr1 f1] e1].
        destruct (den (stack thu) (raising thu) (flag s)) as [[tr2 f2] e2].
        cbn [fst snd] in *. rewrite !inside_app. congruence.
Qed.

Lemma run_inv progs sched : forall s, Inv progs s -> Inv progs (run s sched).
Proof.
  induction sched as [|t sched IH]; intros s H; cbn; auto. apply IH, sched1_inv, H.
Qed.


(** C09 *)
Lemma C09_lemma f progs sched t c th f0 :
  nth_error progs t = Some c ->
  nth_error (threads (run (start f progs) sched)) t = Some th ->
  exists rest, inside_values (reads th) ++ rest = inside_values (alone_reads c f0) /\
    (stack th = [] -> rest = []).
Proof.
  intros Ec Et.
  destruct (run_inv progs sched _ (start_inv f progs)) as [_ _ _ _ OB].
  specialize (OB t th c Et Ec). unfold total in OB.
  assert (G : inside_values (alone_reads c f0) = goal c)
    by (apply (alone_indep c f0 false)).
  rewrite G. destruct (den (stack th) (raising th) _) as [[tr f1] e1] eqn:Ed. cbn [fst snd] in OB.
  rewrite inside_app in OB. exists (inside_values tr). split; auto.
  intro Es. rewrite Es in Ed. cbn in Ed. inversion Ed; subst. reflexivity.
Qed.

(** ** One thread. *)
Lemma single_inv f c sched :
  let s := run (start f [c]) sched in
  exists th, threads s = [th] /\ total th (flag s) =
    (alone_reads c f, alone_flag c f, snd (alone false c f)) /\ wf (stack th).
Proof.
  cbn zeta.
  assert (B : forall sched s th, threads s = [th] -> wf (stack th) ->
     exists th', threads (run s sched) = [th'] /\ wf (stack th') /\
       total th' (flag (run s sched)) = total th (flag s)).
  { clear. induction sched as [|t sched IH]; intros s th E W; [cbn; eauto|].
    cbn [run fold_left]. change (fold_left sched1 sched (sched1 s t)) with (run (sched1 s t) sched).
    unfold sched1. rewrite E.
    destruct t as [|t]; cbn [nth_error]; [|destruct t; cbn; apply IH; auto].
    destruct (step 0 (flag s) (owner s) th) as [[[f' o'] th']|] eqn:S; [|apply IH; auto].
    destruct (step_total _ _ _ _ _ _ _ W S) as [TT W'].
    destruct (IH (mksys f' o' (set_thread [th] 0 th')) th') as (th2 & E2 & W2 & T2);
      [reflexivity|exact W'|].
    exists th2. split; [exact E2|]. split; [exact W2|]. rewrite T2. cbn [flag]. exact TT. }
  destruct (B sched (start f [c]) (mkthread [IDo c] false []) eq_refl) as (th & E & W & T);
    [cbn; auto|].
  exists th. split; [exact E|]. split; [|exact W]. rewrite T.
  unfold total, alone_reads, alone_flag. cbn.
  destruct (alone false c f) as [[f1 tr] e]. cbn. rewrite app_nil_r. reflexivity.
Qed.

Lemma single_finished f c sched :
  let s := run (start f [c]) sched in
  finished s = true ->
  flag s = alone_flag c f /\
  exists th, threads s = [th] /\ reads th = alone_reads c f /\ raising th = snd (alone false c f).
Proof.
  cbn zeta. intro F. destruct (single_inv f c sched) as (th & E & T & _).
  unfold finished in F. rewrite E in F. cbn in F.
  unfold total in T. destruct (stack th) eqn:Es; [|discriminate].
  cbn in T. rewrite app_nil_r in T. inversion T; subst. eauto.
Qed.

Lemma alone_with inside b body f : exists r e, alone inside (CWith b body) f = (f, r, e) /\
  r = snd (fst (alone true body b)) /\ e = snd (alone true body b).
Proof.
  cbn. destruct (alone true body b) as [[f1 r1] e1]. eauto.
Qed.

(** C08 *)
Lemma C08_restore f b body sched :
  let s := run (start f [CWith b body]) sched in
  finished s = true ->
  flag s = f /\ exists th, threads s = [th] /\
     reads th = snd (fst (alone true body b)) /\ raising th = snd (alone true body b).
Proof.
  cbn zeta. intro F. destruct (single_finished f (CWith b body) sched F) as (E & th & Et & Er & Ex).
  destruct (alone_with false b body f) as (r & e & A & -> & ->).
  unfold alone_flag, alone_reads in *. rewrite A in *. cbn in *. eauto.
Qed.

Lemma C08_around f b body sched :
  let s := run (start f [CSeq CRead (CSeq (CTry (CWith b body) CSkip) CRead)]) sched in
  finished s = true ->
  flag s = f /\ exists th inner, threads s = [th] /\ raising th = false /\
    reads th = (false, f) :: inner ++ [(false, f)].
Proof.
  cbn zeta. intro F. destruct (single_finished _ _ sched F) as (E & th & Et & Er & Ex).
  unfold alone_flag, alone_reads in *.
  cbn [alone] in E, Er, Ex. destruct (alone true body b) as [[f1 r1] e1].
  destruct e1; cbn in E, Er, Ex; (split; [exact E|]).
  - exists th, (r1 ++ []). auto.
  - exists th, r1. auto.
Qed.

Lemma C08_disable f b body sched :
  run (start f [disable_approx b body]) sched = run (start f [CWith (negb b) body]) sched.
Proof. reflexivity. Qed.

(** ** Progress and termination. *)
Fixpoint cw (c : cmd) : nat :=
  match c with
  | CSkip | CRead | CRaise => 1
  | CSeq a b => 1 + cw a + cw b
  | CSet _ => 5
  | CWith _ body => 6 + cw body
  | CTry body h => 2 + cw body + cw h
  end.
Definition iw (i : item) : nat :=
  match i with
  | IDo c => cw c
  | IAcqWith _ _ body => 5 + cw body
  | IWriteWith _ _ body => 2 + cw body
  | IAcqSet _ => 4
  | IRestore _ | IWriteSet _ | IRelease => 1
  | ICatch h => 1 + cw h
  end.
Definition tw (th : thread) : nat := list_sum (map iw (stack th)).
Definition sw (s : sys) : nat := list_sum (map tw (threads s)).

Lemma step_decreases t f o th f' o' th' : step t f o th = Some (f', o', th') -> tw th' < tw th.
Proof.
  intro S. destruct th as [st r rd]. unfold step in S. cbn [stack raising reads] in *.
  destruct st as [|i k]; [discriminate|]. unfold tw; cbn [stack map list_sum].
  destruct r; destruct i as [c|s b body|s b body|s|b|b| |h];
    try destruct c; try destruct (acquire o t); inversion S; subst;
    cbn [stack map list_sum iw cw fold_right list_sum]; unfold list_sum; cbn [fold_right]; try lia;
    match goal with |- context [cw ?c] => destruct c; cbn; lia | _ => idtac end.
Qed.

Lemma set_thread_sum ts t th x : nth_error ts t = Some x -> tw th < tw x ->
  list_sum (map tw (set_thread ts t th)) < list_sum (map tw ts).
Proof.
  revert t; induction ts as [|y ts IH]; intros [|t] H L; cbn in *; try discriminate.
  - inversion H; subst. unfold list_sum. cbn. lia.
  - specialize (IH t H L). unfold list_sum in *. cbn. lia.
Qed.

(** A thread that cannot step is finished or waits for a lock held by another. *)
Lemma step_blocked t f o th : step t f o th = None ->
  stack th = [] \/ exists u n, o = Some (u, n) /\ u <> t.
Proof.
  intro S. destruct th as [st r rd]. unfold step in S. cbn [stack raising reads] in *.
  destruct st as [|i k]; auto. right.
  destruct r; destruct i as [c|s b body|s b body|s|b|b| |h]; try destruct c;
    try discriminate; destruct (acquire o t) eqn:A; try discriminate;
    unfold acquire in A; destruct o as [[u n]|]; try discriminate;
    destruct (Nat.eqb_spec t u); try discriminate; eauto.
Qed.

Lemma progress progs s : Inv progs s -> finished s = false ->
  exists t, sw (sched1 s t) < sw s.
Proof.
  intros I F.
  assert (GO : forall t th, nth_error (threads s) t = Some th ->
            step t (flag s) (owner s) th <> None -> exists t, sw (sched1 s t) < sw s).
  { intros t th Et N. exists t. unfold sched1. rewrite Et.
    destruct (step t (flag s) (owner s) th) as [[[f' o'] th']|] eqn:S; [|congruence].
    unfold sw; cbn. apply set_thread_sum with (x := th); auto.
    eapply step_decreases; eauto. }
  destruct (owner s) as [[o n]|] eqn:Eo.
  - destruct I as [L O K W OB]. rewrite Eo in O. destruct O as [Ho Hn].
    destruct (nth_error (threads s) o) as [th|] eqn:Et;
      [|apply nth_error_None in Et; lia].
    apply (GO o th Et). intro S. destruct (step_blocked _ _ _ _ S) as [E|(u & m & E & N)].
    + specialize (K o th Et). rewrite Eo, E, Nat.eqb_refl in K. cbn in K. lia.
    + inversion E. congruence.
  - unfold finished in F.
    assert (X : exists th, In th (threads s) /\ stack th <> []).
    { clear - F. induction (threads s) as [|th ts IH]; cbn in F; [discriminate|].
      destruct (stack th) eqn:E.
      - cbn in F. destruct (IH F) as (th' & Hin & Hs). exists th'. cbn; auto.
      - exists th. cbn. split; auto. congruence. }
    destruct X as (th & Hin & Hs). apply In_nth_error in Hin. destruct Hin as [t Et].
    apply (GO t th Et). intro S. destruct (step_blocked _ _ _ _ S) as [E|(u & m & E & N)];
      congruence.
Qed.

Lemma completes_from progs n : forall s, Inv progs s -> sw s <= n ->
  exists more, finished (run s more) = true.
Proof.
  induction n as [|n IH]; intros s I Hn.
  - destruct (finished s) eqn:F; [exists []; exact F|].
    destruct (progress progs s I F) as [t Ht]. lia.
  - destruct (finished s) eqn:F; [exists []; exact F|].
    destruct (progress progs s I F) as [t Ht].
    destruct (IH (sched1 s t)) as [more Hm]; [apply sched1_inv; auto|lia|].
    exists (t :: more). exact Hm.
Qed.

(** C10: no schedule deadlocks. *)
Lemma no_deadlock f progs sched :
  exists more, finished (run (start f progs) (sched ++ more)) = true.
Proof.
  destruct (completes_from progs _ (run (start f progs) sched)
              (run_inv _ _ _ (start_inv f progs)) (Nat.le_refl _)) as [more H].
  exists more. unfold run in *. rewrite fold_left_app. exact H.
Qed.

(** C10: the switch may change. *)
Lemma restore_fails_concurrently :
  exists f progs sched,
    (forall c, In c progs -> exists b, c = CWith b CSkip) /\ length progs = 2 /\
    finished (run (start f progs) sched) = true /\ flag (run (start f progs) sched) <> f.
Proof.
  (* thread 0 enters its block; thread 1 then reads the switch (True) before waiting;
     thread 0 leaves; thread 1 runs and "restores" True. *)
  exists false, [CWith true CSkip; CWith true CSkip],
    ([0;0;0] ++ [1] ++ [0;0;0] ++ [1;1;1;1;1]).
  split; [|vm_compute; repeat split; discriminate].
  intros c [<-|[<-|[]]]; eauto.
Qed.
