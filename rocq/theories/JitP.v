(** Proofs about the compilation cache, for all histories. *)
From Coq Require Import List Bool Arith Lia.
From Verif Require Import LogicM JitM.
Import ListNotations.

Lemma approx_eqb_eq a b : approx_eqb a b = true <-> a = b.
Proof. destruct a as [[]|], b as [[]|]; cbn; split; intro; congruence. Qed.
Lemma key_eqb_eq a b : key_eqb a b = true <-> a = b.
Proof.
  destruct a as [[[i c] s] x], b as [[[j d] t] y]. unfold key_eqb.
  rewrite !andb_true_iff, !Nat.eqb_eq, approx_eqb_eq. split.
  - intros [[[-> H] ->] ->]. apply internal_code_dec_bl in H. subst. reflexivity.
  - intro H. inversion H; subst. repeat split. apply internal_code_dec_lb. reflexivity.
Qed.

Local Arguments key_eqb : simpl never.

(** Modes of explicit calls. *)
Definition cache_ok (c : cache) : Prop :=
  Forall (fun km => forall b, snd (fst km) = Some b -> Forall (eq b) (snd km)) c.

Lemma lookup_ok c k m b : cache_ok c -> lookup k c = Some m -> snd k = Some b -> Forall (eq b) m.
Proof.
  induction 1 as [|[k' m'] c H _ IH]; cbn; [discriminate|].
  destruct (key_eqb k' k) eqn:E; [|exact IH].
  intros X Hk. inversion X; subst. apply key_eqb_eq in E. subst. apply H; auto.
Qed.

Lemma call_explicit g sig b f : forall c, cache_ok c ->
  Forall (eq b) (fst (call g sig (Some b) f c)) /\ cache_ok (snd (call g sig (Some b) f c)).
Proof.
  induction f as [|f1 IH1 f2 IH2|id body IH]; intros c H; cbn.
  - split; auto.
  - destruct (IH1 c H) as [A1 A2].
    destruct (call g sig (Some b) f1 c) as [ma c1]. cbn in *.
    destruct (IH2 c1 A2) as [B1 B2].
    destruct (call g sig (Some b) f2 c1) as [mb c2]. cbn in *.
    split; auto. apply Forall_app; auto.
  - destruct (lookup (id, body, sig, Some b) c) eqn:E; cbn.
    + split; auto. eapply lookup_ok; eauto.
    + destruct (IH c H) as [A1 A2]. destruct (call g sig (Some b) body c) as [m c1]. cbn in *.
      split; auto. constructor; auto. cbn. intros b' Hb. inversion Hb; subst. auto.
Qed.
Lemma call_none_ok g sig f : forall c, cache_ok c -> cache_ok (snd (call g sig None f c)).
Proof.
  induction f as [|f1 IH1 f2 IH2|id body IH]; intros c H; cbn; auto.
  - specialize (IH1 c H). destruct (call g sig None f1 c) as [ma c1]. cbn in *.
    specialize (IH2 c1 IH1). destruct (call g sig None f2 c1) as [mb c2]. auto.
  - destruct (lookup (id, body, sig, None) c) eqn:E; cbn; auto.
    specialize (IH c H). destruct (call g sig None body c) as [m c1]. cbn in *.
    constructor; auto. cbn. discriminate.
Qed.
Lemma call_ok g sig a f c : cache_ok c -> cache_ok (snd (call g sig a f c)).
Proof. destruct a; [intro; apply call_explicit; auto|apply call_none_ok]. Qed.

Lemma Forall_filter' {A} (P : A -> Prop) p l : Forall P l -> Forall P (filter p l).
Proof. induction 1; cbn; auto. destruct (p x); auto. Qed.

Lemma jstep_ok s o : cache_ok (j_cache s) -> cache_ok (j_cache (fst (jstep s o))).
Proof.
  intro H. destruct o as [f sig a|b|id]; cbn; auto.
  - pose proof (call_ok (j_flag s) sig a f _ H) as X.
    destruct (call (j_flag s) sig a f (j_cache s)) as [m c]. exact X.
  - apply Forall_filter'. exact H.
Qed.
Lemma jrun_app s h1 h2 : fst (jrun s (h1 ++ h2)) = fst (jrun (fst (jrun s h1)) h2).
Proof.
  revert s; induction h1 as [|o h1 IH]; intro s; cbn; auto.
  destruct (jstep s o) as [s1 out]. specialize (IH s1).
  destruct (jrun s1 (h1 ++ h2)) as [s2 o2]. destruct (jrun s1 h1) as [s3 o3]. exact IH.
Qed.
Lemma jrun_cons s o h : fst (jrun s (o :: h)) = fst (jrun (fst (jstep s o)) h).
Proof. cbn. destruct (jstep s o) as [s1 out]. cbn. destruct (jrun s1 h). reflexivity. Qed.
Lemma jrun_ok h : forall s, cache_ok (j_cache s) -> cache_ok (j_cache (fst (jrun s h))).
Proof.
  induction h as [|o h IH]; intros s H; auto.
  rewrite jrun_cons. apply IH, jstep_ok, H.
Qed.

(** C11, explicit argument. *)
Lemma explicit_always g0 h f sig b :
  Forall (eq b) (fst (call (j_flag (fst (jrun (jinit g0) h))) sig (Some b) f
                        (j_cache (fst (jrun (jinit g0) h))))).
Proof.
  apply call_explicit. apply jrun_ok. constructor.
Qed.

(** Lookups survive calls. *)
Lemma call_keeps g sig a f k m : forall c, lookup k c = Some m ->
  lookup k (snd (call g sig a f c)) = Some m.
Proof.
  induction f as [|f1 IH1 f2 IH2|id body IH]; intros c H; cbn; auto.
  - specialize (IH1 c H). destruct (call g sig a f1 c) as [ma c1]. cbn in *.
    specialize (IH2 c1 IH1). destruct (call g sig a f2 c1) as [mb c2]. auto.
  - destruct (lookup (id, body, sig, a) c) eqn:E; cbn; auto.
    specialize (IH c H). destruct (call g sig a body c) as [m' c1]. cbn in *.
    destruct (key_eqb (id, body, sig, a) k) eqn:Ek; auto.
    apply key_eqb_eq in Ek. subst k. congruence.
Qed.
Lemma clear_keeps id k m c : fst (fst (fst k)) <> id -> lookup k c = Some m ->
  lookup k (filter (fun '(k, _) => negb (Nat.eqb (fst (fst (fst k))) id)) c) = Some m.
Proof.
  intro N. induction c as [|[k' m'] c IH]; cbn; [discriminate|].
  destruct (key_eqb k' k) eqn:E.
  - intro H. apply key_eqb_eq in E. subst k'.
    destruct (Nat.eqb_spec (fst (fst (fst k))) id); [contradiction|]. cbn.
    destruct (key_eqb k k) eqn:Ek; [exact H|].
    assert (key_eqb k k = true) by (apply key_eqb_eq; reflexivity). congruence.
  - intro H. destruct (negb _); cbn; [rewrite E|]; auto.
Qed.
Lemma jrun_keeps k m h : ~ In (OClear (fst (fst (fst k)))) h -> forall s,
  lookup k (j_cache s) = Some m -> lookup k (j_cache (fst (jrun s h))) = Some m.
Proof.
  induction h as [|o h IH]; intros N s H; auto.
  rewrite jrun_cons. apply IH; [intro; apply N; cbn; auto|].
  destruct o as [f sig a|b|id]; cbn; auto.
  - pose proof (call_keeps (j_flag s) sig a f k m _ H) as X.
    destruct (call (j_flag s) sig a f (j_cache s)). exact X.
  - apply clear_keeps; auto. intro. subst. apply N. cbn; auto.
Qed.

Lemma call_jitted_stored g sig a id body c :
  lookup (id, body, sig, a) (snd (call g sig a (Jitted id body) c))
  = Some (fst (call g sig a (Jitted id body) c)).
Proof.
  cbn. destruct (lookup (id, body, sig, a) c) eqn:E; cbn; auto.
  destruct (call g sig a body c) as [m c1].
  assert (X : key_eqb (id, body, sig, a) (id, body, sig, a) = true) by (apply key_eqb_eq; auto).
  cbn [fst snd]. cbn -[key_eqb]. rewrite X. reflexivity.
Qed.

(** C11, frozen. *)
Lemma frozen s id body sig a h :
  ~ In (OClear id) h ->
  let first := call (j_flag s) sig a (Jitted id body) (j_cache s) in
  let s1 := mkj (j_flag s) (snd first) in
  let s2 := fst (jrun s1 h) in
  fst (call (j_flag s2) sig a (Jitted id body) (j_cache s2)) = fst first.
Proof.
  intros N. cbn zeta.
  pose proof (call_jitted_stored (j_flag s) sig a id body (j_cache s)) as E.
  set (first := call (j_flag s) sig a (Jitted id body) (j_cache s)) in *.
  assert (E2 : lookup (id, body, sig, a)
     (j_cache (fst (jrun (mkj (j_flag s) (snd first)) h))) = Some (fst first)).
  { apply jrun_keeps; [exact N|exact E]. }
  cbn [call]. rewrite E2. reflexivity.
Qed.

(** C11: a leaf that is not in the cache uses the current switch. *)
Lemma first_call s id sig a :
  lookup (id, Resolve, sig, a) (j_cache s) = None ->
  fst (call (j_flag s) sig a (Jitted id Resolve) (j_cache s)) = [resolve (j_flag s) a].
Proof. intro H. cbn. rewrite H. reflexivity. Qed.

Lemma lookup_cleared id body sig a c :
  lookup (id, body, sig, a) (filter (fun '(k, _) => negb (Nat.eqb (fst (fst (fst k))) id)) c) = None.
Proof.
  induction c as [|[k' m'] c IH]; cbn; auto.
  destruct (Nat.eqb_spec (fst (fst (fst k'))) id); cbn [negb]; auto.
  change (lookup (id, body, sig, a) ((k', m') :: filter (fun '(k, _) => negb (Nat.eqb (fst (fst (fst k))) id)) c) = None).
  cbn [lookup]. destruct (key_eqb k' (id, body, sig, a)) eqn:E; auto.
  apply key_eqb_eq in E. subst k'. cbn in n. congruence.
Qed.

Lemma call_after_clear s id sig a :
  let s1 := fst (jstep s (OClear id)) in
  fst (call (j_flag s1) sig a (Jitted id Resolve) (j_cache s1)) = [resolve (j_flag s) a].
Proof.
  cbn zeta. rewrite (first_call (fst (jstep s (OClear id)))).
  - reflexivity.
  - cbn [jstep fst j_cache]. apply lookup_cleared.
Qed.

(** While the switch keeps one value, every call follows it. *)
Definition uniform (g : bool) (c : cache) : Prop :=
  Forall (fun km => Forall (eq (resolve g (snd (fst km)))) (snd km)) c.
Lemma call_uniform g sig a f : forall c, uniform g c ->
  Forall (eq (resolve g a)) (fst (call g sig a f c)) /\ uniform g (snd (call g sig a f c)).
Proof.
  induction f as [|f1 IH1 f2 IH2|id body IH]; intros c H; cbn.
  - auto.
  - destruct (IH1 c H) as [A1 A2]. destruct (call g sig a f1 c) as [ma c1]. cbn in *.
    destruct (IH2 c1 A2) as [B1 B2]. destruct (call g sig a f2 c1) as [mb c2]. cbn in *.
    split; auto. apply Forall_app; auto.
  - destruct (lookup (id, body, sig, a) c) eqn:E; cbn.
    + split; auto. revert E. clear - H. induction H as [|[k' m'] c P _ IHc]; cbn; [discriminate|].
      destruct (key_eqb k' (id, body, sig, a)) eqn:Ek; auto.
      intro X. inversion X; subst. apply key_eqb_eq in Ek. subst. exact P.
    + destruct (IH c H) as [A1 A2]. destruct (call g sig a body c) as [m c1]. cbn in *.
      split; auto. constructor; auto.
Qed.
Lemma constant_switch_aux g h : (forall b, In (OSwitch b) h -> b = g) -> forall s,
  j_flag s = g -> uniform g (j_cache s) ->
  j_flag (fst (jrun s h)) = g /\ uniform g (j_cache (fst (jrun s h))).
Proof.
  induction h as [|o h IH]; intros N s F U; auto.
  rewrite jrun_cons. apply IH.
  - intros b Hb. apply N. cbn; auto.
  - destruct o as [f sig a|b|id]; cbn; auto.
    + destruct (call (j_flag s) sig a f (j_cache s)); auto.
    + apply N. cbn; auto.
  - destruct o as [f sig a|b|id]; cbn; auto.
    + subst g. destruct (call_uniform (j_flag s) sig a f _ U) as [_ X].
      destruct (call (j_flag s) sig a f (j_cache s)). exact X.
    + apply Forall_filter'. exact U.
Qed.
Lemma constant_switch g h f sig a : (forall b, In (OSwitch b) h -> b = g) ->
  let s := fst (jrun (jinit g) h) in
  Forall (eq (resolve g a)) (fst (call (j_flag s) sig a f (j_cache s))).
Proof.
  intros N. cbn zeta. destruct (constant_switch_aux g h N (jinit g) eq_refl) as [F U];
    [constructor|].
  rewrite F. apply call_uniform. exact U.
Qed.

(** A function can end up half smoothed, half exact. *)
Lemma mixed_modes :
  exists h f sig, let s := fst (jrun (jinit false) h) in
    fst (call (j_flag s) sig None f (j_cache s)) = [false; true].
Proof.
  exists [OCall (Jitted 0 Resolve) 0 None; OSwitch true],
    (Jitted 2 (Then (Jitted 0 Resolve) (Jitted 1 Resolve))), 0.
  vm_compute. reflexivity.
Qed.

(** Clearing the outer function's cache is not enough. *)
Lemma clear_outer_not_enough :
  exists f id body, f = Jitted id body /\
    let s := fst (jrun (jinit false) [OCall f 0 None; OSwitch true; OClear id]) in
    j_flag s = true /\ fst (call (j_flag s) 0 None f (j_cache s)) = [false].
Proof.
  exists (Jitted 1 (Jitted 0 Resolve)), 1, (Jitted 0 Resolve). vm_compute. auto.
Qed.
