(** Proofs about path candidates. *)
From Coq Require Import List Bool Arith Lia ZArith Sorted FinFun.
From Verif Require Import Base LogicM GeometryM OptimizeM PathM CandidatesM SceneM SpecCandidates.
Import ListNotations.
Local Notation length := List.length.

Definition prev_ok (prev : option nat) (i : nat) : bool :=
  match prev with None => true | Some p => negb (Nat.eqb i p) end.
Fixpoint chain (prev : option nat) (c : list nat) : Prop :=
  match c with [] => True | i :: tl => prev_ok prev i = true /\ chain (Some i) tl end.

Lemma chain_norepeat c : forall prev, chain prev c <->
  (no_immediate_repeat c /\ match c with [] => True | i :: _ => prev_ok prev i = true end).
Proof.
  induction c as [|i c IH]; intro prev; cbn.
  - split; auto. intros _. split; auto. intros l a b r E. destruct l; discriminate.
  - rewrite IH. split.
    + intros (P & N & Q). split; auto. intros l a b r E. destruct l as [|x l]; cbn in E; inversion E; subst.
      * cbn in Q. apply negb_true_iff, Nat.eqb_neq in Q. auto.
      * eapply N; eauto.
    + intros (N & P). split; auto. split.
      * intros l a b r E. apply (N (i :: l) a b r). cbn. congruence.
      * destruct c as [|j c]; auto. cbn. apply negb_true_iff, Nat.eqb_neq. intro. subst.
        apply (N [] i i c); auto.
Qed.

Lemma complete_paths_S n prev k : complete_paths n prev (S k) =
  flat_map (fun i => map (cons i) (complete_paths n (Some i) k)) (filter (prev_ok prev) (seq 0 n)).
Proof. reflexivity. Qed.

Lemma in_complete n k : forall prev c,
  In c (complete_paths n prev k) <-> length c = k /\ (forall i, In i c -> i < n) /\ chain prev c.
Proof.
  induction k as [|k IH]; intros prev c.
  - cbn. split.
    + intros [<-|[]]. cbn. repeat split. intros i [].
    + intros (L & _ & _). destruct c; [auto|discriminate].
  - rewrite complete_paths_S, in_flat_map. split.
    + intros (i & I & M). apply filter_In in I. destruct I as [I P]. apply in_seq in I.
      apply in_map_iff in M. destruct M as (c' & <- & M). apply IH in M. destruct M as (L & B & C).
      cbn. split; [lia|]. split; auto. intros j [<-|J]; [lia|auto].
    + intros (L & B & C). destruct c as [|i c]; [discriminate|]. cbn in L, C. destruct C as [P C].
      exists i. split.
      * apply filter_In. split; auto. apply in_seq. specialize (B i (or_introl eq_refl)). lia.
      * apply in_map. apply IH. split; [lia|]. split; auto. intros j J. apply B. right. auto.
Qed.


Lemma NoDup_app' {A} (l r : list A) : NoDup l -> NoDup r -> (forall x, In x l -> ~ In x r) -> NoDup (l ++ r).
Proof.
  induction 1 as [|x l N D IH]; cbn; intros R H; auto. constructor.
  - intro I. apply in_app_or in I. destruct I as [I|I]; [auto|]. apply (H x); auto.
  - apply IH; auto.
Qed.
Lemma NoDup_flat_map_cons (f : nat -> list (list nat)) l :
  NoDup l -> (forall i, In i l -> NoDup (f i)) ->
  NoDup (flat_map (fun i => map (cons i) (f i)) l).
Proof.
  induction 1 as [|i l N D IH]; cbn; intro H; [constructor|].
  apply NoDup_app'; auto.
  - apply FinFun.Injective_map_NoDup; [intros a b E; congruence|]. apply H. auto.
  - intros c M F. apply in_map_iff in M. destruct M as (c' & <- & _). apply in_flat_map in F.
    destruct F as (j & J & M). apply in_map_iff in M. destruct M as (c'' & E & _). inversion E; subst. auto.
Qed.
Lemma NoDup_filter' {A} (p : A -> bool) l : NoDup l -> NoDup (filter p l).
Proof. apply NoDup_filter. Qed.
Lemma complete_NoDup n k : forall prev, NoDup (complete_paths n prev k).
Proof.
  induction k as [|k IH]; intro prev; [cbn; constructor; [auto|constructor]|].
  rewrite complete_paths_S. apply NoDup_flat_map_cons; auto. apply NoDup_filter', seq_NoDup.
Qed.

(** Lexicographic order. *)
Lemma lex_flat_map (f : nat -> list (list nat)) l :
  StronglySorted lt l -> (forall i, In i l -> StronglySorted lex_lt (f i)) ->
  StronglySorted lex_lt (flat_map (fun i => map (cons i) (f i)) l).
Proof.
  induction 1 as [|i l S IH F]; cbn; intro H; [constructor|].
  assert (X : StronglySorted lex_lt (map (cons i) (f i))).
  { specialize (H i (or_introl eq_refl)). induction H as [|c cs HS HI HF]; cbn; constructor; auto.
    apply Forall_map. eapply Forall_impl; [|exact HF]. cbn. auto. }
  assert (Y : StronglySorted lex_lt (flat_map (fun i => map (cons i) (f i)) l)) by (apply IH; auto).
  assert (Z : forall c d, In c (map (cons i) (f i)) -> In d (flat_map (fun i => map (cons i) (f i)) l) -> lex_lt c d).
  { intros c d C D. apply in_map_iff in C. destruct C as (c' & <- & _). apply in_flat_map in D.
    destruct D as (j & J & D). apply in_map_iff in D. destruct D as (d' & <- & _).
    rewrite Forall_forall in F. cbn. left. apply F; auto. }
  revert X Z. generalize (map (cons i) (f i)) as a. induction a as [|x a IHa]; cbn; intros X Z; auto.
  inversion X; subst. constructor; [apply IHa; auto|]. apply Forall_forall. intros d D.
  apply in_app_or in D. destruct D as [D|D]; [rewrite Forall_forall in *; auto|auto].
Qed.
Lemma sorted_filter (p : nat -> bool) l : StronglySorted lt l -> StronglySorted lt (filter p l).
Proof.
  induction 1 as [|i l S IH F]; cbn; [constructor|]. destruct (p i); auto. constructor; auto.
  apply Forall_forall. intros x X. apply filter_In in X. rewrite Forall_forall in F. apply F. tauto.
Qed.
Lemma sorted_seq n : forall s, StronglySorted lt (seq s n).
Proof.
  induction n; intro s; cbn; constructor; auto. apply Forall_forall. intros x X. apply in_seq in X. lia.
Qed.
Lemma complete_sorted n k : forall prev, StronglySorted lex_lt (complete_paths n prev k).
Proof.
  induction k as [|k IH]; intro prev; [cbn; constructor; constructor|].
  rewrite complete_paths_S. apply lex_flat_map; auto. apply sorted_filter, sorted_seq.
Qed.

(** Filtering. *)
Definition okc (keep : nat -> bool) (c : list nat) : bool := forallb keep c.
Lemma filter_flat_map {A B} (p : B -> bool) (f : A -> list B) l :
  filter p (flat_map f l) = flat_map (fun x => filter p (f x)) l.
Proof. induction l; cbn; auto. rewrite filter_app, IHl. reflexivity. Qed.
Lemma filter_cons_map keep i cs :
  filter (okc keep) (map (cons i) cs) = if keep i then map (cons i) (filter (okc keep) cs) else [].
Proof.
  induction cs as [|c cs IH]; cbn; [destruct (keep i); auto|].
  rewrite IH. unfold okc at 1. cbn. fold (okc keep c). destruct (keep i); cbn; auto.
  destruct (okc keep c); reflexivity.
Qed.
Lemma flat_map_filter {A B} (p : A -> bool) (f : A -> list B) l :
  flat_map (fun x => if p x then f x else []) l = flat_map f (filter p l).
Proof. induction l as [|x l IH]; cbn; auto. destruct (p x); cbn; rewrite IH; auto. Qed.
Lemma filter_filter {A} (p q : A -> bool) l : filter p (filter q l) = filter (fun x => (p x && q x)%bool) l.
Proof. induction l as [|x l IH]; cbn; auto. destruct (q x); cbn; rewrite ?andb_true_r, ?andb_false_r, IH; auto. Qed.
Lemma complete_filtered keep n prev k : filter (okc keep) (complete_paths n prev (S k)) =
  flat_map (fun i => map (cons i) (filter (okc keep) (complete_paths n (Some i) k)))
    (filter keep (filter (prev_ok prev) (seq 0 n))).
Proof.
  rewrite complete_paths_S, filter_flat_map.
  rewrite (flat_map_ext _ (fun i => if keep i then map (cons i) (filter (okc keep) (complete_paths n (Some i) k)) else []))
    by (intro; apply filter_cons_map).
  apply flat_map_filter.
Qed.

Lemma nth_seq_map {A} (f : nat -> A) n i d : i < n -> nth i (map f (seq 0 n)) d = f i.
Proof.
  intro H. rewrite nth_indep with (d' := f 0) by (rewrite map_length, seq_length; auto).
  rewrite map_nth, seq_nth by auto. reflexivity.
Qed.
(** The graph with nodes inserted and disconnected. *)
Section Graph.
  Variables (n : nat) (nodes : list nat).
  Hypothesis Hn : forall j, In j nodes -> j < n.
  Definition keepn (i : nat) : bool := negb (existsb (Nat.eqb i) nodes).
  Definition GG : digraph :=
    disconnect_nodes (fst (fst (insert_from_and_to_nodes (from_complete_graph n)))) nodes.

  Lemma mem_nodes i : n <= i -> existsb (Nat.eqb i) nodes = false.
  Proof.
    intro H. destruct (existsb (Nat.eqb i) nodes) eqn:E; auto. apply existsb_exists in E.
    destruct E as (j & J & E). apply Nat.eqb_eq in E. subst. apply Hn in J. lia.
  Qed.
  Lemma keepn_to : keepn (S n) = true.
  Proof. unfold keepn. rewrite mem_nodes by lia. reflexivity. Qed.
  Definition G0 := fst (fst (insert_from_and_to_nodes (from_complete_graph n))).
  Lemma G0_len : length (succs G0) = n + 2.
  Proof.
    unfold G0, insert_from_and_to_nodes, from_complete_graph. cbn.
    rewrite app_length, !map_length, seq_length. reflexivity.
  Qed.
  Lemma succ_GG i : i < n + 2 -> succ_of GG i =
    if keepn i then filter keepn (succ_of G0 i) else [].
  Proof.
    intro H. unfold succ_of at 1, GG, disconnect_nodes. cbn [succs]. fold G0. rewrite G0_len.
    rewrite nth_seq_map by auto. unfold keepn.
    destruct (existsb (Nat.eqb i) nodes); reflexivity.
  Qed.
  Lemma succ_G0_node i : i < n -> succ_of G0 i = filter (prev_ok (Some i)) (seq 0 n) ++ [S n].
  Proof.
    intro H. unfold succ_of, G0, insert_from_and_to_nodes, from_complete_graph. cbn [fst snd succs num_nodes].
    rewrite app_nth1 by (rewrite !map_length, seq_length; auto).
    rewrite map_map.
    rewrite nth_seq_map by auto. reflexivity.
  Qed.
  Lemma succ_G0_from : succ_of G0 n = seq 0 n ++ [S n].
  Proof.
    unfold succ_of, G0, insert_from_and_to_nodes, from_complete_graph. cbn [fst snd succs num_nodes].
    rewrite app_nth2 by (rewrite !map_length, seq_length; auto).
    rewrite !map_length, seq_length, Nat.sub_diag. reflexivity.
  Qed.
  Lemma succ_G0_to : succ_of G0 (S n) = [].
  Proof.
    unfold succ_of, G0, insert_from_and_to_nodes, from_complete_graph. cbn [fst snd succs num_nodes].
    rewrite app_nth2 by (rewrite !map_length, seq_length; auto).
    rewrite !map_length, seq_length. replace (S n - n) with 1 by lia. reflexivity.
  Qed.
  Lemma succ_GG_to : succ_of GG (S n) = [].
  Proof. rewrite succ_GG by lia. rewrite succ_G0_to. destruct (keepn (S n)); reflexivity. Qed.
  Lemma paths_from_to k : digraph_paths GG (S n) (S n) k = [].
  Proof. destruct k; cbn [digraph_paths]; rewrite succ_GG_to; reflexivity. Qed.

  Definition prev_node (prev : option nat) : nat := match prev with None => n | Some p => p end.
  Lemma succ_GG_prev prev : (forall p, prev = Some p -> p < n /\ keepn p = true) ->
    succ_of GG (prev_node prev) = filter keepn (filter (prev_ok prev) (seq 0 n)) ++ [S n].
  Proof.
    intro H. destruct prev as [p|]; cbn [prev_node].
    - destruct (H p eq_refl) as [A B]. rewrite succ_GG by lia. rewrite B, succ_G0_node by auto.
      rewrite filter_app. cbn [filter]. rewrite keepn_to. reflexivity.
    - rewrite succ_GG by lia. unfold keepn at 1. rewrite mem_nodes by lia. cbn [negb].
      rewrite succ_G0_from, filter_app. cbn [filter]. rewrite keepn_to. f_equal.
      rewrite (filter_ext (prev_ok None) (fun _ => true)) by reflexivity.
      f_equal. induction (seq 0 n); cbn; congruence.
  Qed.
  Lemma digraph_is_filter k : forall prev, (forall p, prev = Some p -> p < n /\ keepn p = true) ->
    digraph_paths GG (S n) (prev_node prev) k = filter (okc keepn) (complete_paths n prev k).
  Proof.
    induction k as [|k IH]; intros prev H.
    - cbn [digraph_paths complete_paths]. rewrite succ_GG_prev by auto.
      rewrite existsb_app. cbn [existsb]. rewrite Nat.eqb_refl, orb_true_r. reflexivity.
    - rewrite complete_filtered. cbn [digraph_paths]. rewrite succ_GG_prev by auto.
      rewrite flat_map_app. cbn [flat_map]. rewrite paths_from_to. cbn [map app]. rewrite app_nil_r.
      assert (X : forall l, (forall i, In i l -> i < n /\ keepn i = true) ->
        flat_map (fun i => map (cons i) (digraph_paths GG (S n) i k)) l =
        flat_map (fun i => map (cons i) (filter (okc keepn) (complete_paths n (Some i) k))) l).
      { intro l. induction l as [|i l IHl]; intro Q; cbn; auto. rewrite IHl by (intros; apply Q; right; auto).
        f_equal. f_equal. apply (IH (Some i)). intros p E. inversion E; subst. apply Q. left; auto. }
      apply X. intros i I. apply filter_In in I. destruct I as [I K]. apply filter_In in I.
      destruct I as [I _]. apply in_seq in I. split; [lia|auto].
  Qed.
End Graph.

Lemma candidates_none n lo hi : all_path_candidates n lo hi None None =
  flat_map (complete_paths n None) (order_range lo hi).
Proof. reflexivity. Qed.
Lemma candidates_filtered n lo hi order nodes : (forall j, In j nodes -> j < n) ->
  all_path_candidates n lo hi order (Some nodes) =
  filter (okc (keepn nodes)) (all_path_candidates n lo hi order None).
Proof.
  intro H. unfold all_path_candidates.
  assert (X : forall k, digraph_paths (GG n nodes) (S n) n k = filter (okc (keepn nodes)) (complete_paths n None k)).
  { intro k. apply (digraph_is_filter n nodes H k None). discriminate. }
  change (insert_from_and_to_nodes (from_complete_graph n)) with
    (fst (fst (insert_from_and_to_nodes (from_complete_graph n))), n, S n).
  cbn [fst snd]. fold (GG n nodes).
  destruct order as [o|]; rewrite filter_flat_map; apply flat_map_ext; intro k; apply X.
Qed.
Lemma order_is_min_max n lo hi o f : all_path_candidates n lo hi (Some o) f = all_path_candidates n o o None f.
Proof. destruct f; reflexivity. Qed.

Lemma okc_iff keep c : okc keep c = true <-> forall i, In i c -> keep i = true.
Proof. apply forallb_forall. Qed.

Lemma in_candidates_none n lo hi c :
  In c (all_path_candidates n lo hi None None) <-> admissible n (fun _ => true) lo hi c.
Proof.
  rewrite candidates_none, in_flat_map. unfold admissible, order_range. split.
  - intros (k & K & C). apply in_seq in K. apply in_complete in C. destruct C as (L & B & C).
    apply chain_norepeat in C. split; [lia|]. split; [auto|]. tauto.
  - intros (L & B & N). exists (length c). split; [apply in_seq; lia|]. apply in_complete.
    split; auto. split; [intros i I; apply B; auto|]. apply chain_norepeat. split; auto. destruct c; auto.
Qed.
Lemma in_candidates n lo hi filt c :
  match filt with Some nodes => forall j, In j nodes -> j < n | None => True end ->
  (In c (all_path_candidates n lo hi None filt) <->
   admissible n (match filt with Some nodes => keepn nodes | None => fun _ => true end) lo hi c).
Proof.
  destruct filt as [nodes|]; intro H; [|apply in_candidates_none].
  rewrite candidates_filtered by auto. rewrite filter_In, in_candidates_none, okc_iff.
  unfold admissible. split.
  - intros [(A & B & C) D]. split; auto. split; auto. intros i I. split; [apply B|]; auto.
  - intros (A & B & C). split; [split; auto; split; auto|].
    + intros i I. split; [apply B|]; auto.
    + intros i I. apply B. auto.
Qed.
Lemma candidates_length_of n k prev c : In c (complete_paths n prev k) -> length c = k.
Proof. intro H. apply in_complete in H. tauto. Qed.
Lemma NoDup_flat_map_disj {A B} (f : A -> list B) l : NoDup l -> (forall a, In a l -> NoDup (f a)) ->
  (forall a b x, In x (f a) -> In x (f b) -> a = b) -> NoDup (flat_map f l).
Proof.
  induction 1 as [|a l N D IH]; cbn; intros H J; [constructor|]. apply NoDup_app'; auto.
  intros x X Y. apply in_flat_map in Y. destruct Y as (b & Ib & Y). rewrite (J a b x X Y) in N. auto.
Qed.
Lemma candidates_NoDup_none n lo hi : NoDup (all_path_candidates n lo hi None None).
Proof.
  rewrite candidates_none. apply NoDup_flat_map_disj.
  - apply seq_NoDup.
  - intros; apply complete_NoDup.
  - intros a b x X Y. apply candidates_length_of in X, Y. congruence.
Qed.
Lemma candidates_NoDup n lo hi filt :
  match filt with Some nodes => forall j, In j nodes -> j < n | None => True end ->
  NoDup (all_path_candidates n lo hi None filt).
Proof.
  destruct filt as [nodes|]; intro H; [|apply candidates_NoDup_none].
  rewrite candidates_filtered by auto. apply NoDup_filter, candidates_NoDup_none.
Qed.

(** Order of the candidates: by length, then lexicographic. *)
Definition cand_lt (a b : list nat) : Prop := length a < length b \/ (length a = length b /\ lex_lt a b).
Lemma sorted_app {A} (R : A -> A -> Prop) l r : StronglySorted R l -> StronglySorted R r ->
  (forall x y, In x l -> In y r -> R x y) -> StronglySorted R (l ++ r).
Proof.
  induction 1 as [|x l S IH F]; cbn; intros Q H; auto. constructor; [apply IH; auto|].
  apply Forall_forall. intros y Y. apply in_app_or in Y. rewrite Forall_forall in F. destruct Y; auto.
Qed.
Lemma sorted_impl_in {A} (R R' : A -> A -> Prop) l : (forall x y, In x l -> In y l -> R x y -> R' x y) ->
  StronglySorted R l -> StronglySorted R' l.
Proof.
  intros H S. induction S as [|x l S IH F]; constructor.
  - apply IH. intros; apply H; cbn; auto.
  - apply Forall_forall. intros y Y. rewrite Forall_forall in F. apply H; cbn; auto.
Qed.
Lemma candidates_sorted_none n m : forall lo,
  StronglySorted cand_lt (flat_map (complete_paths n None) (seq lo m)).
Proof.
  induction m as [|m IH]; intro lo; cbn; [constructor|]. apply sorted_app; auto.
  - eapply sorted_impl_in; [|apply complete_sorted]. intros x y X Y Z. right. split; auto.
    apply candidates_length_of in X, Y. congruence.
  - intros x y X Y. apply in_flat_map in Y. destruct Y as (k & K & Y). apply in_seq in K.
    apply candidates_length_of in X, Y. left. lia.
Qed.
Lemma sorted_filter_gen {A} (R : A -> A -> Prop) p l : StronglySorted R l -> StronglySorted R (filter p l).
Proof.
  induction 1 as [|i l S IH F]; cbn; [constructor|]. destruct (p i); auto. constructor; auto.
  apply Forall_forall. intros x X. apply filter_In in X. rewrite Forall_forall in F. apply F. tauto.
Qed.
Lemma candidates_sorted n lo hi filt :
  match filt with Some nodes => forall j, In j nodes -> j < n | None => True end ->
  StronglySorted cand_lt (all_path_candidates n lo hi None filt).
Proof.
  destruct filt as [nodes|]; intro H.
  - rewrite candidates_filtered by auto. apply sorted_filter_gen, candidates_sorted_none.
  - apply candidates_sorted_none.
Qed.
Lemma sorted_by_length cs : StronglySorted cand_lt cs -> by_length cs.
Proof.
  intros S l a m b r E. subst cs. induction l as [|x l IH]; cbn in S.
  - inversion S as [|? ? _ F]; subst. rewrite Forall_forall in F.
    specialize (F b ltac:(apply in_or_app; right; left; auto)). unfold cand_lt in F. lia.
  - inversion S; subst. auto.
Qed.

(** Count. *)
Lemma flat_map_length_const {A B} (f : A -> list B) c l : (forall a, In a l -> length (f a) = c) ->
  length (flat_map f l) = length l * c.
Proof.
  induction l as [|a l IH]; cbn; intro H; auto. rewrite app_length, H, IH by auto. reflexivity.
Qed.
Lemma count_remove keep n p : p < n -> keep p = true ->
  length (filter keep (filter (prev_ok (Some p)) (seq 0 n))) = length (filter keep (seq 0 n)) - 1.
Proof.
  intros H K. replace (seq 0 n) with (seq 0 p ++ p :: seq (S p) (n - S p)).
  - rewrite !filter_app, !app_length. cbn [filter]. cbn [prev_ok]. rewrite Nat.eqb_refl, K. cbn [negb length].
    assert (X : forall s m, (s + m <= p \/ p < s) -> filter (fun i => negb (i =? p)) (seq s m) = seq s m).
    { intros s m Q. rewrite <- (filter_ext_in (fun _ => true)).
      - induction (seq s m); cbn; congruence.
      - intros x I. apply in_seq in I. symmetry. apply negb_true_iff, Nat.eqb_neq. lia. }
    rewrite !X by lia. lia.
  - replace n with (p + S (n - S p)) at 2 by lia. rewrite seq_app. reflexivity.
Qed.
Lemma count_some keep n k : forall p, p < n -> keep p = true ->
  length (filter (okc keep) (complete_paths n (Some p) k)) = (length (filter keep (seq 0 n)) - 1) ^ k.
Proof.
  induction k as [|k IH]; intros p P K; [reflexivity|].
  rewrite complete_filtered. rewrite flat_map_length_const with (c := (length (filter keep (seq 0 n)) - 1) ^ k).
  - rewrite count_remove by auto. reflexivity.
  - intros i I. rewrite map_length. apply filter_In in I. destruct I as [I Ki]. apply filter_In in I.
    destruct I as [I _]. apply in_seq in I. apply IH; [lia|auto].
Qed.
Lemma filter_all {A} (l : list A) : filter (fun _ => true) l = l.
Proof. induction l; cbn; congruence. Qed.
Lemma count_none keep n k :
  length (filter (okc keep) (complete_paths n None (S k))) =
  length (filter keep (seq 0 n)) * (length (filter keep (seq 0 n)) - 1) ^ k.
Proof.
  rewrite complete_filtered. rewrite flat_map_length_const with (c := (length (filter keep (seq 0 n)) - 1) ^ k).
  - f_equal. f_equal. f_equal. apply filter_all.
  - intros i I. rewrite map_length. apply filter_In in I. destruct I as [I Ki]. apply filter_In in I.
    destruct I as [I _]. apply in_seq in I. apply count_some; [lia|auto].
Qed.
Lemma okc_true c : okc (fun _ => true) c = true.
Proof. unfold okc. induction c; auto. Qed.
Lemma candidates_count n k filt :
  match filt with Some nodes => forall j, In j nodes -> j < n | None => True end ->
  let keep := match filt with Some nodes => keepn nodes | None => fun _ => true end in
  let usable := length (filter keep (seq 0 n)) in
  length (all_path_candidates n 0 0 (Some k) filt) =
  match k with O => 1 | S k' => usable * (usable - 1) ^ k' end.
Proof.
  intro H. cbn zeta. rewrite order_is_min_max.
  assert (X : all_path_candidates n k k None None = complete_paths n None k).
  { rewrite candidates_none. unfold order_range. replace (S k - k) with 1 by lia. cbn. apply app_nil_r. }
  destruct filt as [nodes|].
  - rewrite candidates_filtered, X by auto. destruct k; [reflexivity|]. apply count_none.
  - rewrite X. destruct k; [reflexivity|]. rewrite <- count_none. f_equal.
    rewrite (filter_ext _ (fun _ => true)) by apply okc_true. symmetry. apply filter_all.
Qed.

Lemma norepeat_rev c : no_immediate_repeat c -> no_immediate_repeat (rev c).
Proof.
  intros H l a b r E. apply (f_equal (@rev nat)) in E. rewrite rev_involutive in E.
  rewrite rev_app_distr in E. cbn in E. rewrite <- !app_assoc in E. cbn in E.
  intro. subst. apply (H (rev r) b b (rev l)); auto.
Qed.
Lemma admissible_rev n keep lo hi c : admissible n keep lo hi c -> admissible n keep lo hi (rev c).
Proof.
  intros (A & B & C). split; [rewrite rev_length; auto|]. split; [|apply norepeat_rev; auto].
  intros i I. apply B. apply in_rev. auto.
Qed.

(** Scene level. *)
Lemma filtered_nodes_aux (keep : object -> bool) l : forall s acc,
  fold_left (fun (nodes : list nat) '(i, obj) => if keep obj then nodes else nodes ++ [i])
    (combine (seq s (length l)) l) acc =
  acc ++ filter (fun i => negb (keep (nth (i - s) l (OVertex (Rdefinitions.R0, Rdefinitions.R0))))) (seq s (length l)).
Proof.
  induction l as [|o l IH]; intros s acc; cbn [length seq combine fold_left filter].
  - rewrite app_nil_r. reflexivity.
  - rewrite Nat.sub_diag. change (nth 0 (o :: l) (OVertex (Rdefinitions.R0, Rdefinitions.R0))) with o.
    assert (X : filter (fun i => negb (keep (nth (i - s) (o :: l) (OVertex (Rdefinitions.R0, Rdefinitions.R0))))) (seq (S s) (length l))
      = filter (fun i => negb (keep (nth (i - S s) l (OVertex (Rdefinitions.R0, Rdefinitions.R0))))) (seq (S s) (length l))).
    { apply filter_ext_in. intros i I. apply in_seq in I. replace (i - s) with (S (i - S s)) by lia. reflexivity. }
    rewrite X, IH. destruct (keep o); cbn [negb]; auto. rewrite <- app_assoc. reflexivity.
Qed.
Lemma filtered_nodes_eq s keep : filtered_nodes s keep =
  filter (fun i => negb (keep (nth i (objects s) (OVertex (Rdefinitions.R0, Rdefinitions.R0))))) (seq 0 (length (objects s))).
Proof.
  unfold filtered_nodes, enumerate. rewrite filtered_nodes_aux. cbn [app]. apply filter_ext. intro i.
  rewrite Nat.sub_0_r. reflexivity.
Qed.
Lemma filtered_nodes_lt s keep j : In j (filtered_nodes s keep) -> j < length (objects s).
Proof. rewrite filtered_nodes_eq. intro I. apply filter_In in I. destruct I as [I _]. apply in_seq in I. lia. Qed.
Lemma keepn_filtered s keep d i : i < length (objects s) ->
  keepn (filtered_nodes s keep) i = keep (nth i (objects s) d).
Proof.
  intro H. rewrite nth_indep with (d' := OVertex (Rdefinitions.R0, Rdefinitions.R0)) by auto.
  unfold keepn. destruct (keep _) eqn:K; apply eq_true_iff_eq.
  - rewrite negb_true_iff. split; auto. intros _. apply not_true_is_false. intro E. apply existsb_exists in E.
    destruct E as (j & J & E). apply Nat.eqb_eq in E. subst j. rewrite filtered_nodes_eq in J.
    apply filter_In in J. destruct J as [_ J]. rewrite K in J. discriminate.
  - split; [|discriminate]. rewrite negb_true_iff. intro E. exfalso.
    assert (existsb (Nat.eqb i) (filtered_nodes s keep) = true); [|congruence].
    apply existsb_exists. exists i. split; [|apply Nat.eqb_refl]. rewrite filtered_nodes_eq.
    apply filter_In. split; [apply in_seq; lia|]. rewrite K. reflexivity.
Qed.
Lemma C46_lemma s lo hi order keep d :
  scene_candidates s (mkcandargs lo hi order (Some keep)) =
  filter (fun c => forallb (fun i => keep (nth i (objects s) d)) c)
    (scene_candidates s (mkcandargs lo hi order None)).
Proof.
  unfold scene_candidates. cbn [ca_filter ca_min ca_max ca_order].
  rewrite candidates_filtered by (intros j; apply filtered_nodes_lt).
  assert (E : exists lo' hi', all_path_candidates (length (objects s)) lo hi order None =
    all_path_candidates (length (objects s)) lo' hi' None None)
    by (destruct order as [o|]; [exists o, o; apply order_is_min_max|exists lo, hi; auto]).
  destruct E as (lo' & hi' & ->). apply filter_ext_in. intros c C. apply in_candidates_none in C.
  destruct C as (_ & B & _). unfold okc.
  induction c as [|i c IH]; cbn; auto. rewrite IH by (intros j J; apply B; right; auto). f_equal.
  apply keepn_filtered. apply B. left; auto.
Qed.
Lemma C46_all s lo hi order keep : (forall o, In o (objects s) -> keep o = true) ->
  scene_candidates s (mkcandargs lo hi order (Some keep)) =
  scene_candidates s (mkcandargs lo hi order None).
Proof.
  intro H. destruct (objects s) as [|d os] eqn:Eo.
  - rewrite (C46_lemma s lo hi order keep (OVertex (Rdefinitions.R0, Rdefinitions.R0))).
    rewrite <- (filter_all (scene_candidates s (mkcandargs lo hi order None))) at 2.
    apply filter_ext_in. intros c C.
    assert (E : exists lo' hi', scene_candidates s (mkcandargs lo hi order None) =
      all_path_candidates (length (objects s)) lo' hi' None None)
      by (destruct order as [o|]; [exists o, o; apply order_is_min_max|exists lo, hi; auto]).
    destruct E as (lo' & hi' & E). rewrite E in C. apply in_candidates_none in C.
    destruct C as (_ & B & _). destruct c as [|i c]; auto. exfalso.
    destruct (B i (or_introl eq_refl)) as [X _]. rewrite Eo in X. cbn in X. lia.
  - rewrite (C46_lemma s lo hi order keep d).
    rewrite <- (filter_all (scene_candidates s (mkcandargs lo hi order None))) at 2.
    apply filter_ext_in. intros c C.
    assert (E : exists lo' hi', scene_candidates s (mkcandargs lo hi order None) =
      all_path_candidates (length (objects s)) lo' hi' None None)
      by (destruct order as [o|]; [exists o, o; apply order_is_min_max|exists lo, hi; auto]).
    destruct E as (lo' & hi' & E). rewrite E in C. apply in_candidates_none in C.
    destruct C as (_ & B & _). apply forallb_forall. intros i I. apply H. rewrite <- Eo. apply nth_In.
    apply B; auto.
Qed.

(** C47 *)
Lemma rseq_map_ok {A B} (f : A -> res B) (h : A -> B) l : (forall a, In a l -> f a = Ok (h a)) ->
  rseq (map f l) = Ok (map h l).
Proof.
  induction l as [|a l IH]; cbn; intro H; auto. rewrite H by auto. cbn. rewrite IH by auto. reflexivity.
Qed.
Lemma get_object_in s i d : homogeneous (objects s) = true -> i < length (objects s) ->
  get_object s (Z.of_nat i) = Ok (nth i (objects s) d).
Proof.
  intros Hh H. unfold get_object. destruct (objects s) as [|o os] eqn:E; [cbn in H; lia|]. rewrite Hh. f_equal.
  replace (Z.to_nat (Z.max 0 (Z.min (Z.of_nat i) (Z.of_nat (length (o :: os)) - 1)))) with i by lia.
  apply nth_indep. auto.
Qed.
Lemma py_index_in {A} (l : list A) i d : i < length l -> py_index l (Z.of_nat i) = Ok (nth i l d).
Proof.
  intro H. unfold py_index.
  assert (E1 : (Z.of_nat i <? 0)%Z = false) by (apply Z.ltb_ge; lia). rewrite E1.
  assert (E2 : ((0 <=? Z.of_nat i) && (Z.of_nat i <? Z.of_nat (length l)))%Z%bool = true).
  { apply andb_true_iff. split; [apply Z.leb_le|apply Z.ltb_lt]; lia. }
  rewrite E2, Nat2Z.id. rewrite (nth_error_nth' l d H). reflexivity.
Qed.
Lemma homogeneous_small os : length os < 2 -> homogeneous os = true.
Proof.
  destruct os as [|o [|]]; cbn; intro; try lia; auto. destruct o; reflexivity.
Qed.
Lemma C47_lemma s c d : (forall i, In i c -> i < length (objects s)) ->
  get_interacting_objects s (map Z.of_nat c) = Ok (map (fun i => nth i (objects s) d) c).
Proof.
  intro H. unfold get_interacting_objects.
  destruct (Nat.ltb_spec (length (objects s)) 2) as [L|L]; cbn [orb].
  - rewrite map_map. apply rseq_map_ok. intros i I. apply get_object_in; auto. apply homogeneous_small; auto.
  - destruct (homogeneous (objects s)) eqn:E; rewrite map_map; apply rseq_map_ok; intros i I.
    + apply get_object_in; auto.
    + apply py_index_in; auto.
Qed.
Lemma C47_negative s i d : (i < 0)%Z -> objects s <> [] ->
  (homogeneous (objects s) = true -> get_interacting_objects s [i] = Ok [nth 0 (objects s) d]) /\
  (homogeneous (objects s) = false ->
     get_interacting_objects s [i] =
     if (- Z.of_nat (length (objects s)) <=? i)%Z
     then Ok [nth (Z.to_nat (Z.of_nat (length (objects s)) + i)) (objects s) d] else Err IndexError).
Proof.
  intros I N. unfold get_interacting_objects. split; intro H; rewrite H.
  - rewrite orb_true_r. cbn. unfold get_object. destruct (objects s) as [|o os] eqn:E; [contradiction|].
    rewrite H. replace (Z.to_nat (Z.max 0 (Z.min i (Z.of_nat (length (o :: os)) - 1)))) with 0 by lia. reflexivity.
  - assert (L : (length (objects s) <? 2) = false).
    { apply Nat.ltb_ge. destruct (Nat.le_gt_cases 2 (length (objects s))); auto.
      rewrite homogeneous_small in H by auto. discriminate. }
    rewrite L. cbn [orb map rseq]. unfold py_index.
    assert (E1 : (i <? 0)%Z = true) by (apply Z.ltb_lt; lia). rewrite E1.
    destruct (Z.leb_spec (- Z.of_nat (length (objects s))) i) as [B|B].
    + assert (E2 : ((0 <=? i + Z.of_nat (length (objects s))) && (i + Z.of_nat (length (objects s)) <? Z.of_nat (length (objects s))))%Z%bool = true).
      { apply andb_true_iff. split; [apply Z.leb_le|apply Z.ltb_lt]; lia. }
      rewrite E2. rewrite (nth_error_nth' (objects s) d) by lia. cbn.
      replace (Z.of_nat (length (objects s)) + i)%Z with (i + Z.of_nat (length (objects s)))%Z by lia. reflexivity.
    + assert (E2 : ((0 <=? i + Z.of_nat (length (objects s))) && (i + Z.of_nat (length (objects s)) <? Z.of_nat (length (objects s))))%Z%bool = false).
      { apply andb_false_iff. left. apply Z.leb_gt. lia. }
      rewrite E2. reflexivity.
Qed.
Lemma C47_too_large s i d : (Z.of_nat (length (objects s)) <= i)%Z -> objects s <> [] ->
  (homogeneous (objects s) = true ->
     get_interacting_objects s [i] = Ok [nth (length (objects s) - 1) (objects s) d]) /\
  (homogeneous (objects s) = false -> get_interacting_objects s [i] = Err IndexError).
Proof.
  intros I N. unfold get_interacting_objects. split; intro H; rewrite H.
  - rewrite orb_true_r. cbn. unfold get_object. destruct (objects s) as [|o os] eqn:E; [contradiction|].
    rewrite H. replace (Z.to_nat (Z.max 0 (Z.min i (Z.of_nat (length (o :: os)) - 1)))) with (length (o :: os) - 1) by lia.
    cbn [rbind]. rewrite nth_indep with (d' := d) by (cbn; lia). reflexivity.
  - assert (L : (length (objects s) <? 2) = false).
    { apply Nat.ltb_ge. destruct (Nat.le_gt_cases 2 (length (objects s))); auto.
      rewrite homogeneous_small in H by auto. discriminate. }
    rewrite L. cbn [orb map rseq]. unfold py_index.
    assert (E1 : (i <? 0)%Z = false) by (apply Z.ltb_ge; lia). rewrite E1.
    assert (E2 : ((0 <=? i) && (i <? Z.of_nat (length (objects s))))%Z%bool = false).
    { apply andb_false_iff. right. apply Z.ltb_ge. lia. }
    rewrite E2. reflexivity.
Qed.
Lemma scene_candidates_in s ca c : In c (scene_candidates s ca) -> forall i, In i c -> i < length (objects s).
Proof.
  destruct ca as [lo hi order keep]. intros I.
  assert (J : In c (scene_candidates s (mkcandargs lo hi order None))).
  { destruct keep as [keep|]; auto. rewrite (C46_lemma s lo hi order keep (OVertex (Rdefinitions.R0, Rdefinitions.R0))) in I.
    apply filter_In in I. tauto. }
  assert (E : exists lo' hi', scene_candidates s (mkcandargs lo hi order None) =
      all_path_candidates (length (objects s)) lo' hi' None None)
      by (destruct order as [o|]; [exists o, o; apply order_is_min_max|exists lo, hi; auto]).
  destruct E as (lo' & hi' & E). rewrite E in J. apply in_candidates_none in J.
  destruct J as (_ & B & _). intros i H. apply B; auto.
Qed.
Lemma C47_candidates s ca c d : In c (scene_candidates s ca) ->
  get_interacting_objects s (map Z.of_nat c) = Ok (map (fun i => nth i (objects s) d) c).
Proof. intro I. apply C47_lemma. eapply scene_candidates_in; eauto. Qed.

Lemma default_candidates s : scene_candidates s default_ca = [] :: map (fun i => [i]) (seq 0 (length (objects s))).
Proof.
  unfold scene_candidates, default_ca. cbn [ca_filter ca_min ca_max ca_order].
  unfold all_path_candidates, order_range. cbn [Nat.sub seq flat_map complete_paths app map]. f_equal.
  rewrite app_nil_r. rewrite filter_all. induction (seq 0 (length (objects s))) as [|i l IH]; [reflexivity|]. cbn. rewrite IH. reflexivity.
Qed.
