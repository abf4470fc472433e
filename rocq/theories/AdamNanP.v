(** NaN in the solvers: C97. *)
From Coq Require Import Reals List Bool Arith Lia Lra Psatz.
From Verif Require Import Base BaseP GeometryM OptimizeM AdM AdamM SpecAdam SpecOptimize OptimizeP AdamP AdamRunP.
Import ListNotations.
Open Scope R_scope.
Local Notation length := List.length.

(** ** Iterates *)
Notation xstate := (nat * list xreal * list xreal)%type.
Definition xstep (grad : list xreal -> list xreal) (c : list xreal * xstate) : list xreal * xstate :=
  let u := xadam_update ADAM_LR ADAM_B1 ADAM_B2 ADAM_EPS (grad (fst c)) (snd c) in
  (tree_map2 xadd (Fin 0) (fst c) (fst u), snd u).
Fixpoint xiter grad (n : nat) (c : list xreal * xstate) : list xreal * xstate :=
  match n with O => c | S n' => xiter grad n' (xstep grad c) end.
Lemma xiter_S grad n : forall c, xiter grad (S n) c = xstep grad (xiter grad n c).
Proof. induction n as [|n IH]; intro c; [reflexivity|]. cbn [xiter] in *. apply IH. Qed.
Lemma xscan_eq f grad n : forall x st, xmin_scan f grad n x st =
  (fst (xiter grad n (x, st)), map (fun i => f (fst (xiter grad i (x, st)))) (seq 0 n)).
Proof.
  induction n as [|n IH]; intros x st; [reflexivity|]. cbn [xmin_scan].
  destruct (xadam_update _ _ _ _ (grad x) st) as [u st'] eqn:E.
  assert (X : xstep grad (x, st) = (tree_map2 xadd (Fin 0) x u, st')) by (unfold xstep; cbn [fst snd]; rewrite E; reflexivity).
  rewrite IH. cbn [xiter]. rewrite X. cbn [fst]. f_equal. cbn [seq map]. f_equal.
  rewrite <- seq_shift, map_map. apply map_ext. intro i. cbn [xiter]. rewrite X. reflexivity.
Qed.
Definition xinit (x0 : list xreal) : list xreal * xstate := (x0, (0%nat, map (fun _ => Fin 0) x0, map (fun _ => Fin 0) x0)).
Lemma xminimize_eq f grad n x0 : xminimize f grad (S n) x0 =
  Ok (fst (xiter grad (S n) (xinit x0)), f (fst (xiter grad n (xinit x0)))).
Proof.
  unfold xminimize. rewrite xscan_eq. rewrite seq_S, map_app, rev_app_distr. reflexivity.
Qed.
Lemma xlen grad n c : (forall y, length (grad y) = length y) -> length (fst (xiter grad n c)) = length (fst c).
Proof.
  intro G. revert c. induction n as [|n IH]; intro c; [reflexivity|]. cbn [xiter]. rewrite IH. unfold xstep. cbn [fst]. apply tm2_length.
Qed.

(** ** NaN is contagious *)
Lemma xadd_nan_r x : xadd x NaN = NaN. Proof. destruct x; reflexivity. Qed.
Lemma xmul_nan_r x : xmul x NaN = NaN. Proof. destruct x; reflexivity. Qed.
Lemma nth_mapx {A B} (f : A -> B) l i d d' : (i < length l)%nat -> nth i (map f l) d = f (nth i l d').
Proof. intro H. rewrite (nth_indep _ d (f d')) by (rewrite map_length; auto). apply map_nth. Qed.
Lemma step_nan grad i c : length (grad (fst c)) = length (fst c) -> (i < length (fst c))%nat ->
  nth i (grad (fst c)) (Fin 0) = NaN \/ nth i (snd (fst (snd c))) (Fin 0) = NaN ->
  nth i (fst (xstep grad c)) (Fin 0) = NaN /\ nth i (snd (fst (snd (xstep grad c)))) (Fin 0) = NaN.
Proof.
  destruct c as [x [[k m] v]]. cbn [fst snd]. intros G I H.
  unfold xstep. cbn [fst snd xadam_update].
  assert (L1 : (i < length (grad x))%nat) by lia.
  assert (M : nth i (tree_map2 (fun g m0 => xadd (xmul (Fin (1 - ADAM_B1)) g) (xmul (Fin ADAM_B1) m0)) (Fin 0) (grad x) m) (Fin 0) = NaN).
  { rewrite (tm2_nth _ _ (Fin 0)) by auto. destruct H as [-> | ->]; rewrite ?xmul_nan_r, ?xadd_nan_r; reflexivity. }
  split; [|exact M].
  rewrite (tm2_nth _ _ (Fin 0)) by auto.
  rewrite (nth_mapx _ _ _ _ (Fin 0)) by (rewrite tm2_length, map_length, tm2_length; auto).
  rewrite (tm2_nth _ _ (Fin 0)) by (rewrite map_length, tm2_length; auto).
  rewrite (nth_mapx _ _ _ _ (Fin 0)) by (rewrite tm2_length; auto). rewrite M. cbn [xdiv]. rewrite xmul_nan_r, xadd_nan_r. reflexivity.
Qed.
Lemma C97_sticky f grad steps x0 : (1 <= steps)%nat -> (forall y, length (grad y) = length y) ->
  exists x, x 0%nat = x0 /\ (forall j, length (x j) = length x0) /\ xminimize f grad steps x0 = Ok (x steps, f (x (steps - 1)%nat)) /\
  forall i j k, (i < length x0)%nat -> (j < k)%nat ->
    nth i (grad (x j)) (Fin 0) = NaN -> nth i (x k) (Fin 0) = NaN.
Proof.
  intros S1 G. exists (fun j => fst (xiter grad j (xinit x0))). split; [reflexivity|].
  split; [intro j; apply (xlen grad j (xinit x0) G)|]. split.
  - destruct steps as [|n]; [lia|]. rewrite xminimize_eq. cbn [Nat.sub]. rewrite Nat.sub_0_r. reflexivity.
  - intros i j k I L H.
    assert (P : forall d, nth i (fst (xiter grad (S d + j) (xinit x0))) (Fin 0) = NaN /\
                          nth i (snd (fst (snd (xiter grad (S d + j) (xinit x0))))) (Fin 0) = NaN).
    { induction d as [|d IH].
      - cbn [Nat.add]. rewrite xiter_S. apply step_nan; [apply G| |left; auto]. rewrite (xlen grad j _ G). auto.
      - change (S (S d) + j)%nat with (S (S d + j)). rewrite xiter_S. apply step_nan; [apply G| |right; apply IH].
        rewrite (xlen grad _ _ G). auto. }
    replace k with (S (k - S j) + j)%nat by lia. apply P.
Qed.

(** ** Without NaN: the real model *)
Lemma tm2_fin (f : R -> R -> R) fx d g : (forall a b, fx (Fin a) (Fin b) = Fin (f a b)) -> forall m,
  tree_map2 fx (Fin d) (map Fin g) (map Fin m) = map Fin (tree_map2 f d g m).
Proof.
  intros H. induction g as [|a g IH]; intro m; [reflexivity|]. cbn [map tree_map2]. rewrite <- IH. f_equal.
  - destruct m; cbn; rewrite H; reflexivity.
  - destruct m; reflexivity.
Qed.
Definition nonneg_state (st : nat * list R * list R) : Prop := Forall (fun v => 0 <= v) (snd st).
Lemma tm2_forall {A} (Q : R -> Prop) (f : A -> R -> R) d g : Q d -> (forall a b, Q b -> Q (f a b)) -> forall m, Forall Q m -> Forall Q (tree_map2 f d g m).
Proof.
  intros Qd H. induction g as [|a g IH]; intros m F; cbn; constructor.
  - apply H. destruct F; cbn; auto.
  - apply IH. destruct F; cbn; auto.
Qed.
Lemma xdiv_fin a b : b <> 0 -> xdiv (Fin a) (Fin b) = Fin (a / b).
Proof. intro H. cbn. unfold fdiv. destruct (Reqb_spec b 0); [contradiction|reflexivity]. Qed.
Lemma update_fin g st : nonneg_state st ->
  let '(c, m, v) := st in
  let '(u, st') := adam_update ADAM_LR ADAM_B1 ADAM_B2 ADAM_EPS g st in
  let '(c', m', v') := st' in
  xadam_update ADAM_LR ADAM_B1 ADAM_B2 ADAM_EPS (map Fin g) (c, map Fin m, map Fin v) =
  (map Fin u, (c', map Fin m', map Fin v')) /\ nonneg_state st' /\ length u = length g.
Proof.
  destruct st as [[c m] v]. intro N. cbn [adam_update xadam_update].
  set (m' := tree_map2 (fun g m => (1 - ADAM_B1) * g + ADAM_B1 * m) 0 g m).
  set (v' := tree_map2 (fun g v => (1 - ADAM_B2) * (g * g) + ADAM_B2 * v) 0 g v).
  assert (Nv : Forall (fun v => 0 <= v) v').
  { unfold v'. apply tm2_forall; [lra| |exact N]. intros a b B. unfold ADAM_B2. nra. }
  assert (Em : tree_map2 (fun g m0 => xadd (xmul (Fin (1 - ADAM_B1)) g) (xmul (Fin ADAM_B1) m0)) (Fin 0) (map Fin g) (map Fin m) = map Fin m')
    by (apply tm2_fin; reflexivity).
  assert (Ev : tree_map2 (fun g v0 => xadd (xmul (Fin (1 - ADAM_B2)) (xmul g g)) (xmul (Fin ADAM_B2) v0)) (Fin 0) (map Fin g) (map Fin v) = map Fin v')
    by (apply tm2_fin; reflexivity).
  rewrite Em, Ev. destruct (bias_ratio (S c) ltac:(lia)) as (_ & B2 & B1).
  assert (Emh : map (fun m => xdiv m (Fin (1 - ADAM_B1 ^ S c))) (map Fin m') = map Fin (map (fun m => m / (1 - ADAM_B1 ^ S c)) m')).
  { rewrite !map_map. apply map_ext. intro a. apply xdiv_fin. lra. }
  assert (Evh : map (fun m => xdiv m (Fin (1 - ADAM_B2 ^ S c))) (map Fin v') = map Fin (map (fun m => m / (1 - ADAM_B2 ^ S c)) v')).
  { rewrite !map_map. apply map_ext. intro a. apply xdiv_fin. lra. }
  rewrite Emh, Evh.
  assert (Nh : Forall (fun v => 0 <= v) (map (fun v => v / (1 - ADAM_B2 ^ S c)) v')).
  { apply Forall_map. eapply Forall_impl; [|exact Nv]. cbn beta. intros a A. apply Rmult_le_pos; auto. left. apply Rinv_0_lt_compat. auto. }
  set (mh := map (fun m => m / (1 - ADAM_B1 ^ S c)) m') in *. set (vh := map (fun v => v / (1 - ADAM_B2 ^ S c)) v') in *.
  assert (Eu : tree_map2 (fun m0 v0 => xdiv m0 (xadd (xsqrt (xadd v0 (Fin 0))) (Fin ADAM_EPS))) (Fin 0) (map Fin mh) (map Fin vh) =
               map Fin (tree_map2 (fun m0 v0 => m0 / (sqrt (v0 + 0) + ADAM_EPS)) 0 mh vh)).
  { assert (One : forall a b, 0 <= b -> xdiv (Fin a) (xadd (xsqrt (xadd (Fin b) (Fin 0))) (Fin ADAM_EPS)) = Fin (a / (sqrt (b + 0) + ADAM_EPS))).
    { intros a b B. cbn [xadd xsqrt]. destruct (Rltb_spec (b + 0) 0); [lra|]. cbn [xadd]. apply xdiv_fin.
      pose proof (sqrt_pos (b + 0)). pose proof adam_eps_pos. unfold ADAM_EPS. lra. }
    clearbody mh vh. clear - One Nh. revert vh Nh. induction mh as [|a l IH]; intros vh Nh; [reflexivity|]. cbn [map tree_map2]. rewrite <- IH.
    - f_equal; [|destruct vh; reflexivity]. destruct Nh as [|b l' B Nh]; cbn [map hd]; apply One; auto; lra.
    - destruct Nh; cbn [tl]; auto. }
  rewrite Eu. split; [|split].
  - f_equal. rewrite !map_map. reflexivity.
  - exact Nv.
  - rewrite map_length, tm2_length. unfold mh. rewrite map_length. unfold m'. apply tm2_length.
Qed.
Lemma moved_fin x u : length u = length x -> tree_map2 xadd (Fin 0) (map Fin x) (map Fin u) = map Fin (ladd x u).
Proof.
  revert u. induction x as [|a x IH]; intros [|b u] H; try discriminate; [reflexivity|]. cbn. f_equal. apply IH. cbn in H. lia.
Qed.
Lemma C97_finite f fx grad gradx steps x0 :
  (forall r, fx (map Fin r) = Fin (f r)) -> (forall r, gradx (map Fin r) = map Fin (grad r)) -> (forall y, length (grad y) = length y) ->
  xminimize fx gradx steps (map Fin x0) =
  match minimize f grad default_optimizer steps x0 with Ok (x, l) => Ok (map Fin x, Fin l) | Err e => Err e end.
Proof.
  intros Hf Hg G.
  assert (It : forall n, exists x c m v, iter_carry f grad default_optimizer n (x0, opt_init default_optimizer x0) = (x, (c, m, v)) /\
     nonneg_state (c, m, v) /\ xiter gradx n (xinit (map Fin x0)) = (map Fin x, (c, map Fin m, map Fin v))).
  { induction n as [|n (x & c & m & v & E & N & X)].
    - eexists _, _, _, _. split; [reflexivity|]. split.
      + unfold nonneg_state. cbn [snd]. apply Forall_map. apply Forall_forall. intros. lra.
      + unfold xinit. cbn [xiter]. rewrite !map_map. reflexivity.
    - rewrite iter_carry_S, xiter_S, E, X. unfold xstep. cbn [fst snd]. rewrite Hg.
      pose proof (update_fin (grad x) (c, m, v) N) as U. cbv beta iota in U.
      unfold min_step. change (opt_update default_optimizer) with (adam_update ADAM_LR ADAM_B1 ADAM_B2 ADAM_EPS).
      destruct (adam_update ADAM_LR ADAM_B1 ADAM_B2 ADAM_EPS (grad x) (c, m, v)) as [u [[c' m'] v']].
      destruct U as (U1 & U2 & U3). rewrite U1. cbn [fst snd]. exists (ladd x u), c', m', v'. split; [reflexivity|]. split; auto.
      rewrite moved_fin by (rewrite U3; apply G). reflexivity. }
  destruct steps as [|n].
  - reflexivity.
  - rewrite xminimize_eq. unfold minimize. rewrite min_scan_eq.
    destruct (It (S n)) as (x & c & m & v & E & _ & X). rewrite E, X. rewrite last_elem_map. cbn [rbind fst].
    destruct (It n) as (x' & c' & m' & v' & E' & _ & X'). rewrite E', X'. cbn [fst]. rewrite Hf. reflexivity.
Qed.

(** ** The best trial *)
Lemma smaller_trans x y z : xsmaller x y = true -> xsmaller z y = false -> xsmaller x z = true /\ xsmaller z x = false.
Proof.
  destruct x as [a| | |], y as [b| | |], z as [c| | |]; cbn; intros H1 H2; try discriminate; try (split; reflexivity).
  - destruct (Rltb_spec a b), (Rltb_spec c b); try discriminate. destruct (Rltb_spec a c), (Rltb_spec c a); split; auto; lra.
Qed.
Lemma smaller_irrefl x : xsmaller x x = false.
Proof. destruct x; cbn; auto. destruct (Rltb_spec r r); auto. lra. Qed.
Lemma smaller_asym x y : xsmaller x y = true -> xsmaller y x = false.
Proof. intro H. apply (smaller_trans x y y H (smaller_irrefl y)). Qed.
Lemma xargmin_aux_spec xs : forall pre best bv,
  (best < length pre)%nat -> nth best pre NaN = bv ->
  (forall j, (j < length pre)%nat -> xsmaller (nth j pre NaN) bv = false) ->
  (forall j, (j < best)%nat -> xsmaller bv (nth j pre NaN) = true) ->
  let i := xargmin_aux xs (length pre) best bv in let l := pre ++ xs in
  (i < length l)%nat /\ (forall j, (j < length l)%nat -> xsmaller (nth j l NaN) (nth i l NaN) = false) /\
  (forall j, (j < i)%nat -> xsmaller (nth i l NaN) (nth j l NaN) = true).
Proof.
  induction xs as [|x xs IH]; intros pre best bv H1 H2 H3 H4; cbn [xargmin_aux].
  - cbv zeta. rewrite app_nil_r. rewrite H2. auto.
  - replace (pre ++ x :: xs) with ((pre ++ [x]) ++ xs) by (rewrite <- app_assoc; reflexivity).
    assert (Ln : length (pre ++ [x]) = S (length pre)) by (rewrite app_length; cbn; lia).
    assert (Nx : nth (length pre) (pre ++ [x]) NaN = x) by (rewrite app_nth2, Nat.sub_diag by lia; reflexivity).
    destruct (xsmaller x bv) eqn:E; rewrite <- Ln; apply IH; try lia.
    + exact Nx.
    + intros j Hj. destruct (Nat.eq_dec j (length pre)) as [->|N]; [rewrite Nx; apply smaller_irrefl|].
      rewrite app_nth1 by lia. apply (smaller_trans x bv); auto. apply H3. lia.
    + intros j Hj. rewrite app_nth1 by lia. apply (smaller_trans x bv); auto.
    + rewrite app_nth1 by lia. auto.
    + intros j Hj. destruct (Nat.eq_dec j (length pre)) as [->|N]; [rewrite Nx; auto|]. rewrite app_nth1 by lia. apply H3. lia.
    + intros j Hj. rewrite app_nth1 by lia. auto.
Qed.
Lemma xargmin_spec xs : xs <> [] -> exists i, xargmin xs = Ok i /\ (i < length xs)%nat /\
  (forall j, (j < length xs)%nat -> xsmaller (nth j xs NaN) (nth i xs NaN) = false) /\
  (forall j, (j < i)%nat -> xsmaller (nth i xs NaN) (nth j xs NaN) = true).
Proof.
  destruct xs as [|x xs]; [congruence|]. intros _. cbn [xargmin]. eexists. split; [reflexivity|].
  apply (xargmin_aux_spec xs [x] 0 x); cbn; try lia; auto.
  intros [|j] Hj; [apply smaller_irrefl|lia].
Qed.
Lemma smaller_le x y : x <> NaN -> y <> NaN -> xsmaller y x = false -> xleb x y = true.
Proof.
  destruct x as [a| | |], y as [b| | |]; cbn; intros; try discriminate; try congruence; auto.
  destruct (Rltb_spec b a); [discriminate|]. destruct (Rleb_spec a b); auto. lra.
Qed.
Lemma smaller_lt x y : x <> NaN -> xsmaller x y = true -> xltb x y = true.
Proof. destruct x as [a| | |], y as [b| | |]; cbn; intros; try discriminate; try congruence; auto. Qed.
Lemma C97_trials P f grad steps key n many :
  (2 <= many)%nat -> length (rsplit P key many) = many -> (1 <= steps)%nat ->
  exists trials i,
    length trials = many /\ (i < many)%nat /\
    (forall j dk d, (j < many)%nat ->
       xminimize f grad steps (map Fin (runiform P (nth j (rsplit P key many) dk) n)) = Ok (nth j trials d)) /\
    (forall d, xminimize_many_random_uniform P f grad steps key n many = Ok (nth i trials d)) /\
    forall d, let loss j := snd (nth j trials d) in
    ((exists j, (j < many)%nat /\ loss j = NaN) -> loss i = NaN /\ forall j, (j < i)%nat -> loss j <> NaN) /\
    ((forall j, (j < many)%nat -> loss j <> NaN) ->
       (forall j, (j < many)%nat -> xleb (loss i) (loss j) = true) /\ (forall j, (j < i)%nat -> xltb (loss i) (loss j) = true)).
Proof.
  intros M L S1. unfold xminimize_many_random_uniform. destruct (Nat.eqb_spec many 1) as [E|_]; [lia|].
  set (ts := map (fun k => xminimize_random_uniform P f grad steps k n) (rsplit P key many)).
  assert (Lt : length ts = many) by (unfold ts; rewrite map_length; auto).
  destruct (rseq_all_ok ts) as [trials Et].
  { intros r I. apply in_map_iff in I. destruct I as (k & <- & _). destruct steps as [|s]; [lia|]. unfold xminimize_random_uniform.
    rewrite xminimize_eq. eauto. }
  rewrite Et. cbn [rbind]. destruct (rseq_ok_nth ts trials Et) as [L2 Nt]. rewrite Lt in *.
  destruct (xargmin_spec (map snd trials)) as (i & Ei & I1 & I2 & I3).
  { intro E. apply map_eq_nil in E. subst trials. cbn in L2. lia. }
  rewrite Ei. cbn [rbind]. rewrite map_length, L2 in *. exists trials, i. split; auto. split; auto. split; [|split].
  - intros j dk d Hj. specialize (Nt j d Hj). rewrite <- Nt. unfold ts.
    rewrite (nth_indep _ _ (xminimize_random_uniform P f grad steps dk n)) by (rewrite map_length; lia).
    rewrite (map_nth (fun k => xminimize_random_uniform P f grad steps k n)). reflexivity.
  - intro d. f_equal. apply nth_indep. lia.
  - intro d. set (loss := fun j => snd (nth j trials d)).
    assert (Ls : forall j, (j < many)%nat -> nth j (map snd trials) NaN = loss j).
    { intros j Hj. unfold loss. apply nth_mapx. lia. }
    change (((exists j, (j < many)%nat /\ loss j = NaN) -> loss i = NaN /\ forall j, (j < i)%nat -> loss j <> NaN) /\
    ((forall j, (j < many)%nat -> loss j <> NaN) ->
       (forall j, (j < many)%nat -> xleb (loss i) (loss j) = true) /\ (forall j, (j < i)%nat -> xltb (loss i) (loss j) = true))).
    clearbody loss. split.
    + intros (j & Hj & Nj). specialize (I2 j Hj). rewrite !Ls in I2 by auto. rewrite Nj in I2.
      assert (Ni : loss i = NaN) by (destruct (loss i); cbn in I2; try discriminate; auto). split; auto.
      intros q Hq. specialize (I3 q Hq). rewrite !Ls in I3 by lia. rewrite Ni in I3. intro X. rewrite X in I3. discriminate.
    + intro F. split.
      * intros j Hj. specialize (I2 j Hj). rewrite !Ls in I2 by auto. apply smaller_le; auto.
      * intros j Hj. specialize (I3 j Hj). rewrite !Ls in I3 by lia. apply smaller_lt; auto.
Qed.

(** One bad trial among two: the distance to 0, whose gradient is NaN at 0. *)
Definition dist0 (x : list xreal) : xreal := match x with [Fin r] => Fin (Rabs r) | _ => NaN end.
Definition dist0_grad (x : list xreal) : list xreal :=
  map (fun a => match a with Fin r => if Reqb r 0 then NaN else Fin (r / Rabs r) | _ => NaN end) x.
Definition two_starts : prng := mkprng bool (fun _ n => match n with 2%nat => [true; false] | _ => repeat true n end)
  (fun k n => repeat (if k then 1 / 2 else 0) n).
Lemma C97_bad : (exists x l, xminimize dist0 dist0_grad 2 [Fin (1 / 2)] = Ok ([Fin x], Fin l)) /\
  xminimize_many_random_uniform two_starts dist0 dist0_grad 2 true 1 2 = Ok ([NaN], NaN).
Proof.
  assert (A : exists x l, xminimize dist0 dist0_grad 2 [Fin (1 / 2)] = Ok ([Fin x], Fin l)).
  { rewrite xminimize_eq. cbn [xiter]. set (gr := fun x => [x / Rabs x]).
    assert (St : forall x c m v, x <> 0 -> 0 <= v ->
       exists x' m' v', xstep dist0_grad ([Fin x], (c, [Fin m], [Fin v])) = ([Fin x'], (S c, [Fin m'], [Fin v'])) /\ 0 <= v' /\
         adam_update ADAM_LR ADAM_B1 ADAM_B2 ADAM_EPS (gr x) (c, [m], [v]) = ([x' - x], (S c, [m'], [v']))).
    { intros x c m v Nx Nv. unfold xstep. cbn [fst snd dist0_grad map]. destruct (Reqb_spec x 0); [contradiction|].
      pose proof (update_fin (gr x) (c, [m], [v]) (Forall_cons _ Nv (Forall_nil _))) as U. cbv beta iota in U.
      change [Fin (x / Rabs x)] with (map Fin (gr x)). change [Fin m] with (map Fin [m]). change [Fin v] with (map Fin [v]).
      destruct (adam_update ADAM_LR ADAM_B1 ADAM_B2 ADAM_EPS (gr x) (c, [m], [v])) as [u [[c' m'] v']] eqn:Ea.
      destruct U as (U1 & U2 & U3). rewrite U1. cbn [fst snd]. cbn [adam_update gr tree_map2 hd tl map] in Ea. inversion Ea; subst.
      eexists _, _, _. split; [cbn [map tree_map2 hd xadd]; reflexivity|]. split; [apply Forall_inv in U2; exact U2|].
      f_equal. f_equal. ring. }
    destruct (St (1 / 2) 0%nat 0 0 ltac:(lra) ltac:(lra)) as (x1 & m1 & v1 & E1 & V1 & U1).
    change (xinit [Fin (1 / 2)]) with ([Fin (1 / 2)], (0%nat, [Fin 0], [Fin 0])). rewrite E1.
    assert (X1 : x1 <> 0).
    { cbn [adam_update gr tree_map2 hd tl map] in U1. injection U1 as Ux _ _. intro Z. subst x1.
      replace (1 / 2 / Rabs (1 / 2)) with 1 in Ux by (rewrite Rabs_pos_eq by lra; field).
      replace (((1 - ADAM_B1) * 1 + ADAM_B1 * 0) / (1 - ADAM_B1 * 1)) with 1 in Ux by (unfold ADAM_B1; field).
      replace (((1 - ADAM_B2) * (1 * 1) + ADAM_B2 * 0) / (1 - ADAM_B2 * 1)) with 1 in Ux by (unfold ADAM_B2; field).
      rewrite Rplus_0_r, sqrt_1 in Ux. unfold ADAM_LR, ADAM_EPS in Ux. pose proof adam_eps_pos as Ep. set (e := / 10 ^ 8) in *. clearbody e.
      assert (1 / (1 + e) * (1 + e) = 1) by (field; lra). nra. }
    destruct (St x1 1%nat m1 v1 X1 V1) as (x2 & m2 & v2 & E2 & _). rewrite E2. cbn [fst dist0]. eauto. }
  split; auto. destruct A as (x & l & A).
  unfold xminimize_many_random_uniform. cbn [Nat.eqb rsplit two_starts map]. unfold xminimize_random_uniform. cbn [runiform repeat map].
  cbn [two_starts runiform repeat map]. rewrite A.
  assert (B : xminimize dist0 dist0_grad 2 [Fin 0] = Ok ([NaN], NaN)).
  { destruct (C97_sticky dist0 dist0_grad 2 [Fin 0] ltac:(lia) ltac:(intro; apply map_length)) as (y & Y0 & Ly & E & H). rewrite E.
    assert (H1 : forall k, (0 < k)%nat -> y k = [NaN]).
    { intros k Hk. specialize (H 0%nat 0%nat k ltac:(cbn; lia) Hk). specialize (Ly k). cbn in Ly.
      destruct (y k) as [|a [|? ?]]; cbn in Ly; try lia. f_equal. apply H. rewrite Y0. cbn. destruct (Reqb_spec 0 0); congruence. }
    rewrite (H1 2%nat), (H1 (2 - 1)%nat) by lia. reflexivity. }
  rewrite B. cbn. reflexivity.
Qed.
