(** Examples and short forms for PropertiesRun. *)
From Coq Require Import Reals List Bool ZArith String Lia Lra.
From Verif Require Import Base BaseP LogicM GeometryM OptimizeM PathM CandidatesM SceneM SpecScene SpecRun
  SpecGeometry SpecPath SpecApprox ApproxP PathP PathShapeP CandidatesP SceneP SceneOpsP SceneRunP SceneAccP SceneGridP.
Import ListNotations.
Local Notation length := List.length.
Open Scope nat_scope.

Lemma C51_once P g s cls va ca key t r : good_split P ->
  represents (transmitters s) t -> represents (receivers s) r ->
  NoDup (map (fun it => (it_tx it, it_rx it, it_cand it)) (yielded (all_paths P g s cls ca va key))).
Proof. intros G T R. eapply C51_once_lemma; eauto. apply scene_candidates_NoDup. Qed.
Lemma C51_triples (A B C : Type) (ts : list A) (rs : list B) (cs : list C) :
  length (triples ts rs cs) = length ts * length rs * length cs /\
  forall a b c t r x, nth_error ts a = Some t -> nth_error rs b = Some r -> nth_error cs c = Some x ->
    nth_error (triples ts rs cs) ((a * length rs + b) * length cs + c) = Some (t, r, x).
Proof. split; [apply triples_length|]. intros. apply nth_triples; auto. Qed.
Definition ex_scene : scene :=
  Scene_make [("a"%string, (0, 0)%R); ("b"%string, (1, 0)%R)] [("r"%string, (2, 1)%R)] [OWall (mkwall (0, 3)%R (4, 3)%R)].
Definition ex_prng : prng := mkprng unit (fun k n => repeat tt n) (fun k n => repeat 0%R n).
Definition ex_va : validargs := mkvalidargs DEFAULT_TOL DEFAULT_PATCH None default_akw.
Lemma ex_never : never_fails ClsImage (@None (key_t ex_prng)) ex_scene.
Proof. left. cbn. intros o [<-|[]]. eauto. Qed.
Lemma ex_split : good_split ex_prng.
Proof. intros k n. cbn. apply repeat_length. Qed.
Lemma ex_tx : represents (transmitters ex_scene) [("a"%string, (0, 0)%R); ("b"%string, (1, 0)%R)].
Proof. apply C48_lemma. repeat constructor; cbn; intuition discriminate. Qed.
Lemma ex_rx : represents (receivers ex_scene) [("r"%string, (2, 1)%R)].
Proof. apply C48_lemma. repeat constructor; cbn; intuition discriminate. Qed.
Lemma ex_scene_ok : let s := ex_scene in
  represents (transmitters s) [("a"%string, (0, 0)%R); ("b"%string, (1, 0)%R)] /\
  represents (receivers s) [("r"%string, (2, 1)%R)] /\ never_fails ClsImage (@None (key_t ex_prng)) s /\
  good_split ex_prng /\ length (yielded (all_paths ex_prng false s ClsImage (mkcandargs 0 1 None None) ex_va None)) = 4.
Proof.
  cbn zeta. split; [apply ex_tx|]. split; [apply ex_rx|]. split; [apply ex_never|]. split; [apply ex_split|].
  destruct (C51_lemma ex_prng false ex_scene ClsImage ex_va (mkcandargs 0 1 None None) None _ _ ex_split ex_tx ex_rx) as (_ & H & _).
  rewrite H; [reflexivity|]. eapply C51_total_lemma; eauto using ex_tx, ex_rx, ex_never, ex_split.
Qed.
Lemma ex_grid_ok : same_shape [[0; 1]; [2; 3]]%R [[5; 6]; [7; 8]]%R /\ never_fails ClsImage (@None (key_t ex_prng)) ex_scene /\
  scene_candidates ex_scene (mkcandargs 0 1 None None) <> [].
Proof. split; [repeat constructor|]. split; [apply ex_never|discriminate]. Qed.
Lemma C54_own P g s s' cls ca va key f gradop m X Y : objects s = objects s' ->
  (transmitters s = transmitters s' ->
   accumulate_on_receivers_grid P g s cls ca va key f gradop m X Y =
   accumulate_on_receivers_grid P g s' cls ca va key f gradop m X Y) /\
  (receivers s = receivers s' ->
   accumulate_on_transmitters_grid P g s cls ca va key f gradop m X Y =
   accumulate_on_transmitters_grid P g s' cls ca va key f gradop m X Y).
Proof.
  destruct s as [t r o], s' as [t' r' o']. cbn. intros <-. split; intros <-; reflexivity.
Qed.
Lemma C54_bad_shape P g s cls ca va key f gradop m X Y : ~ same_shape X Y ->
  accumulate_on_receivers_grid P g s cls ca va key f gradop m X Y = Err TypeError /\
  accumulate_on_transmitters_grid P g s cls ca va key f gradop m X Y = Err TypeError.
Proof.
  intro N. apply dstack_bad in N. unfold accumulate_on_receivers_grid, accumulate_on_transmitters_grid. rewrite N.
  split; reflexivity.
Qed.
Lemma C55_modes grad : grid_mode grad true = MBoth /\ grid_mode true false = MGrad /\ grid_mode false false = MVal.
Proof. repeat split. Qed.

(** ** Exceptions *)
Lemma facc_err P g s cls va f tx rx e : forall work, 
  fold_left
    (fun acc '(cand, key) =>
       rbind acc (fun acc =>
         rbind (get_interacting_objects s cand) (fun inter =>
           rbind (from_tx_objects_rx P cls key tx inter rx) (fun p =>
             rbind (is_valid g p (objects s) cand inter (va_tol va) (va_patch va)
                      (va_approx va) (va_kw va)) (fun v =>
               Ok (xadd acc (xmul (to_f v) (f tx rx p inter)))))))) work (Err e) = Err e.
Proof. induction work as [|[c k] work IH]; cbn; auto. Qed.
Lemma facc_fails P g s cls ca va f tx rx c work : In c (scene_candidates s ca) ->
  (forall k, exists e, from_tx_objects_rx P cls k tx (objects_at s c) rx = Err e) ->
  In (map Z.of_nat c) (map fst work) -> exists e, facc P g s cls va f work tx rx = Err e.
Proof.
  intros C H I. destruct (interacting_ok s ca c C) as [E _]. unfold facc. generalize (Fin 0) as acc. revert I.
  induction work as [|[c' k] work IH]; intros I acc; [destruct I|]. cbn [fold_left rbind].
  destruct I as [I|I].
  - cbn [fst] in I. subst c'. rewrite E. cbn [rbind]. destruct (H k) as [e He]. rewrite He. cbn [rbind].
    exists e. apply facc_err.
  - destruct (get_interacting_objects s c') as [i|e]; cbn [rbind]; [|exists e; apply facc_err].
    destruct (from_tx_objects_rx P cls k tx i rx) as [p|e]; cbn [rbind]; [|exists e; apply facc_err].
    destruct (is_valid g p (objects s) c' i (va_tol va) (va_patch va) (va_approx va) (va_kw va)) as [v|e]; cbn [rbind]; [|exists e; apply facc_err].
    apply IH. exact I.
Qed.
Lemma combine_fst {A B} (l : list A) (l' : list B) : length l = length l' -> map fst (combine l l') = l.
Proof. revert l'. induction l as [|x l IH]; intros [|y l'] H; try discriminate; cbn; auto. f_equal. auto. Qed.
Lemma work_has P s ca key c : good_split P -> In c (scene_candidates s ca) -> In (map Z.of_nat c) (map fst (the_work P s ca key)).
Proof.
  intros G C. unfold the_work. rewrite combine_fst.
  - unfold cands_z. apply in_map. exact C.
  - change (grid_keys P key) with (one_key_each P key). symmetry. apply keys_length. exact G.
Qed.
Lemma C54_raises P g s cls ca va key f gradop m X Y t c : good_split P -> same_shape X Y ->
  In c (scene_candidates s ca) ->
  (forall k tx rx, exists e, from_tx_objects_rx P cls k tx (objects_at s c) rx = Err e) ->
  (represents (transmitters s) t -> t <> [] ->
   exists e, accumulate_on_receivers_grid P g s cls ca va key f gradop m X Y = Ok (mkgen [] (Some e))) /\
  (represents (receivers s) t -> t <> [] ->
   exists e, accumulate_on_transmitters_grid P g s cls ca va key f gradop m X Y = Ok (mkgen [] (Some e))).
Proof.
  intros G Sh C H. destruct (dstack_ok X Y Sh) as (grid & D & _). split; intros T N.
  - unfold accumulate_on_receivers_grid.
    set (w := with_receivers _ _). assert (Ew : exists sc, w = Ok sc /\ transmitters sc = transmitters s /\ objects sc = objects s /\
      pd_items (receivers sc) = [("rx"%string, (0%R, 0%R))]) by (eexists; repeat split).
    destruct Ew as (sc & Ew & Et & Eo & Er). rewrite Ew. cbn [rbind]. rewrite D. cbn [rbind].
    assert (Ep : map fst (all_transmitter_receiver_pairs sc) = t).
    { unfold all_transmitter_receiver_pairs. rewrite Et, Er, (proj1 (represents_items _ _ T)). apply prod_one_r. }
    rewrite Ep. assert (Ec : cands_z sc ca = cands_z s ca) by (unfold cands_z; rewrite (cands_objects sc s ca Eo); reflexivity).
    rewrite Ec. fold (the_work P s ca key). destruct t as [|[n tx] t]; [congruence|].
    cbn [run_results]. unfold vmap_grid at 1, apply_mode at 1. rewrite (facc_objects P g sc s) by auto.
    destruct (facc_fails P g s cls ca va f tx (0, 0)%R c (the_work P s ca key) C (fun k => H k _ _) (work_has P s ca key c G C)) as [e ->].
    cbn [rbind]. eauto.
  - unfold accumulate_on_transmitters_grid.
    set (w := with_transmitters _ _). assert (Ew : exists sc, w = Ok sc /\ receivers sc = receivers s /\ objects sc = objects s /\
      pd_items (transmitters sc) = [("tx"%string, (0%R, 0%R))]) by (eexists; repeat split).
    destruct Ew as (sc & Ew & Et & Eo & Er). rewrite Ew. cbn [rbind]. rewrite D. cbn [rbind].
    assert (Ep : map snd (all_transmitter_receiver_pairs sc) = t).
    { unfold all_transmitter_receiver_pairs. rewrite Et, Er, (proj1 (represents_items _ _ T)). apply prod_one_l. }
    rewrite Ep. assert (Ec : cands_z sc ca = cands_z s ca) by (unfold cands_z; rewrite (cands_objects sc s ca Eo); reflexivity).
    rewrite Ec. fold (the_work P s ca key). destruct t as [|[n rx] t]; [congruence|].
    cbn [run_results]. unfold vmap_grid at 1, apply_mode at 1. rewrite (facc_objects P g sc s) by auto.
    destruct (facc_fails P g s cls ca va f (0, 0)%R rx c (the_work P s ca key) C (fun k => H k _ _) (work_has P s ca key c G C)) as [e ->].
    cbn [rbind]. eauto.
Qed.
(** Image paths through a wall and a metasurface, and Fermat paths without a key. *)
Definition ex_mixed : scene :=
  Scene_make [("a"%string, (0, 0)%R)] [("r"%string, (2, 1)%R)]
    [OWall (mkwall (0, 3)%R (4, 3)%R); ORIS (mkwall (0, 5)%R (4, 5)%R) 0%R].
Lemma ex_mixed_ok : In [0; 1] (scene_candidates ex_mixed (mkcandargs 0 2 None None)) /\
  (forall k tx rx, exists e, from_tx_objects_rx ex_prng ClsImage k tx (objects_at ex_mixed [0; 1]) rx = Err e) /\
  represents (transmitters ex_mixed) [("a"%string, (0, 0)%R)] /\ represents (receivers ex_mixed) [("r"%string, (2, 1)%R)].
Proof.
  split; [vm_compute; auto 10|]. split; [intros k tx rx; eexists; reflexivity|].
  split; apply C48_lemma; repeat constructor; cbn; intuition discriminate.
Qed.

Lemma C51_defaults P g s key t r ws : good_split P ->
  represents (transmitters s) t -> represents (receivers s) r -> objects s = map OWall ws ->
  let a := all_paths P g s default_cls default_ca default_va key in
  let ts := triples t r ([] :: map (fun i => [i]) (seq 0 (length ws))) in
  raised a = None /\ length (yielded a) = length ts /\
  forall n it, nth_error (yielded a) n = Some it ->
  exists tx rx c, nth_error ts n = Some (tx, rx, c) /\
    it_tx it = fst tx /\ it_rx it = fst rx /\ it_cand it = map Z.of_nat c /\
    ImagePath_from (snd tx) (objects_at s c) (snd rx) = Ok (it_path it) /\
    (g = false -> exists b, it_valid it = TB b /\
       (b = true <-> loss_below (loss (it_path it)) (1 / 100) /\ projects_inside (xys (it_path it)) (objects_at s c) /\
          ~ obstructed (xys (it_path it)) (objects s) (map Z.of_nat c) 0 (5 / 1000))).
Proof.
  intros G T Rr W. cbn zeta.
  assert (F : never_fails default_cls key s).
  { left. intros o I. rewrite W in I. apply in_map_iff in I. destruct I as (w & <- & _). eauto. }
  assert (E : scene_candidates s default_ca = [] :: map (fun i => [i]) (seq 0 (length ws))).
  { rewrite default_candidates, W, map_length. reflexivity. }
  destruct (C51_lemma P g s default_cls default_va default_ca key t r G T Rr) as (A & B & _). rewrite E in A, B.
  pose proof (C51_total_lemma P g s default_cls default_va default_ca key t r G T Rr F) as Z0.
  split; [exact Z0|]. split; [exact (B Z0)|]. intros n it I. destruct (A n it I) as (((tx & rx) & c) & N & Q).
  exists tx, rx, c. split; [exact N|]. destruct Q as (Q1 & Q2 & Q3 & Q4 & Q5 & Q6).
  split; [exact Q1|]. split; [exact Q2|]. split; [exact Q3|]. split; [exact Q5|]. intros ->.
  destruct (C29_lemma _ _ _ _ _ _ _ Q5) as ((mid & X & L) & _).
  assert (LX : length (xys (it_path it)) = (length c + 2)%nat) by (rewrite X; cbn; rewrite app_length; cbn; lia).
  destruct (C38_lemma false (it_path it) (objects s) (map Z.of_nat c) (objects_at s c) (1 / 100)%R 0%R default_akw) as (b & V & H).
  { rewrite map_length. lia. } { lia. }
  exists b. split; [|exact H]. cbn [default_va va_tol va_patch va_approx va_kw] in Q6.
  change (is_valid false (it_path it) (objects s) (map Z.of_nat c) (objects_at s c) (1 / 100)%R 0%R None default_akw = Ok (it_valid it)) in Q6.
  destruct honours_geometry as (_ & _ & _ & _ & _ & HV).
  pose proof (proj2 (HV (it_path it) (objects s) (map Z.of_nat c) (objects_at s c) (1 / 100)%R 0%R default_akw) false) as HN.
  cbn beta in HN. rewrite HN, V in Q6. injection Q6 as Q6. symmetry. exact Q6.
Qed.
