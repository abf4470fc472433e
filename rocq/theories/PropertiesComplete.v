(** Property C64, continued: the valid paths of a scene. *)
From Coq Require Import Reals List Bool ZArith String Lia Lra.
From Verif Require Import Base BaseP LogicM SpecLogic GeometryM SpecGeometry VecP OptimizeM PathM SpecPath SpecImage CandidatesM SceneM SpecScene SpecRun
  SceneP SceneOpsP RunExP ImageExP SpecComplete CompleteP.
Import ListNotations.
Local Notation length := List.length.
Open Scope R_scope.

(** In a scene whose objects accepted by [filter_objects] are walls (all of them
    without a filter), [all_valid_paths] with the image method and a tolerance of at
    most 1 yields, for each pair of nodes at different places, the textbook
    reflection paths on [min_order] to [max_order] accepted walls that meet no other
    object (in the relaxed sense of C37): each of them, and nothing else, all with loss 0.  In
    smoothed mode the reflections must not be at the very end of a wall.  No
    configuration is excluded. *)
Theorem C64_valid_paths_are_exactly_the_specular_paths :
  forall P g s lo hi filt va key t r, good_split P -> represents (transmitters s) t -> represents (receivers s) r ->
  (forall o, In o (objects s) -> accepts filt o -> exists w, o = OWall w) ->
  0 < va_tol va <= 1 -> (resolve g (va_approx va) = true -> shipped (va_kw va) /\ 0 < ak_alpha (va_kw va)) ->
  let v := all_valid_paths P g s ClsImage (mkcandargs lo hi None filt) va key in
  let exact := negb (resolve g (va_approx va)) in
  raised v = None /\
  forall tn tx rn rx p cand, In (tn, tx) t -> In (rn, rx) r -> tx <> rx ->
  (In (tn, rn, p, cand) (yielded v) <->
   exists idx ws, cand = map Z.of_nat idx /\ (lo <= length idx <= hi)%nat /\
     Forall2 (fun j w => nth_error (objects s) j = Some (OWall w) /\ accepts filt (OWall w)) idx ws /\
     specular_path exact tx ws rx (xys p) /\ loss p = Fin 0 /\
     ~ obstructed (xys p) (objects s) cand (va_patch va) (5 / 1000)).
Proof. exact valid_iff. Qed.
Print Assumptions C64_valid_paths_are_exactly_the_specular_paths.

(** Hence with exact tests the accumulated value of a pair is the sum of the function
    over these paths, each counted once. *)
Theorem C64_exact_values_sum_over_the_specular_paths :
  forall P g s lo hi filt tol patch kw key f t r, good_split P -> represents (transmitters s) t -> represents (receivers s) r ->
  (forall o, In o (objects s) -> accepts filt o -> exists w, o = OWall w) -> 0 < tol <= 1 ->
  scene_candidates s (mkcandargs lo hi None filt) <> [] -> (forall tx rx p os, exists x, f tx rx p os = Fin x) ->
  forall tn tx rn rx, In (tn, tx) t -> In (rn, rx) r -> tx <> rx ->
  exists L : list (list vec * list nat), NoDup L /\
    (forall pts idx, In (pts, idx) L <-> (lo <= length idx <= hi)%nat /\ exists ws,
       Forall2 (fun j w => nth_error (objects s) j = Some (OWall w) /\ accepts filt (OWall w)) idx ws /\
       specular_path true tx ws rx pts /\ ~ obstructed pts (objects s) (map Z.of_nat idx) patch (5 / 1000)) /\
    In (tn, rn, xsum (map (fun '(pts, idx) => f tx rx (mkpath pts (Fin 0)) (objects_at s idx)) L))
      (yielded (accumulate_over_paths P g s ClsImage (mkcandargs lo hi None filt) (mkvalidargs tol patch (Some false) kw) key f)).
Proof. exact sums_specular. Qed.
Print Assumptions C64_exact_values_sum_over_the_specular_paths.

(** The two-wall example of C63, as a scene: its path is there, in both modes. *)
Example C64_scene_nonvacuous : forall P g b key, good_split P ->
  let s := Scene_make [("tx"%string, (1, 1))] [("rx"%string, (2, 3))] [OWall (mkwall (0, 0) (2, 0)); OWall (mkwall (3, 0) (3, 4))] in
  let va := mkvalidargs DEFAULT_TOL DEFAULT_PATCH (Some b) default_akw in
  0 < va_tol va <= 1 /\ shipped (va_kw va) /\ 0 < ak_alpha (va_kw va) /\
  In ("tx"%string, "rx"%string, mkpath [(1, 1); (7 / 4, 0); (3, 5 / 3); (2, 3)] (Fin 0), [0%Z; 1%Z])
    (yielded (all_valid_paths P g s ClsImage (mkcandargs 0 2 None None) va key)).
Proof.
  intros P g b key G s va.
  assert (H1 : 0 < va_tol va <= 1) by (cbn; unfold DEFAULT_TOL; lra).
  assert (H2 : shipped (va_kw va)) by (right; reflexivity).
  assert (H3 : 0 < ak_alpha (va_kw va)) by (cbn; unfold DEFAULT_ALPHA; lra).
  split; [auto|]. split; [auto|]. split; [auto|].
  assert (T : represents (transmitters s) [("tx"%string, (1, 1))]).
  { apply C48_lemma. unfold is_dict. cbn. repeat constructor; intros []. }
  assert (R : represents (receivers s) [("rx"%string, (2, 3))]).
  { apply C48_lemma. unfold is_dict. cbn. repeat constructor; intros []. }
  destruct (valid_iff P g s 0 2 None va key _ _ G T R) as (_ & H); auto.
  { intros o [<-|[<-|[]]] _; eexists; reflexivity. }
  apply (H "tx"%string (1, 1) "rx"%string (2, 3)); [left; reflexivity|left; reflexivity|intro E; injection E; intros; lra|].
  exists [0%nat; 1%nat], [mkwall (0, 0) (2, 0); mkwall (3, 0) (3, 4)].
  destruct (two_walls_valid g default_akw) as (p & HP & Gp & V).
  destruct two_walls_example as (p' & HP' & X & _ & _). assert (p' = p) by congruence. subst p'.
  assert (HT : 0 < DEFAULT_TOL <= 4) by (unfold DEFAULT_TOL; lra).
  destruct (C63_lemma g (1, 1) _ (2, 3) p _ [0%Z; 1%Z] DEFAULT_TOL DEFAULT_PATCH default_akw HP Gp eq_refl HT V) as (Q & NO & _).
  rewrite X in Q, NO. cbn [xys].
  split; [reflexivity|]. split; [cbn; lia|]. split; [repeat constructor|]. split; [|split; [reflexivity|exact NO]].
  split; [reflexivity|]. split; [reflexivity|]. split; [reflexivity|]. intros i w A Q0 B Hw HA HQ HB.
  rewrite Nat.add_1_r in HQ. replace (i + 2)%nat with (S (S i)) in HB by lia.
  destruct (Q i w A Q0 B Hw HA HQ HB) as (S1 & S2 & S3). split; [auto|]. split; [|auto]. intros _.
  destruct i as [|[|i]]; cbn in Hw, HQ; [| |destruct i; discriminate]; injection Hw as <-; injection HQ as <-; cbn [w_origin w_dest];
    split; intro Z; injection Z; intros; lra.
Qed.
