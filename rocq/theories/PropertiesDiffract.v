(** Property C24, continued: paths that visit vertices. *)
From Coq Require Import Reals List Bool ZArith String Lia Lra.
From Verif Require Import Base BaseP LogicM SpecLogic GeometryM SpecGeometry OptimizeM PathM SpecPath SpecImage CandidatesM SceneM SpecCandidates SpecScene SpecRun
  SceneP SceneOpsP BuildM SpecOrder SpecRoom DiffractP.
Import ListNotations.
Local Notation length := List.length.
Open Scope R_scope.

(** Whatever the path class (the image method excepted: it refuses vertices), the path
    through some vertices goes through these vertices, with loss 0: the random key and
    the optimiser have no influence. *)
Theorem C24_paths_through_vertices :
  forall P cls key tx vs rx s, good_split P -> cls <> ClsImage -> never_fails cls key s ->
  from_tx_objects_rx P cls key tx (map OVertex vs) rx = Ok (mkpath (tx :: vs ++ [rx]) (Fin 0)).
Proof. exact vertex_path_ok. Qed.
Print Assumptions C24_paths_through_vertices.

(** The vertices of a wall are at its two ends, in their order: paths that visit them
    bend there. *)
Theorem C24_vertices_of_a_wall :
  forall P cls key tx w rx s, good_split P -> cls <> ClsImage -> never_fails cls key s ->
  let '(a, b) := get_vertices w in
  from_tx_objects_rx P cls key tx [a] rx = Ok (mkpath [tx; w_origin w; rx] (Fin 0)) /\
  from_tx_objects_rx P cls key tx [b] rx = Ok (mkpath [tx; w_dest w; rx] (Fin 0)) /\
  from_tx_objects_rx P cls key tx [a; b] rx = Ok (mkpath [tx; w_origin w; w_dest w; rx] (Fin 0)).
Proof.
  intros P cls key tx w rx s G C N.
  exact (conj (C24_paths_through_vertices P cls key tx [w_origin w] rx s G C N)
        (conj (C24_paths_through_vertices P cls key tx [w_dest w] rx s G C N)
              (C24_paths_through_vertices P cls key tx [w_origin w; w_dest w] rx s G C N))).
Qed.
Print Assumptions C24_vertices_of_a_wall.

(** Simulating diffraction only ([filter_objects] keeps vertices only): the valid paths
    of a scene are the broken lines through [min_order] to [max_order] of these
    vertices, never twice the same in a row, that cross no wall; the other objects
    still obstruct. *)
Theorem C24_valid_paths_through_vertices :
  forall P g s lo hi keep va key cls t r, good_split P -> represents (transmitters s) t -> represents (receivers s) r ->
  cls <> ClsImage -> never_fails cls key s ->
  (forall o, In o (objects s) -> keep o = true -> exists v, o = OVertex v) ->
  0 < va_tol va -> (resolve g (va_approx va) = true -> shipped (va_kw va) /\ 0 < ak_alpha (va_kw va)) ->
  let v := all_valid_paths P g s cls (mkcandargs lo hi None (Some keep)) va key in
  raised v = None /\
  forall tn tx rn rx p cand, In (tn, tx) t -> In (rn, rx) r ->
  (In (tn, rn, p, cand) (yielded v) <->
   exists idx vs, cand = map Z.of_nat idx /\ (lo <= length idx <= hi)%nat /\ no_immediate_repeat idx /\
     Forall2 (fun j v => nth_error (objects s) j = Some (OVertex v) /\ keep (OVertex v) = true) idx vs /\
     p = mkpath (tx :: vs ++ [rx]) (Fin 0) /\
     ~ obstructed (tx :: vs ++ [rx]) (objects s) cand (va_patch va) (5 / 1000)).
Proof. exact vertex_valid_iff. Qed.
Print Assumptions C24_valid_paths_through_vertices.

(** A ray that reaches an end of a wall from off its line crosses that wall, unless
    [patch] shortens the walls by more than 1/202 of their length at each end ... *)
Theorem C24_a_wall_stops_the_rays_to_its_own_ends :
  forall w patch A v, side_of w A <> 0 -> v = w_origin w \/ v = w_dest w -> - (1 / 2) < patch ->
  (crosses w patch (5 / 1000) A v <-> - (1 / 202) <= patch) /\
  (crosses w patch (5 / 1000) v A <-> - (1 / 202) <= patch).
Proof. exact own_wall_default. Qed.
Print Assumptions C24_a_wall_stops_the_rays_to_its_own_ends.

(** ... so without such a patch no valid path bends at an end of a wall of the scene
    that it does not interact with, except along the line of that wall, whatever the
    path class. *)
Theorem C24_no_valid_path_bends_at_the_end_of_a_wall :
  forall P g s cls ca va key t r, good_split P -> represents (transmitters s) t -> represents (receivers s) r ->
  (resolve g (va_approx va) = true -> shipped (va_kw va) /\ 0 < ak_alpha (va_kw va)) -> - (1 / 202) <= va_patch va ->
  forall tn rn p cand j o w i A B, In (tn, rn, p, cand) (yielded (all_valid_paths P g s cls ca va key)) ->
  nth_error (objects s) j = Some o -> wall_of o = Some w -> ~ In (Z.of_nat j) cand ->
  nth_error (xys p) i = Some A -> nth_error (xys p) (S i) = Some B ->
  ~ ((A = w_origin w \/ A = w_dest w) /\ side_of w B <> 0) /\ ~ ((B = w_origin w \/ B = w_dest w) /\ side_of w A <> 0).
Proof. exact never_around_own_wall. Qed.
Print Assumptions C24_no_valid_path_bends_at_the_end_of_a_wall.

(** A wall between the nodes and a vertex at one of its ends, from [get_vertices]: the
    ray around the wall is there with [patch = -1/100], and not with the default. *)
Example C24_diffraction_nonvacuous : forall P g b key, good_split P ->
  let w := mkwall (0, -1) (0, 1) in
  let s := add_objects (Scene_make [("tx"%string, (-1, 0))] [("rx"%string, (1, 0))] [OWall w]) [snd (get_vertices w)] in
  let keep := fun o => match o with OVertex _ => true | _ => false end in
  let run patch := yielded (all_valid_paths P g s ClsPath (mkcandargs 1 1 None (Some keep))
                              (mkvalidargs DEFAULT_TOL patch (Some b) default_akw) key) in
  let it := ("tx"%string, "rx"%string, mkpath [(-1, 0); (0, 1); (1, 0)] (Fin 0), [1%Z]) in
  In it (run (- (1 / 100))) /\ ~ In it (run DEFAULT_PATCH).
Proof.
  intros P g b key G w s keep run it.
  assert (T : represents (transmitters s) [("tx"%string, (-1, 0))]).
  { apply C48_lemma. unfold is_dict. cbn. repeat constructor; intros []. }
  assert (R : represents (receivers s) [("rx"%string, (1, 0))]).
  { apply C48_lemma. unfold is_dict. cbn. repeat constructor; intros []. }
  assert (W : forall o, In o (objects s) -> keep o = true -> exists v, o = OVertex v).
  { intros o _. destruct o; cbn; try discriminate. eauto. }
  assert (H2 : shipped default_akw) by (right; reflexivity).
  assert (H3 : 0 < ak_alpha default_akw) by (cbn; unfold DEFAULT_ALPHA; lra).
  assert (O : objects s = [OWall w; OVertex (0, 1)]) by reflexivity.
  split.
  - destruct (vertex_valid_iff P g s 1 1 keep (mkvalidargs DEFAULT_TOL (- (1 / 100)) (Some b) default_akw) key ClsPath _ _ G T R) as (_ & H); auto;
      [discriminate|exact I|cbn; unfold DEFAULT_TOL; lra|].
    apply (H "tx"%string (-1, 0) "rx"%string (1, 0)); [left; reflexivity|left; reflexivity|].
    exists [1%nat], [(0, 1)]. split; [reflexivity|]. split; [cbn; lia|]. split.
    { intros l a c r E. destruct l as [|? [|]]; discriminate. }
    split; [constructor; [rewrite O; split; reflexivity|constructor]|]. split; [reflexivity|].
    intros (i & j & A & B & o & w' & (HA & HB) & Hj & Hw & _ & C). rewrite O in Hj.
    destruct j as [|[|j]]; cbn in Hj; [|injection Hj as <-; discriminate|destruct j; discriminate].
    injection Hj as <-. injection Hw as <-. cbn [va_patch] in C.
    destruct i as [|[|i]]; cbn in HA, HB; [| |destruct i as [|[|i]]; discriminate];
      injection HA as <-; injection HB as <-.
    + pose proof (own_wall_default w (- (1 / 100)) (-1, 0) (0, 1)) as [Q _]; [unfold side_of; cbn; intro Z; lra|right; reflexivity|lra|]. apply Q in C. lra.
    + pose proof (own_wall_default w (- (1 / 100)) (1, 0) (0, 1)) as [_ Q]; [unfold side_of; cbn; intro Z; lra|right; reflexivity|lra|]. apply Q in C. lra.
  - intro I.
    pose proof (never_around_own_wall P g s ClsPath _ (mkvalidargs DEFAULT_TOL DEFAULT_PATCH (Some b) default_akw) key _ _ G T R
      (fun _ => conj H2 H3) ltac:(cbn; unfold DEFAULT_PATCH; lra) _ _ _ _ 0%nat (OWall w) w 0%nat (-1, 0) (0, 1) I) as Q.
    destruct Q as [_ Q]; [reflexivity|reflexivity|cbn; intros [E|[]]; discriminate|reflexivity|reflexivity|].
    apply Q. split; [right; reflexivity|unfold side_of; cbn; intro Z; lra].
Qed.

(** C94, continued: any objects, any path class (solvers and keys included).  A leg of a
    valid path that neither starts nor ends on a wall of a closed room does not go
    through the walls of this room. *)
Theorem C94_no_leg_goes_through :
  forall P g s cls ca va key room t r, good_split P -> represents (transmitters s) t -> represents (receivers s) r ->
  (resolve g (va_approx va) = true -> shipped (va_kw va) /\ 0 < ak_alpha (va_kw va)) -> 0 <= va_patch va ->
  encloses room -> walls_present room (objects s) ->
  forall tn rn p cand i A B, In (tn, rn, p, cand) (yielded (all_valid_paths P g s cls ca va key)) ->
  nth_error (xys p) i = Some A -> nth_error (xys p) (S i) = Some B ->
  (forall j w, nth_error (objects s) j = Some (OWall w) -> In w room \/ In (drawn_backwards w) room -> ~ touches cand i j) ->
  (inside room A <-> inside room B).
Proof.
  intros P g s cls ca va key room t r G T R Hk HP E W tn rn p cand i A B I HA HB NT.
  exact (leg_stays room (objects s) cand (va_patch va) (xys p) i A B E W HP
           (valid_not_obstructed P g s cls ca va key t r G T R Hk tn rn p cand I) HA HB NT).
Qed.
Print Assumptions C94_no_leg_goes_through.

(** So a valid path that interacts with none of the walls of the room, such as a
    diffraction path, is entirely in the room or entirely out of it. *)
Theorem C94_other_paths_stay :
  forall P g s cls ca va key room t r, good_split P -> represents (transmitters s) t -> represents (receivers s) r ->
  (resolve g (va_approx va) = true -> shipped (va_kw va) /\ 0 < ak_alpha (va_kw va)) -> 0 <= va_patch va ->
  encloses room -> walls_present room (objects s) ->
  forall tn rn p cand, In (tn, rn, p, cand) (yielded (all_valid_paths P g s cls ca va key)) ->
  (forall j w, nth_error (objects s) j = Some (OWall w) -> In w room \/ In (drawn_backwards w) room -> ~ In (Z.of_nat j) cand) ->
  forall q q', In q (xys p) -> In q' (xys p) -> inside room q -> inside room q'.
Proof. exact avoiding_stays. Qed.
Print Assumptions C94_other_paths_stay.

(** A vertex in the middle of the square scene: the path through it is valid. *)
Example C94_other_paths_nonvacuous : forall P g b key, good_split P ->
  let s := add_objects (square_scene (2 / 10, 2 / 10) (5 / 10, 6 / 10)) [OVertex (1 / 2, 1 / 2)] in
  let keep := fun o => match o with OVertex _ => true | _ => false end in
  walls_present (rectangle 0 0 1 1) (objects s) /\
  In ("tx"%string, "rx"%string, mkpath [(2 / 10, 2 / 10); (1 / 2, 1 / 2); (5 / 10, 6 / 10)] (Fin 0), [4%Z])
    (yielded (all_valid_paths P g s ClsPath (mkcandargs 1 1 None (Some keep))
                              (mkvalidargs DEFAULT_TOL DEFAULT_PATCH (Some b) default_akw) key)).
Proof.
  intros P g b key G s keep.
  assert (O : objects s = map OWall (rectangle 0 0 1 1) ++ [OVertex (1 / 2, 1 / 2)]) by reflexivity.
  split. { intros w I. left. rewrite O. apply in_or_app. left. apply in_map. auto. }
  assert (T : represents (transmitters s) [("tx"%string, (2 / 10, 2 / 10))]).
  { apply C48_lemma. unfold is_dict. cbn. repeat constructor; intros []. }
  assert (R : represents (receivers s) [("rx"%string, (5 / 10, 6 / 10))]).
  { apply C48_lemma. unfold is_dict. cbn. repeat constructor; intros []. }
  assert (W : forall o, In o (objects s) -> keep o = true -> exists v, o = OVertex v).
  { intros o _. destruct o; cbn; try discriminate. eauto. }
  assert (H2 : shipped default_akw) by (right; reflexivity).
  assert (H3 : 0 < ak_alpha default_akw) by (cbn; unfold DEFAULT_ALPHA; lra).
  destruct (vertex_valid_iff P g s 1 1 keep (mkvalidargs DEFAULT_TOL DEFAULT_PATCH (Some b) default_akw) key ClsPath _ _ G T R) as (_ & H); auto;
    [discriminate|exact I|cbn; unfold DEFAULT_TOL; lra|].
  apply (H "tx"%string (2 / 10, 2 / 10) "rx"%string (5 / 10, 6 / 10)); [left; reflexivity|left; reflexivity|].
  exists [4%nat], [(1 / 2, 1 / 2)]. split; [reflexivity|]. split; [cbn; lia|]. split.
  { intros l a c r E. destruct l as [|? [|]]; discriminate. }
  split; [constructor; [rewrite O; split; reflexivity|constructor]|]. split; [reflexivity|].
  intros (i & j & A & B & o & w' & (HA & HB) & Hj & Hw & _ & C). rewrite O in Hj. cbn [va_patch] in C.
  destruct C as (_ & u & v & M & _ & V). unfold meet_at, at_, DEFAULT_PATCH in M. apply pair_equal_spec in M. destruct M as [M1 M2].
  destruct i as [|[|i]]; cbn in HA, HB; [| |destruct i as [|[|i]]; discriminate]; injection HA as <-; injection HB as <-;
  (do 5 (destruct j as [|j]; [cbn in Hj; injection Hj as <-; try discriminate; injection Hw as <-; cbn in M1, M2; lra|]); destruct j; discriminate).
Qed.
