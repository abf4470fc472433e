(** Properties C18 (nodes), C26 and C27 (scenes), C48-C50: mappings and scenes. *)
From Coq Require Import Reals List Bool ZArith String Lia Lra.
From Verif Require Import Base BaseP LogicM GeometryM SpecGeometry OptimizeM PathM CandidatesM SceneM SpecScene
  SceneP SceneBoxP SceneOpsP.
Import ListNotations.
Open Scope R_scope.
Local Notation length := List.length.

(** C18 *)
Theorem C18_closest_transmitter :
  forall s a coords, represents (transmitters s) a ->
  (a = [] -> get_closest_transmitter s coords = Err ValueError) /\
  (a <> [] -> exists before name q after, a = before ++ (name, q) :: after /\
     get_closest_transmitter s coords = Ok (name, dist q coords) /\
     (forall n' q', In (n', q') a -> dist q coords <= dist q' coords) /\
     (forall n' q', In (n', q') before -> dist q coords < dist q' coords)).
Proof. exact C18_tx. Qed.
Print Assumptions C18_closest_transmitter.
Theorem C18_closest_receiver :
  forall s a coords, represents (receivers s) a ->
  (a = [] -> get_closest_receiver s coords = Err ValueError) /\
  (a <> [] -> exists before name q after, a = before ++ (name, q) :: after /\
     get_closest_receiver s coords = Ok (name, dist q coords) /\
     (forall n' q', In (n', q') a -> dist q coords <= dist q' coords) /\
     (forall n' q', In (n', q') before -> dist q coords < dist q' coords)).
Proof. exact C18_rx. Qed.
Print Assumptions C18_closest_receiver.

(** C26 *)
Theorem C26_scene_stacking_round_trip :
  forall s st, stacked_objects s = Ok st ->
  exists s', from_stacked_objects st = Some s' /\ objects s' = objects s /\
    pd_iter (transmitters s') = [] /\ pd_iter (receivers s') = [].
Proof. exact from_stacked_spec. Qed.
Print Assumptions C26_scene_stacking_round_trip.
Theorem C26_from_walls_array :
  forall walls, let s := from_walls_array walls in
  pd_iter (transmitters s) = [] /\ pd_iter (receivers s) = [] /\
  objects s = map (fun ab => OWall (mkwall (fst ab) (snd ab))) walls.
Proof. exact from_walls_spec. Qed.
Print Assumptions C26_from_walls_array.
Theorem C26_nothing_to_stack :
  forall s, stack_leaves [] = Err TypeError /\ (objects s = [] -> stacked_objects s = Err TypeError).
Proof. intro s. split; [reflexivity|]. intro E. unfold stacked_objects. rewrite E. reflexivity. Qed.
Print Assumptions C26_nothing_to_stack.
Example C26_scene_nonvacuous :
  exists st, stacked_objects (from_walls_array [((0,0),(1,0)); ((1,0),(1,1))]) = Ok st.
Proof. eexists. reflexivity. Qed.

(** C27 *)
Theorem C27_scene_box_tight :
  forall s t r, represents (transmitters s) t -> represents (receivers s) r ->
  let pts := map snd t ++ map snd r ++ flat_map defining_points (objects s) in
  (pts = [] -> scene_bbox s = Err ValueError) /\
  (pts <> [] -> exists b, scene_bbox s = Ok b /\ tight_box b pts).
Proof. exact C27_repr. Qed.
Print Assumptions C27_scene_box_tight.

(** C48 *)
Theorem C48_from_mapping_is_faithful :
  forall (V : Type) (d : dict V), is_dict d -> represents (pd_from_mapping d) d.
Proof. exact @C48_lemma. Qed.
Print Assumptions C48_from_mapping_is_faithful.
Theorem C48_mismatched_lengths_rejected :
  forall (V : Type) keys (values : list V),
  (length keys <> length values -> pd_make keys values = Err ValueError) /\
  (length keys = length values ->
     exists m, pd_make keys values = Ok m /\ (NoDup keys -> represents m (combine keys values))).
Proof. exact @C48_make_repr. Qed.
Print Assumptions C48_mismatched_lengths_rejected.
Theorem C48_one_meaning :
  forall (V : Type) (m : pytreedict V) d d', represents m d -> represents m d' -> d = d'.
Proof. exact @represents_fun. Qed.
Print Assumptions C48_one_meaning.
Example C48_nonvacuous :
  represents (pd_from_mapping [("a"%string, 1); ("b"%string, 2)]) [("a"%string, 1); ("b"%string, 2)].
Proof. apply C48_lemma. repeat constructor; cbn; intuition discriminate. Qed.

(** C49 *)
Theorem C49_with_transmitters :
  forall s d, is_dict d ->
  (~ In "self"%string (map fst d) ->
   exists s', with_transmitters s d = Ok s' /\ represents (transmitters s') d /\
     receivers s' = receivers s /\ objects s' = objects s) /\
  (In "self"%string (map fst d) -> with_transmitters s d = Err TypeError).
Proof. exact with_tx. Qed.
Print Assumptions C49_with_transmitters.
Theorem C49_with_receivers :
  forall s d, is_dict d ->
  (~ In "self"%string (map fst d) ->
   exists s', with_receivers s d = Ok s' /\ represents (receivers s') d /\
     transmitters s' = transmitters s /\ objects s' = objects s) /\
  (In "self"%string (map fst d) -> with_receivers s d = Err TypeError).
Proof. exact with_rx. Qed.
Print Assumptions C49_with_receivers.
Theorem C49_update_transmitters_is_union :
  forall s a d, represents (transmitters s) a -> is_dict d ->
  (~ In "self"%string (map fst d) ->
   exists s' u, update_transmitters s d = Ok s' /\ union_of a d u /\ represents (transmitters s') u /\
     receivers s' = receivers s /\ objects s' = objects s) /\
  (In "self"%string (map fst d) -> update_transmitters s d = Err TypeError).
Proof. exact update_tx. Qed.
Print Assumptions C49_update_transmitters_is_union.
Theorem C49_update_receivers_is_union :
  forall s a d, represents (receivers s) a -> is_dict d ->
  (~ In "self"%string (map fst d) ->
   exists s' u, update_receivers s d = Ok s' /\ union_of a d u /\ represents (receivers s') u /\
     transmitters s' = transmitters s /\ objects s' = objects s) /\
  (In "self"%string (map fst d) -> update_receivers s d = Err TypeError).
Proof. exact update_rx. Qed.
Print Assumptions C49_update_receivers_is_union.
Theorem C49_object_updates :
  forall s os keep,
  (transmitters (with_objects s os) = transmitters s /\ receivers (with_objects s os) = receivers s /\
   objects (with_objects s os) = os) /\
  (transmitters (add_objects s os) = transmitters s /\ receivers (add_objects s os) = receivers s /\
   objects (add_objects s os) = objects s ++ os) /\
  (transmitters (filter_objects s keep) = transmitters s /\ receivers (filter_objects s keep) = receivers s /\
   objects (filter_objects s keep) = filter keep (objects s)).
Proof. exact objects_ops. Qed.
Print Assumptions C49_object_updates.
Theorem C49_reachable_scenes_have_distinct_names :
  forall s, reachable s -> exists t r, represents (transmitters s) t /\ represents (receivers s) r.
Proof. exact reachable_represents. Qed.
Print Assumptions C49_reachable_scenes_have_distinct_names.
Example C49_nonvacuous :
  let s0 := Scene_make [("tx"%string, (0,0))] [("rx"%string, (1,1))] [OWall (mkwall (0,0) (1,0))] in
  exists s1 s2, update_transmitters s0 [("b"%string, (2,2)); ("tx"%string, (3,3))] = Ok s1 /\
    rename_receivers s1 [("rx"%string, "r"%string)] = Ok s2 /\ reachable s2 /\
    pd_items (transmitters s2) = [("tx"%string, (3,3)); ("b"%string, (2,2))] /\
    pd_items (receivers s2) = [("r"%string, (1,1))].
Proof. exact C49_example. Qed.

(** C50 *)
Theorem C50_rename_transmitters :
  forall s a names, represents (transmitters s) a -> is_dict names ->
  (~ In "self"%string (map fst names) -> (forall n, In n (map fst a) -> ~ new_name names n "self") ->
   exists s' u, rename_transmitters s names = Ok s' /\ represents (transmitters s') u /\
     receivers s' = receivers s /\ objects s' = objects s /\
     (forall k v, In (k, v) u <->
        exists before n after, a = before ++ (n, v) :: after /\ new_name names n k /\
          forall n' v', In (n', v') after -> ~ new_name names n' k) /\
     ((forall n n' k, In n (map fst a) -> In n' (map fst a) -> new_name names n k -> new_name names n' k -> n = n') ->
      Forall2 (fun nv kw => new_name names (fst nv) (fst kw) /\ snd kw = snd nv) a u)) /\
  (In "self"%string (map fst names) \/ (exists n, In n (map fst a) /\ new_name names n "self") ->
   rename_transmitters s names = Err TypeError).
Proof. exact rename_tx. Qed.
Print Assumptions C50_rename_transmitters.
Theorem C50_rename_receivers :
  forall s a names, represents (receivers s) a -> is_dict names ->
  (~ In "self"%string (map fst names) -> (forall n, In n (map fst a) -> ~ new_name names n "self") ->
   exists s' u, rename_receivers s names = Ok s' /\ represents (receivers s') u /\
     transmitters s' = transmitters s /\ objects s' = objects s /\
     (forall k v, In (k, v) u <->
        exists before n after, a = before ++ (n, v) :: after /\ new_name names n k /\
          forall n' v', In (n', v') after -> ~ new_name names n' k) /\
     ((forall n n' k, In n (map fst a) -> In n' (map fst a) -> new_name names n k -> new_name names n' k -> n = n') ->
      Forall2 (fun nv kw => new_name names (fst nv) (fst kw) /\ snd kw = snd nv) a u)) /\
  (In "self"%string (map fst names) \/ (exists n, In n (map fst a) /\ new_name names n "self") ->
   rename_receivers s names = Err TypeError).
Proof. exact rename_rx. Qed.
Print Assumptions C50_rename_receivers.
Theorem C50_unknown_names_ignored :
  forall names n, ~ In n (map fst names) -> forall k, new_name names n k <-> k = n.
Proof. exact unknown_name. Qed.
Print Assumptions C50_unknown_names_ignored.
(** A swap, and a collision that loses a node. *)
Example C50_swap_and_collision :
  let s := Scene_make [("a"%string, (0,0)); ("b"%string, (1,1))] [] [] in
  (exists s', rename_transmitters s [("a"%string, "b"%string); ("b"%string, "a"%string)] = Ok s' /\
     pd_items (transmitters s') = [("b"%string, (0,0)); ("a"%string, (1,1))]) /\
  (exists s', rename_transmitters s [("a"%string, "b"%string)] = Ok s' /\
     pd_items (transmitters s') = [("b"%string, (1,1))]).
Proof. exact C50_example. Qed.
