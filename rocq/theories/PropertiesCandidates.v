(** Properties C45-C47: path candidates and the objects they denote. *)
From Coq Require Import Reals List Bool Arith ZArith Lia Sorted.
From Verif Require Import Base LogicM GeometryM OptimizeM PathM CandidatesM SceneM SpecCandidates CandidatesP.
Import ListNotations.
Local Notation length := List.length.
Open Scope nat_scope.

(** C45 *)
Theorem C45_exactly_the_admissible_sequences :
  forall n lo hi filter_nodes c,
  match filter_nodes with Some nodes => forall j, In j nodes -> j < n | None => True end ->
  (In c (all_path_candidates n lo hi None filter_nodes) <->
   admissible n
     (fun i => match filter_nodes with
               | Some nodes => negb (existsb (Nat.eqb i) nodes)
               | None => true
               end) lo hi c).
Proof.
  exact (fun n lo hi f c =>
    match f with Some nodes => in_candidates n lo hi (Some nodes) c
               | None => in_candidates n lo hi None c end).
Qed.
Print Assumptions C45_exactly_the_admissible_sequences.

Theorem C45_no_duplicates_sorted :
  forall n lo hi filter_nodes,
  match filter_nodes with Some nodes => forall j, In j nodes -> j < n | None => True end ->
  let cs := all_path_candidates n lo hi None filter_nodes in
  NoDup cs /\ by_length cs /\
  StronglySorted (fun a b => length a < length b \/ (length a = length b /\ lex_lt a b)) cs.
Proof.
  exact (fun n lo hi f H => conj (candidates_NoDup n lo hi f H)
    (conj (sorted_by_length _ (candidates_sorted n lo hi f H)) (candidates_sorted n lo hi f H))).
Qed.
Print Assumptions C45_no_duplicates_sorted.

Theorem C45_order_is_min_and_max :
  forall n lo hi k filter_nodes,
  all_path_candidates n lo hi (Some k) filter_nodes = all_path_candidates n k k None filter_nodes.
Proof. exact order_is_min_max. Qed.
Print Assumptions C45_order_is_min_and_max.

Theorem C45_count :
  forall n k filter_nodes,
  match filter_nodes with Some nodes => forall j, In j nodes -> j < n | None => True end ->
  let keep := match filter_nodes with
              | Some nodes => fun i => negb (existsb (Nat.eqb i) nodes)
              | None => fun _ => true
              end in
  let usable := length (filter keep (seq 0 n)) in
  length (all_path_candidates n 0 0 (Some k) filter_nodes) =
  match k with O => 1 | S k' => usable * (usable - 1) ^ k' end.
Proof. exact candidates_count. Qed.
Print Assumptions C45_count.

(** By default: the direct path, then one interaction with each object in turn. *)
Theorem C45_default_orders :
  forall s, scene_candidates s default_ca = [] :: map (fun i => [i]) (seq 0 (length (objects s))).
Proof. exact default_candidates. Qed.
Print Assumptions C45_default_orders.

Theorem C45_closed_under_reversal :
  forall n lo hi filter_nodes c,
  match filter_nodes with Some nodes => forall j, In j nodes -> j < n | None => True end ->
  In c (all_path_candidates n lo hi None filter_nodes) ->
  In (rev c) (all_path_candidates n lo hi None filter_nodes).
Proof.
  exact (fun n lo hi f c H I => proj2 (in_candidates n lo hi f (rev c) H)
    (admissible_rev _ _ _ _ _ (proj1 (in_candidates n lo hi f c H) I))).
Qed.
Print Assumptions C45_closed_under_reversal.

Example C45_nonvacuous :
  In [2; 0; 2] (all_path_candidates 4 0 3 None (Some [1; 3])) /\
  ~ In [2; 2] (all_path_candidates 4 0 3 None (Some [1; 3])) /\
  length (all_path_candidates 4 0 3 None (Some [1; 3])) = 7 /\
  all_path_candidates 2 1 0 None None = [].
Proof. cbn. repeat split; auto 10. intuition discriminate. Qed.

(** C46 *)
Theorem C46_filter_objects_restricts_candidates :
  forall s lo hi order keep d,
  scene_candidates s (mkcandargs lo hi order (Some keep)) =
  filter (fun c => forallb (fun i => keep (nth i (objects s) d)) c)
    (scene_candidates s (mkcandargs lo hi order None)).
Proof. exact C46_lemma. Qed.
Print Assumptions C46_filter_objects_restricts_candidates.

Theorem C46_accepting_filter_changes_nothing :
  forall s lo hi order keep, (forall o, In o (objects s) -> keep o = true) ->
  scene_candidates s (mkcandargs lo hi order (Some keep)) =
  scene_candidates s (mkcandargs lo hi order None).
Proof. exact C46_all. Qed.
Print Assumptions C46_accepting_filter_changes_nothing.

Example C46_nonvacuous :
  let s := mkscene (mkpd [] []) (mkpd [] [])
    [OWall (mkwall (0,0)%R (1,0)%R); OVertex (0,0)%R; OWall (mkwall (0,1)%R (1,1)%R)] in
  scene_candidates s (mkcandargs 0 2 None
    (Some (fun o => match o with OVertex _ => false | _ => true end)))
  = [[]; [0]; [2]; [0; 2]; [2; 0]].
Proof. reflexivity. Qed.

(** C47 *)
Theorem C47_objects_at_the_indices :
  forall s c d, (forall i, In i c -> i < length (objects s)) ->
  get_interacting_objects s (map Z.of_nat c) = Ok (map (fun i => nth i (objects s) d) c).
Proof. exact C47_lemma. Qed.
Print Assumptions C47_objects_at_the_indices.

(** Every generated candidate satisfies the hypothesis of the previous theorem. *)
Theorem C47_candidates_never_fail :
  forall s ca c d, In c (scene_candidates s ca) ->
  get_interacting_objects s (map Z.of_nat c) = Ok (map (fun i => nth i (objects s) d) c).
Proof. exact C47_candidates. Qed.
Print Assumptions C47_candidates_never_fail.

Theorem C47_negative_index :
  forall s i d, (i < 0)%Z -> objects s <> [] ->
  (homogeneous (objects s) = true -> get_interacting_objects s [i] = Ok [nth 0 (objects s) d]) /\
  (homogeneous (objects s) = false ->
     get_interacting_objects s [i] =
     if (- Z.of_nat (length (objects s)) <=? i)%Z
     then Ok [nth (Z.to_nat (Z.of_nat (length (objects s)) + i)) (objects s) d] else Err IndexError).
Proof. exact C47_negative. Qed.
Print Assumptions C47_negative_index.

Theorem C47_too_large_index :
  forall s i d, (Z.of_nat (length (objects s)) <= i)%Z -> objects s <> [] ->
  (homogeneous (objects s) = true ->
     get_interacting_objects s [i] = Ok [nth (length (objects s) - 1) (objects s) d]) /\
  (homogeneous (objects s) = false -> get_interacting_objects s [i] = Err IndexError).
Proof. exact C47_too_large. Qed.
Print Assumptions C47_too_large_index.

Example C47_nonvacuous :
  let w := OWall (mkwall (0,0)%R (1,0)%R) in
  let w' := OWall (mkwall (0,1)%R (1,1)%R) in
  let v := OVertex (3,3)%R in
  get_interacting_objects (mkscene (mkpd [] []) (mkpd [] []) [w; w']) [(-1)%Z] = Ok [w] /\
  get_interacting_objects (mkscene (mkpd [] []) (mkpd [] []) [w; v]) [(-1)%Z] = Ok [v].
Proof. split; reflexivity. Qed.
