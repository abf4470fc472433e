(** Properties C46 (paths), C51-C55: enumerating and accumulating paths.
    [P] is an abstract random generator; [good_split P] says that splitting a key
    in [n] gives [n] keys. *)
From Coq Require Import Reals List Bool ZArith String Lia Lra.
From Verif Require Import Base BaseP LogicM GeometryM OptimizeM PathM CandidatesM SceneM SpecScene SpecRun
  SpecGeometry SpecPath SceneP SceneOpsP SceneRunP SceneAccP SceneGridP RunExP.
Import ListNotations.
Local Notation length := List.length.
Open Scope nat_scope.

(** C46: without random numbers, the paths found with a filter on the objects are
    the paths found without it whose objects satisfy the filter: obstruction and
    validity are unchanged. *)
Theorem C46_filter_keeps_paths_and_validity :
  forall P g s cls va lo hi order keep,
  let a := all_paths P g s cls (mkcandargs lo hi order None) va None in
  raised a = None ->
  all_paths P g s cls (mkcandargs lo hi order (Some keep)) va None =
  mkgen (filter (fun it => forallb keep (objects_at s (map Z.to_nat (it_cand it)))) (yielded a)) None.
Proof. exact C46_paths. Qed.
Print Assumptions C46_filter_keeps_paths_and_validity.

(** C51 *)
Theorem C51_all_paths_in_order :
  forall P g s cls va ca key t r, good_split P ->
  represents (transmitters s) t -> represents (receivers s) r ->
  let a := all_paths P g s cls ca va key in
  let ts := triples t r (scene_candidates s ca) in
  (forall n it, nth_error (yielded a) n = Some it ->
     exists trc, nth_error ts n = Some trc /\ is_item P g s cls va (nth_key P key n) trc it) /\
  (raised a = None -> length (yielded a) = length ts) /\
  (forall e, raised a = Some e -> exists tx rx c, nth_error ts (length (yielded a)) = Some (tx, rx, c) /\
     from_tx_objects_rx P cls (nth_key P key (length (yielded a))) (snd tx) (objects_at s c) (snd rx) = Err e).
Proof. exact C51_lemma. Qed.
Print Assumptions C51_all_paths_in_order.
Theorem C51_each_once :
  forall P g s cls va ca key t r, good_split P ->
  represents (transmitters s) t -> represents (receivers s) r ->
  NoDup (map (fun it => (it_tx it, it_rx it, it_cand it)) (yielded (all_paths P g s cls ca va key))).
Proof. exact C51_once. Qed.
Print Assumptions C51_each_once.
Theorem C51_order_of_triples :
  forall (A B C : Type) (ts : list A) (rs : list B) (cs : list C),
  length (triples ts rs cs) = length ts * length rs * length cs /\
  forall a b c t r x, nth_error ts a = Some t -> nth_error rs b = Some r -> nth_error cs c = Some x ->
    nth_error (triples ts rs cs) ((a * length rs + b) * length cs + c) = Some (t, r, x).
Proof. exact C51_triples. Qed.
Print Assumptions C51_order_of_triples.
Theorem C51_never_fails :
  forall P g s cls va ca key t r, good_split P ->
  represents (transmitters s) t -> represents (receivers s) r -> never_fails cls key s ->
  raised (all_paths P g s cls ca va key) = None.
Proof. exact C51_total_lemma. Qed.
Print Assumptions C51_never_fails.
(** Without arguments, in a scene of walls: for each pair of nodes the direct path, then
    the reflection on each wall in turn, by the image method; exact validity, with the
    approximation off, tests the loss against 0.01 and the walls as they are. *)
Theorem C51_default_arguments :
  forall P g s key t r ws, good_split P ->
  represents (transmitters s) t -> represents (receivers s) r -> objects s = map OWall ws ->
  let a := all_paths P g s default_cls default_ca default_va key in
  let ts := triples t r ([] :: map (fun i => [i]) (seq 0 (length ws))) in
  raised a = None /\ length (yielded a) = length ts /\
  forall n it, nth_error (yielded a) n = Some it ->
  exists tx rx c, nth_error ts n = Some (tx, rx, c) /\
    it_tx it = fst tx /\ it_rx it = fst rx /\ it_cand it = map Z.of_nat c /\
    ImagePath_from (snd tx) (objects_at s c) (snd rx) = Ok (it_path it) /\
    (g = false -> exists b, it_valid it = TB b /\
       (b = true <-> loss_below (loss (it_path it)) (1 / 100) /\ projects_inside (xys (it_path it)) (objects_at s c) /\
          ~ obstructed (xys (it_path it)) (objects s) (map Z.of_nat c) 0 (5 / 1000))).
Proof. exact C51_defaults. Qed.
Print Assumptions C51_default_arguments.
(** A scene with two transmitters, one receiver and one wall, image method, orders
    0 and 1: four paths and no exception. *)
Example C51_nonvacuous :
  let s := ex_scene in
  represents (transmitters s) [("a"%string, (0, 0)%R); ("b"%string, (1, 0)%R)] /\
  represents (receivers s) [("r"%string, (2, 1)%R)] /\ never_fails ClsImage (@None (key_t ex_prng)) s /\
  good_split ex_prng /\ length (yielded (all_paths ex_prng false s ClsImage (mkcandargs 0 1 None None) ex_va None)) = 4.
Proof. exact ex_scene_ok. Qed.

(** C52 *)
Theorem C52_valid_paths_are_the_filtered_paths :
  forall P g s cls va ca key t r, good_split P ->
  represents (transmitters s) t -> represents (receivers s) r ->
  let a := all_paths P g s cls ca va key in
  let v := all_valid_paths P g s cls ca va key in
  (forall it, In it (yielded a) -> exists b, is_true g (it_valid it) DEFAULT_TRUTH_TOL (va_approx va) = Ok b) /\
  yielded v = map (fun it => (it_tx it, it_rx it, it_path it, it_cand it))
     (filter (fun it => match is_true g (it_valid it) DEFAULT_TRUTH_TOL (va_approx va) with Ok b => b | Err _ => false end)
        (yielded a)) /\
  raised v = raised a.
Proof. exact C52_lemma. Qed.
Print Assumptions C52_valid_paths_are_the_filtered_paths.

(** C53 *)
Theorem C53_sums_per_pair :
  forall P g s cls va ca key f t r, good_split P ->
  represents (transmitters s) t -> represents (receivers s) r -> scene_candidates s ca <> [] ->
  let a := all_paths P g s cls ca va key in
  let acc := accumulate_over_paths P g s cls ca va key f in
  raised acc = raised a /\
  yielded acc =
    map (fun tr => (fst (fst tr), fst (snd tr),
           xsum (map (contribution s f (snd (fst tr)) (snd (snd tr)))
                   (of_pair (fst (fst tr)) (fst (snd tr)) (yielded a)))))
      (match raised a with
       | None => list_prod t r
       | Some _ => firstn ((length (yielded a) - 1) / length (scene_candidates s ca)) (list_prod t r)
       end).
Proof. exact C53_lemma. Qed.
Print Assumptions C53_sums_per_pair.
Theorem C53_no_candidate_yields_nothing :
  forall P g s cls va ca key f, scene_candidates s ca = [] ->
  accumulate_over_paths P g s cls ca va key f = mkgen [] None.
Proof. exact C53_none. Qed.
Print Assumptions C53_no_candidate_yields_nothing.
Theorem C53_reduce_all_is_the_total :
  forall P g s cls va ca key f,
  let acc := accumulate_over_paths P g s cls ca va key f in
  accumulate_over_paths_reduced P g s cls ca va key f =
  match raised acc with Some e => Err e | None => Ok (xsum (map snd (yielded acc))) end.
Proof. exact C53_reduced. Qed.
Print Assumptions C53_reduce_all_is_the_total.
(** Filtering out every object, with [order=1], leaves no candidate at all. *)
Example C53_no_candidate_nonvacuous :
  scene_candidates ex_scene (mkcandargs 0 1 (Some 1) (Some (fun _ => false))) = [] /\
  scene_candidates ex_scene (mkcandargs 0 1 None None) <> [].
Proof. split; [reflexivity|discriminate]. Qed.

(** C54 *)
Theorem C54_receivers_grid_is_pointwise :
  forall P g s cls ca va f gradop X Y t, good_split P -> represents (transmitters s) t ->
  never_fails cls (@None (key_t P)) s -> scene_candidates s ca <> [] -> same_shape X Y ->
  exists result, accumulate_on_receivers_grid P g s cls ca va None f gradop MVal X Y = Ok (mkgen result None) /\
    map fst result = map fst t /\
    forall n name Z, nth_error result n = Some (name, Z) ->
      same_shape Z X /\
      forall i j x y, entry X i j = Some x -> entry Y i j = Some y ->
        exists v, entry Z i j = Some (CVal v) /\
          forall rxname s2, with_receivers s [(rxname, (x, y))] = Ok s2 ->
            exists u, accumulate_over_paths P g s2 cls ca va None f = mkgen u None /\
              length u = length t /\ nth_error u n = Some (name, rxname, v).
Proof. exact C54_rx_pointwise. Qed.
Print Assumptions C54_receivers_grid_is_pointwise.
Theorem C54_transmitters_grid_is_pointwise :
  forall P g s cls ca va f gradop X Y r, good_split P -> represents (receivers s) r ->
  never_fails cls (@None (key_t P)) s -> scene_candidates s ca <> [] -> same_shape X Y ->
  exists result, accumulate_on_transmitters_grid P g s cls ca va None f gradop MVal X Y = Ok (mkgen result None) /\
    map fst result = map fst r /\
    forall n name Z, nth_error result n = Some (name, Z) ->
      same_shape Z X /\
      forall i j x y, entry X i j = Some x -> entry Y i j = Some y ->
        exists v, entry Z i j = Some (CVal v) /\
          forall txname s2, with_transmitters s [(txname, (x, y))] = Ok s2 ->
            exists u, accumulate_over_paths P g s2 cls ca va None f = mkgen u None /\
              length u = length r /\ nth_error u n = Some (txname, name, v).
Proof. exact C54_tx_pointwise. Qed.
Print Assumptions C54_transmitters_grid_is_pointwise.
(** With any key and any mode: every entry comes from one function of the position,
    which sums over the candidates; [gradop] stands for automatic differentiation. *)
Theorem C54_receivers_grid_entries :
  forall P g s cls ca va key f gradop m X Y t, good_split P -> represents (transmitters s) t ->
  never_fails cls key s -> same_shape X Y ->
  exists result, accumulate_on_receivers_grid P g s cls ca va key f gradop m X Y = Ok (mkgen result None) /\
    map fst result = map fst t /\
    forall n name pos Z, nth_error t n = Some (name, pos) -> nth_error result n = Some (name, Z) ->
      same_shape Z X /\
      forall i j x y, entry X i j = Some x -> entry Y i j = Some y ->
        exists c h, entry Z i j = Some c /\ of_mode m c /\
          (forall q, exists v, h q = Ok v /\ sums_candidates P g s cls ca va key f pos q v) /\
          (m <> MGrad -> h (x, y) = Ok (val_of c)) /\
          (m <> MVal -> grad_of c = gradop h (x, y)).
Proof. exact C54_rx. Qed.
Print Assumptions C54_receivers_grid_entries.
Theorem C54_transmitters_grid_entries :
  forall P g s cls ca va key f gradop m X Y r, good_split P -> represents (receivers s) r ->
  never_fails cls key s -> same_shape X Y ->
  exists result, accumulate_on_transmitters_grid P g s cls ca va key f gradop m X Y = Ok (mkgen result None) /\
    map fst result = map fst r /\
    forall n name pos Z, nth_error r n = Some (name, pos) -> nth_error result n = Some (name, Z) ->
      same_shape Z X /\
      forall i j x y, entry X i j = Some x -> entry Y i j = Some y ->
        exists c h, entry Z i j = Some c /\ of_mode m c /\
          (forall q, exists v, h q = Ok v /\ sums_candidates P g s cls ca va key f q pos v) /\
          (m <> MGrad -> h (x, y) = Ok (val_of c)) /\
          (m <> MVal -> grad_of c = gradop h (x, y)).
Proof. exact C54_tx. Qed.
Print Assumptions C54_transmitters_grid_entries.
Theorem C54_own_nodes_irrelevant :
  forall P g s s' cls ca va key f gradop m X Y, objects s = objects s' ->
  (transmitters s = transmitters s' ->
   accumulate_on_receivers_grid P g s cls ca va key f gradop m X Y =
   accumulate_on_receivers_grid P g s' cls ca va key f gradop m X Y) /\
  (receivers s = receivers s' ->
   accumulate_on_transmitters_grid P g s cls ca va key f gradop m X Y =
   accumulate_on_transmitters_grid P g s' cls ca va key f gradop m X Y).
Proof. exact C54_own. Qed.
Print Assumptions C54_own_nodes_irrelevant.
Theorem C54_shapes_must_agree :
  forall P g s cls ca va key f gradop m X Y, ~ same_shape X Y ->
  accumulate_on_receivers_grid P g s cls ca va key f gradop m X Y = Err TypeError /\
  accumulate_on_transmitters_grid P g s cls ca va key f gradop m X Y = Err TypeError.
Proof. exact C54_bad_shape. Qed.
Print Assumptions C54_shapes_must_agree.
(** When the path of some candidate cannot be built, whatever the nodes (image paths
    on objects of several classes, or on a vertex), the grid functions raise as soon
    as the first result is asked for. *)
Theorem C54_failures_are_raised :
  forall P g s cls ca va key f gradop m X Y nodes c, good_split P -> same_shape X Y ->
  In c (scene_candidates s ca) ->
  (forall k tx rx, exists e, from_tx_objects_rx P cls k tx (objects_at s c) rx = Err e) ->
  (represents (transmitters s) nodes -> nodes <> [] ->
   exists e, accumulate_on_receivers_grid P g s cls ca va key f gradop m X Y = Ok (mkgen [] (Some e))) /\
  (represents (receivers s) nodes -> nodes <> [] ->
   exists e, accumulate_on_transmitters_grid P g s cls ca va key f gradop m X Y = Ok (mkgen [] (Some e))).
Proof. exact C54_raises. Qed.
Print Assumptions C54_failures_are_raised.
(** A wall and a metasurface, image method, order 2. *)
Example C54_failures_nonvacuous :
  In [0; 1] (scene_candidates ex_mixed (mkcandargs 0 2 None None)) /\
  (forall k tx rx, exists e, from_tx_objects_rx ex_prng ClsImage k tx (objects_at ex_mixed [0; 1]) rx = Err e) /\
  represents (transmitters ex_mixed) [("a"%string, (0, 0)%R)] /\ represents (receivers ex_mixed) [("r"%string, (2, 1)%R)].
Proof. exact ex_mixed_ok. Qed.
Example C54_nonvacuous :
  same_shape [[0; 1]; [2; 3]]%R [[5; 6]; [7; 8]]%R /\ never_fails ClsImage (@None (key_t ex_prng)) ex_scene /\
  scene_candidates ex_scene (mkcandargs 0 1 None None) <> [].
Proof. exact ex_grid_ok. Qed.

(** C55 *)
Theorem C55_receivers_grid_reduction :
  forall P g s cls ca va key f gradop m X Y t, good_split P -> represents (transmitters s) t ->
  never_fails cls key s -> same_shape X Y ->
  exists result, accumulate_on_receivers_grid P g s cls ca va key f gradop m X Y = Ok (mkgen result None) /\
  (t = [] -> reduce_grid (accumulate_on_receivers_grid P g s cls ca va key f gradop m X Y) = Ok (ZScalar (Fin 0))) /\
  (t <> [] -> exists Z, reduce_grid (accumulate_on_receivers_grid P g s cls ca va key f gradop m X Y) = Ok (ZGrid Z) /\ same_shape Z X /\
     forall i j x, entry X i j = Some x ->
       exists c cs, entry Z i j = Some c /\ Forall2 (fun nz c => entry (snd nz) i j = Some c) result cs /\ of_mode m c /\
         (m <> MGrad -> val_of c = xsum (map val_of cs)) /\
         (m <> MVal -> grad_of c = (xsum (map (fun c => fst (grad_of c)) cs), xsum (map (fun c => snd (grad_of c)) cs)))).
Proof. exact C55_rx. Qed.
Print Assumptions C55_receivers_grid_reduction.
Theorem C55_transmitters_grid_reduction :
  forall P g s cls ca va key f gradop m X Y r, good_split P -> represents (receivers s) r ->
  never_fails cls key s -> same_shape X Y ->
  exists result, accumulate_on_transmitters_grid P g s cls ca va key f gradop m X Y = Ok (mkgen result None) /\
  (r = [] -> reduce_grid (accumulate_on_transmitters_grid P g s cls ca va key f gradop m X Y) = Ok (ZScalar (Fin 0))) /\
  (r <> [] -> exists Z, reduce_grid (accumulate_on_transmitters_grid P g s cls ca va key f gradop m X Y) = Ok (ZGrid Z) /\ same_shape Z X /\
     forall i j x, entry X i j = Some x ->
       exists c cs, entry Z i j = Some c /\ Forall2 (fun nz c => entry (snd nz) i j = Some c) result cs /\ of_mode m c /\
         (m <> MGrad -> val_of c = xsum (map val_of cs)) /\
         (m <> MVal -> grad_of c = (xsum (map (fun c => fst (grad_of c)) cs), xsum (map (fun c => snd (grad_of c)) cs)))).
Proof. exact C55_tx. Qed.
Print Assumptions C55_transmitters_grid_reduction.
Theorem C55_mode_precedence :
  forall grad, grid_mode grad true = MBoth /\ grid_mode true false = MGrad /\ grid_mode false false = MVal.
Proof. exact C55_modes. Qed.
Print Assumptions C55_mode_precedence.
