(** C99: accumulated values are additive in the orders, in the nodes and in the function. *)
From Coq Require Import Reals List Bool ZArith String Lia Lra.
From Verif Require Import Base BaseP LogicM SpecLogic GeometryM OptimizeM PathM CandidatesM SceneM SpecScene SpecRun SceneP RunExP SpecAdd AddP.
Import ListNotations.
Local Notation length := List.length.
Open Scope nat_scope.

(** The total for the orders [lo..hi] is the sum of the totals for [lo..mid] and
    [mid+1..hi] (either range may be empty). *)
Theorem C99_orders_add :
  forall P g s cls va f t r lo mid hi keep, good_split P ->
  represents (transmitters s) t -> represents (receivers s) r -> never_fails cls (@None (key_t P)) s ->
  lo <= S mid -> mid <= hi ->
  exists x y, accumulate_over_paths_reduced P g s cls (mkcandargs lo mid None keep) va None f = Ok x /\
    accumulate_over_paths_reduced P g s cls (mkcandargs (S mid) hi None keep) va None f = Ok y /\
    accumulate_over_paths_reduced P g s cls (mkcandargs lo hi None keep) va None f = Ok (xadd x y).
Proof. exact orders_add. Qed.
Print Assumptions C99_orders_add.

(** Hence it is the sum of the totals of the single orders, [order=k] overriding the
    bounds [a] and [b] that come with it. *)
Theorem C99_sum_of_single_orders :
  forall P g s cls va f t r keep, good_split P ->
  represents (transmitters s) t -> represents (receivers s) r -> never_fails cls (@None (key_t P)) s ->
  forall n lo a b, exists xs,
    Forall2 (fun k x => accumulate_over_paths_reduced P g s cls (mkcandargs a b (Some k) keep) va None f = Ok x)
      (seq lo (S n)) xs /\
    accumulate_over_paths_reduced P g s cls (mkcandargs lo (lo + n) None keep) va None f = Ok (xsum xs).
Proof. exact order_by_order. Qed.
Print Assumptions C99_sum_of_single_orders.

(** The same for the maps over a grid of receivers or of transmitters, entry by entry. *)
Theorem C99_receivers_grid_orders_add :
  forall P g s cls va f gradop X Y t lo mid hi keep, good_split P -> represents (transmitters s) t ->
  never_fails cls (@None (key_t P)) s -> same_shape X Y -> lo <= S mid -> mid <= hi ->
  let grid lo hi := accumulate_on_receivers_grid P g s cls (mkcandargs lo hi None keep) va None f gradop MVal X Y in
  exists u u1 u2, grid lo hi = Ok (mkgen u None) /\ grid lo mid = Ok (mkgen u1 None) /\
    grid (S mid) hi = Ok (mkgen u2 None) /\ sum_of_grids u u1 u2.
Proof. exact rx_grid_add. Qed.
Print Assumptions C99_receivers_grid_orders_add.
Theorem C99_transmitters_grid_orders_add :
  forall P g s cls va f gradop X Y r lo mid hi keep, good_split P -> represents (receivers s) r ->
  never_fails cls (@None (key_t P)) s -> same_shape X Y -> lo <= S mid -> mid <= hi ->
  let grid lo hi := accumulate_on_transmitters_grid P g s cls (mkcandargs lo hi None keep) va None f gradop MVal X Y in
  exists u u1 u2, grid lo hi = Ok (mkgen u None) /\ grid lo mid = Ok (mkgen u1 None) /\
    grid (S mid) hi = Ok (mkgen u2 None) /\ sum_of_grids u u1 u2.
Proof. exact tx_grid_add. Qed.
Print Assumptions C99_transmitters_grid_orders_add.

(** More transmitters: the results are those of the first ones followed by those of
    the others, and the totals add up. *)
Theorem C99_transmitters_add :
  forall P g s s1 s2 cls ca va f t1 t2 r, good_split P ->
  represents (transmitters s) (t1 ++ t2) -> represents (transmitters s1) t1 -> represents (transmitters s2) t2 ->
  represents (receivers s) r -> represents (receivers s1) r -> represents (receivers s2) r ->
  objects s1 = objects s -> objects s2 = objects s -> never_fails cls (@None (key_t P)) s ->
  (exists u1 u2, accumulate_over_paths P g s1 cls ca va None f = mkgen u1 None /\
    accumulate_over_paths P g s2 cls ca va None f = mkgen u2 None /\
    accumulate_over_paths P g s cls ca va None f = mkgen (u1 ++ u2) None) /\
  exists x y, accumulate_over_paths_reduced P g s1 cls ca va None f = Ok x /\
    accumulate_over_paths_reduced P g s2 cls ca va None f = Ok y /\
    accumulate_over_paths_reduced P g s cls ca va None f = Ok (xadd x y).
Proof. intros. split; [eapply tx_concat; eauto|eapply tx_add; eauto]. Qed.
Print Assumptions C99_transmitters_add.
Theorem C99_receivers_add :
  forall P g s s1 s2 cls ca va f t r1 r2, good_split P ->
  represents (receivers s) (r1 ++ r2) -> represents (receivers s1) r1 -> represents (receivers s2) r2 ->
  represents (transmitters s) t -> represents (transmitters s1) t -> represents (transmitters s2) t ->
  objects s1 = objects s -> objects s2 = objects s -> never_fails cls (@None (key_t P)) s ->
  exists x y, accumulate_over_paths_reduced P g s1 cls ca va None f = Ok x /\
    accumulate_over_paths_reduced P g s2 cls ca va None f = Ok y /\
    accumulate_over_paths_reduced P g s cls ca va None f = Ok (xadd x y).
Proof. exact rx_add. Qed.
Print Assumptions C99_receivers_add.

(** The total is linear in a function that takes finite values. *)
Theorem C99_linear_in_the_function :
  forall P g s cls ca va f1 f2 a t r, good_split P ->
  represents (transmitters s) t -> represents (receivers s) r -> never_fails cls (@None (key_t P)) s -> shipped (va_kw va) ->
  numeric f1 -> numeric f2 ->
  exists x y, accumulate_over_paths_reduced P g s cls ca va None f1 = Ok x /\
    accumulate_over_paths_reduced P g s cls ca va None f2 = Ok y /\
    accumulate_over_paths_reduced P g s cls ca va None (fun_add f1 f2) = Ok (xadd x y) /\
    accumulate_over_paths_reduced P g s cls ca va None (fun_scale a f1) = Ok (xmul (Fin a) x).
Proof. exact fun_linear. Qed.
Print Assumptions C99_linear_in_the_function.
Theorem C99_grids_add_in_the_function :
  forall P g s cls ca va f1 f2 gradop X Y t r, good_split P -> represents (transmitters s) t -> represents (receivers s) r ->
  never_fails cls (@None (key_t P)) s -> same_shape X Y -> shipped (va_kw va) -> numeric f1 -> numeric f2 ->
  (let grid f := accumulate_on_receivers_grid P g s cls ca va None f gradop MVal X Y in
   exists u u1 u2, grid (fun_add f1 f2) = Ok (mkgen u None) /\ grid f1 = Ok (mkgen u1 None) /\
     grid f2 = Ok (mkgen u2 None) /\ sum_of_grids u u1 u2) /\
  (let grid f := accumulate_on_transmitters_grid P g s cls ca va None f gradop MVal X Y in
   exists u u1 u2, grid (fun_add f1 f2) = Ok (mkgen u None) /\ grid f1 = Ok (mkgen u1 None) /\
     grid f2 = Ok (mkgen u2 None) /\ sum_of_grids u u1 u2).
Proof. exact grid_fun_add. Qed.
Print Assumptions C99_grids_add_in_the_function.

(** ** Concrete cases *)
(** A scene with two transmitters, its two halves, and both ranges of orders not empty. *)
Definition half (names : list (string * vec)) : scene := Scene_make names [("r"%string, (2, 1)%R)] [OWall (mkwall (0, 3)%R (4, 3)%R)].
Example C99_nonvacuous :
  good_split ex_prng /\ never_fails ClsImage (@None (key_t ex_prng)) ex_scene /\
  represents (transmitters ex_scene) ([("a"%string, (0, 0)%R)] ++ [("b"%string, (1, 0)%R)]) /\
  represents (transmitters (half [("a"%string, (0, 0)%R)])) [("a"%string, (0, 0)%R)] /\
  represents (transmitters (half [("b"%string, (1, 0)%R)])) [("b"%string, (1, 0)%R)] /\
  objects (half [("a"%string, (0, 0)%R)]) = objects ex_scene /\
  scene_candidates ex_scene (mkcandargs 0 0 None None) = [[]] /\
  scene_candidates ex_scene (mkcandargs 1 1 None None) = [[0]] /\
  scene_candidates ex_scene (mkcandargs 0 1 None None) = [[]; [0]] /\
  shipped (va_kw ex_va).
Proof.
  split; [apply ex_split|]. split; [apply ex_never|]. split; [apply ex_tx|].
  split; [apply C48_lemma; repeat constructor; cbn; intuition discriminate|].
  split; [apply C48_lemma; repeat constructor; cbn; intuition discriminate|].
  split; [reflexivity|]. split; [reflexivity|]. split; [reflexivity|]. split; [reflexivity|]. right. reflexivity.
Qed.
Example C99_numeric_nonvacuous : numeric (fun _ _ p _ => Fin (INR (length (xys p)))) /\ numeric (fun tx rx _ _ => Fin (fst tx * snd rx)).
Proof. split; intros tx rx p inter; eexists; reflexivity. Qed.
