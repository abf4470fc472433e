(** Properties C60 and C62: received power and its accumulation. *)
From Coq Require Import Reals List Bool ZArith String Lia Lra.
From Verif Require Import Base BaseP LogicM SpecLogic GeometryM OptimizeM PathM CandidatesM SceneM SpecScene SpecRun
  UtilsM SpecPower RunExP PowerP.
Import ListNotations.
Open Scope R_scope.
Local Notation length := List.length.

(** C60 *)
Theorem C60_bounds_of_the_power :
  forall eps tx rx p os r_coef height, height <> 0 -> 0 <= r_coef <= 1 ->
  exists x, received_power eps tx rx p os r_coef height = Fin x /\ 0 <= x <= 1 / (height * height) /\ (0 < r_coef -> 0 < x).
Proof. exact C60_bounds. Qed.
Print Assumptions C60_bounds_of_the_power.
Theorem C60_longer_paths_and_more_interactions_bring_less :
  forall eps tx rx p os r_coef height tx' rx' p' os', height <> 0 -> 0 <= r_coef <= 1 ->
  Path_length eps p <= Path_length eps p' -> (length (xys p) <= length (xys p'))%nat ->
  exists x x', received_power eps tx rx p os r_coef height = Fin x /\
    received_power eps tx' rx' p' os' r_coef height = Fin x' /\ x' <= x.
Proof. exact C60_mono. Qed.
Print Assumptions C60_longer_paths_and_more_interactions_bring_less.
Theorem C60_strictly_less :
  forall eps tx rx p os r_coef height tx' rx' p' os', height <> 0 -> 0 < r_coef < 1 ->
  Path_length eps p <= Path_length eps p' -> (length (xys p) <= length (xys p'))%nat ->
  (Path_length eps p < Path_length eps p' \/ (2 <= length (xys p) < length (xys p'))%nat) ->
  exists x x', received_power eps tx rx p os r_coef height = Fin x /\
    received_power eps tx' rx' p' os' r_coef height = Fin x' /\ x' < x.
Proof. exact C60_strict. Qed.
Print Assumptions C60_strictly_less.
Theorem C60_depends_on_the_points_only :
  forall eps tx rx p os r_coef height tx' rx' p' os', xys p = xys p' ->
  received_power eps tx rx p os r_coef height = received_power eps tx' rx' p' os' r_coef height.
Proof. exact C60_indep. Qed.
Print Assumptions C60_depends_on_the_points_only.
Theorem C60_default_at_most_P0 :
  forall eps tx rx p os,
  exists x, received_power eps tx rx p os DEFAULT_R_COEF DEFAULT_HEIGHT = Fin x /\ 0 < x <= P0 /\
    (x = P0 <-> Path_length eps p = 0 /\ (length (xys p) <= 2)%nat).
Proof. exact C60_default. Qed.
Print Assumptions C60_default_at_most_P0.
(** The default value: 100 at distance zero, four times less at twice the distance
    when the distance is large, and half as much for each interaction. *)
Theorem C60_default_value :
  forall eps tx rx p os, let r := Path_length eps p in
  received_power eps tx rx p os DEFAULT_R_COEF DEFAULT_HEIGHT =
  Fin (100 / ((1 + 100 * (r * r)) * 2 ^ (length (xys p) - 2))).
Proof. exact C60_default_formula. Qed.
Print Assumptions C60_default_value.
(** Why [height <> 0] is needed. *)
Theorem C60_without_height :
  forall eps tx rx p os r_coef, 0 < r_coef ->
  (Path_length eps p = 0 -> received_power eps tx rx p os r_coef 0 = PInf) /\
  (Path_length eps p <> 0 -> exists x, received_power eps tx rx p os r_coef 0 = Fin x).
Proof. exact C60_no_height. Qed.
Print Assumptions C60_without_height.
Example C60_nonvacuous :
  received_power 0 (0,0) (0,3) (mkpath [(0,0); (2,0); (2,0)] (Fin 0)) [] (1/2) 1 = Fin (1 / 10).
Proof.
  assert (L : Path_length 0 (mkpath [(0,0); (2,0); (2,0)] (Fin 0)) = 2).
  { unfold Path_length, path_length, norm, dot. cbn.
    replace ((2 - 0 + 0) * (2 - 0 + 0) + (0 - 0 + 0) * (0 - 0 + 0)) with (2 * 2) by ring.
    replace ((2 - 2 + 0) * (2 - 2 + 0) + (0 - 0 + 0) * (0 - 0 + 0)) with 0 by ring.
    rewrite sqrt_square, sqrt_0 by lra. lra. }
  rewrite power_fin by lra. rewrite L. f_equal. cbn. field.
Qed.

(** C62 *)
Theorem C62_finite_and_non_negative :
  forall P g s cls va ca key eps r_coef height t r, good_split P ->
  represents (transmitters s) t -> represents (receivers s) r ->
  shipped (va_kw va) -> height <> 0 -> 0 <= r_coef <= 1 ->
  forall tx rx v, In (tx, rx, v) (yielded (accumulate_over_paths P g s cls ca va key (power eps r_coef height))) ->
  finite_and (fun x => 0 <= x <= INR (length (scene_candidates s ca)) * (1 / (height * height))) v.
Proof. exact C62_bounds. Qed.
Print Assumptions C62_finite_and_non_negative.
Theorem C62_total_finite_and_non_negative :
  forall P g s cls va ca key eps r_coef height t r v, good_split P ->
  represents (transmitters s) t -> represents (receivers s) r ->
  shipped (va_kw va) -> height <> 0 -> 0 <= r_coef <= 1 ->
  accumulate_over_paths_reduced P g s cls ca va key (power eps r_coef height) = Ok v ->
  finite_and (fun x => 0 <= x) v.
Proof. exact C62_reduced. Qed.
Print Assumptions C62_total_finite_and_non_negative.
(** For any function with finite values, hence for the received power. *)
Theorem C62_exact_mode_sums_the_valid_paths :
  forall P g s cls tol patch kw ca key f t r, good_split P ->
  represents (transmitters s) t -> represents (receivers s) r -> scene_candidates s ca <> [] ->
  (forall tx rx p os, exists x, f tx rx p os = Fin x) ->
  let va := mkvalidargs tol patch (Some false) kw in
  let valid := all_valid_paths P g s cls ca va key in
  raised valid = None ->
  accumulate_over_paths P g s cls ca va key f =
  mkgen (map (fun tr => (fst (fst tr), fst (snd tr),
          xsum (map (fun pc => f (snd (fst tr)) (snd (snd tr)) (fst pc) (objects_at s (map Z.to_nat (snd pc))))
                  (valid_of_pair (fst (fst tr)) (fst (snd tr)) (yielded valid))))) (list_prod t r)) None.
Proof. exact C62_exact. Qed.
Print Assumptions C62_exact_mode_sums_the_valid_paths.
Theorem C62_more_orders_never_less :
  forall P g s cls va lo hi hi' keep eps r_coef height t r, good_split P ->
  represents (transmitters s) t -> represents (receivers s) r -> never_fails cls (@None (key_t P)) s ->
  shipped (va_kw va) -> height <> 0 -> 0 <= r_coef <= 1 -> (hi <= hi')%nat ->
  let acc hi := accumulate_over_paths P g s cls (mkcandargs lo hi None keep) va None (power eps r_coef height) in
  forall n tx rx v, nth_error (yielded (acc hi)) n = Some (tx, rx, v) ->
  exists v', nth_error (yielded (acc hi')) n = Some (tx, rx, v') /\
    exists x x', v = Fin x /\ v' = Fin x' /\ x <= x'.
Proof. exact C62_mono. Qed.
Print Assumptions C62_more_orders_never_less.
Example C62_nonvacuous :
  good_split ex_prng /\ represents (transmitters ex_scene) [("a"%string, (0, 0)); ("b"%string, (1, 0))] /\
  represents (receivers ex_scene) [("r"%string, (2, 1))] /\ never_fails ClsImage (@None (key_t ex_prng)) ex_scene /\
  shipped (va_kw ex_va) /\ DEFAULT_HEIGHT <> 0 /\ 0 <= DEFAULT_R_COEF <= 1 /\
  (forall tx rx p os, exists x, power 0 DEFAULT_R_COEF DEFAULT_HEIGHT tx rx p os = Fin x) /\
  scene_candidates ex_scene (mkcandargs 0 1 None None) <> [].
Proof.
  destruct ex_scene_ok as (A & B & C & D & _).
  assert (H : DEFAULT_HEIGHT <> 0) by (unfold DEFAULT_HEIGHT; lra).
  repeat (split; [first [assumption|unfold DEFAULT_R_COEF; lra|left; reflexivity|right; reflexivity]|]).
  split; [intros; eexists; apply power_fin; exact H|]. discriminate.
Qed.
