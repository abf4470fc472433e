(** The accumulation over the paths of a pair in single precision: the candidates, their
    paths by the image method, validities and powers, as in [SceneM], under the
    assumptions of [FloatM].  Scenes of walls only, as in [FloatImageM]. *)
From Coq Require Import List Bool ZArith.
From Verif Require Import Base OptimizeM PathM CandidatesM SceneM FloatM FloatImageM.
Import ListNotations.

(** differt2d/scene.py:1206-1228, 1311-1323, one iteration: the interacting objects of a
    candidate ([get_interacting_objects], whose indices are in range), the path, its
    validity and [received_power] of it.  The power is any of the possible ones, as sums
    may be done in any order. *)
Definition f_path_term (approx : bool) (tx rx : fvec) (walls : list fwall) (tol patch : f32) (k : fkw)
    (r_coef height : f32) (cand : list Z) (term : ftruthy * f32) : Prop :=
  exists inter v x,
    rseq (map (py_index walls) cand) = Ok inter /\
    f_is_valid approx (f_ImagePath_from tx inter rx) (map FWall walls) cand (map FWall inter) tol patch k = Ok v /\
    f_received_power (f_xys (f_ImagePath_from tx inter rx)) r_coef height x /\
    term = (v, x).

(** differt2d/scene.py:1311-1323 [accumulate_over_paths] with [fun=received_power], the
    value for one pair of nodes: its possible results. *)
Definition f_accumulated (approx : bool) (tx rx : fvec) (walls : list fwall) (min_order max_order : nat)
    (tol patch : f32) (k : fkw) (r_coef height : f32) (acc : f32) : Prop :=
  exists terms,
    Forall2 (f_path_term approx tx rx walls tol patch k r_coef height)
      (map (map Z.of_nat) (all_path_candidates (length walls) min_order max_order None None)) terms /\
    acc = f_accumulate terms.
