(** Vocabulary of the statements about the received power. *)
From Coq Require Import Reals List Bool ZArith String.
From Verif Require Import Base LogicM GeometryM OptimizeM PathM CandidatesM SceneM SpecScene SpecRun UtilsM.
Import ListNotations.

(** [received_power] with its keyword arguments applied, as passed to the
    accumulating methods. *)
Definition power (eps r_coef height : R) : pathfun :=
  fun tx rx p interacting => received_power eps tx rx p interacting r_coef height.

(** The valid paths found between two nodes. *)
Definition valid_of_pair (tx rx : string) (l : list (string * string * path * list Z)) : list (path * list Z) :=
  map (fun v => (snd (fst v), snd v))
    (filter (fun v => (String.eqb (fst (fst (fst v))) tx && String.eqb (snd (fst (fst v))) rx)%bool) l).

(** [x] is a finite number with the property. *)
Definition finite_and (Q : R -> Prop) (x : xreal) : Prop := exists v, x = Fin v /\ Q v.
