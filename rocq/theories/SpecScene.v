(** Vocabulary of the statements about scenes. *)
From Coq Require Import Reals List Bool ZArith String.
From Verif Require Import Base LogicM GeometryM OptimizeM PathM CandidatesM SceneM.
Import ListNotations.
Local Notation length := List.length.

(** A Python dict never has twice the same key. *)
Definition is_dict {V} (d : dict V) : Prop := NoDup (map fst d).

(** A mapping of the library represents the dict [d]: same keys in the same
    order, and every lookup gives the value of [d]. *)
Definition represents {V} (m : pytreedict V) (d : dict V) : Prop :=
  is_dict d /\ pd_iter m = map fst d /\ pd_len m = length d /\ pd_items_res m = Ok d /\
  (forall k v, pd_get m k = Ok v <-> In (k, v) d) /\
  (forall k, pd_contains m k = true <-> In k (map fst d)) /\
  (forall k, ~ In k (map fst d) -> pd_get m k = Err KeyError).

(** Right-biased union that keeps the order of [a] and appends the new names of
    [b] in their order. *)
Definition union_of {V} (a b u : dict V) : Prop :=
  is_dict u /\
  map fst u = map fst a ++ filter (fun k => negb (existsb (String.eqb k) (map fst a))) (map fst b) /\
  forall k v, In (k, v) u <-> In (k, v) b \/ (~ In k (map fst b) /\ In (k, v) a).

(** The new name of a node: the one given for it, if any. *)
Definition new_name (names : dict string) (old new : string) : Prop :=
  In (old, new) names \/ (~ In old (map fst names) /\ new = old).

(** The operations that make a scene from a scene. *)
Inductive scene_op :=
| WithTransmitters (d : dict vec) | WithReceivers (d : dict vec)
| UpdateTransmitters (d : dict vec) | UpdateReceivers (d : dict vec)
| RenameTransmitters (d : dict string) | RenameReceivers (d : dict string)
| WithObjects (os : list object) | AddObjects (os : list object)
| FilterObjects (keep : object -> bool).
Definition op_ok (o : scene_op) : Prop :=
  match o with
  | WithTransmitters d => is_dict d | WithReceivers d => is_dict d
  | UpdateTransmitters d => is_dict d | UpdateReceivers d => is_dict d
  | RenameTransmitters d => is_dict d | RenameReceivers d => is_dict d
  | _ => True
  end.
Definition apply_op (s : scene) (o : scene_op) : res scene :=
  match o with
  | WithTransmitters d => with_transmitters s d | WithReceivers d => with_receivers s d
  | UpdateTransmitters d => update_transmitters s d | UpdateReceivers d => update_receivers s d
  | RenameTransmitters d => rename_transmitters s d | RenameReceivers d => rename_receivers s d
  | WithObjects os => Ok (with_objects s os) | AddObjects os => Ok (add_objects s os)
  | FilterObjects keep => Ok (filter_objects s keep)
  end.

(** The scenes that a program can build. *)
Inductive reachable : scene -> Prop :=
| reach_make t r os : is_dict t -> is_dict r -> reachable (Scene_make t r os)
| reach_op s o s' : reachable s -> op_ok o -> apply_op s o = Ok s' -> reachable s'.
