(** Vocabulary of the statements about supplying or naming a scene. *)
From Coq Require Import Reals List Bool ZArith String.
From Verif Require Import Base GeometryM SceneM SpecScene BuildM SourceM.
Import ListNotations.
Open Scope R_scope.

(** [src] is the text [s], possibly behind any number of objects to read. *)
Inductive holds_text (s : string) : source -> Prop :=
| holds_here : holds_text s (Text s)
| holds_read x rest : holds_text s x -> holds_text s (Readable (x :: rest)).

(** The scene has one transmitter, called "tx", and one receiver, called "rx". *)
Definition nodes_at (s : scene) (tx rx : vec) : Prop :=
  represents (transmitters s) [("tx"%string, tx)] /\ represents (receivers s) [("rx"%string, rx)].

(** The keyword arguments for the given positions and ratio, those given. *)
Definition keywords (ratio : option R) (tx rx : option vec) : list (string * arg) :=
  (match ratio with Some x => [("ratio"%string, ANum x)] | None => [] end) ++
  (match tx with Some p => [("tx_coords"%string, APoint p)] | None => [] end) ++
  (match rx with Some p => [("rx_coords"%string, APoint p)] | None => [] end).
Definition or_default {A} (o : option A) (d : A) : A := match o with Some a => a | None => d end.
