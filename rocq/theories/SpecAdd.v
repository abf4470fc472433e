(** Vocabulary of C99. *)
From Coq Require Import Reals List Bool ZArith String.
From Verif Require Import Base GeometryM OptimizeM PathM CandidatesM SceneM SpecScene SpecRun.
Import ListNotations.
Local Notation length := List.length.

(** The sum and the multiple of functions of a path. *)
Definition fun_add (f1 f2 : pathfun) : pathfun := fun tx rx p inter => xadd (f1 tx rx p inter) (f2 tx rx p inter).
Definition fun_scale (a : R) (f : pathfun) : pathfun := fun tx rx p inter => xmul (Fin a) (f tx rx p inter).
(** A function whose values are numbers. *)
Definition numeric (f : pathfun) : Prop := forall tx rx p inter, exists v, f tx rx p inter = Fin v.

(** One result per node, with the names of the nodes, the array of [u] being the sum,
    entry by entry, of those of [u1] and [u2]. *)
Definition sum_of_grids (u u1 u2 : list (string * list (list cell))) : Prop :=
  map fst u1 = map fst u /\ map fst u2 = map fst u /\
  forall n name Z, nth_error u n = Some (name, Z) ->
  exists Z1 Z2, nth_error u1 n = Some (name, Z1) /\ nth_error u2 n = Some (name, Z2) /\
    same_shape Z1 Z /\ same_shape Z2 Z /\
    forall i j c, entry Z i j = Some c -> exists v1 v2,
      c = CVal (xadd v1 v2) /\ entry Z1 i j = Some (CVal v1) /\ entry Z2 i j = Some (CVal v2).
