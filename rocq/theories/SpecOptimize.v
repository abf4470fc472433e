(** Vocabulary of the statements about the solvers. *)
From Coq Require Import Reals List.
From Verif Require Import OptimizeM.
Import ListNotations.

(** [x + u], coordinate by coordinate, for two vectors of the same length; with
    different lengths, of the shorter one. *)
Definition moved (x u : list R) : list R := map (fun c => (fst c + snd c)%R) (combine x u).

(** [trajectory grad o x st n]: [x 0], ..., [x n] are the successive iterates of
    the optimiser [o] driven by [grad], and [st 0], ..., [st n] its states. *)
Definition trajectory (grad : list R -> list R) (o : optimizer)
    (x : nat -> list R) (st : nat -> opt_state o) (n : nat) : Prop :=
  st 0%nat = opt_init o (x 0%nat) /\
  forall i, (i < n)%nat ->
    x (S i) = moved (x i) (fst (opt_update o (grad (x i)) (st i))) /\
    st (S i) = snd (opt_update o (grad (x i)) (st i)).
