(** Vocabulary of the statements about the default optimiser. *)
From Coq Require Import Reals List.
From Verif Require Import Base.
Import ListNotations.
Open Scope R_scope.

(** Average of [a 0], ..., [a t] where the value [s] steps ago counts [b ^ s]. *)
Definition recent_average (b : R) (a : nat -> R) (t : nat) : R :=
  sum_f_R0 (fun j => b ^ (t - j) * a j) t / sum_f_R0 (fun j => b ^ (t - j)) t.
