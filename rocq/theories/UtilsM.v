(** Model of differt2d/utils.py. *)
From Coq Require Import Reals List.
From Verif Require Import Base GeometryM PathM.
Import ListNotations.
Open Scope R_scope.

(** differt2d/utils.py:12 [P0]; differt2d/defaults.py:12-17. *)
Definition P0 : R := 100.
Definition DEFAULT_R_COEF : R := 5 / 10.
Definition DEFAULT_HEIGHT : R := 1 / 10.

(** differt2d/utils.py:17-54 [received_power].  [r_coef**n] with the Python
    integer [n = num_points - 2] (non-negative for the paths of the library). *)
Definition received_power (eps : R) (transmitter receiver : vec) (p : path)
    (interacting : list object) (r_coef height : R) : xreal :=
  let r := Path_length eps p in
  let n := (length (xys p) - 2)%nat in
  fdiv (r_coef ^ n) (height * height + r * r).
