(** Vocabulary of the statements about the accuracy of lengths, powers and accumulated
    values in single precision. *)
From Coq Require Import Reals List Bool ZArith.
From Verif Require Import Base FloatM SpecGeometry SpecFloat32.
Import ListNotations.
Open Scope R_scope.

(** The number between 0 and 1 that a validity stands for. *)
Definition weighs (t : ftruthy) (w : R) : Prop :=
  match t with FB b => w = if b then 1 else 0 | FF x => fval x = Fin w /\ 0 <= w <= 1 end.
(** A validity and a power, with the product of the numbers they stand for. *)
Definition contributes (term : ftruthy * f32) (r : R) : Prop :=
  exists w y, weighs (fst term) w /\ fval (snd term) = Fin y /\ 0 <= y /\ r = w * y.
Definition sum_of (rs : list R) : R := fold_right Rplus 0 rs.
(** The power of a path of length [l] after [m] reflections of coefficient [c], for
    antennas at height [h]. *)
Definition exact_power (c h : R) (m : nat) (l : R) : R := c ^ m / (h * h + l * l).
