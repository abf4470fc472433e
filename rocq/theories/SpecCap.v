(** The largest score that the test on the loss lets through: the hard sigmoid or
    the sigmoid, of slope [alpha], at [tol - l]. *)
From Coq Require Import Reals.
Open Scope R_scope.
Definition hard_cap (alpha tol l : R) : R := Rmax 0 (Rmin 1 (1 / 2 + alpha * (tol - l) / 6)).
Definition sigmoid_cap (alpha tol l : R) : R := 1 / (1 + exp (- (alpha * (tol - l)))).
