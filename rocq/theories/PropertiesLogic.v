(** Final statements about logic.py (C01-C06).  [g] is the value of the global
    switch; [Some true]/[Some false] is the explicit [approx] argument. *)
From Coq Require Import Reals List Bool Lra.
From Verif Require Import Base LogicM SpecLogic LogicP.
Import ListNotations.
Open Scope R_scope.

(** C01: every smoothed comparison of finite numbers, whatever the slope, is a
    float between 0 and 1. *)
Theorem C01_comparisons_in_unit_interval :
  forall c g x y k, shipped k ->
  exists r, run_cmp c g (Fin x) (Fin y) (Some true) k = TF (Fin r) /\ 0 <= r <= 1.
Proof. exact cmp_is_float. Qed.
Print Assumptions C01_comparisons_in_unit_interval.

(** C01: connectives stay in [0,1]. *)
Theorem C01_connectives_in_unit_interval :
  forall g x y, in01 x -> in01 y ->
  in01 (logical_or g x y (Some true)) /\ in01 (logical_and g x y (Some true)) /\
  in01 (logical_not g x (Some true)).
Proof.
  exact (fun g x y Hx Hy => conj (logical_or_in01 g x y Hx Hy)
    (conj (logical_and_in01 g x y Hx Hy) (logical_not_in01 g x Hx))).
Qed.
Print Assumptions C01_connectives_in_unit_interval.

Theorem C01_all_any_in_unit_interval :
  forall g xs, xs <> [] -> Forall in01 xs ->
  (exists t, logical_all g xs (Some true) = Ok t /\ in01 t) /\
  (exists t, logical_any g xs (Some true) = Ok t /\ in01 t).
Proof. exact (fun g xs Hn H => conj (logical_all_in01 g xs Hn H) (logical_any_in01 g xs Hn H)). Qed.
Print Assumptions C01_all_any_in_unit_interval.

Example C01_nonvacuous :
  shipped default_akw /\ shipped (mkakw 0 sigmoid) /\
  Forall in01 [TB true; TF (Fin (1/3)); TF (Fin 0)] /\ [TB true; TF (Fin (1/3)); TF (Fin 0)] <> [].
Proof.
  repeat split; unfold shipped; cbn; auto; try discriminate.
  repeat constructor; cbn; lra.
Qed.

(** C01: infinite operands (a slope > 0) give exactly 0 or 1. *)
Theorem C01_infinite_operands :
  forall c g k, shipped k -> 0 < ak_alpha k ->
  forall y, run_cmp c g PInf (Fin y) (Some true) k = enc (match c with Gt | Ge => true | _ => false end) /\
            run_cmp c g NInf (Fin y) (Some true) k = enc (match c with Lt | Le => true | _ => false end) /\
            run_cmp c g (Fin y) PInf (Some true) k = enc (match c with Lt | Le => true | _ => false end) /\
            run_cmp c g (Fin y) NInf (Some true) k = enc (match c with Gt | Ge => true | _ => false end).
Proof. exact cmp_infinite. Qed.
Print Assumptions C01_infinite_operands.

(** C02: on 0/1 inputs the smoothed connectives are the Boolean ones. *)
Theorem C02_crisp_connectives :
  forall g a b,
  logical_or g (enc a) (enc b) (Some true) = enc (a || b) /\
  logical_and g (enc a) (enc b) (Some true) = enc (a && b) /\
  logical_not g (enc a) (Some true) = enc (negb a).
Proof. exact (fun g a b => conj (or_crisp g a b) (conj (and_crisp g a b) (not_crisp g a))). Qed.
Print Assumptions C02_crisp_connectives.

Theorem C02_crisp_all_any :
  forall g (bs : list bool), bs <> [] ->
  logical_all g (map enc bs) (Some true) = Ok (enc (forallb (fun x => x) bs)) /\
  logical_any g (map enc bs) (Some true) = Ok (enc (existsb (fun x => x) bs)).
Proof. exact (fun g bs H => conj (all_crisp g bs H) (any_crisp g bs H)). Qed.
Print Assumptions C02_crisp_all_any.

(** C02: with approximation off they are Boolean logic, also on empty lists; with
    approximation on an empty list is rejected. *)
Theorem C02_exact_connectives :
  forall g,
  (forall a b, logical_or g (TB a) (TB b) (Some false) = TB (a || b) /\
               logical_and g (TB a) (TB b) (Some false) = TB (a && b) /\
               logical_not g (TB a) (Some false) = TB (negb a)) /\
  (forall bs, logical_all g (map TB bs) (Some false) = Ok (TB (forallb (fun x => x) bs)) /\
              logical_any g (map TB bs) (Some false) = Ok (TB (existsb (fun x => x) bs))) /\
  logical_all g [] (Some true) = Err ValueError /\ logical_any g [] (Some true) = Err ValueError.
Proof.
  exact (fun g => conj (exact_connectives g) (conj (exact_all_any g)
    (conj (proj1 (all_any_empty g)) (proj1 (proj2 (all_any_empty g)))))).
Qed.
Print Assumptions C02_exact_connectives.

(** C02: the smoothed connectives form a De Morgan algebra. *)
Theorem C02_lattice_laws :
  forall g r s t,
  let OR x y := logical_or g x y (Some true) in
  let AND x y := logical_and g x y (Some true) in
  let NOT x := logical_not g x (Some true) in
  OR (fl r) (fl s) = OR (fl s) (fl r) /\
  AND (fl r) (fl s) = AND (fl s) (fl r) /\
  OR (OR (fl r) (fl s)) (fl t) = OR (fl r) (OR (fl s) (fl t)) /\
  AND (AND (fl r) (fl s)) (fl t) = AND (fl r) (AND (fl s) (fl t)) /\
  OR (fl r) (fl r) = fl r /\ AND (fl r) (fl r) = fl r /\
  OR (fl r) (AND (fl r) (fl s)) = fl r /\
  AND (fl r) (OR (fl r) (fl s)) = fl r /\
  AND (fl r) (OR (fl s) (fl t)) = OR (AND (fl r) (fl s)) (AND (fl r) (fl t)) /\
  NOT (OR (fl r) (fl s)) = AND (NOT (fl r)) (NOT (fl s)) /\
  NOT (AND (fl r) (fl s)) = OR (NOT (fl r)) (NOT (fl s)) /\
  NOT (NOT (fl r)) = fl r.
Proof. exact lattice_laws. Qed.
Print Assumptions C02_lattice_laws.

Theorem C02_de_morgan_all :
  forall g rs, rs <> [] ->
  exists a b, logical_all g (map fl rs) (Some true) = Ok a /\
    logical_any g (map (fun r => logical_not g (fl r) (Some true)) rs) (Some true) = Ok b /\
    logical_not g a (Some true) = b.
Proof. exact de_morgan_all. Qed.
Print Assumptions C02_de_morgan_all.

(** C03: thresholding recovers the strict comparison for every slope > 0. *)
Theorem C03_threshold_recovers_strict_comparison :
  forall c g x y k, shipped k -> 0 < ak_alpha k ->
  (is_true g (run_cmp c g (Fin x) (Fin y) (Some true) k) DEFAULT_TRUTH_TOL (Some true) = Ok true
     <-> cmp_strict c x y) /\
  (is_false g (run_cmp c g (Fin x) (Fin y) (Some true) k) DEFAULT_TRUTH_TOL (Some true) = Ok true
     <-> cmp_strict c y x).
Proof. exact cmp_threshold. Qed.
Print Assumptions C03_threshold_recovers_strict_comparison.

Theorem C03_greater_less_sum_to_one :
  forall g x y k, shipped k ->
  exists a b, greater g (Fin x) (Fin y) (Some true) k = fl a /\
              less g (Fin x) (Fin y) (Some true) k = fl b /\ a + b = 1.
Proof. exact greater_less_sum. Qed.
Print Assumptions C03_greater_less_sum_to_one.

Example C03_nonvacuous : shipped (mkakw (1/1000) sigmoid) /\ 0 < ak_alpha (mkakw (1/1000) sigmoid).
Proof. unfold shipped; cbn; split; auto; lra. Qed.

(** The exact comparisons are the mathematical ones. *)
Theorem C03_exact_comparison :
  forall c g x y k,
  exists b, run_cmp c g (Fin x) (Fin y) (Some false) k = TB b /\ (b = true <-> cmp_holds c x y).
Proof. exact cmp_exact. Qed.
Print Assumptions C03_exact_comparison.

(** C04: the smoothed non-strict comparison differs from the exact one exactly at
    equality, where it is one half. *)
Theorem C04_nonstrict_disagrees_only_at_equality :
  forall g x y k, shipped k -> 0 < ak_alpha k -> forall c, c = Ge \/ c = Le ->
  (x <> y ->
     (is_true g (run_cmp c g (Fin x) (Fin y) (Some true) k) DEFAULT_TRUTH_TOL (Some true) = Ok true
      <-> run_cmp c g (Fin x) (Fin y) (Some false) k = TB true)) /\
  (x = y ->
     run_cmp c g (Fin x) (Fin y) (Some false) k = TB true /\
     run_cmp c g (Fin x) (Fin y) (Some true) k = fl (1 / 2) /\
     is_true g (run_cmp c g (Fin x) (Fin y) (Some true) k) DEFAULT_TRUTH_TOL (Some true) = Ok false).
Proof. exact C04_lemma. Qed.
Print Assumptions C04_nonstrict_disagrees_only_at_equality.

(** C05: with [hard_sigmoid] the smoothed comparison is exact at finite slope. *)
Theorem C05_hard_sigmoid_becomes_exact :
  forall c g x y k, ak_function k = hard_sigmoid -> x <> y ->
  3 <= ak_alpha k * Rabs (x - y) ->
  exists b, run_cmp c g (Fin x) (Fin y) (Some true) k = enc b /\ (b = true <-> cmp_holds c x y).
Proof. exact hard_exact. Qed.
Print Assumptions C05_hard_sigmoid_becomes_exact.

Example C05_nonvacuous : ak_function default_akw = hard_sigmoid /\
  3 <= ak_alpha default_akw * Rabs (1 - 0).
Proof. cbn. unfold DEFAULT_ALPHA. rewrite Rminus_0_r, Rabs_R1. split; auto; lra. Qed.

(** C05: with [sigmoid] it converges to the exact answer when the slope grows. *)
Theorem C05_sigmoid_converges :
  forall c x y eps, 0 < eps -> x <> y ->
  exists A, 0 < A /\ forall g alpha, A <= alpha ->
    exists v, run_cmp c g (Fin x) (Fin y) (Some true) (mkakw alpha sigmoid) = fl v /\
      ((cmp_holds c x y -> Rabs (v - 1) < eps) /\ (~ cmp_holds c x y -> Rabs v < eps)).
Proof. exact sigmoid_limit. Qed.
Print Assumptions C05_sigmoid_converges.

(** C06 *)
Theorem C06_is_true_is_false :
  forall g,
  (forall r tol, tol <= 1 / 2 ->
     ~ (is_true g (fl r) tol (Some true) = Ok true /\ is_false g (fl r) tol (Some true) = Ok true)) /\
  (forall tol, tol > 1 / 2 -> exists r, 0 <= r <= 1 /\
     is_true g (fl r) tol (Some true) = Ok true /\ is_false g (fl r) tol (Some true) = Ok true) /\
  (forall r tol,
     (is_true g (fl r) tol (Some true) = Ok false /\ is_false g (fl r) tol (Some true) = Ok false)
     <-> tol <= r <= 1 - tol) /\
  (forall b tol, is_true g (TB b) tol (Some false) = Ok b /\
                 is_false g (TB b) tol (Some false) = Ok (negb b)) /\
  (forall x tol, is_true g (TF x) tol (Some false) = Err TypeCheckError) /\
  (forall a tol, 0 < tol < 1 ->
     is_true g (true_value g a) tol a = Ok true /\ is_false g (true_value g a) tol a = Ok false /\
     is_true g (false_value g a) tol a = Ok false /\ is_false g (false_value g a) tol a = Ok true).
Proof. exact C06_lemma. Qed.
Print Assumptions C06_is_true_is_false.
