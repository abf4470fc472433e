(** C86: the smoothed validity of a path is capped by its test on the loss. *)
From Coq Require Import Reals List Bool ZArith Arith Lia Lra.
From Verif Require Import Base BaseP LogicM GeometryM OptimizeM PathM UtilsM SceneM SpecCap CapP.
Import ListNotations.
Open Scope R_scope.

(** Whatever the scene, the path, the patch: with the hard sigmoid of slope [alpha],
    the smoothed validity is a number between 0 and the hard sigmoid at [tol - loss]. *)
Theorem C86_hard_score_is_capped :
  forall g p objects cand interacting alpha tol patch t l,
  is_valid g p objects cand interacting tol patch (Some true) (mkakw alpha hard_sigmoid) = Ok t -> loss p = Fin l ->
  exists r, t = TF (Fin r) /\ 0 <= r <= hard_cap alpha tol l.
Proof. exact cap_hard. Qed.
Print Assumptions C86_hard_score_is_capped.

Theorem C86_sigmoid_score_is_capped :
  forall g p objects cand interacting alpha tol patch t l,
  is_valid g p objects cand interacting tol patch (Some true) (mkakw alpha sigmoid) = Ok t -> loss p = Fin l ->
  exists r, t = TF (Fin r) /\ 0 <= r <= sigmoid_cap alpha tol l.
Proof. exact cap_sigmoid. Qed.
Print Assumptions C86_sigmoid_score_is_capped.

(** With the default arguments the score never exceeds two thirds... *)
Theorem C86_default_score_is_at_most_two_thirds :
  forall g p objects cand interacting patch t l,
  is_valid g p objects cand interacting DEFAULT_TOL patch (Some true) default_akw = Ok t -> loss p = Fin l -> 0 <= l ->
  exists r, t = TF (Fin r) /\ 0 <= r <= 2 / 3.
Proof. exact default_score. Qed.
Print Assumptions C86_default_score_is_at_most_two_thirds.

(** ... and two thirds is what the direct path gets in free space, which the exact
    mode declares valid. *)
Theorem C86_free_space_gets_two_thirds :
  forall g tx rx,
  is_valid g (mkpath [tx; rx] (Fin 0)) [] [] [] DEFAULT_TOL DEFAULT_PATCH (Some true) default_akw = Ok (TF (Fin (2 / 3))) /\
  is_valid g (mkpath [tx; rx] (Fin 0)) [] [] [] DEFAULT_TOL DEFAULT_PATCH (Some false) default_akw = Ok (TB true).
Proof. exact free_space. Qed.
Print Assumptions C86_free_space_gets_two_thirds.

(** Hence the accumulated value, over any candidates of image paths and any function
    that is not negative, is at most two thirds of the plain sum of the function. *)
Theorem C86_accumulated_value_is_at_most_two_thirds :
  forall (P : prng) g s f tx rx,
  (forall p inter, exists v, f tx rx p inter = Fin v /\ 0 <= v) ->
  forall (work : list (list Z * option (key_t P))) z,
  facc P g s ClsImage (mkvalidargs DEFAULT_TOL DEFAULT_PATCH (Some true) default_akw) f work tx rx = Ok z ->
  exists r vals, z = Fin r /\
    Forall2 (fun c v => exists inter p, get_interacting_objects s (fst c) = Ok inter /\
       ImagePath_from tx inter rx = Ok p /\ f tx rx p inter = Fin v) work vals /\
    0 <= r <= 2 / 3 * fold_right Rplus 0 vals.
Proof. exact facc_cap. Qed.
Print Assumptions C86_accumulated_value_is_at_most_two_thirds.
