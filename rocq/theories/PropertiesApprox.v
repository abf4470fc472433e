(** Final statements about the [approx] argument (C07): for every function of the
    library that takes it, an explicit value makes the global switch irrelevant and
    [None] means the current value of the switch. *)
From Coq Require Import Reals List Bool ZArith Lra.
From Verif Require Import Base LogicM GeometryM OptimizeM PathM CandidatesM SceneM.
From Verif Require Import SpecApprox ApproxP.
Import ListNotations.
Open Scope R_scope.

Theorem C07_logic_functions_honour_approx :
  (forall x y, honours (fun g a => logical_or g x y a)) /\
  (forall x y, honours (fun g a => logical_and g x y a)) /\
  (forall x, honours (fun g a => logical_not g x a)) /\
  (forall x y k, honours (fun g a => greater g x y a k)) /\
  (forall x y k, honours (fun g a => greater_equal g x y a k)) /\
  (forall x y k, honours (fun g a => less g x y a k)) /\
  (forall x y k, honours (fun g a => less_equal g x y a k)) /\
  (forall xs, honours (fun g a => logical_all g xs a)) /\
  (forall xs, honours (fun g a => logical_any g xs a)) /\
  (forall x tol, honours (fun g a => is_true g x tol a)) /\
  (forall x tol, honours (fun g a => is_false g x tol a)) /\
  honours true_value /\ honours false_value.
Proof. exact honours_logic. Qed.
Print Assumptions C07_logic_functions_honour_approx.

Theorem C07_geometry_honours_approx :
  (forall P1 P2 P3 P4 tol k, honours (fun g a => segments_intersect g P1 P2 P3 P4 tol a k)) /\
  (forall o ps k, honours (fun g a => obj_contains g o ps a k)) /\
  (forall o r0 r1 patch k, honours (fun g a => obj_intersects g o r0 r1 patch a k)) /\
  (forall p os k, honours (fun g a => on_objects g p os a k)) /\
  (forall p os cand patch k, honours (fun g a => intersects_with_objects g p os cand patch a k)) /\
  (forall p os cand inter tol patch k, honours (fun g a => is_valid g p os cand inter tol patch a k)).
Proof. exact honours_geometry. Qed.
Print Assumptions C07_geometry_honours_approx.

Theorem C07_scene_honours_approx :
  forall P s cls ca tol patch kw key f,
  honours (fun g a => all_paths P g s cls ca (mkvalidargs tol patch a kw) key) /\
  honours (fun g a => all_valid_paths P g s cls ca (mkvalidargs tol patch a kw) key) /\
  honours (fun g a => accumulate_over_paths P g s cls ca (mkvalidargs tol patch a kw) key f) /\
  honours (fun g a => accumulate_over_paths_reduced P g s cls ca (mkvalidargs tol patch a kw) key f).
Proof. exact honours_scene. Qed.
Print Assumptions C07_scene_honours_approx.

Theorem C07_grids_honour_approx :
  forall P s cls ca tol patch kw key f gradop m X Y,
  honours (fun g a => accumulate_on_receivers_grid P g s cls ca (mkvalidargs tol patch a kw)
                        key f gradop m X Y) /\
  honours (fun g a => accumulate_on_transmitters_grid P g s cls ca (mkvalidargs tol patch a kw)
                        key f gradop m X Y).
Proof.
  exact (fun P s cls ca tol patch kw key f gradop m X Y =>
    conj (h_rx_grid P s cls ca tol patch kw key f gradop m X Y)
         (h_tx_grid P s cls ca tol patch kw key f gradop m X Y)).
Qed.
Print Assumptions C07_grids_honour_approx.

(** The switch does matter when [approx] is not given: the statement is not about
    constant functions. *)
Example C07_switch_matters :
  true_value true None <> true_value false None /\
  is_valid true (mkpath [(0,0); (1,1)] (Fin 0)) [] [] [] 1 0 None default_akw <>
  is_valid false (mkpath [(0,0); (1,1)] (Fin 0)) [] [] [] 1 0 None default_akw.
Proof. split; cbn; discriminate. Qed.
