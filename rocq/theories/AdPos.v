(** The positions of SpecAd, as the proofs of AdGradP, AdNanP and AdRightP use them:
    with the quantities that the code computes.  AdPosP relates them. *)
From Coq Require Import Reals List Bool ZArith Arith.
From Verif Require Import Base LogicM GeometryM PathM AdM SpecAd.
Import ListNotations.
Open Scope R_scope.

(** ** Positions of the image method *)
(** The point reached before the wall [j] is met backwards, seen from the image of
    the transmitter in the walls up to [j], as a component along the normal of
    that wall: zero when the line between them is parallel to the wall. *)
Definition approach (tx : vec) (ws : list wall) (rx : vec) (j : nat) (w : wall) : R :=
  dot (vsub (nth (j + 2) (image_points tx ws rx) (0, 0)) (nth j (images tx ws) (0, 0))) (normal w).
(** No such line is parallel to its wall, no step of the path is [(-eps, -eps)],
    and, when there is a wall, no step is zero. *)
Definition gen_pos (eps : R) (tx : vec) (ws : list wall) (rx : vec) : Prop :=
  (forall j w, nth_error ws j = Some w -> approach tx ws rx j w <> 0) /\
  (forall v, In v (diffs (image_points tx ws rx)) -> v <> (- eps, - eps)) /\
  (forall v, In v (diffs (image_points tx ws rx)) -> ws <> [] -> v <> (0, 0)).

(** Two segments neither of whose lines meets the other near one of its ends. *)
Definition seg_set (alpha : R) (P1 P2 P3 P4 : vec) (tol : R) : Prop :=
  let A := vsub P2 P1 in
  let B := vsub P3 P4 in
  let C := vsub P1 P3 in
  let a := snd B * fst C - fst B * snd C in
  let b := fst A * snd C - snd A * fst C in
  let d := snd A * fst B - fst A * snd B in
  (d = 0 /\ a <> 0 /\ b <> 0) \/
  (d <> 0 /\ settled alpha (a / d + tol) /\ settled alpha (1 + tol - a / d) /\
             settled alpha (b / d + tol) /\ settled alpha (1 + tol - b / d)).
Definition obj_set (alpha : R) (o : object) (r0 r1 : vec) (patch : R) : Prop :=
  match o with
  | OWall w | ORIS w _ =>
      seg_set alpha (vsub (w_origin w) (vscale patch (wall_t w)))
        (vadd (w_dest w) (vscale patch (wall_t w))) r0 r1 SEG_TOL
  | OVertex _ => True
  end.
(** No point of the path is near an end of its wall, no segment of the path passes
    near an end of another object, and the loss is not exactly where its
    comparison with [tol] has a corner. *)
Definition path_set (alpha tol patch : R) (objects : list object) (cand : list Z)
    (ws : list wall) (pts : list vec) (l : R) : Prop :=
  (forall j w, nth_error ws j = Some w ->
     settled alpha (wall_c2p w (nth (j + 1) pts (0, 0))) /\
     settled alpha (1 - wall_c2p w (nth (j + 1) pts (0, 0)))) /\
  (forall i m o, (i + 1 < List.length pts)%nat -> nth_error objects m = Some o ->
     Z.of_nat m <> nth i (interacting_object_indices cand) 0%Z ->
     Z.of_nat m <> nth (i + 1) (interacting_object_indices cand) 0%Z ->
     obj_set alpha o (nth i pts (0, 0)) (nth (i + 1) pts (0, 0)) patch) /\
  alpha * (tol - l) <> 3 /\ alpha * (tol - l) <> -3.

(** No comparison of the crossing test is at a corner of the hard sigmoid, and no
    two comparisons that are in their transition have the same value. *)
Definition decid (alpha : R) (P1 P2 P3 P4 : vec) (tol : R) : Prop :=
  let A := vsub P2 P1 in
  let B := vsub P3 P4 in
  let C := vsub P1 P3 in
  let a := snd B * fst C - fst B * snd C in
  let b := fst A * snd C - snd A * fst C in
  let d := snd A * fst B - fst A * snd B in
  let args := [a / d + tol; 1 + tol - a / d; b / d + tol; 1 + tol - b / d] in
  d <> 0 /\ Forall (fun z => alpha * z <> 3 /\ alpha * z <> -3) args /\
  ForallOrdPairs (fun z z' => settled alpha z \/ settled alpha z' \/ z <> z') args.

(** What the length alone needs: no line to an image is parallel to its wall, no
    step is [(-eps, -eps)]. *)
Definition len_pos (eps : R) (tx : vec) (ws : list wall) (rx : vec) : Prop :=
  (forall j w, nth_error ws j = Some w -> approach tx ws rx j w <> 0) /\
  (forall v, In v (diffs (image_points tx ws rx)) -> v <> (- eps, - eps)).
