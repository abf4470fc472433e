(** Vocabulary of the statements about continuity: convergence of sequences of
    points, objects, paths, truth values and results of calls. *)
From Coq Require Import Reals List Bool ZArith String.
From Verif Require Import Base LogicM SpecLogic GeometryM SpecGeometry OptimizeM PathM SpecPath SpecImage CandidatesM SceneM SpecScene SpecRun.
Import ListNotations.
Open Scope R_scope.
Local Notation length := List.length.

(** The points [u n] tend to [p] (both coordinates; [Un_cv] is the standard
    library's convergence of real sequences). *)
Definition pconv (u : nat -> vec) (p : vec) : Prop :=
  Un_cv (fun n => fst (u n)) (fst p) /\ Un_cv (fun n => snd (u n)) (snd p).
Definition wconv (u : nat -> wall) (w : wall) : Prop :=
  pconv (fun n => w_origin (u n)) (w_origin w) /\ pconv (fun n => w_dest (u n)) (w_dest w).

(** Objects of the class of the limit, whose coordinates (and angle) tend to it. *)
Definition oconv (u : nat -> object) (o : object) : Prop :=
  match o with
  | OWall w => exists ws, (forall n, u n = OWall (ws n)) /\ wconv ws w
  | ORIS w phi => exists ws phis, (forall n, u n = ORIS (ws n) (phis n)) /\ wconv ws w /\ Un_cv phis phi
  | OVertex q => exists qs, (forall n, u n = OVertex (qs n)) /\ pconv qs q
  end.

(** Lists of constant length whose entries converge one by one. *)
Definition lconv {A} (cv : (nat -> A) -> A -> Prop) (u : nat -> list A) (l : list A) : Prop :=
  exists us : list (nat -> A), (forall n, u n = map (fun s => s n) us) /\ Forall2 cv us l.

(** Finite floating-point numbers; smoothed truth values. *)
Definition xconv (u : nat -> xreal) (x : xreal) : Prop :=
  exists rs r, (forall n, u n = Fin (rs n)) /\ x = Fin r /\ Un_cv rs r.
Definition tconv (u : nat -> truthy) (t : truthy) : Prop :=
  exists rs r, (forall n, u n = fl (rs n)) /\ t = fl r /\ Un_cv rs r.

Definition path_conv (u : nat -> path) (p : path) : Prop :=
  lconv pconv (fun n => xys (u n)) (xys p) /\ xconv (fun n => loss (u n)) (loss p).

(** Calls that all return, with values that converge. *)
Definition rconv {A} (cv : (nat -> A) -> A -> Prop) (u : nat -> res A) (r : res A) : Prop :=
  exists xs x, (forall n, u n = Ok (xs n)) /\ r = Ok x /\ cv xs x.

(** All four points are on one line. *)
Definition on_one_line (P1 P2 P3 P4 : vec) : Prop :=
  exists A B, A <> B /\ on_line A B P1 /\ on_line A B P2 /\ on_line A B P3 /\ on_line A B P4.

(** Some segment of the path is on the line of a wall that it does not touch (the
    wall, extended by [patch]). *)
Definition grazes (pts : list vec) (objects : list object) (cand : list Z) (patch : R) : Prop :=
  exists i j A B o w,
    segment_at pts i A B /\ nth_error objects j = Some o /\ wall_of o = Some w /\
    ~ touches cand i j /\
    on_one_line (at_ (w_origin w) (w_dest w) (- patch)) (at_ (w_origin w) (w_dest w) (1 + patch)) A B.

(** Named nodes: the names are fixed, the points converge. *)
Definition nconv (u : nat -> string * vec) (x : string * vec) : Prop :=
  (forall n, fst (u n) = fst x) /\ pconv (fun n => snd (u n)) (snd x).
Definition nodes_conv (u : nat -> pytreedict vec) (m : pytreedict vec) : Prop :=
  exists ds d, (forall n, represents (u n) (ds n)) /\ represents m d /\ lconv nconv ds d.

(** A scene that moves: same names, same number and classes of objects. *)
Definition scene_conv (u : nat -> scene) (s : scene) : Prop :=
  nodes_conv (fun n => transmitters (u n)) (transmitters s) /\
  nodes_conv (fun n => receivers (u n)) (receivers s) /\
  lconv oconv (fun n => objects (u n)) (objects s).

(** The accumulated value of a pair of nodes. *)
Definition vconv (u : nat -> string * string * xreal) (v : string * string * xreal) : Prop :=
  (forall n, fst (u n) = fst v) /\ xconv (fun n => snd (u n)) (snd v).

(** A path function that is continuous, with finite values. *)
Definition continuous_fun (f : pathfun) : Prop :=
  forall txs tx rxs rx ps p oss os, pconv txs tx -> pconv rxs rx -> path_conv ps p -> lconv oconv oss os ->
  xconv (fun n => f (txs n) (rxs n) (ps n) (oss n)) (f tx rx p os).

(** No singular path in the scene: for every pair of nodes and every candidate, the
    image path exists, is in general position, and no segment of it is on the line
    of a wall that it does not touch. *)
Definition no_singular_path (s : scene) (ca : candargs) (patch : R) : Prop :=
  forall t r tx rx c, represents (transmitters s) t -> represents (receivers s) r ->
    In tx t -> In rx r -> In c (scene_candidates s ca) ->
  exists ws p, map wall_of (objects_at s c) = map Some ws /\
    ImagePath_from (snd tx) (objects_at s c) (snd rx) = Ok p /\
    (c <> [] -> general_position (snd tx) ws (xys p)) /\
    ~ grazes (xys p) (objects s) (map Z.of_nat c) patch.

(** Two float truth values at distance at most [d]. *)
Definition within (d : R) (t u : truthy) : Prop := exists a b, t = fl a /\ u = fl b /\ Rabs (a - b) <= d.
