(** Vocabulary of the statements about moving a whole scene. *)
From Coq Require Import Reals List Bool ZArith String.
From Verif Require Import Base LogicM GeometryM SpecGeometry OptimizeM PathM CandidatesM SceneM SpecScene SpecRun.
Import ListNotations.
Open Scope R_scope.

(** A map of the plane that preserves distances; one that moreover preserves the
    orientation of triangles (translations and rotations). *)
Definition isometry (f : vec -> vec) : Prop := forall p q, dist (f p) (f q) = dist p q.
Definition orientation (a b c : vec) : R :=
  (fst b - fst a) * (snd c - snd a) - (snd b - snd a) * (fst c - fst a).
Definition direct (f : vec -> vec) : Prop :=
  isometry f /\ forall a b c, orientation (f a) (f b) (f c) = orientation a b c.

(** Moving a wall, an object, the points of a path, a scene. *)
Definition move_wall (f : vec -> vec) (w : wall) : wall := mkwall (f (w_origin w)) (f (w_dest w)).
Definition move_object (f : vec -> vec) (o : object) : object :=
  match o with
  | OWall w => OWall (move_wall f w)
  | ORIS w phi => ORIS (move_wall f w) phi
  | OVertex q => OVertex (f q)
  end.
Definition move_path (f : vec -> vec) (p : path) : path := mkpath (map f (xys p)) (loss p).
Definition move_nodes (f : vec -> vec) (d : pytreedict vec) : pytreedict vec :=
  mkpd (pd_keys d) (map f (pd_values d)).
Definition move_scene (f : vec -> vec) (s : scene) : scene :=
  mkscene (move_nodes f (transmitters s)) (move_nodes f (receivers s)) (map (move_object f) (objects s)).
Definition move_item (f : vec -> vec) (it : pathitem) : pathitem :=
  mkitem (it_tx it) (it_rx it) (it_valid it) (move_path f (it_path it)) (it_cand it).

(** The motion preserves what the objects look like: a mirrored RIS is another
    surface, since its angle is oriented. *)
Definition suits (f : vec -> vec) (os : list object) : Prop :=
  isometry f /\ (direct f \/ forall o, In o os -> forall w phi, o <> ORIS w phi).

(** The computed length adds [eps] to each coordinate, which only translations
    leave invariant when [eps <> 0]. *)
Definition keeps_length (eps : R) (f : vec -> vec) : Prop := eps = 0 \/ exists v, forall q, f q = vadd v q.
Definition steady (cls : path_cls) (f : vec -> vec) : Prop :=
  match cls with ClsFermat eps _ => keeps_length eps f | _ => True end.

(** Results of calls, with the value changed by [h]. *)
Definition same_result {A B} (h : A -> B) (x : res A) (y : res B) : Prop :=
  match x, y with Ok a, Ok b => b = h a | Err e, Err e' => e = e' | _, _ => False end.

(** The same arguments selecting candidates, the filter of the second one accepting
    a moved object when that of the first one accepts the object. *)
Definition same_selection (f : vec -> vec) (s : scene) (ca ca' : candargs) : Prop :=
  ca_min ca' = ca_min ca /\ ca_max ca' = ca_max ca /\ ca_order ca' = ca_order ca /\
  match ca_filter ca, ca_filter ca' with
  | None, None => True
  | Some keep, Some keep' => forall o, In o (objects s) -> keep' (move_object f o) = keep o
  | _, _ => False
  end.

(** A map of the plane that multiplies all distances by [k]; one that moreover keeps
    the orientation of triangles. *)
Definition similarity (k : R) (f : vec -> vec) : Prop := 0 < k /\ forall p q, dist (f p) (f q) = k * dist p q.
Definition direct_similarity (k : R) (f : vec -> vec) : Prop :=
  similarity k f /\ forall a b c, orientation (f a) (f b) (f c) = k * k * orientation a b c.
Definition suits_scaled (k : R) (f : vec -> vec) (os : list object) : Prop :=
  similarity k f /\ (direct_similarity k f \/ forall o, In o os -> forall w phi, o <> ORIS w phi).
(** The classes whose paths do not depend on the unit of length: all but the one that
    minimises a length by steps of a given size. *)
Definition unitless (cls : path_cls) : Prop := match cls with ClsFermat _ _ => False | _ => True end.
