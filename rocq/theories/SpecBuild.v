(** Vocabulary of the statements about the scene constructors. *)
From Coq Require Import Reals List Bool ZArith String.
From Verif Require Import Base LogicM GeometryM SpecGeometry OptimizeM PathM CandidatesM SceneM SpecScene BuildM.
Import ListNotations.
Open Scope R_scope.
Local Notation length := List.length.

(** [x] is a JSON object whose entry [k] is [v]; one that has no entry [k]. *)
Definition has_entry (x : json) (k : string) (v : json) : Prop :=
  exists l, x = JObj l /\ NoDup (map fst l) /\ In (k, v) l.
Definition lacks_entry (x : json) (k : string) : Prop :=
  exists l, x = JObj l /\ ~ In k (map fst l).

(** A position as GeoJSON writes it. *)
Definition position_json (p : vec) : json := JArr [JNum (fst p); JNum (snd p)].

(** A feature whose geometry is of type [t] with coordinates [cs]. *)
Definition geometry_feature (f : json) (t : string) (cs : json) : Prop :=
  exists g, has_entry f "geometry" g /\ has_entry g "type" (JStr t) /\ has_entry g "coordinates" cs.

(** A polygon, with its outer ring and its holes; a feature without geometry; a
    geometry of another type whose coordinates start with a list (all types but
    points). *)
Definition polygon (f : json) (ring : list vec) : Prop :=
  exists holes, geometry_feature f "Polygon" (JArr (JArr (map position_json ring) :: holes)).
Definition no_geometry (f : json) : Prop :=
  lacks_entry f "geometry" \/ has_entry f "geometry" JNull.
Definition other_shape (f : json) : Prop :=
  exists t l rest, t <> "Polygon"%string /\ geometry_feature f t (JArr (JArr l :: rest)).

(** The outer ring that a feature brings to the scene, if any. *)
Inductive brings : json -> list vec -> Prop :=
| brings_polygon f ring : polygon f ring -> brings f ring
| brings_nothing f : no_geometry f -> brings f []
| brings_other f : other_shape f -> brings f [].

(** [walls] joins consecutive positions of the ring, cyclically: the wall number
    [i] goes from the position before number [i] to number [i]. *)
Definition cyclic_walls (ring : list vec) (walls : list object) : Prop :=
  length walls = length ring /\
  forall i, (i < length ring)%nat ->
    nth_error walls i = Some (OWall (mkwall
      (nth (match i with O => length ring - 1 | S j => j end) ring (0, 0)) (nth i ring (0, 0)))).

(** Both ends of an object. *)
Definition ends_of (o : object) : list vec := defining_points o.

(** Each wall starts where the previous one ends, and the first where the last
    one ends. *)
Definition closed_outline (ws : list wall) : Prop :=
  forall i, (i < length ws)%nat ->
    w_dest (nth i ws (mkwall (0,0) (0,0))) =
    w_origin (nth (if Nat.eqb (S i) (length ws) then O else S i) ws (mkwall (0,0) (0,0))).

(** The corners, in order, of an axis-parallel square. *)
Definition square_corners (x0 y0 x1 y1 : R) : list vec := [(x0, y0); (x1, y0); (x1, y1); (x0, y1)].

Definition in_unit (q : vec) : Prop := 0 <= fst q <= 1 /\ 0 <= snd q <= 1.

(** A polygon whose outer ring consists of positions of [k] numbers each (GeoJSON
    allows an altitude as a third number). *)
Definition polygon_of (k : nat) (f : json) : Prop :=
  exists p ring holes, geometry_feature f "Polygon" (JArr (JArr (map (fun xs => JArr (map JNum xs)) (p :: ring)) :: holes)) /\
    Forall (fun xs => length xs = k) (p :: ring).

(** [x] is neither a JSON object nor anything that Python can index: a number, a boolean or
    null. *)
Definition is_object (x : json) : Prop := exists l, x = JObj l.
Definition is_scalar (x : json) : Prop := x = JNull \/ (exists b, x = JBool b) \/ exists r, x = JNum r.
