(** Model of differt2d/geometry.py (objects and helpers) and of the
    [Plottable] mixin of differt2d/abc.py. *)
From Coq Require Import Reals List Bool ZArith.
From Verif Require Import Base LogicM.
Import ListNotations.
Open Scope R_scope.

(** A 2D point or vector: a [Float[Array, "2"]]. *)
Definition vec : Type := (R * R)%type.

Definition vadd (u v : vec) : vec := (fst u + fst v, snd u + snd v).
Definition vsub (u v : vec) : vec := (fst u - fst v, snd u - snd v).
Definition vscale (k : R) (u : vec) : vec := (k * fst u, k * snd u).
Definition vopp (u : vec) : vec := (- fst u, - snd u).

(** [jnp.dot] of two 2-vectors. *)
Definition dot (u v : vec) : R := fst u * fst v + snd u * snd v.

(** [jnp.cross] of two 2-vectors (a scalar). *)
Definition cross (u v : vec) : R := fst u * snd v - snd u * fst v.

(** [jnp.linalg.norm] of a 2-vector. *)
Definition norm (u : vec) : R := sqrt (dot u u).

(** differt2d/geometry.py:161-171 the local function [test] of
    [segments_intersect]. *)
Definition seg_test (g : bool) (num den tol : R) (approx : option bool) (k : akw) : truthy :=
  let den_is_zero := Reqb den 0 in
  let den' := if den_is_zero then 1 else den in
  let t := if den_is_zero then PInf else Fin (num / den') in
  logical_and g
    (greater_equal g t (Fin (- tol)) approx k)
    (less_equal g t (Fin (1 + tol)) approx k)
    approx.

(** differt2d/geometry.py:84-173 [segments_intersect]. *)
Definition segments_intersect (g : bool) (P1 P2 P3 P4 : vec) (tol : R)
    (approx : option bool) (k : akw) : truthy :=
  let A := vsub P2 P1 in
  let B := vsub P3 P4 in
  let C := vsub P1 P3 in
  let a := snd B * fst C - fst B * snd C in
  let b := fst A * snd C - snd A * fst C in
  let d := snd A * fst B - fst A * snd B in
  logical_and g (seg_test g a d tol approx k) (seg_test g b d tol approx k) approx.

(** differt2d/geometry.py:89 default [tol] of [segments_intersect]. *)
Definition SEG_TOL : R := 5 / 1000.

(** [jnp.diff(points, axis=0)]. *)
Fixpoint diffs (pts : list vec) : list vec :=
  match pts with
  | p :: ((q :: _) as tl) => vsub q p :: diffs tl
  | _ => []
  end.

(** differt2d/geometry.py:178-203 [path_length]; [eps] stands for
    [jnp.finfo(points.dtype).eps]. *)
Definition path_length (eps : R) (pts : list vec) : R :=
  let vectors := diffs pts in
  let vectors := map (fun v => (fst v + eps, snd v + eps)) vectors in
  let lengths := map norm vectors in
  fold_right Rplus 0 lengths.

(** differt2d/geometry.py:208-230 [normalize]. *)
Definition normalize (v : vec) : vec * R :=
  let length := norm v in
  let length := if Reqb length 0 then 1 else length in
  ((fst v / length, snd v / length), length).

(** [jnp.argmin] of a non-empty array: index of the first minimum.  The
    accumulator is (current index, best index, best value). *)
Fixpoint argmin_aux (xs : list R) (i best : nat) (bv : R) : nat :=
  match xs with
  | [] => best
  | x :: tl => if Rltb x bv then argmin_aux tl (S i) i x
               else argmin_aux tl (S i) best bv
  end.
Definition argmin (xs : list R) : res nat :=
  match xs with
  | [] => Err ValueError
  | x :: tl => Ok (argmin_aux tl 1%nat 0%nat x)
  end.

(** differt2d/geometry.py:235-267 [closest_point]. *)
Definition closest_point (pts : list vec) (target : vec) : res (nat * R) :=
  let distances := map (fun p => norm (vsub p target)) pts in
  rbind (argmin distances) (fun i => Ok (i, nth i distances 0)).

(** differt2d/geometry.py:435-457 [Ray] and 543 [Wall]: the two rows of [xys]. *)
Record wall := mkwall { w_origin : vec; w_dest : vec }.

(** differt2d/geometry.py:461-467, 471-477, 481-487: [origin], [dest], [t]. *)
Definition origin (w : wall) : vec := w_origin w.
Definition dest (w : wall) : vec := w_dest w.
Definition wall_t (w : wall) : vec := vsub (dest w) (origin w).

(** Rows of a 2x2 matrix product [M @ X], [X] given by its rows. *)
Definition matmul_rows (m00 m01 m10 m11 : R) (r0 r1 : vec) : vec * vec :=
  (vadd (vscale m00 r0) (vscale m01 r1), vadd (vscale m10 r0) (vscale m11 r1)).

(** differt2d/geometry.py:491-528 [Ray.rotate].  [around = None] means the
    origin; a [Point] is used through its coordinates. *)
Definition rotate (w : wall) (angle : R) (around : option vec) : wall :=
  let center := match around with None => (0, 0) | Some c => c end in
  let c := cos angle in
  let s := sin angle in
  let x0 := vsub (w_origin w) center in
  let x1 := vsub (w_dest w) center in
  let '(y0, y1) := matmul_rows (c) (- s) (s) (c) x0 x1 in
  mkwall (vadd y0 center) (vadd y1 center).

(** differt2d/geometry.py:563-573 [Wall.normal]. *)
Definition normal (w : wall) : vec :=
  let t := wall_t w in
  fst (normalize (snd t, - fst t)).

(** differt2d/geometry.py:583-587 [Wall.parametric_to_cartesian] (one parameter). *)
Definition wall_p2c (w : wall) (s : R) : vec :=
  vadd (origin w) (vscale s (wall_t w)).

(** differt2d/geometry.py:591-598 [Wall.cartesian_to_parametric]. *)
Definition wall_c2p (w : wall) (p : vec) : R :=
  let other := vsub p (origin w) in
  let squared_length := dot (wall_t w) (wall_t w) in
  let squared_length := if Reqb squared_length 0 then 1 else squared_length in
  dot (wall_t w) other / squared_length.

(** differt2d/geometry.py:602-621 [Wall.contains_parametric]. *)
Definition wall_contains (g : bool) (s : R) (approx : option bool) (k : akw) : truthy :=
  let ge := greater_equal g (Fin s) (Fin 0) approx k in
  let le := less_equal g (Fin s) (Fin 1) approx k in
  logical_and g ge le approx.

(** differt2d/geometry.py:625-639 [Wall.intersects_cartesian]; the ray is given
    by its two rows. *)
Definition wall_intersects (g : bool) (w : wall) (ray0 ray1 : vec) (patch : R)
    (approx : option bool) (k : akw) : truthy :=
  segments_intersect g
    (vsub (origin w) (vscale patch (wall_t w)))
    (vadd (dest w) (vscale patch (wall_t w)))
    ray0 ray1 SEG_TOL approx k.

(** differt2d/geometry.py:643-650 [Wall.evaluate_cartesian]; the ray path is
    given by its three rows. *)
Definition wall_evaluate (w : wall) (a b c : vec) : R :=
  let i := vsub b a in
  let r := vsub c b in
  let n := normal w in
  let i := fst (normalize i) in
  let r := fst (normalize r) in
  let e := vsub r (vsub i (vscale (2 * dot i n) n)) in
  dot e e.

(** differt2d/geometry.py:654-670 [Wall.image_of]. *)
Definition image_of (w : wall) (p : vec) : vec :=
  let i := vsub p (origin w) in
  vsub p (vscale (2 * dot i (normal w)) (normal w)).

(** differt2d/geometry.py:700-711 [RIS.evaluate_cartesian]. *)
Definition ris_evaluate (w : wall) (phi : R) (a b c : vec) : R :=
  let r := vsub c b in
  let n := normal w in
  let r := fst (normalize r) in
  let sin_a := cross (vopp r) n in
  let cos_a := dot (vopp r) n in
  let sin_p := sin phi in
  let cos_p := cos phi in
  (sin_a - sin_p) ^ 2 + (cos_a - cos_p) ^ 2.

(** The three concrete [Object] classes of differt2d/geometry.py: [Wall] (543),
    [RIS] (684, a wall with [phi]) and [Vertex] (353).  User-defined subclasses
    are not modelled. *)
Inductive object :=
| OWall (w : wall)
| ORIS (w : wall) (phi : R)
| OVertex (xy : vec).

(** differt2d/geometry.py:674-680 [Wall.get_vertices]. *)
Definition get_vertices (w : wall) : object * object :=
  (OVertex (w_origin w), OVertex (w_dest w)).

(** [parameters_count]: differt2d/geometry.py:376-377 (Vertex), 578-579 (Wall, RIS). *)
Definition parameters_count (o : object) : nat :=
  match o with OWall _ => 1 | ORIS _ _ => 1 | OVertex _ => 0 end.

(** [parametric_to_cartesian]: differt2d/geometry.py:381-385 (Vertex), 583-587
    (Wall).  A wall uses its single parameter (arrays of another size are not
    modelled: the first entry is taken). *)
Definition obj_p2c (o : object) (ps : list R) : vec :=
  match o with
  | OWall w => wall_p2c w (nth 0 ps 0)
  | ORIS w _ => wall_p2c w (nth 0 ps 0)
  | OVertex xy => xy
  end.

(** [cartesian_to_parametric]: differt2d/geometry.py:389-393, 591-598. *)
Definition obj_c2p (o : object) (p : vec) : list R :=
  match o with
  | OWall w => [wall_c2p w p]
  | ORIS w _ => [wall_c2p w p]
  | OVertex _ => []
  end.

(** [contains_parametric]: differt2d/geometry.py:397-403, 602-621. *)
Definition obj_contains (g : bool) (o : object) (ps : list R) (approx : option bool)
    (k : akw) : truthy :=
  match o with
  | OWall _ => wall_contains g (nth 0 ps 0) approx k
  | ORIS _ _ => wall_contains g (nth 0 ps 0) approx k
  | OVertex _ => true_value g approx
  end.

(** [intersects_cartesian]: differt2d/geometry.py:407-414, 625-639. *)
Definition obj_intersects (g : bool) (o : object) (ray0 ray1 : vec) (patch : R)
    (approx : option bool) (k : akw) : truthy :=
  match o with
  | OWall w => wall_intersects g w ray0 ray1 patch approx k
  | ORIS w _ => wall_intersects g w ray0 ray1 patch approx k
  | OVertex _ => false_value g approx
  end.

(** [evaluate_cartesian]: differt2d/geometry.py:418-419, 643-650, 700-711. *)
Definition obj_evaluate (o : object) (a b c : vec) : R :=
  match o with
  | OWall w => wall_evaluate w a b c
  | ORIS w phi => ris_evaluate w phi a b c
  | OVertex _ => 0
  end.

(** differt2d/abc.py:157-179 [Interactable.sample]: [draw n] stands for
    [jax.random.uniform(key, shape=(n,))]. *)
Definition sample (o : object) (draw : nat -> list R) : vec :=
  obj_p2c o (draw (parameters_count o)).

(** Concrete class of an object, for [type(obj) is type(objects[0])] and for the
    PyTree structure. *)
Inductive kind := KWall | KRIS | KVertex.
Definition kind_of (o : object) : kind :=
  match o with OWall _ => KWall | ORIS _ _ => KRIS | OVertex _ => KVertex end.
Definition kind_eqb (a b : kind) : bool :=
  match a, b with
  | KWall, KWall => true | KRIS, KRIS => true | KVertex, KVertex => true
  | _, _ => false
  end.

(** Array leaves of the PyTree of an object: [xys] (2x2), [xy] (2) or [phi] (scalar). *)
Inductive leaf := LMat (r0 r1 : vec) | LVec (v : vec) | LNum (x : R).

(** [jax.tree_util.tree_flatten] of an object. *)
Definition leaves_of (o : object) : list leaf :=
  match o with
  | OWall w => [LMat (w_origin w) (w_dest w)]
  | ORIS w phi => [LMat (w_origin w) (w_dest w); LNum phi]
  | OVertex xy => [LVec xy]
  end.

(** [treedef.unflatten]; [None] when the leaves do not fit the structure. *)
Definition unflatten (kd : kind) (ls : list leaf) : option object :=
  match kd, ls with
  | KWall, [LMat a b] => Some (OWall (mkwall a b))
  | KRIS, [LMat a b; LNum x] => Some (ORIS (mkwall a b) x)
  | KVertex, [LVec v] => Some (OVertex v)
  | _, _ => None
  end.

(** A stacked PyTree: its structure and, for each leaf position, the list of
    entries along the new leading axis. *)
Record stacked := mkstacked { st_kind : kind; st_leaves : list (list leaf) }.

(** Transposition used by [tree_map(lambda *xs: stack(xs), *pytrees)] and by
    [zip( *leaves)]: [zip_rows n rows] is the list of the [n] columns. *)
Fixpoint columns (n : nat) (rows : list (list leaf)) : list (list leaf) :=
  match n with
  | O => []
  | S n' => map (fun r => hd (LNum 0) r) rows :: columns n' (map (@tl leaf) rows)
  end.

(** differt2d/geometry.py:43-64 [stack_leaves] with [axis=0], [is_leaf=None].
    Different structures raise [ValueError]; no PyTree at all raises
    [TypeError]. *)
Definition stack_leaves (os : list object) : res stacked :=
  match os with
  | [] => Err TypeError
  | o :: _ =>
      if forallb (fun o' => kind_eqb (kind_of o') (kind_of o)) os
      then Ok (mkstacked (kind_of o) (columns (length (leaves_of o)) (map leaves_of os)))
      else Err ValueError
  end.

(** Length of the shortest list, the number of tuples of [zip( *lists)]. *)
Definition zip_len (ls : list (list leaf)) : nat :=
  match ls with
  | [] => O
  | l :: tl => fold_left (fun m r => Nat.min m (length r)) tl (length l)
  end.

(** differt2d/geometry.py:68-79 [unstack_leaves]. *)
Definition unstack_leaves (s : stacked) : list (option object) :=
  map (unflatten (st_kind s)) (columns (zip_len (st_leaves s)) (st_leaves s)).

(** [[min_x, min_y], [max_x, max_y]]. *)
Definition bbox : Type := (vec * vec)%type.

(** [jnp.min]/[jnp.max] along an axis of a non-empty array. *)
Definition list_min (x : R) (xs : list R) : R := fold_left Rmin xs x.
Definition list_max (x : R) (xs : list R) : R := fold_left Rmax xs x.

(** [vstack([min(xys, axis=0), max(xys, axis=0)])] for a non-empty array. *)
Definition bbox_of_points (p : vec) (ps : list vec) : bbox :=
  ((list_min (fst p) (map fst ps), list_min (snd p) (map snd ps)),
   (list_max (fst p) (map fst ps), list_max (snd p) (map snd ps))).

(** differt2d/geometry.py:348-349 [Point.bounding_box]. *)
Definition point_bbox (xy : vec) : bbox := (xy, xy).

(** differt2d/geometry.py:538-539 [Ray.bounding_box]. *)
Definition wall_bbox (w : wall) : bbox := bbox_of_points (w_origin w) [w_dest w].

Definition obj_bbox (o : object) : bbox :=
  match o with
  | OWall w => wall_bbox w
  | ORIS w _ => wall_bbox w
  | OVertex xy => point_bbox xy
  end.

(** differt2d/abc.py:26 [Loc]. *)
Inductive loc := N | E | S_ | W | C_ | NE | NW | SE | SW.

(** differt2d/abc.py:83-95 [Plottable.center]. *)
Definition center (b : bbox) : vec :=
  vscale (5 / 10) (vadd (fst b) (snd b)).

(** differt2d/abc.py:97-126 [Plottable.get_location]. *)
Definition get_location (b : bbox) (l : loc) : vec :=
  let '((xmin, ymin), (xmax, ymax)) := b in
  let xavg := (5 / 10) * (xmin + xmax) in
  let yavg := (5 / 10) * (ymin + ymax) in
  match l with
  | N => (xavg, ymax)
  | E => (xmax, yavg)
  | S_ => (xavg, ymin)
  | W => (xmin, yavg)
  | C_ => (xavg, yavg)
  | NE => (xmax, ymax)
  | NW => (xmin, ymax)
  | SE => (xmax, ymin)
  | SW => (xmin, ymin)
  end.

(** [jnp.linspace(a, b, m)]. *)
Definition linspace (a b : R) (m : nat) : list R :=
  match m with
  | O => []
  | S O => [a]
  | S (S _) =>
      map (fun i => a + INR i * ((b - a) / INR (m - 1))) (seq 0 m)
  end.

(** [jnp.meshgrid(x, y)] (default indexing ['xy']): rows follow [y]. *)
Definition meshgrid (x y : list R) : list (list R) * list (list R) :=
  (map (fun _ => x) y, map (fun yi => map (fun _ => yi) x) y).

(** differt2d/abc.py:57-81 [Plottable.grid]. *)
Definition grid (b : bbox) (m : nat) (n : option nat) : list (list R) * list (list R) :=
  let n := match n with None => m | Some n => n end in
  let x := linspace (fst (fst b)) (fst (snd b)) m in
  let y := linspace (snd (fst b)) (snd (snd b)) n in
  meshgrid x y.
(** differt2d/abc.py:61: default [m]. *)
Definition DEFAULT_GRID : nat := 50.
