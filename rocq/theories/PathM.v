(** Model of the path classes of differt2d/geometry.py. *)
From Coq Require Import Reals List Bool ZArith.
From Verif Require Import Base LogicM GeometryM OptimizeM.
Import ListNotations.
Open Scope R_scope.

(** differt2d/geometry.py:744-752 [Path]: points and loss.  The loss is a
    floating-point number that may be special (a diverging solver). *)
Record path := mkpath { xys : list vec; loss : xreal }.

(** differt2d/geometry.py:748-751: the default loss is 0. *)
Definition path_default (pts : list vec) : path := mkpath pts (Fin 0).

(** differt2d/geometry.py:755-809 [Path.from_tx_objects_rx]. *)
Definition Path_from (tx : vec) (objects : list object) (rx : vec) : path :=
  let pts := map (fun o => obj_p2c o [5 / 10]) objects in
  path_default (tx :: pts ++ [rx]).

(** differt2d/geometry.py:813-819 [Path.length]. *)
Definition Path_length (eps : R) (p : path) : R := path_length eps (xys p).

(** [enumerate(l)]. *)
Definition enumerate {A} (l : list A) : list (nat * A) := combine (seq 0 (length l)) l.

(** [a[i, :]] for a static index [i >= 0] (JAX clamps an out-of-range index). *)
Definition row (pts : list vec) (i : nat) : vec :=
  nth (Nat.min i (length pts - 1)) pts (0, 0).

(** differt2d/geometry.py:823-854 [Path.on_objects]. *)
Definition on_objects (g : bool) (p : path) (objects : list object)
    (approx : option bool) (k : akw) : truthy :=
  fold_left
    (fun contains '(i, obj) =>
       let param_coords := obj_c2p obj (row (xys p) (i + 1)) in
       logical_and g contains (obj_contains g obj param_coords approx k) approx)
    (enumerate objects)
    (true_value g approx).

(** differt2d/geometry.py:884 [interacting_object_indices]. *)
Definition interacting_object_indices (cand : list Z) : list Z :=
  (-1)%Z :: cand ++ [(-1)%Z].

(** differt2d/geometry.py:858-906 [Path.intersects_with_objects].  The list of
    indices raises [IndexError] when the path has more points than the candidate
    provides for and there is an object to look at. *)
Definition intersects_with_objects (g : bool) (p : path) (objects : list object)
    (cand : list Z) (patch : R) (approx : option bool) (k : akw) : res truthy :=
  let indices := interacting_object_indices cand in
  let segs := (length (xys p) - 1)%nat in
  if (Nat.ltb (length cand + 1) segs && negb (Nat.eqb (length objects) 0))%bool
  then Err IndexError
  else Ok (
    fold_left
      (fun acc i =>
         let ray0 := row (xys p) i in
         let ray1 := row (xys p) (i + 1) in
         fold_left
           (fun acc '(obj_index, obj) =>
              let ignore := (Z.eqb (Z.of_nat obj_index) (nth (i + 0) indices 0%Z)
                             || Z.eqb (Z.of_nat obj_index) (nth (i + 1) indices 0%Z))%bool in
              if ignore then acc
              else logical_or g acc (obj_intersects g obj ray0 ray1 patch approx k) approx)
           (enumerate objects) acc)
      (seq 0 segs) (false_value g approx)).

(** differt2d/geometry.py:915 default [tol]; differt2d/defaults.py:7 [DEFAULT_PATCH]. *)
Definition DEFAULT_TOL : R := 1 / 100.
Definition DEFAULT_PATCH : R := 0.

(** differt2d/geometry.py:910-963 [Path.is_valid]. *)
Definition is_valid (g : bool) (p : path) (objects : list object) (cand : list Z)
    (interacting : list object) (tol patch : R) (approx : option bool) (k : akw)
    : res truthy :=
  rbind (intersects_with_objects g p objects cand patch approx k) (fun inter =>
    rbind (logical_all g
             [ on_objects g p interacting approx k;
               logical_not g inter approx;
               less g (loss p) (Fin tol) approx k ] approx)
      (fun t => Ok (tnan_to_num t))).

(** differt2d/geometry.py:971-973 [Path.bounding_box]. *)
Definition path_bbox (p : path) : res bbox :=
  match xys p with
  | [] => Err ValueError
  | q :: qs => Ok (bbox_of_points q qs)
  end.

(** [jax.lax.dynamic_slice(a, (start,), (size,))]: the start is clamped. *)
Definition dynamic_slice (a : list R) (start size : nat) : list R :=
  firstn size (skipn (Nat.min start (length a - size)) a).

(** differt2d/geometry.py:976-985 [parametric_to_cartesian_from_slice]. *)
Definition p2c_from_slice (o : object) (params : list R) (start size : nat) : vec :=
  obj_p2c o (dynamic_slice params start size).

(** [a.at[i].set(v)]: out-of-range updates are dropped. *)
Fixpoint set_row (a : list vec) (i : nat) (v : vec) : list vec :=
  match a, i with
  | [], _ => []
  | _ :: tl, O => v :: tl
  | x :: tl, S i' => x :: set_row tl i' v
  end.

(** differt2d/geometry.py:988-1010 [parametric_to_cartesian].  [jnp.empty] is
    modelled by [(0,0)] rows, all of which are overwritten when
    [n = len(objects)]. *)
Definition parametric_to_cartesian (objects : list object) (params : list R) (n : nat)
    (tx rx : vec) : list vec :=
  let c := repeat (0, 0) (n + 2) in
  let c := set_row c 0 tx in
  let c := set_row c (n + 1) rx in
  fst (fold_left
         (fun '(c, j) '(i, obj) =>
            let size := parameters_count obj in
            (set_row c (i + 1) (p2c_from_slice obj params j size), (j + size)%nat))
         (enumerate objects) (c, O)).

(** The local function [path_loss] (differt2d/geometry.py:1077-1084, 1188-1195)
    and the identical sum in [MinPath] (1275-1280). *)
Definition path_loss (objects : list object) (pts : list vec) : R :=
  fold_left
    (fun l '(i, obj) => l + obj_evaluate obj (row pts i) (row pts (i + 1)) (row pts (i + 2)))
    (enumerate objects) 0.

(** differt2d/geometry.py:1086-1091 [forward], as scanned at 1109: the images of
    the transmitter, one per wall. *)
Fixpoint images (image : vec) (ws : list wall) : list vec :=
  match ws with
  | [] => []
  | w :: tl => let image := image_of w image in image :: images image tl
  end.

(** differt2d/geometry.py:1093-1107 [backward]. *)
Definition backward (point : vec) (x : wall * vec) : vec :=
  let '(w, image) := x in
  let p := origin w in
  let n := normal w in
  let u := vsub point image in
  let v := vsub p point in
  let un := dot u n in
  let vn := dot v n in
  let inc := if Reqb un 0 then (0, 0) else (vn * fst u / un, vn * snd u / un) in
  vadd point inc.

(** differt2d/geometry.py:1110 [jax.lax.scan(backward, init=rx, reverse=True)]:
    final carry and collected points, in the order of the walls. *)
Fixpoint backward_scan (rx : vec) (xs : list (wall * vec)) : vec * list vec :=
  match xs with
  | [] => (rx, [])
  | x :: tl =>
      let '(c, ys) := backward_scan rx tl in
      let point := backward c x in
      (point, point :: ys)
  end.

(** The points found by the image method on walls
    (differt2d/geometry.py:1109-1112). *)
Definition image_points (tx : vec) (ws : list wall) (rx : vec) : list vec :=
  tx :: snd (backward_scan rx (combine ws (images tx ws))) ++ [rx].

(** [obj.image_of], [obj.normal]: only walls (and RIS) have them. *)
Definition as_wall (o : object) : option wall :=
  match o with
  | OWall w => Some w
  | ORIS w _ => Some w
  | OVertex _ => None
  end.

Fixpoint as_walls (os : list object) : option (list wall) :=
  match os with
  | [] => Some []
  | o :: tl =>
      match as_wall o, as_walls tl with
      | Some w, Some ws => Some (w :: ws)
      | _, _ => None
      end
  end.

(** differt2d/geometry.py:1019-1114 [ImagePath.from_tx_objects_rx].
    [stack_leaves] (1075) rejects lists of mixed classes; scanning the stacked
    walls visits them one by one ([unstack_stack] justifies using the list
    itself); vertices have no [image_of]. *)
Definition ImagePath_from (tx : vec) (objects : list object) (rx : vec) : res path :=
  match objects with
  | [] => Ok (mkpath [tx; rx] (Fin 0))
  | _ =>
      rbind (stack_leaves objects) (fun _ =>
        match as_walls objects with
        | None => Err AttributeError
        | Some ws =>
            let pts := image_points tx ws rx in
            Ok (mkpath pts (Fin (path_loss objects pts)))
        end)
  end.

(** Keyword arguments of the solver-based constructors: everything that
    [minimize_many_random_uniform] receives.  [sv_grad] gives the gradient of an
    objective; [many] defaults to 1 (differt2d/geometry.py:1197, 1282). *)
Record solver := mksolver {
  sv_grad : (list R -> R) -> list R -> list R;
  sv_opt : optimizer;
  sv_steps : nat;
  sv_many : nat }.

(** [sum(obj.parameters_count() for obj in objects)]. *)
Definition n_unknowns (objects : list object) : nat :=
  fold_left (fun a o => (a + parameters_count o)%nat) objects O.

(** differt2d/geometry.py:1180-1184 [loss_fun] of [FermatPath]. *)
Definition fermat_objective (eps : R) (objects : list object) (tx rx : vec)
    (theta : list R) : R :=
  path_length eps (parametric_to_cartesian objects theta (length objects) tx rx).

(** differt2d/geometry.py:1274-1280 [loss_fun] of [MinPath]. *)
Definition min_objective (objects : list object) (tx rx : vec) (theta : list R) : R :=
  path_loss objects (parametric_to_cartesian objects theta (length objects) tx rx).

(** differt2d/geometry.py:1122-1204 [FermatPath.from_tx_objects_rx]. *)
Definition FermatPath_from (eps : R) (s : solver) (P : prng) (key : key_t P)
    (tx : vec) (objects : list object) (rx : vec) : res path :=
  match objects with
  | [] => Ok (mkpath [tx; rx] (Fin 0))
  | _ =>
      let f := fermat_objective eps objects tx rx in
      rbind (minimize_many_random_uniform P f (sv_grad s f) (sv_opt s)
               (sv_steps s) key (n_unknowns objects) (sv_many s))
        (fun '(theta, _) =>
           let pts := parametric_to_cartesian objects theta (length objects) tx rx in
           Ok (mkpath pts (Fin (path_loss objects pts))))
  end.

(** differt2d/geometry.py:1212-1288 [MinPath.from_tx_objects_rx]. *)
Definition MinPath_from (s : solver) (P : prng) (key : key_t P)
    (tx : vec) (objects : list object) (rx : vec) : res path :=
  match objects with
  | [] => Ok (mkpath [tx; rx] (Fin 0))
  | _ =>
      let f := min_objective objects tx rx in
      rbind (minimize_many_random_uniform P f (sv_grad s f) (sv_opt s)
               (sv_steps s) key (n_unknowns objects) (sv_many s))
        (fun '(theta, l) =>
           let pts := parametric_to_cartesian objects theta (length objects) tx rx in
           Ok (mkpath pts (Fin l)))
  end.

(** The path classes accepted as [path_cls] (differt2d/scene.py:1158), with the
    keyword arguments of the solver-based ones ([path_cls_kwargs]).  User-defined
    subclasses are not modelled. *)
Inductive path_cls :=
| ClsPath
| ClsImage
| ClsFermat (eps : R) (s : solver)
| ClsMin (s : solver).

(** [path_cls.from_tx_objects_rx(tx, objects, rx, key=key, **path_cls_kwargs)].
    Drawing random numbers with [key=None] raises [TypeError]; with no object the
    key is not used. *)
Definition from_tx_objects_rx (P : prng) (c : path_cls) (key : option (key_t P))
    (tx : vec) (objects : list object) (rx : vec) : res path :=
  match c with
  | ClsPath => Ok (Path_from tx objects rx)
  | ClsImage => ImagePath_from tx objects rx
  | ClsFermat eps s =>
      match key, objects with
      | Some k, _ => FermatPath_from eps s P k tx objects rx
      | None, [] => Ok (mkpath [tx; rx] (Fin 0))
      | None, _ => Err TypeError
      end
  | ClsMin s =>
      match key, objects with
      | Some k, _ => MinPath_from s P k tx objects rx
      | None, [] => Ok (mkpath [tx; rx] (Fin 0))
      | None, _ => Err TypeError
      end
  end.
