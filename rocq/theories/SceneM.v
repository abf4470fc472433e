(** Model of differt2d/scene.py: [PyTreeDict], [Scene] and its methods. *)
From Coq Require Import Reals List Bool ZArith String.
From Verif Require Import Base LogicM GeometryM OptimizeM PathM CandidatesM.
Import ListNotations.
Open Scope R_scope.
Local Notation length := List.length.

(** differt2d/scene.py:72-84 [PyTreeDict]: keys and values. *)
Record pytreedict (V : Type) := mkpd { pd_keys : list string; pd_values : list V }.
Arguments mkpd {V} _ _.
Arguments pd_keys {V} _.
Arguments pd_values {V} _.

(** differt2d/scene.py:85-94 construction with [__check_init__]. *)
Definition pd_make {V} (keys : list string) (values : list V) : res (pytreedict V) :=
  if Nat.eqb (length keys) (length values) then Ok (mkpd keys values) else Err ValueError.

(** A Python [dict] (insertion-ordered): pairs with pairwise distinct keys. *)
Definition dict (V : Type) := list (string * V).

(** differt2d/scene.py:96-107 [PyTreeDict.from_mapping] of a dict. *)
Definition pd_from_mapping {V} (d : dict V) : pytreedict V :=
  mkpd (map fst d) (map snd d).

(** [tuple.index(key)]: index of the first occurrence. *)
Fixpoint index_of (key : string) (keys : list string) : option nat :=
  match keys with
  | [] => None
  | k :: tl => if String.eqb k key then Some O
               else match index_of key tl with Some i => Some (S i) | None => None end
  end.

(** differt2d/scene.py:109-114 [PyTreeDict.__getitem__].  The values have the
    length of the keys by construction; a missing value would be an [IndexError]. *)
Definition pd_get {V} (d : pytreedict V) (key : string) : res V :=
  match index_of key (pd_keys d) with
  | None => Err KeyError
  | Some i => match nth_error (pd_values d) i with Some v => Ok v | None => Err IndexError end
  end.

(** differt2d/scene.py:116-120 [__iter__], [__len__]. *)
Definition pd_iter {V} (d : pytreedict V) : list string := pd_keys d.
Definition pd_len {V} (d : pytreedict V) : nat := length (pd_keys d).

(** [Mapping.__contains__] (collections.abc): tries [self[key]], catching
    [KeyError]. *)
Definition pd_contains {V} (d : pytreedict V) (key : string) : bool :=
  match pd_get d key with Err KeyError => false | _ => true end.

(** [Mapping.items()] (collections.abc): [(key, self[key])] for each key. *)
Definition pd_items_res {V} (d : pytreedict V) : res (list (string * V)) :=
  rseq (map (fun k => rbind (pd_get d k) (fun v => Ok (k, v))) (pd_keys d)).

(** [items()] of a well-formed mapping (no error is possible, [pd_items_ok]). *)
Definition pd_items {V} (d : pytreedict V) : list (string * V) :=
  match pd_items_res d with Ok l => l | Err _ => [] end.

(** [Mapping.values()]. *)
Definition pd_vals {V} (d : pytreedict V) : list V := map snd (pd_items d).

(** [d[k] = v] on a Python dict: replaces in place or appends. *)
Fixpoint dict_set {V} (d : dict V) (k : string) (v : V) : dict V :=
  match d with
  | [] => [(k, v)]
  | (k', v') :: tl => if String.eqb k' k then (k', v) :: tl else (k', v') :: dict_set tl k v
  end.

(** [{**a, **b}]. *)
Definition dict_union {V} (a b : dict V) : dict V :=
  fold_left (fun d '(k, v) => dict_set d k v) b a.

(** [d.get(k, default)]. *)
Fixpoint dict_get {V} (d : dict V) (k : string) : option V :=
  match d with
  | [] => None
  | (k', v) :: tl => if String.eqb k' k then Some v else dict_get tl k
  end.

(** differt2d/scene.py:178-193 [Scene].  A node ([Point]) is its coordinates. *)
Record scene := mkscene {
  transmitters : pytreedict vec;
  receivers : pytreedict vec;
  objects : list object }.

(** [Scene(transmitters=t, receivers=r, objects=o)]. *)
Definition Scene_make (t r : dict vec) (o : list object) : scene :=
  mkscene (pd_from_mapping t) (pd_from_mapping r) o.

(** Calling a method with [**kwargs] containing the key ["self"] raises
    [TypeError]. *)
Definition kwargs_ok {V} (d : dict V) : bool :=
  negb (existsb (fun kv => String.eqb (fst kv) "self") d).

(** differt2d/scene.py:195-207 [with_transmitters]. *)
Definition with_transmitters (s : scene) (d : dict vec) : res scene :=
  if kwargs_ok d then Ok (mkscene (pd_from_mapping d) (receivers s) (objects s))
  else Err TypeError.

(** differt2d/scene.py:209-221 [with_receivers]. *)
Definition with_receivers (s : scene) (d : dict vec) : res scene :=
  if kwargs_ok d then Ok (mkscene (transmitters s) (pd_from_mapping d) (objects s))
  else Err TypeError.

(** differt2d/scene.py:223-231 [with_objects]. *)
Definition with_objects (s : scene) (os : list object) : scene :=
  mkscene (transmitters s) (receivers s) os.

(** differt2d/scene.py:233-285 [filter_objects]. *)
Definition filter_objects (s : scene) (spec : object -> bool) : scene :=
  mkscene (transmitters s) (receivers s) (filter spec (objects s)).

(** differt2d/scene.py:287-302 [update_transmitters]. *)
Definition update_transmitters (s : scene) (d : dict vec) : res scene :=
  if kwargs_ok d then
    Ok (mkscene (pd_from_mapping (dict_union (pd_items (transmitters s)) d))
          (receivers s) (objects s))
  else Err TypeError.

(** differt2d/scene.py:304-319 [update_receivers]. *)
Definition update_receivers (s : scene) (d : dict vec) : res scene :=
  if kwargs_ok d then
    Ok (mkscene (transmitters s)
          (pd_from_mapping (dict_union (pd_items (receivers s)) d)) (objects s))
  else Err TypeError.

(** differt2d/scene.py:321-329 [add_objects]. *)
Definition add_objects (s : scene) (os : list object) : scene :=
  with_objects s (objects s ++ os).

(** The renaming loop, differt2d/scene.py:370-373 and 386-389. *)
Definition rename_items (items : dict vec) (names : dict string) : dict vec :=
  fold_left
    (fun d '(name, point) =>
       let name := match dict_get names name with Some n => n | None => name end in
       dict_set d name point)
    items [].

(** differt2d/scene.py:361-375 [rename_transmitters]. *)
Definition rename_transmitters (s : scene) (names : dict string) : res scene :=
  if kwargs_ok names then with_transmitters s (rename_items (pd_items (transmitters s)) names)
  else Err TypeError.

(** differt2d/scene.py:377-391 [rename_receivers]. *)
Definition rename_receivers (s : scene) (names : dict string) : res scene :=
  if kwargs_ok names then with_receivers s (rename_items (pd_items (receivers s)) names)
  else Err TypeError.

(** Whether all objects have the class of the first one
    ([type(obj) is type(self.objects[0])]). *)
Definition homogeneous (os : list object) : bool :=
  match os with
  | [] => true
  | o :: _ => forallb (fun o' => kind_eqb (kind_of o') (kind_of o)) os
  end.

(** differt2d/scene.py:331-345 [get_object]: [jax.lax.switch] clamps the index,
    rejects an empty list of branches and branches of different types. *)
Definition get_object (s : scene) (index : Z) : res object :=
  match objects s with
  | [] => Err ValueError
  | o :: _ =>
      if homogeneous (objects s) then
        let n := length (objects s) in
        let i := Z.to_nat (Z.max 0 (Z.min index (Z.of_nat n - 1))) in
        Ok (nth i (objects s) o)
      else Err TypeError
  end.

(** Python indexing of a tuple: negative indices count from the end. *)
Definition py_index {A} (l : list A) (i : Z) : res A :=
  let n := Z.of_nat (length l) in
  let j := if (i <? 0)%Z then (i + n)%Z else i in
  if ((0 <=? j) && (j <? n))%Z%bool then
    match nth_error l (Z.to_nat j) with Some a => Ok a | None => Err IndexError end
  else Err IndexError.

(** differt2d/scene.py:347-359 [stacked_objects]. *)
Definition stacked_objects (s : scene) : res stacked := stack_leaves (objects s).

(** differt2d/scene.py:393-411 [from_stacked_objects]; [None] stands for leaves
    that do not fit the class (impossible for the result of [stack_leaves]). *)
Definition from_stacked_objects (st : stacked) : option scene :=
  let os := unstack_leaves st in
  match fold_right (fun o acc => match o, acc with
                                 | Some o, Some l => Some (o :: l)
                                 | _, _ => None
                                 end) (Some []) os with
  | Some l => Some (Scene_make [] [] l)
  | None => None
  end.

(** differt2d/scene.py:413-426 [from_walls_array]. *)
Definition from_walls_array (walls : list (vec * vec)) : scene :=
  Scene_make [] [] (map (fun '(a, b) => OWall (mkwall a b)) walls).

(** differt2d/scene.py:1023-1036 [Scene.bounding_box]. *)
Definition scene_bbox (s : scene) : res bbox :=
  let boxes := map point_bbox (pd_vals (transmitters s))
               ++ map point_bbox (pd_vals (receivers s))
               ++ map obj_bbox (objects s) in
  match boxes with
  | [] => Err ValueError
  | b :: bs =>
      Ok ((list_min (fst (fst b)) (map (fun c => fst (fst c)) bs),
           list_min (snd (fst b)) (map (fun c => snd (fst c)) bs)),
          (list_max (fst (snd b)) (map (fun c => fst (snd c)) bs),
           list_max (snd (snd b)) (map (fun c => snd (snd c)) bs)))
  end.

(** The common body of [get_closest_transmitter] (differt2d/scene.py:1038-1053)
    and [get_closest_receiver] (1055-1070).  [jnp.vstack] of no array raises
    [ValueError]. *)
Definition closest_node (items : list (string * vec)) (coords : vec) : res (string * R) :=
  match items with
  | [] => Err ValueError
  | _ =>
      rbind (closest_point (map snd items) coords) (fun '(i_min, distance) =>
        match nth_error items i_min with
        | Some (name, _) => Ok (name, distance)
        | None => Err IndexError
        end)
  end.
Definition get_closest_transmitter (s : scene) (coords : vec) : res (string * R) :=
  closest_node (pd_items (transmitters s)) coords.
Definition get_closest_receiver (s : scene) (coords : vec) : res (string * R) :=
  closest_node (pd_items (receivers s)) coords.

(** differt2d/scene.py:1072-1087 [all_transmitter_receiver_pairs]
    ([itertools.product]). *)
Definition all_transmitter_receiver_pairs (s : scene)
  : list ((string * vec) * (string * vec)) :=
  list_prod (pd_items (transmitters s)) (pd_items (receivers s)).

(** differt2d/scene.py:1118-1126: indices of the objects rejected by the filter. *)
Definition filtered_nodes (s : scene) (keep : object -> bool) : list nat :=
  fold_left (fun nodes '(i, obj) => if keep obj then nodes else nodes ++ [i])
    (enumerate (objects s)) [].

(** Arguments selecting the candidates. *)
Record candargs := mkcandargs {
  ca_min : nat; ca_max : nat; ca_order : option nat; ca_filter : option (object -> bool) }.

(** differt2d/scene.py:1089-1134 [Scene.all_path_candidates]. *)
Definition scene_candidates (s : scene) (ca : candargs) : list (list nat) :=
  let filter_nodes := match ca_filter ca with
                      | None => None
                      | Some keep => Some (filtered_nodes s keep)
                      end in
  all_path_candidates (length (objects s)) (ca_min ca) (ca_max ca) (ca_order ca) filter_nodes.

(** differt2d/scene.py:1136-1154 [get_interacting_objects]. *)
Definition get_interacting_objects (s : scene) (cand : list Z) : res (list object) :=
  if (Nat.ltb (length (objects s)) 2 || homogeneous (objects s))%bool
  then rseq (map (get_object s) cand)
  else rseq (map (py_index (objects s)) cand).

(** Keyword arguments of [Path.is_valid] (differt2d/geometry.py:915-918). *)
Record validargs := mkvalidargs {
  va_tol : R; va_patch : R; va_approx : option bool; va_kw : akw }.

(** differt2d/scene.py:1091-1094, 1158-1163, 1231-1234: the default arguments of
    [all_path_candidates], [all_paths], [all_valid_paths], and those of
    [Path.is_valid] (differt2d/geometry.py:910-918) they pass on. *)
Definition default_cls : path_cls := ClsImage.
Definition default_ca : candargs := mkcandargs 0 1 None None.
Definition default_va : validargs := mkvalidargs DEFAULT_TOL DEFAULT_PATCH None default_akw.

(** An item of [all_paths]. *)
Record pathitem := mkitem {
  it_tx : string; it_rx : string; it_valid : truthy; it_path : path; it_cand : list Z }.

(** differt2d/scene.py:1204-1228: the body of the inner loop of [all_paths] for
    one candidate; returns the item and the new key. *)
Definition one_path (P : prng) (g : bool) (s : scene) (cls : path_cls) (va : validargs)
    (tx rx : string * vec) (cand : list Z) (key : option (key_t P))
    : res (pathitem * option (key_t P)) :=
  rbind (get_interacting_objects s cand) (fun inter =>
    let '(key, key_path) :=
      match key with
      | Some k => match rsplit P k 2 with
                  | k1 :: k2 :: _ => (Some k1, Some k2)
                  | _ => (Some k, None)
                  end
      | None => (None, None)
      end in
    rbind (from_tx_objects_rx P cls key_path (snd tx) inter (snd rx)) (fun p =>
      rbind (is_valid g p (objects s) cand inter (va_tol va) (va_patch va)
               (va_approx va) (va_kw va)) (fun v =>
        Ok (mkitem (fst tx) (fst rx) v p cand, key)))).

(** The two nested loops of [all_paths] flattened: run over the (pair, candidate)
    list, threading the key, stopping at the first exception. *)
Fixpoint run_paths (P : prng) (g : bool) (s : scene) (cls : path_cls) (va : validargs)
    (work : list (((string * vec) * (string * vec)) * list Z)) (key : option (key_t P))
    : gen pathitem :=
  match work with
  | [] => mkgen [] None
  | ((tx, rx), cand) :: tl =>
      match one_path P g s cls va tx rx cand key with
      | Err e => mkgen [] (Some e)
      | Ok (it, key') =>
          let r := run_paths P g s cls va tl key' in
          mkgen (it :: yielded r) (raised r)
      end
  end.

(** Candidates as arrays of (signed) integers. *)
Definition cands_z (s : scene) (ca : candargs) : list (list Z) :=
  map (map Z.of_nat) (scene_candidates s ca).

(** differt2d/scene.py:1156-1228 [all_paths]. *)
Definition all_paths (P : prng) (g : bool) (s : scene) (cls : path_cls) (ca : candargs)
    (va : validargs) (key : option (key_t P)) : gen pathitem :=
  run_paths P g s cls va
    (list_prod (all_transmitter_receiver_pairs s) (cands_z s ca)) key.

(** differt2d/scene.py:1230-1248 [all_valid_paths]: consumes [all_paths], calling
    [is_true] (with its default tolerance) on each item. *)
Fixpoint filter_valid (g : bool) (approx : option bool) (items : list pathitem)
    (e : option exn) : gen (string * string * path * list Z) :=
  match items with
  | [] => mkgen [] e
  | it :: tl =>
      match is_true g (it_valid it) DEFAULT_TRUTH_TOL approx with
      | Err e' => mkgen [] (Some e')
      | Ok b =>
          let r := filter_valid g approx tl e in
          if b then mkgen ((it_tx it, it_rx it, it_path it, it_cand it) :: yielded r) (raised r)
          else r
      end
  end.
Definition all_valid_paths (P : prng) (g : bool) (s : scene) (cls : path_cls)
    (ca : candargs) (va : validargs) (key : option (key_t P))
    : gen (string * string * path * list Z) :=
  let a := all_paths P g s cls ca va key in
  filter_valid g (va_approx va) (yielded a) (raised a).

(** The user function [fun(transmitter, receiver, path, interacting_objects)]
    with its extra arguments applied. *)
Definition pathfun := vec -> vec -> path -> list object -> xreal.

(** [itertools.groupby(items, key)]: maximal runs of consecutive items with the
    same (transmitter, receiver) names. *)
Definition same_pair (a b : pathitem) : bool :=
  (String.eqb (it_tx a) (it_tx b) && String.eqb (it_rx a) (it_rx b))%bool.
Fixpoint group_runs (items : list pathitem) : list (list pathitem) :=
  match items with
  | [] => []
  | it :: tl =>
      match group_runs tl with
      | (it' :: gr) :: grs => if same_pair it it' then (it :: it' :: gr) :: grs
                              else [it] :: (it' :: gr) :: grs
      | other => [it] :: other
      end
  end.

(** differt2d/scene.py:1311-1323: the body of [results] for one group. *)
Definition acc_group (s : scene) (f : pathfun) (gr : list pathitem)
    : res (string * string * xreal) :=
  match gr with
  | [] => Err AssertionError
  | it :: _ =>
      rbind (pd_get (transmitters s) (it_tx it)) (fun tx =>
        rbind (pd_get (receivers s) (it_rx it)) (fun rx =>
          rbind
            (fold_left
               (fun acc it =>
                  rbind acc (fun acc =>
                    rbind (get_interacting_objects s (it_cand it)) (fun inter =>
                      Ok (xadd acc (xmul (to_f (it_valid it)) (f tx rx (it_path it) inter))))))
               gr (Ok (Fin 0)))
            (fun acc => Ok (it_tx it, it_rx it, acc))))
  end.

(** Runs the groups until the first exception. *)
Fixpoint acc_groups (s : scene) (f : pathfun) (grs : list (list pathitem)) (e : option exn)
    : gen (string * string * xreal) :=
  match grs with
  | [] => mkgen [] e
  | gr :: tl =>
      match acc_group s f gr with
      | Err e' => mkgen [] (Some e')
      | Ok r => let rest := acc_groups s f tl e in mkgen (r :: yielded rest) (raised rest)
      end
  end.

(** differt2d/scene.py:1272-1334 [accumulate_over_paths] with
    [reduce_all=False].  When [all_paths] raises, the group being accumulated is
    lost. *)
Definition accumulate_over_paths (P : prng) (g : bool) (s : scene) (cls : path_cls)
    (ca : candargs) (va : validargs) (key : option (key_t P)) (f : pathfun)
    : gen (string * string * xreal) :=
  let a := all_paths P g s cls ca va key in
  let grs := group_runs (yielded a) in
  match raised a with
  | None => acc_groups s f grs None
  | Some e => acc_groups s f (removelast grs) (Some e)
  end.

(** differt2d/scene.py:1325-1332: [reduce_all=True]. *)
Definition accumulate_over_paths_reduced (P : prng) (g : bool) (s : scene) (cls : path_cls)
    (ca : candargs) (va : validargs) (key : option (key_t P)) (f : pathfun) : res xreal :=
  let r := accumulate_over_paths P g s cls ca va key f in
  match raised r with
  | Some e => Err e
  | None => Ok (fold_left (fun z '(_, _, p) => xadd z p) (yielded r) (Fin 0))
  end.

(** Which derivative is requested: differt2d/scene.py:1613-1618, 1918-1923. *)
Inductive gridmode := MVal | MGrad | MBoth.
Definition grid_mode (grad value_and_grad : bool) : gridmode :=
  if value_and_grad then MBoth else if grad then MGrad else MVal.

(** An entry of a grid result. *)
Inductive cell := CVal (x : xreal) | CGrad (d : xreal * xreal) | CBoth (x : xreal) (d : xreal * xreal).

(** [jnp.dstack((X, Y))]: shapes must agree ([lax.concatenate] raises [TypeError]). *)
Definition dstack (X Y : list (list R)) : res (list (list vec)) :=
  if (Nat.eqb (length X) (length Y)
      && forallb (fun '(rx, ry) => Nat.eqb (length rx) (length ry)) (combine X Y))%bool
  then Ok (map (fun '(rx, ry) => combine rx ry) (combine X Y))
  else Err TypeError.

(** differt2d/scene.py:1580-1583, 1890-1893: one key per candidate. *)
Definition grid_keys (P : prng) (key : option (key_t P)) (n : nat) : list (option (key_t P)) :=
  match key with
  | Some k => map Some (rsplit P k n)
  | None => repeat None n
  end.

(** The local function [facc] (differt2d/scene.py:1585-1611 and 1890-1916): sums
    over the candidates for the nodes [tx] and [rx]. *)
Definition facc (P : prng) (g : bool) (s : scene) (cls : path_cls) (va : validargs)
    (f : pathfun) (work : list (list Z * option (key_t P))) (tx rx : vec) : res xreal :=
  fold_left
    (fun acc '(cand, key) =>
       rbind acc (fun acc =>
         rbind (get_interacting_objects s cand) (fun inter =>
           rbind (from_tx_objects_rx P cls key tx inter rx) (fun p =>
             rbind (is_valid g p (objects s) cand inter (va_tol va) (va_patch va)
                      (va_approx va) (va_kw va)) (fun v =>
               Ok (xadd acc (xmul (to_f v) (f tx rx p inter))))))))
    work (Ok (Fin 0)).

(** [jax.value_and_grad]/[jax.grad]/identity of a function of the coordinates;
    [gradop] stands for automatic differentiation. *)
Definition apply_mode (gradop : (vec -> res xreal) -> vec -> xreal * xreal)
    (m : gridmode) (h : vec -> res xreal) (p : vec) : res cell :=
  rbind (h p) (fun x =>
    Ok (match m with
        | MVal => CVal x
        | MGrad => CGrad (gradop h p)
        | MBoth => CBoth x (gradop h p)
        end)).

(** [vmap(vmap(f))] over the grid.  Tracing happens once whatever the size of the
    grid, so an exception is raised even for an empty grid. *)
Definition vmap_grid (h : vec -> res cell) (grid : list (list vec)) : res (list (list cell)) :=
  rbind (h (0, 0)) (fun _ => rseq (map (fun r => rseq (map h r)) grid)).

(** Runs a lazy generator of results. *)
Fixpoint run_results {A B} (l : list (string * A)) (h : A -> res B) : gen (string * B) :=
  match l with
  | [] => mkgen [] None
  | (name, a) :: tl =>
      match h a with
      | Err e => mkgen [] (Some e)
      | Ok b => let r := run_results tl h in mkgen ((name, b) :: yielded r) (raised r)
      end
  end.

(** differt2d/scene.py:1489-1648
    [accumulate_on_transmitters_grid_over_paths] with [reduce_all=False]. *)
Definition accumulate_on_transmitters_grid (P : prng) (g : bool) (s : scene) (cls : path_cls)
    (ca : candargs) (va : validargs) (key : option (key_t P)) (f : pathfun)
    (gradop : (vec -> res xreal) -> vec -> xreal * xreal) (m : gridmode)
    (X Y : list (list R)) : res (gen (string * list (list cell))) :=
  rbind (with_transmitters s [("tx"%string, (0, 0))]) (fun sc =>
    let cands := cands_z sc ca in
    let pairs := all_transmitter_receiver_pairs sc in
    let work := combine cands (grid_keys P key (length cands)) in
    rbind (dstack X Y) (fun grid =>
      Ok (run_results (map snd pairs)
            (fun receiver =>
               vmap_grid (apply_mode gradop m
                            (fun tx => facc P g sc cls va f work tx receiver)) grid)))).

(** differt2d/scene.py:1803-1953
    [accumulate_on_receivers_grid_over_paths] with [reduce_all=False]. *)
Definition accumulate_on_receivers_grid (P : prng) (g : bool) (s : scene) (cls : path_cls)
    (ca : candargs) (va : validargs) (key : option (key_t P)) (f : pathfun)
    (gradop : (vec -> res xreal) -> vec -> xreal * xreal) (m : gridmode)
    (X Y : list (list R)) : res (gen (string * list (list cell))) :=
  rbind (with_receivers s [("rx"%string, (0, 0))]) (fun sc =>
    let cands := cands_z sc ca in
    let pairs := all_transmitter_receiver_pairs sc in
    let work := combine cands (grid_keys P key (length cands)) in
    rbind (dstack X Y) (fun grid =>
      Ok (run_results (map fst pairs)
            (fun transmitter =>
               vmap_grid (apply_mode gradop m
                            (fun rx => facc P g sc cls va f work transmitter rx)) grid)))).

(** The result of [reduce_all=True]: [jnp.array(0.0)] (a scalar) to which arrays
    are added. *)
Inductive zarray := ZScalar (x : xreal) | ZGrid (a : list (list cell)).

Definition pair_add (a b : xreal * xreal) : xreal * xreal :=
  (xadd (fst a) (fst b), xadd (snd a) (snd b)).
Definition cell_add (a b : cell) : cell :=
  match a, b with
  | CVal x, CVal y => CVal (xadd x y)
  | CGrad d, CGrad e => CGrad (pair_add d e)
  | CBoth x d, CBoth y e => CBoth (xadd x y) (pair_add d e)
  | _, _ => a
  end.
(** Broadcasting of a scalar added to an array entry. *)
Definition cell_add_scalar (x : xreal) (b : cell) : cell :=
  match b with
  | CVal y => CVal (xadd x y)
  | CGrad e => CGrad (pair_add (x, x) e)
  | CBoth y e => CBoth (xadd x y) (pair_add (x, x) e)
  end.
Fixpoint zip_with {A} (h : A -> A -> A) (a b : list A) : list A :=
  match a, b with x :: a', y :: b' => h x y :: zip_with h a' b' | _, _ => [] end.
(** [Z + p] (the two accumulators [Z] and [dZ] are kept together in the cells;
    all the arrays have the grid's shape). *)
Definition z_add (z : zarray) (p : list (list cell)) : zarray :=
  match z with
  | ZScalar x => ZGrid (map (map (cell_add_scalar x)) p)
  | ZGrid a => ZGrid (zip_with (zip_with cell_add) a p)
  end.

(** differt2d/scene.py:1628-1644 and 1935-1951: [reduce_all=True]. *)
Definition reduce_grid (r : res (gen (string * list (list cell)))) : res zarray :=
  rbind r (fun r =>
    match raised r with
    | Some e => Err e
    | None => Ok (fold_left (fun z '(_, p) => z_add z p) (yielded r) (ZScalar (Fin 0)))
    end).
