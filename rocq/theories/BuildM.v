(** Model of the scene constructors of differt2d/scene.py: [from_geojson],
    [random_uniform_scene], the built-in scenes and [from_scene_name]. *)
From Coq Require Import Reals List Bool ZArith String DecimalString.
From Verif Require Import Base LogicM GeometryM OptimizeM PathM CandidatesM SceneM.
Import ListNotations.
Open Scope R_scope.
Local Notation length := List.length.

(** A parsed JSON document ([json.loads]); object keys are distinct. *)
Inductive json :=
| JNull
| JBool (b : bool)
| JNum (x : R)
| JStr (s : string)
| JArr (l : list json)
| JObj (l : list (string * json)).

Fixpoint assoc (k : string) (l : list (string * json)) : option json :=
  match l with
  | [] => None
  | (k', v) :: tl => if String.eqb k' k then Some v else assoc k tl
  end.

(** [x.get(key, default)]: only dicts have [get]. *)
Definition jget (x : json) (k : string) (default : json) : res json :=
  match x with
  | JObj l => Ok (match assoc k l with Some v => v | None => default end)
  | _ => Err AttributeError
  end.

(** [x[key]] with a string key. *)
Definition jitem (x : json) (k : string) : res json :=
  match x with
  | JObj l => match assoc k l with Some v => Ok v | None => Err KeyError end
  | _ => Err TypeError
  end.

(** [x[0]]: dicts have only string keys. *)
Definition jfirst (x : json) : res json :=
  match x with
  | JArr [] => Err IndexError
  | JArr (a :: _) => Ok a
  | JStr EmptyString => Err IndexError
  | JStr (String c _) => Ok (JStr (String c EmptyString))
  | JObj _ => Err KeyError
  | _ => Err TypeError
  end.

(** [len(x)]. *)
Definition jlen (x : json) : res nat :=
  match x with
  | JArr l => Ok (length l)
  | JObj l => Ok (length l)
  | JStr s => Ok (String.length s)
  | _ => Err TypeError
  end.

(** Python truthiness. *)
Definition jtruthy (x : json) : bool :=
  match x with
  | JNull => false
  | JBool b => b
  | JNum r => negb (Reqb r 0)
  | JStr s => negb (String.eqb s "")
  | JArr l => negb (Nat.eqb (length l) 0)
  | JObj l => negb (Nat.eqb (length l) 0)
  end.

(** The characters of a string, as one-character strings. *)
Fixpoint chars (s : string) : list json :=
  match s with
  | EmptyString => []
  | String c tl => JStr (String c EmptyString) :: chars tl
  end.

(** [for feature in features]: iterating a list, a dict (its keys) or a string. *)
Definition jiter (x : json) : res (list json) :=
  match x with
  | JArr l => Ok l
  | JObj l => Ok (map (fun kv => JStr (fst kv)) l)
  | JStr s => Ok (chars s)
  | _ => Err TypeError
  end.

(** A GeoJSON position as accepted by [Wall(xys=...)]: exactly two numbers.
    Simplification: anything else is one error ([TypeCheckError], which is what
    positions with an altitude raise); strings and booleans that numpy would
    convert are not modelled. *)
Definition position (x : json) : res vec :=
  match x with
  | JArr [JNum a; JNum b] => Ok (a, b)
  | _ => Err TypeCheckError
  end.

(** [coordinates[i]] in the loop of differt2d/scene.py:646-651 (a list; a string
    yields characters, a dict has no integer key). *)
Definition ring_items (x : json) : res (list json) :=
  match x with
  | JArr l => Ok l
  | JStr s => Ok (chars s)
  | JObj [] => Ok []
  | JObj _ => Err KeyError
  | _ => Err TypeError
  end.

(** differt2d/scene.py:645-652: the walls of a ring; [coordinates[i - 1]] with
    [i = 0] is the last position. *)
Definition ring_walls (items : list json) : res (list object) :=
  let n := length items in
  rseq (map (fun i =>
               rbind (py_index items (Z.of_nat i - 1)) (fun ja =>
                 rbind (py_index items (Z.of_nat i)) (fun jb =>
                   rbind (position ja) (fun a =>
                     rbind (position jb) (fun b =>
                       Ok (OWall (mkwall a b)))))))
            (seq 0 n)).

(** differt2d/scene.py:638-652: the walls of one feature. *)
Definition feature_walls (feature : json) : res (list object) :=
  rbind (jget feature "geometry" JNull) (fun geometry =>
    if jtruthy geometry then
      rbind (jitem geometry "type") (fun type_ =>
        rbind (jitem geometry "coordinates") (fun cs =>
          rbind (jfirst cs) (fun coordinates =>
            rbind (jlen coordinates) (fun _ =>
              match type_ with
              | JStr t =>
                  if String.eqb t "Polygon" then rbind (ring_items coordinates) ring_walls
                  else Ok []
              | _ => Ok []
              end))))
    else Ok []).

(** differt2d/scene.py:632-663 [Scene.from_geojson] on a string, after
    [json.loads]. *)
Definition from_geojson (dictionary : json) (tx_loc rx_loc : loc) : res scene :=
  rbind (jget dictionary "features" (JArr [])) (fun fs =>
    rbind (jiter fs) (fun features =>
      rbind (rseq (map feature_walls features)) (fun wss =>
        let walls := List.concat wss in
        let sc := Scene_make [] [] walls in
        if Nat.ltb 0 (length walls) then
          rbind (scene_bbox sc) (fun b =>
            rbind (with_transmitters sc [("tx"%string, get_location b tx_loc)]) (fun sc =>
              rbind (scene_bbox sc) (fun b =>
                with_receivers sc [("rx"%string, get_location b rx_loc)])))
        else
          rbind (with_transmitters sc [("tx"%string, (0, 0))]) (fun sc =>
            with_receivers sc [("rx"%string, (1, 1))])))).

(** The default locations, differt2d/scene.py:632. *)
Definition DEFAULT_TX_LOC : loc := NW.
Definition DEFAULT_RX_LOC : loc := SE.

(** Decimal rendering of an index in an f-string. *)
Definition show_nat (i : nat) : string := NilZero.string_of_uint (Nat.to_uint i).

(** [points[k, :]] and slices of the drawn points. *)
Definition pt (points : list vec) (i : nat) : vec := nth i points (0, 0).

(** differt2d/scene.py:684-733 [random_uniform_scene]; [draw n] stands for
    [jax.random.uniform(key, (n, 2))]. *)
Definition random_uniform_scene (draw : nat -> list vec) (nt nw nr : nat) : scene :=
  let points := draw (nt + 2 * nw + nr)%nat in
  let transmitters :=
    map (fun i => (("tx_" ++ show_nat i)%string, pt points i)) (seq 0 nt) in
  let receivers :=
    map (fun i => (("rx_" ++ show_nat i)%string, pt points (length points - (i + 1)))) (seq 0 nr) in
  let walls :=
    map (fun i => OWall (mkwall (pt points (2 * i + nt)) (pt points (2 * i + nt + 1)))) (seq 0 nw) in
  Scene_make transmitters receivers walls.

Definition mkw (a b c d : R) : object := OWall (mkwall (a, b) (c, d)).

(** differt2d/scene.py:735-787 [basic_scene]. *)
Definition basic_scene (tx rx : vec) : scene :=
  Scene_make [("tx"%string, tx)] [("rx"%string, rx)]
    [ mkw 0 0 1 0; mkw 1 0 1 1; mkw 1 1 0 1; mkw 0 1 0 0;
      mkw (4/10) 0 (4/10) (4/10); mkw (4/10) (4/10) (3/10) (4/10);
      mkw (1/10) (4/10) 0 (4/10) ].

(** differt2d/scene.py:789-836 [square_scene]. *)
Definition square_scene (tx rx : vec) : scene :=
  Scene_make [("tx"%string, tx)] [("rx"%string, rx)]
    [ mkw 0 0 1 0; mkw 1 0 1 1; mkw 1 1 0 1; mkw 0 1 0 0 ].

(** differt2d/scene.py:838-882 [square_scene_with_wall]. *)
Definition square_scene_with_wall (ratio : R) (tx rx : vec) : scene :=
  add_objects (square_scene tx rx)
    [ mkw (5/10) ((5/10) * (1 - ratio)) (5/10) ((5/10) * (1 + ratio)) ].

(** differt2d/scene.py:884-935 [square_scene_with_obstacle]. *)
Definition square_scene_with_obstacle (ratio : R) (tx rx : vec) : scene :=
  let sc := square_scene tx rx in
  let hl := (5/10) * ratio in
  let x0 := 5/10 - hl in
  let x1 := 5/10 + hl in
  let y0 := 5/10 - hl in
  let y1 := 5/10 + hl in
  add_objects sc [ mkw x0 y0 x1 y0; mkw x1 y0 x1 y1; mkw x1 y1 x0 y1; mkw x0 y1 x0 y0 ].

(** Default coordinates: differt2d/scene.py:738-739, 792-793, 842-844. *)
Definition BASIC_TX : vec := (1/10, 1/10).
Definition BASIC_RX : vec := (302/1000, 2147/10000).
Definition SQUARE_TX : vec := (2/10, 2/10).
Definition SQUARE_RX : vec := (5/10, 6/10).
Definition SQUARE_WALL_TX : vec := (2/10, 5/10).
Definition SQUARE_WALL_RX : vec := (8/10, 5/10).
