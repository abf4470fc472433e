(** Model of the ways to name or supply a scene: the dispatch of
    [Scene.from_geojson] on the type of its argument, and
    [Scene.from_scene_name] with Python's binding of arguments. *)
From Coq Require Import Reals List Bool ZArith String.
From Verif Require Import Base LogicM GeometryM OptimizeM PathM CandidatesM SceneM BuildM.
Import ListNotations.
Open Scope R_scope.
Local Notation length := List.length.

(** What can be passed to [from_geojson]: text ([str], [bytes] or [bytearray], decoded);
    an object with a [read] method, given by what its successive reads return; or
    anything else.  Once exhausted, [read] returns the empty text. *)
Inductive source :=
| Text (content : string)
| Readable (reads : list source)
| OtherValue.

(** differt2d/scene.py:428-431, 625-631, 665-668 [Scene.from_geojson]: the
    [singledispatchmethod] on the class of the first argument: text is parsed by
    [json.loads] (the parameter [loads], which may raise), an object with [read] is
    read once and the result is dispatched again, with the other arguments
    forwarded; any other argument raises [NotImplementedError].  Returns the result
    and the argument as it is left. *)
Fixpoint from_geojson_source (loads : string -> res json) (src : source) (tx_loc rx_loc : loc) : res scene * source :=
  match src with
  | Text s => (rbind (loads s) (fun d => from_geojson d tx_loc rx_loc), src)
  | Readable [] => (rbind (loads ""%string) (fun d => from_geojson d tx_loc rx_loc), src)
  | Readable (x :: rest) => (fst (from_geojson_source loads x tx_loc rx_loc), Readable rest)
  | OtherValue => (Err NotImplementedError, src)
  end.

(** An argument of a scene constructor: a number or a point. *)
Inductive arg := ANum (x : R) | APoint (p : vec).

(** Python's binding of arguments to the parameters [ps] (with their defaults):
    positional ones in order, then keywords; extra keywords go to [**kwargs] if the
    function has it.  Returns the bound values and the extra keywords. *)
Fixpoint bind_positional (ps : list (string * arg)) (pos : list arg) : res (list (string * arg) * list (string * arg)) :=
  match ps, pos with
  | ps, [] => Ok ([], ps)
  | [], _ :: _ => Err TypeError
  | (n, _) :: ps, a :: pos => rbind (bind_positional ps pos) (fun '(b, rest) => Ok ((n, a) :: b, rest))
  end.
Fixpoint lookup {A} (k : string) (l : list (string * A)) : option A :=
  match l with
  | [] => None
  | (k', v) :: tl => if String.eqb k' k then Some v else lookup k tl
  end.
Definition bind (ps : list (string * arg)) (varkw : bool) (pos : list arg) (kw : list (string * arg)) :
    res ((string -> option arg) * list (string * arg)) :=
  rbind (bind_positional ps pos) (fun '(bound, rest) =>
    let known k := match lookup k ps with Some _ => true | None => false end in
    let extra := filter (fun kv => negb (known (fst kv))) kw in
    if existsb (fun kv => match lookup (fst kv) bound with Some _ => true | None => false end) kw then Err TypeError
    else if (negb varkw && negb (Nat.eqb (length extra) 0))%bool then Err TypeError
    else Ok (fun k => match lookup k bound with
                      | Some a => Some a
                      | None => match lookup k kw with
                                | Some a => if known k then Some a else None
                                | None => lookup k rest
                                end
                      end, extra)).

(** A parameter used as a number or as a point.  Simplification: a wrong kind is a
    [TypeCheckError]. *)
Definition num (e : string -> option arg) (k : string) : res R :=
  match e k with Some (ANum x) => Ok x | _ => Err TypeCheckError end.
Definition point (e : string -> option arg) (k : string) : res vec :=
  match e k with Some (APoint p) => Ok p | _ => Err TypeCheckError end.

(** Default ratios: differt2d/scene.py:841, 887. *)
Definition WALL_RATIO : R := 6/10.
Definition OBSTACLE_RATIO : R := 1/10.

(** The calls [basic_scene with positional and keyword arguments], ...: signatures at
    differt2d/scene.py:736-740, 790-794, 839-844, 885-889. *)
Definition call_basic (pos : list arg) (kw : list (string * arg)) : res scene :=
  rbind (bind [("tx_coords"%string, APoint BASIC_TX); ("rx_coords"%string, APoint BASIC_RX)] false pos kw) (fun '(e, _) =>
    rbind (point e "tx_coords") (fun tx => rbind (point e "rx_coords") (fun rx => Ok (basic_scene tx rx)))).
Definition call_square (pos : list arg) (kw : list (string * arg)) : res scene :=
  rbind (bind [("tx_coords"%string, APoint SQUARE_TX); ("rx_coords"%string, APoint SQUARE_RX)] false pos kw) (fun '(e, _) =>
    rbind (point e "tx_coords") (fun tx => rbind (point e "rx_coords") (fun rx => Ok (square_scene tx rx)))).
Definition call_wall (pos : list arg) (kw : list (string * arg)) : res scene :=
  rbind (bind [("ratio"%string, ANum WALL_RATIO); ("tx_coords"%string, APoint SQUARE_WALL_TX); ("rx_coords"%string, APoint SQUARE_WALL_RX)] false pos kw)
    (fun '(e, _) =>
    rbind (num e "ratio") (fun ratio => rbind (point e "tx_coords") (fun tx => rbind (point e "rx_coords") (fun rx =>
      Ok (square_scene_with_wall ratio tx rx))))).
(** differt2d/scene.py:919-935: the extra keywords go to [square_scene]. *)
Definition call_obstacle (pos : list arg) (kw : list (string * arg)) : res scene :=
  rbind (bind [("ratio"%string, ANum OBSTACLE_RATIO)] true pos kw) (fun '(e, extra) =>
    rbind (call_square [] extra) (fun sc =>
      rbind (num e "ratio") (fun ratio =>
        let hl := (5/10) * ratio in
        let x0 := 5/10 - hl in
        let x1 := 5/10 + hl in
        let y0 := 5/10 - hl in
        let y1 := 5/10 + hl in
        Ok (add_objects sc [ mkw x0 y0 x1 y0; mkw x1 y0 x1 y1; mkw x1 y1 x0 y1; mkw x0 y1 x0 y0 ])))).

(** differt2d/scene.py:670-682 [Scene.from_scene_name]: [getattr(cls, name)(...)].
    [other] stands for the other attributes of the class. *)
Definition from_scene_name (other : string -> option (list arg -> list (string * arg) -> res scene))
    (name : string) (pos : list arg) (kw : list (string * arg)) : res scene :=
  if String.eqb name "basic_scene" then call_basic pos kw
  else if String.eqb name "square_scene" then call_square pos kw
  else if String.eqb name "square_scene_with_wall" then call_wall pos kw
  else if String.eqb name "square_scene_with_obstacle" then call_obstacle pos kw
  else match other name with Some f => f pos kw | None => Err AttributeError end.
