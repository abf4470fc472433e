(** Plotting: the calls made on the matplotlib axes. *)
From Coq Require Import Reals List Bool String.
From Verif Require Import Base GeometryM PathM SceneM.
Import ListNotations.
Open Scope R_scope.
Open Scope string_scope.
Local Notation length := List.length.

(** Python values passed as arguments; [VOther] stands for anything else. *)
Inductive pyval :=
| VNone | VStr (s : string) | VPair (x y : R) | VDict (d : list (string * pyval)) | VOther (n : nat).
Definition kwargs := list (string * pyval).

(** Lookup, [dict.setdefault], [{k: v, **d}], and the deletion of a key. *)
Fixpoint kw_get (d : kwargs) (k : string) : option pyval :=
  match d with
  | [] => None
  | (k', v) :: tl => if String.eqb k k' then Some v else kw_get tl k
  end.
Definition kw_mem (d : kwargs) (k : string) : bool := existsb (fun '(k', _) => String.eqb k k') d.
Definition setdefault (d : kwargs) (k : string) (v : pyval) : kwargs :=
  if kw_mem d k then d else (d ++ [(k, v)])%list.
Definition kw_del (d : kwargs) (k : string) : kwargs :=
  filter (fun '(k', _) => negb (String.eqb k k')) d.
Definition kw_default_first (k : string) (v : pyval) (d : kwargs) : kwargs :=
  match kw_get d k with Some v' => (k, v') :: kw_del d k | None => (k, v) :: d end.

(** A call [f(..., **a, **b)]: a name given twice raises [TypeError]. *)
Definition kw_merge (a b : kwargs) : res kwargs :=
  if existsb (fun '(k, _) => kw_mem a k) b then Err TypeError else Ok (a ++ b)%list.
(** A keyword with the name of a positional parameter that is already given. *)
Definition kw_reserved (names : list string) (d : kwargs) : res kwargs :=
  if existsb (fun k => kw_mem d k) names then Err TypeError else Ok d.

(** Truth value of an argument ([VOther] is taken to be true). *)
Definition py_true (v : pyval) : bool :=
  match v with
  | VNone => false
  | VStr s => negb (String.eqb s "")
  | VPair _ _ => true
  | VDict d => match d with [] => false | _ => true end
  | VOther _ => true
  end.

(** Calls on the axes. *)
Inductive axcall :=
| Scatter (p : vec) (args : list pyval) (kw : kwargs)
| Annotate (text : pyval) (xy xytext : vec) (kw : kwargs)
| Line (pts : list vec) (args : list pyval) (kw : kwargs).

Definition artist := nat.
(** The axes, as an oracle: given the calls made so far, a new call returns artists or
    raises.  [scatter] and [annotate] return one artist, [plot] a list. *)
Record axes := mkaxes {
  ax_scatter : list axcall -> axcall -> res artist;
  ax_annotate : list axcall -> axcall -> res artist;
  ax_plot : list axcall -> axcall -> res (list artist) }.

(** A plotting action: from the calls made so far, to the calls made and the outcome. *)
Definition plotting (A : Type) := list axcall -> list axcall * res A.
Definition preturn {A} (a : A) : plotting A := fun tr => (tr, Ok a).
Definition praise {A} (e : exn) : plotting A := fun tr => (tr, Err e).
Definition pbind {A B} (m : plotting A) (f : A -> plotting B) : plotting B :=
  fun tr => match m tr with
            | (tr', Ok a) => f a tr'
            | (tr', Err e) => (tr', Err e)
            end.
Definition plift {A} (r : res A) : plotting A := fun tr => (tr, r).
Definition pcall {A} (f : list axcall -> axcall -> res A) (c : axcall) : plotting A :=
  fun tr => ((tr ++ [c])%list, f tr c).

(** [annotate_kwargs] (differt2d/geometry.py:316-317): [None] means no argument. *)
Definition as_kwargs (v : option pyval) : res kwargs :=
  match v with
  | None | Some VNone => Ok []
  | Some (VDict d) => Ok d
  | Some _ => Err TypeError
  end.
(** [jnp.asarray(annotate_offset)] (differt2d/geometry.py:330-333), default (0, 0). *)
Definition as_offset (v : option pyval) : res vec :=
  match v with
  | None => Ok (0, 0)
  | Some (VPair x y) => Ok (x, y)
  | Some _ => Err TypeError
  end.

(** differt2d/geometry.py:297-344 [Point.plot]; [kw] are all the keyword arguments. *)
Definition Point_plot (ax : axes) (p : vec) (args : list pyval) (kw : kwargs) : plotting (list artist) :=
  pbind (plift (kw_reserved ["self"; "ax"] kw)) (fun kw =>
  let annotate := match kw_get kw "annotate" with Some v => v | None => VNone end in
  let offset := kw_get kw "annotate_offset" in
  let akw := kw_get kw "annotate_kwargs" in
  let kw := kw_del (kw_del (kw_del kw "annotate") "annotate_offset") "annotate_kwargs" in
  let kw := setdefault (setdefault kw "marker" (VStr "o")) "color" (VStr "red") in
  pbind (pcall (ax_scatter ax) (Scatter p args kw)) (fun a =>
    if py_true annotate then
      pbind (plift (as_offset offset)) (fun off =>
      pbind (plift (as_kwargs akw)) (fun akw =>
      pbind (plift (kw_reserved ["xy"; "xytext"; "text"] akw)) (fun akw =>
      pbind (pcall (ax_annotate ax) (Annotate annotate p (vadd p off) akw)) (fun b =>
        preturn [a; b]))))
    else preturn [a])).

(** differt2d/geometry.py:422-432 [Vertex.plot]. *)
Definition Vertex_plot (ax : axes) (p : vec) (args : list pyval) (kw : kwargs) : plotting (list artist) :=
  pbind (plift (kw_reserved ["self"; "ax"] kw)) (fun kw =>
    Point_plot ax p args
      (setdefault (setdefault (setdefault kw "edgecolors" (VStr "black")) "facecolors" (VOther 0))
         "linestyle" (VStr "dashed"))).

(** differt2d/geometry.py:530-534 [Ray.plot], inherited by [Wall]; 966-969
    [Path.plot] with another default colour. *)
Definition line_plot (color : string) (ax : axes) (pts : list vec) (args : list pyval) (kw : kwargs)
    : plotting (list artist) :=
  pbind (plift (kw_reserved ["self"; "ax"] kw)) (fun kw =>
    pcall (ax_plot ax) (Line pts args (setdefault kw "color" (VStr color)))).
Definition Ray_plot := line_plot "blue".
Definition Path_plot := line_plot "orange".

(** differt2d/geometry.py:713-721 [RIS.plot]. *)
Definition RIS_plot (ax : axes) (pts : list vec) (args : list pyval) (kw : kwargs) : plotting (list artist) :=
  pbind (plift (kw_reserved ["self"; "ax"] kw)) (fun kw =>
    Ray_plot ax pts args (setdefault kw "color" (VStr "green"))).

(** Dynamic dispatch of [obj.plot]. *)
Definition obj_plot (ax : axes) (o : object) (args : list pyval) (kw : kwargs) : plotting (list artist) :=
  match o with
  | OWall w => Ray_plot ax [w_origin w; w_dest w] args kw
  | ORIS w _ => RIS_plot ax [w_origin w; w_dest w] args kw
  | OVertex q => Vertex_plot ax q args kw
  end.

(** [for x in l: artists.extend(f(x))]. *)
Fixpoint plot_each {A} (f : A -> plotting (list artist)) (l : list A) : plotting (list artist) :=
  match l with
  | [] => preturn []
  | x :: tl => pbind (f x) (fun a => pbind (plot_each f tl) (fun b => preturn (a ++ b)%list))
  end.

(** The arguments of [Scene.plot] (differt2d/scene.py:937-951). *)
Record plotargs := mkplotargs {
  pa_args : list pyval;
  pa_transmitters : bool; pa_transmitters_args : list pyval; pa_transmitters_kwargs : option kwargs;
  pa_objects : bool; pa_objects_args : list pyval; pa_objects_kwargs : option kwargs;
  pa_receivers : bool; pa_receivers_args : list pyval; pa_receivers_kwargs : option kwargs;
  pa_annotate : bool; pa_kwargs : kwargs }.
Definition default_plotargs : plotargs :=
  mkplotargs [] true [] None true [] None true [] None true [].

Definition or_empty (k : option kwargs) : kwargs := match k with Some d => d | None => [] end.

(** differt2d/scene.py:988-999 and 1008-1019: the call for one node. *)
Definition node_plot (ax : axes) (annotate : bool) (args : list pyval) (kw kwargs : kwargs)
    (node : string * vec) : plotting (list artist) :=
  pbind (plift (kw_merge [("annotate", if annotate then VStr (fst node) else VNone)] kw)) (fun d =>
  pbind (plift (kw_merge d kwargs)) (fun d =>
    Point_plot ax (snd node) args d)).

(** differt2d/scene.py:937-1021 [Scene.plot]. *)
Definition Scene_plot (ax : axes) (s : scene) (pa : plotargs) : plotting (list artist) :=
  let rkw := kw_default_first "color" (VStr "green") (or_empty (pa_receivers_kwargs pa)) in
  let okw := or_empty (pa_objects_kwargs pa) in
  let tkw := kw_default_first "color" (VStr "blue") (or_empty (pa_transmitters_kwargs pa)) in
  pbind (if pa_transmitters pa then
           plot_each (node_plot ax (pa_annotate pa) (pa_transmitters_args pa ++ pa_args pa)%list tkw (pa_kwargs pa))
             (pd_items (transmitters s))
         else preturn []) (fun a =>
  pbind (if pa_objects pa then
           plot_each (fun o => pbind (plift (kw_merge okw (pa_kwargs pa))) (fun d =>
               obj_plot ax o (pa_objects_args pa ++ pa_args pa)%list d)) (objects s)
         else preturn []) (fun b =>
  pbind (if pa_receivers pa then
           plot_each (node_plot ax (pa_annotate pa) (pa_receivers_args pa ++ pa_args pa)%list rkw (pa_kwargs pa))
             (pd_items (receivers s))
         else preturn []) (fun c =>
    preturn (a ++ b ++ c)%list))).
