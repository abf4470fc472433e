(** Vocabulary of the statements about plotting. *)
From Coq Require Import Reals List Bool String.
From Verif Require Import Base GeometryM PathM SceneM PlotM.
Import ListNotations.
Open Scope string_scope.
Local Notation length := List.length.

(** The keyword arguments [kw] received by matplotlib: those of the user, first the
    specific ones, then the general ones, then the defaults of the library. *)
Definition styled (specific general defaults kw : kwargs) : Prop :=
  forall k, kw_get kw k =
    match kw_get specific k with
    | Some v => Some v
    | None => match kw_get general k with Some v => Some v | None => kw_get defaults k end
    end.

(** The calls that draw a point, with a label if it has a non-empty name. *)
Definition draws_point (p : vec) (label : option string) (args : list pyval) (specific general defaults : kwargs)
    (calls : list axcall) : Prop :=
  exists kw, styled specific general defaults kw /\
  calls = Scatter p args kw ::
    match label with Some s => if String.eqb s "" then [] else [Annotate (VStr s) p p []] | None => [] end.
Definition draws_line (pts : list vec) (color : string) (args : list pyval) (specific general : kwargs)
    (calls : list axcall) : Prop :=
  exists kw, styled specific general [("color", VStr color)] kw /\ calls = [Line pts args kw].

Definition draws_node (color : string) (annotate : bool) (args : list pyval) (specific general : kwargs)
    (node : string * vec) (calls : list axcall) : Prop :=
  draws_point (snd node) (if annotate then Some (fst node) else None) args specific general
    [("color", VStr color); ("marker", VStr "o")] calls.
Definition draws_object (args : list pyval) (specific general : kwargs) (o : object) (calls : list axcall) : Prop :=
  match o with
  | OWall w => draws_line [w_origin w; w_dest w] "blue" args specific general calls
  | ORIS w _ => draws_line [w_origin w; w_dest w] "green" args specific general calls
  | OVertex q => draws_point q None args specific general
      [("edgecolors", VStr "black"); ("facecolors", VOther 0); ("linestyle", VStr "dashed");
       ("marker", VStr "o"); ("color", VStr "red")] calls
  end.

(** One group of calls per element, in order. *)
Definition draws_each {A} (f : A -> list axcall -> Prop) (l : list A) (calls : list axcall) : Prop :=
  exists groups, Forall2 f l groups /\ calls = List.concat groups.

(** What the axes return for a call, and for several calls in a row. *)
Definition answer (ax : axes) (before : list axcall) (c : axcall) : res (list artist) :=
  match c with
  | Scatter _ _ _ => rbind (ax_scatter ax before c) (fun a => Ok [a])
  | Annotate _ _ _ _ => rbind (ax_annotate ax before c) (fun a => Ok [a])
  | Line _ _ _ => ax_plot ax before c
  end.
Fixpoint answers (ax : axes) (before : list axcall) (calls : list axcall) : res (list artist) :=
  match calls with
  | [] => Ok []
  | c :: tl => rbind (answer ax before c) (fun a => rbind (answers ax (before ++ [c])%list tl) (fun b => Ok (a ++ b)%list))
  end.
(** Axes that accept every call. *)
Definition accepts_all (ax : axes) : Prop := forall before c, exists l, answer ax before c = Ok l.

(** No name is given twice, and none is a parameter of the library's own methods. *)
Definition disjoint_kw (a b : kwargs) : Prop := forall k, kw_get a k <> None -> kw_get b k = None.
Definition plain_kw (d : kwargs) : Prop :=
  forall k, In k ["self"; "ax"; "annotate"; "annotate_offset"; "annotate_kwargs"] -> kw_get d k = None.
