(** Property C95: supplying or naming a scene. *)
From Coq Require Import Reals List Bool ZArith String Lia Lra.
From Verif Require Import Base LogicM GeometryM OptimizeM PathM CandidatesM SceneM SpecScene SceneP BuildM BuildP SpecBuild SourceM SpecSource.
Import ListNotations.
Local Notation length := List.length.
Open Scope R_scope.

(** A text and anything that reads as this text give the same scene, at the same
    locations, or the same exception. *)
Theorem C95_text_or_file :
  forall loads s src tl rl, holds_text s src ->
  fst (from_geojson_source loads src tl rl) = rbind (loads s) (fun d => from_geojson d tl rl).
Proof. intros loads s src tl rl H. induction H; auto. Qed.
Print Assumptions C95_text_or_file.

(** A file is read exactly once, whatever happens: a second call sees what follows, and
    fails once nothing follows. *)
Theorem C95_read_exactly_once :
  forall loads x rest tl rl,
  snd (from_geojson_source loads (Readable (x :: rest)) tl rl) = Readable rest /\
  fst (from_geojson_source loads (Readable (x :: rest)) tl rl) = fst (from_geojson_source loads x tl rl) /\
  (loads ""%string = Err ValueError ->
   fst (from_geojson_source loads (snd (from_geojson_source loads (Readable [x]) tl rl)) tl rl) = Err ValueError).
Proof. intros loads x rest tl rl. split; [reflexivity|]. split; [reflexivity|]. intro E. cbn. rewrite E. reflexivity. Qed.
Print Assumptions C95_read_exactly_once.

(** Other types of arguments are refused; invalid JSON is reported as such, whatever
    the locations. *)
Theorem C95_refused :
  forall loads tl rl,
  fst (from_geojson_source loads OtherValue tl rl) = Err NotImplementedError /\
  forall s src e, holds_text s src -> loads s = Err e -> fst (from_geojson_source loads src tl rl) = Err e.
Proof.
  intros loads tl rl. split; [reflexivity|]. intros s src e H E. rewrite (C95_text_or_file loads s src tl rl H), E. reflexivity.
Qed.
Print Assumptions C95_refused.

(** Each scene name accepts the nodes as keywords, in any combination, and places
    them; the others have their defaults. *)
Theorem C95_names_and_nodes :
  forall other tx rx,
  (exists s, from_scene_name other "basic_scene" [] (keywords None tx rx) = Ok s /\ nodes_at s (or_default tx (1/10, 1/10)) (or_default rx (302/1000, 2147/10000)) /\
     length (objects s) = 7%nat) /\
  (exists s, from_scene_name other "square_scene" [] (keywords None tx rx) = Ok s /\ nodes_at s (or_default tx (2/10, 2/10)) (or_default rx (5/10, 6/10)) /\
     length (objects s) = 4%nat) /\
  (forall ratio, exists s, from_scene_name other "square_scene_with_wall" [] (keywords ratio tx rx) = Ok s /\
     nodes_at s (or_default tx (2/10, 5/10)) (or_default rx (8/10, 5/10)) /\
     objects s = objects (square_scene_with_wall (or_default ratio (6/10)) (0, 0) (0, 0))) /\
  (forall ratio, exists s, from_scene_name other "square_scene_with_obstacle" [] (keywords ratio tx rx) = Ok s /\
     nodes_at s (or_default tx (2/10, 2/10)) (or_default rx (5/10, 6/10)) /\
     objects s = objects (square_scene_with_obstacle (or_default ratio (1/10)) (0, 0) (0, 0))).
Proof.
  intros other tx rx.
  split; [|split; [|split]]; [| |intro ratio; destruct ratio as [ratio|]|intro ratio; destruct ratio as [ratio|]];
    destruct tx as [tx|], rx as [rx|]; (eexists; split; [reflexivity|]; split; [|reflexivity]; split; apply C48_lemma, dict_tx).
Qed.
Print Assumptions C95_names_and_nodes.

(** A ratio is a TypeError for the two scenes that have none; positional arguments
    start with the ratio for the two others; [square_scene_with_obstacle] takes its
    nodes by keyword only. *)
Theorem C95_ratio :
  forall other x tx rx,
  from_scene_name other "basic_scene" [] (keywords (Some x) tx rx) = Err TypeError /\
  from_scene_name other "square_scene" [] (keywords (Some x) tx rx) = Err TypeError /\
  from_scene_name other "square_scene_with_wall" [ANum x] (keywords None tx rx) =
    from_scene_name other "square_scene_with_wall" [] (keywords (Some x) tx rx) /\
  from_scene_name other "square_scene_with_obstacle" [ANum x] (keywords None tx rx) =
    from_scene_name other "square_scene_with_obstacle" [] (keywords (Some x) tx rx) /\
  from_scene_name other "square_scene_with_wall" [ANum x] (keywords (Some x) tx rx) = Err TypeError /\
  forall p pos kw, from_scene_name other "square_scene_with_obstacle" (ANum x :: APoint p :: pos) kw = Err TypeError.
Proof. intros other x tx rx. destruct tx, rx; repeat split; reflexivity. Qed.
Print Assumptions C95_ratio.

(** A name that is not an attribute of the class is an AttributeError. *)
Theorem C95_unknown_name :
  forall other name pos kw, ~ In name ["basic_scene"; "square_scene"; "square_scene_with_wall"; "square_scene_with_obstacle"]%string ->
  other name = None -> from_scene_name other name pos kw = Err AttributeError.
Proof.
  intros other name pos kw N O. unfold from_scene_name.
  repeat match goal with |- context [String.eqb name ?n] => destruct (String.eqb_spec name n) as [E|_]; [exfalso; apply N; subst; cbn; auto 6|] end.
  rewrite O. reflexivity.
Qed.
Print Assumptions C95_unknown_name.

Example C95_nonvacuous :
  holds_text "{}" (Readable [Readable [Text "{}"]; Text ""]) /\
  exists s, from_scene_name (fun _ => None) "square_scene_with_obstacle" [ANum (1/2)] [("rx_coords"%string, APoint (9/10, 9/10))] = Ok s /\
    nodes_at s (2/10, 2/10) (9/10, 9/10).
Proof.
  split; [repeat constructor|]. eexists. split; [reflexivity|]. split; apply C48_lemma, dict_tx.
Qed.
