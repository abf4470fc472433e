(** Plotting: property C70. *)
From Coq Require Import Reals List Bool String.
From Verif Require Import Base GeometryM PathM SceneM SpecScene SceneP SceneOpsP RunExP PlotM SpecPlot PlotP.
Import ListNotations.
Open Scope R_scope.
Open Scope string_scope.

(** C70: on axes that accept every call, [scene.plot(ax, ...)] draws every transmitter,
    then every object, then every receiver, each once and in the order of the scene, and
    returns what the axes returned, in that order. *)
Theorem C70_plot_draws_the_whole_scene :
  forall ax s pa t r before, accepts_all ax -> represents (transmitters s) t -> represents (receivers s) r ->
  plain_kw (pa_kwargs pa) -> kw_get (pa_kwargs pa) "color" = None ->
  (forall d, In d [pa_transmitters_kwargs pa; pa_objects_kwargs pa; pa_receivers_kwargs pa] ->
     plain_kw (or_empty d) /\ disjoint_kw (or_empty d) (pa_kwargs pa)) ->
  exists ct co cr artists,
    Scene_plot ax s pa before = ((before ++ ct ++ co ++ cr)%list, Ok artists) /\
    answers ax before (ct ++ co ++ cr)%list = Ok artists /\
    draws_each (draws_node "blue" (pa_annotate pa) (pa_transmitters_args pa ++ pa_args pa)%list (or_empty (pa_transmitters_kwargs pa)) (pa_kwargs pa))
      (if pa_transmitters pa then t else []) ct /\
    draws_each (draws_object (pa_objects_args pa ++ pa_args pa)%list (or_empty (pa_objects_kwargs pa)) (pa_kwargs pa))
      (if pa_objects pa then objects s else []) co /\
    draws_each (draws_node "green" (pa_annotate pa) (pa_receivers_args pa ++ pa_args pa)%list (or_empty (pa_receivers_kwargs pa)) (pa_kwargs pa))
      (if pa_receivers pa then r else []) cr.
Proof.
  intros ax s pa t r before AX T R PK CK H.
  destruct (C70_lemma ax s pa t r AX T R PK CK H before) as (calls & l & (ct & co & cr & -> & D1 & D2 & D3) & E & A).
  exists ct, co, cr, l. auto.
Qed.
Print Assumptions C70_plot_draws_the_whole_scene.

(** A colour given to [scene.plot] itself clashes with the colours of the nodes: it
    raises [TypeError], before anything is drawn if there is a transmitter to draw. *)
Theorem C70_a_general_colour_is_rejected :
  forall ax s pa t r before, accepts_all ax -> represents (transmitters s) t -> represents (receivers s) r ->
  kw_get (pa_kwargs pa) "color" <> None ->
  (pa_transmitters pa = true -> t <> [] -> Scene_plot ax s pa before = (before, Err TypeError)) /\
  (pa_receivers pa = true -> r <> [] -> (pa_transmitters pa = false \/ t = []) -> plain_kw (pa_kwargs pa) ->
   plain_kw (or_empty (pa_objects_kwargs pa)) -> disjoint_kw (or_empty (pa_objects_kwargs pa)) (pa_kwargs pa) ->
   exists co, Scene_plot ax s pa before = ((before ++ co)%list, Err TypeError) /\
     draws_each (draws_object (pa_objects_args pa ++ pa_args pa)%list (or_empty (pa_objects_kwargs pa)) (pa_kwargs pa))
      (if pa_objects pa then objects s else []) co).
Proof. exact C70_color_lemma. Qed.
Print Assumptions C70_a_general_colour_is_rejected.

(** A single point, ray, wall or path: one call, whose default colour gives way to the
    user's. *)
Theorem C70_point_ray_and_path_are_one_call :
  forall ax p pts args kw before, accepts_all ax -> plain_kw kw ->
  (exists calls l, draws_point p None args kw [] [("color", VStr "red"); ("marker", VStr "o")] calls /\
    Point_plot ax p args kw before = ((before ++ calls)%list, Ok l) /\ answers ax before calls = Ok l) /\
  (exists calls l, draws_line pts "blue" args kw [] calls /\
    Ray_plot ax pts args kw before = ((before ++ calls)%list, Ok l) /\ answers ax before calls = Ok l) /\
  (exists calls l, draws_line pts "orange" args kw [] calls /\
    Path_plot ax pts args kw before = ((before ++ calls)%list, Ok l) /\ answers ax before calls = Ok l).
Proof.
  intros ax p pts args kw before AX P. split; [|split].
  - apply point_draws; auto.
  - apply path_draws; auto; apply P; cbn; auto.
  - apply path_draws; auto; apply P; cbn; auto.
Qed.
Print Assumptions C70_point_ray_and_path_are_one_call.

(** A label on a single point: it is put at the offset from the point, with its own
    keyword arguments (None for none). *)
Theorem C70_a_label_is_put_at_its_offset :
  forall ax p args kw s dx dy v d before, accepts_all ax -> plain_kw kw -> s <> "" ->
  (forall k, In k ["xy"; "xytext"; "text"] -> kw_get d k = None) ->
  v = VDict d \/ v = VNone /\ d = [] ->
  exists kw' l, styled kw [] [("color", VStr "red"); ("marker", VStr "o")] kw' /\
    Point_plot ax p args (kw ++ [("annotate", VStr s); ("annotate_offset", VPair dx dy); ("annotate_kwargs", v)])%list before =
      ((before ++ [Scatter p args kw'; Annotate (VStr s) p ((fst p + dx)%R, (snd p + dy)%R) d])%list, Ok l) /\
    answers ax before [Scatter p args kw'; Annotate (VStr s) p ((fst p + dx)%R, (snd p + dy)%R) d] = Ok l.
Proof. exact point_label. Qed.
Print Assumptions C70_a_label_is_put_at_its_offset.

(** [scene.plot(ax)], with nothing else: everything is drawn, and the nodes are labelled. *)
Theorem C70_default_arguments :
  forall ax s t r before, accepts_all ax -> represents (transmitters s) t -> represents (receivers s) r ->
  exists ct co cr artists,
    Scene_plot ax s default_plotargs before = ((before ++ ct ++ co ++ cr)%list, Ok artists) /\
    draws_each (draws_node "blue" true [] [] []) t ct /\ draws_each (draws_object [] [] []) (objects s) co /\
    draws_each (draws_node "green" true [] [] []) r cr.
Proof.
  intros ax s t r before AX T R.
  destruct (C70_plot_draws_the_whole_scene ax s default_plotargs t r before AX T R) as (ct & co & cr & l & E & _ & D1 & D2 & D3).
  - intros k _. reflexivity.
  - reflexivity.
  - intros d [<-|[<-|[<-|[]]]]; (split; [intros k _; reflexivity|intros k H; elim H; reflexivity]).
  - exists ct, co, cr, l. auto.
Qed.
Print Assumptions C70_default_arguments.

(** Whatever the axes do, a raising call included, what was drawn before stays. *)
Theorem C70_plotting_only_adds :
  forall ax s pa before, exists calls, fst (Scene_plot ax s pa before) = (before ++ calls)%list.
Proof. exact grows_scene. Qed.
Print Assumptions C70_plotting_only_adds.

(** The hypotheses are met by [scene.plot(ax)] with nothing else. *)
Definition ex_axes : axes :=
  mkaxes (fun tr _ => Ok (List.length tr)) (fun tr _ => Ok (List.length tr)) (fun tr _ => Ok [List.length tr]).
Definition ex_plot_scene : scene :=
  Scene_make [("tx", (0, 1))] [("rx", (1, 1))] [OWall (mkwall (0, 0) (2, 0)); OVertex (3, 3)].
Example C70_hypotheses_met :
  accepts_all ex_axes /\
  represents (transmitters ex_plot_scene) [("tx", (0, 1))] /\ represents (receivers ex_plot_scene) [("rx", (1, 1))] /\
  plain_kw (pa_kwargs default_plotargs) /\
  (forall d, In d [pa_transmitters_kwargs default_plotargs; pa_objects_kwargs default_plotargs; pa_receivers_kwargs default_plotargs] ->
     plain_kw (or_empty d) /\ disjoint_kw (or_empty d) (pa_kwargs default_plotargs)) /\
  snd (Scene_plot ex_axes ex_plot_scene default_plotargs []) = Ok [0; 1; 2; 3; 4; 5]%nat.
Proof.
  split; [|split; [|split; [|split; [|split]]]].
  - intros tr [| |]; cbn; eauto.
  - apply C48_lemma. repeat constructor; cbn; tauto.
  - apply C48_lemma. repeat constructor; cbn; tauto.
  - intros k _. reflexivity.
  - intros d [<-|[<-|[<-|[]]]]; (split; [intros k _; reflexivity|intros k H; elim H; reflexivity]).
  - reflexivity.
Qed.
