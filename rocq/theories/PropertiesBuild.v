(** Properties C56-C59: scene constructors. *)
From Coq Require Import Reals List Bool ZArith String Lia Lra Permutation.
From Verif Require Import Base BaseP LogicM GeometryM SpecGeometry OptimizeM PathM CandidatesM SceneM SpecScene
  BuildM SpecBuild BuildP.
Import ListNotations.
Open Scope R_scope.
Local Notation length := List.length.
Local Notation concat := List.concat.

(** C56 *)
Theorem C56_every_point_used_once :
  forall draw nt nw nr, length (draw (nt + 2 * nw + nr)%nat) = (nt + 2 * nw + nr)%nat ->
  let s := random_uniform_scene draw nt nw nr in
  exists t r,
    represents (transmitters s) t /\ map fst t = map (fun i => ("tx_" ++ show_nat i)%string) (seq 0 nt) /\
    represents (receivers s) r /\ map fst r = map (fun i => ("rx_" ++ show_nat i)%string) (seq 0 nr) /\
    length (objects s) = nw /\ (forall o, In o (objects s) -> exists w, o = OWall w) /\
    draw (nt + 2 * nw + nr)%nat = map snd t ++ flat_map ends_of (objects s) ++ rev (map snd r).
Proof. exact C56_lemma. Qed.
Print Assumptions C56_every_point_used_once.
Theorem C56_index_names_distinct :
  forall i j, show_nat i = show_nat j -> i = j.
Proof. exact show_nat_inj. Qed.
Print Assumptions C56_index_names_distinct.
Example C56_nonvacuous :
  let s := random_uniform_scene (fun n => map (fun i => (INR i, 0)) (seq 0 n)) 1 1 1 in
  length (map (fun i => (INR i, 0)) (seq 0 4)) = 4%nat /\
  pd_items (transmitters s) = [("tx_0"%string, (INR 0, 0))] /\
  objects s = [OWall (mkwall (INR 1, 0) (INR 2, 0))] /\
  pd_items (receivers s) = [("rx_0"%string, (INR 3, 0))].
Proof. repeat split. Qed.
Example C56_two_digit_name : ("tx_" ++ show_nat 12)%string = "tx_12"%string.
Proof. reflexivity. Qed.

(** C57 *)
Theorem C57_walls_and_nodes :
  forall d fs rings tl rl, has_entry d "features" (JArr fs) -> Forall2 brings fs rings ->
  exists s, from_geojson d tl rl = Ok s /\
    (exists ws, Forall2 cyclic_walls rings ws /\ objects s = concat ws) /\
    (concat rings = [] ->
       represents (transmitters s) [("tx"%string, (0, 0))] /\ represents (receivers s) [("rx"%string, (1, 1))]) /\
    (concat rings <> [] -> exists b, tight_box b (concat rings) /\
       represents (transmitters s) [("tx"%string, get_location b tl)] /\
       represents (receivers s) [("rx"%string, get_location b rl)]).
Proof. exact C57_lemma. Qed.
Print Assumptions C57_walls_and_nodes.
Theorem C57_closed_ring_has_a_zero_length_wall :
  forall p l ws, cyclic_walls (p :: l ++ [p]) ws ->
  length ws = (length l + 2)%nat /\ nth_error ws 0 = Some (OWall (mkwall p p)) /\
  forall i, (i <= length l)%nat ->
    nth_error ws (S i) = Some (OWall (mkwall (nth i (p :: l) (0,0)) (nth i (l ++ [p]) (0,0)))).
Proof. exact C57_closed. Qed.
Print Assumptions C57_closed_ring_has_a_zero_length_wall.
Theorem C57_no_features_member :
  forall d tl rl, lacks_entry d "features" ->
  exists s, from_geojson d tl rl = Ok s /\ objects s = [] /\
    represents (transmitters s) [("tx"%string, (0, 0))] /\ represents (receivers s) [("rx"%string, (1, 1))].
Proof. exact C57_no_features. Qed.
Print Assumptions C57_no_features_member.

(** By default the transmitter is in the upper left corner of the walls and the
    receiver in the lower right one. *)
Theorem C57_default_corners :
  forall d fs rings, has_entry d "features" (JArr fs) -> Forall2 brings fs rings -> concat rings <> [] ->
  exists s x0 y0 x1 y1, from_geojson d DEFAULT_TX_LOC DEFAULT_RX_LOC = Ok s /\ tight_box ((x0, y0), (x1, y1)) (concat rings) /\
    represents (transmitters s) [("tx"%string, (x0, y1))] /\ represents (receivers s) [("rx"%string, (x1, y0))].
Proof.
  intros d fs rings Hd HB N. destruct (C57_lemma d fs rings DEFAULT_TX_LOC DEFAULT_RX_LOC Hd HB) as (s & E & _ & _ & H).
  destruct (H N) as ([[x0 y0] [x1 y1]] & Tb & T & R). exists s, x0, y0, x1, y1. auto.
Qed.
Print Assumptions C57_default_corners.
(** Positions must be pairs: a polygon with altitudes is a type error, whatever comes
    after it. *)
Theorem C57_altitudes_are_rejected :
  forall k d pre f post rings tl rl, k <> 2%nat ->
  has_entry d "features" (JArr (pre ++ f :: post)) -> Forall2 brings pre rings -> polygon_of k f ->
  from_geojson d tl rl = Err TypeCheckError.
Proof. intros. eapply feature_error; eauto using altitude_fails. Qed.
Print Assumptions C57_altitudes_are_rejected.

Definition ex_polygon (ring : list vec) : json :=
  JObj [("type"%string, JStr "Feature");
        ("geometry"%string, JObj [("type"%string, JStr "Polygon");
                                  ("coordinates"%string, JArr [JArr (map position_json ring)])])].
Definition ex_document (fs : list json) : json :=
  JObj [("type"%string, JStr "FeatureCollection"); ("features"%string, JArr fs)].
Definition ex_line : json :=
  JObj [("geometry"%string, JObj [("type"%string, JStr "LineString");
        ("coordinates"%string, JArr [JArr [JNum 0; JNum 0]; JArr [JNum 1; JNum 1]])])].
Definition ex_point : json :=
  JObj [("geometry"%string, JObj [("type"%string, JStr "Point");
        ("coordinates"%string, JArr [JNum 0; JNum 0])])].
Local Ltac entry := eexists; split; [reflexivity|]; split;
  [cbn; repeat constructor; cbn; intuition discriminate|cbn; auto].
Lemma ex_document_features fs : has_entry (ex_document fs) "features" (JArr fs).
Proof. entry. Qed.
Lemma ex_polygon_brings ring : brings (ex_polygon ring) ring.
Proof.
  apply brings_polygon. exists []. eexists. split; [entry|]. split; entry.
Qed.
Lemma ex_line_brings : brings ex_line [].
Proof.
  apply brings_other. exists "LineString"%string. do 2 eexists. split; [discriminate|].
  eexists. split; [entry|]. split; entry.
Qed.
Lemma ex_null_brings : brings (JObj [("geometry"%string, JNull)]) [].
Proof. apply brings_nothing. right. entry. Qed.
Example C57_altitude_nonvacuous :
  polygon_of 3 (JObj [("geometry"%string, JObj [("type"%string, JStr "Polygon");
    ("coordinates"%string, JArr [JArr [JArr [JNum 0; JNum 0; JNum 5]; JArr [JNum 1; JNum 0; JNum 5]]])])]).
Proof.
  exists [0; 0; 5], [[1; 0; 5]], []. split; [|repeat constructor]. eexists. split; [entry|]. split; entry.
Qed.
Example C57_nonvacuous :
  Forall2 brings [ex_polygon [(0,0); (1,0); (0,1); (0,0)]; ex_line; JObj [("geometry"%string, JNull)]]
                 [[(0,0); (1,0); (0,1); (0,0)]; []; []].
Proof.
  apply Forall2_cons; [apply ex_polygon_brings|]. apply Forall2_cons; [apply ex_line_brings|].
  apply Forall2_cons; [apply ex_null_brings|constructor].
Qed.

(** C58 *)
Theorem C58_point_feature_is_an_error :
  forall d pre f post rings t x rest tl rl,
  has_entry d "features" (JArr (pre ++ f :: post)) -> Forall2 brings pre rings ->
  geometry_feature f t (JArr (JNum x :: rest)) ->
  from_geojson d tl rl = Err TypeError.
Proof. intros. eapply feature_error; eauto using point_fails. Qed.
Print Assumptions C58_point_feature_is_an_error.
Theorem C58_empty_coordinates :
  forall d pre f post rings t tl rl,
  has_entry d "features" (JArr (pre ++ f :: post)) -> Forall2 brings pre rings ->
  geometry_feature f t (JArr []) ->
  from_geojson d tl rl = Err IndexError.
Proof. intros. eapply feature_error; eauto using empty_fails. Qed.
Print Assumptions C58_empty_coordinates.
Theorem C58_missing_coordinates :
  forall d pre f post rings g k v tl rl,
  has_entry d "features" (JArr (pre ++ f :: post)) -> Forall2 brings pre rings ->
  has_entry f "geometry" g -> has_entry g k v ->
  lacks_entry g "type" \/ lacks_entry g "coordinates" ->
  from_geojson d tl rl = Err KeyError.
Proof. intros. eapply feature_error; eauto using no_coordinates_fails. Qed.
Print Assumptions C58_missing_coordinates.
Theorem C58_other_geometries_are_ignored :
  forall d fs tl rl, has_entry d "features" (JArr fs) -> Forall other_shape fs ->
  exists s, from_geojson d tl rl = Ok s /\ objects s = [].
Proof.
  intros d fs tl rl Hd HF.
  destruct (C57_lemma d fs (map (fun _ => []) fs) tl rl Hd) as (s & E & (ws & Hw & Ho) & _).
  - clear Hd. induction HF; constructor; auto. constructor 3; auto.
  - exists s. split; [exact E|]. rewrite Ho. clear -Hw. revert ws Hw.
    induction fs as [|f fs IH]; intros ws Hw; inversion Hw as [|a b c d0 [L _] H2]; subst; [reflexivity|].
    destruct b; [|discriminate]. cbn. auto.
Qed.
Print Assumptions C58_other_geometries_are_ignored.
Example C58_nonvacuous :
  has_entry (ex_document ([ex_polygon [(0,0); (1,0); (0,1)]] ++ ex_point :: [])) "features"
    (JArr ([ex_polygon [(0,0); (1,0); (0,1)]] ++ ex_point :: [])) /\
  Forall2 brings [ex_polygon [(0,0); (1,0); (0,1)]] [[(0,0); (1,0); (0,1)]] /\
  geometry_feature ex_point "Point" (JArr [JNum 0; JNum 0]).
Proof.
  split; [entry|]. split; [apply Forall2_cons; [apply ex_polygon_brings|constructor]|].
  eexists. split; [entry|]. split; entry.
Qed.

(** Documents of another shape: the document and its features must be objects, the features
    a list, the geometry an object, its coordinates and rings lists. *)
Theorem C58_not_an_object :
  (forall d tl rl, ~ is_object d -> from_geojson d tl rl = Err AttributeError) /\
  (forall d v tl rl, has_entry d "features" v -> is_scalar v -> from_geojson d tl rl = Err TypeError) /\
  (forall d pre f post rings tl rl,
   has_entry d "features" (JArr (pre ++ f :: post)) -> Forall2 brings pre rings ->
   ~ is_object f -> from_geojson d tl rl = Err AttributeError) /\
  (forall d pre f post rings g tl rl,
   has_entry d "features" (JArr (pre ++ f :: post)) -> Forall2 brings pre rings ->
   has_entry f "geometry" g -> ~ is_object g -> jtruthy g = true -> from_geojson d tl rl = Err TypeError).
Proof.
  split; [|split; [|split]].
  - intros d tl rl N. unfold from_geojson. destruct d; try reflexivity. elim N. eexists. reflexivity.
  - intros d v tl rl Hd [->|[[b ->]|[r ->]]]; unfold from_geojson; rewrite (jget_has _ _ _ _ Hd); reflexivity.
  - intros d pre f post rings tl rl Hd HB N. eapply feature_error; eauto. unfold feature_walls.
    destruct f; try reflexivity. elim N. eexists. reflexivity.
  - intros d pre f post rings g tl rl Hd HB Hf N Tr. eapply feature_error; eauto. unfold feature_walls.
    rewrite (jget_has _ _ _ _ Hf). cbn [rbind]. rewrite Tr. destruct g; try reflexivity. elim N. eexists. reflexivity.
Qed.
Print Assumptions C58_not_an_object.
Theorem C58_coordinates_of_another_shape :
  forall d pre f post rings t cs tl rl,
  has_entry d "features" (JArr (pre ++ f :: post)) -> Forall2 brings pre rings ->
  geometry_feature f t cs ->
  (is_object cs -> from_geojson d tl rl = Err KeyError) /\
  (is_scalar cs -> from_geojson d tl rl = Err TypeError) /\
  (forall x rest, cs = JArr (x :: rest) -> is_scalar x -> from_geojson d tl rl = Err TypeError) /\
  (forall kv l rest, cs = JArr (JObj (kv :: l) :: rest) -> t = "Polygon"%string -> from_geojson d tl rl = Err KeyError).
Proof.
  intros d pre f post rings t cs tl rl Hd HB (g & Hf & Ht & Hc).
  assert (F : feature_walls f = rbind (jfirst cs) (fun coordinates => rbind (jlen coordinates) (fun _ =>
    if String.eqb t "Polygon" then rbind (ring_items coordinates) ring_walls else Ok []))).
  { unfold feature_walls. rewrite (jget_has _ _ _ _ Hf). cbn [rbind].
    rewrite (has_truthy _ _ _ Ht), (jitem_has _ _ _ Ht). cbn [rbind]. rewrite (jitem_has _ _ _ Hc). reflexivity. }
  split; [|split; [|split]].
  - intros [l ->]. eapply feature_error; eauto.
  - intros [->|[[b ->]|[r ->]]]; eapply feature_error; eauto.
  - intros x rest -> [->|[[b ->]|[r ->]]]; eapply feature_error; eauto.
  - intros kv l rest -> ->. eapply feature_error; eauto.
Qed.
Print Assumptions C58_coordinates_of_another_shape.
Example C58_shapes_ex :
  ~ is_object (JArr [ex_point]) /\ is_object (JObj [("a"%string, JNull)]) /\
  from_geojson (JArr [ex_point]) DEFAULT_TX_LOC DEFAULT_RX_LOC = Err AttributeError /\
  let f := JObj [("geometry"%string, JObj [("type"%string, JStr "Polygon"); ("coordinates"%string, JArr [JObj [("a"%string, JNull)]])])] in
  geometry_feature f "Polygon" (JArr [JObj [("a"%string, JNull)]]) /\
  has_entry (ex_document ([ex_polygon [(0,0); (1,0); (0,1)]] ++ f :: [])) "features" (JArr ([ex_polygon [(0,0); (1,0); (0,1)]] ++ f :: [])).
Proof.
  split; [intros [l H]; discriminate|]. split; [eexists; reflexivity|]. split; [reflexivity|].
  split; [eexists; split; [entry|]; split; entry|entry].
Qed.

(** C59 *)
Theorem C59_square_scene :
  forall tx rx, let s := square_scene tx rx in
  represents (transmitters s) [("tx"%string, tx)] /\ represents (receivers s) [("rx"%string, rx)] /\
  (exists ws, objects s = map OWall ws /\ map w_origin ws = square_corners 0 0 1 1 /\ closed_outline ws) /\
  (in_unit tx -> in_unit rx -> scene_bbox s = Ok ((0,0),(1,1))).
Proof. exact C59_square. Qed.
Print Assumptions C59_square_scene.
Theorem C59_square_scene_with_wall :
  forall ratio tx rx, let s := square_scene_with_wall ratio tx rx in
  represents (transmitters s) [("tx"%string, tx)] /\ represents (receivers s) [("rx"%string, rx)] /\
  (exists w, objects s = objects (square_scene tx rx) ++ [OWall w] /\
     fst (w_origin w) = 1/2 /\ fst (w_dest w) = 1/2 /\ (snd (w_origin w) + snd (w_dest w)) / 2 = 1/2 /\
     snd (w_dest w) - snd (w_origin w) = ratio) /\
  (0 <= ratio <= 1 -> in_unit tx -> in_unit rx -> scene_bbox s = Ok ((0,0),(1,1))).
Proof. exact C59_wall. Qed.
Print Assumptions C59_square_scene_with_wall.
Theorem C59_square_scene_with_obstacle :
  forall ratio tx rx, let s := square_scene_with_obstacle ratio tx rx in
  represents (transmitters s) [("tx"%string, tx)] /\ represents (receivers s) [("rx"%string, rx)] /\
  (exists ws, objects s = objects (square_scene tx rx) ++ map OWall ws /\
     map w_origin ws = square_corners (1/2 - ratio / 2) (1/2 - ratio / 2) (1/2 + ratio / 2) (1/2 + ratio / 2) /\
     closed_outline ws) /\
  (0 <= ratio <= 1 -> in_unit tx -> in_unit rx -> scene_bbox s = Ok ((0,0),(1,1))).
Proof. exact C59_obstacle. Qed.
Print Assumptions C59_square_scene_with_obstacle.
(** The inner walls of the basic scene close a room in the lower left corner, up to
    an entrance. *)
Theorem C59_basic_scene :
  forall tx rx, let s := basic_scene tx rx in
  represents (transmitters s) [("tx"%string, tx)] /\ represents (receivers s) [("rx"%string, rx)] /\
  (exists inner, objects s = objects (square_scene tx rx) ++ map OWall inner /\ length inner = 3%nat /\
     Forall proper inner /\
     forall q, (exists w, In w inner /\ on_segment (w_origin w) (w_dest w) q) <->
       (fst q = 4/10 /\ 0 <= snd q <= 4/10) \/ (snd q = 4/10 /\ (0 <= fst q <= 1/10 \/ 3/10 <= fst q <= 4/10))) /\
  (in_unit tx -> in_unit rx -> scene_bbox s = Ok ((0,0),(1,1))).
Proof. exact C59_basic. Qed.
Print Assumptions C59_basic_scene.
Theorem C59_default_nodes_are_in_the_room :
  Forall in_unit [BASIC_TX; BASIC_RX; SQUARE_TX; SQUARE_RX; SQUARE_WALL_TX; SQUARE_WALL_RX].
Proof. exact C59_defaults. Qed.
Print Assumptions C59_default_nodes_are_in_the_room.
