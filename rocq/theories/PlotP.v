(** Proofs about plotting. *)
From Coq Require Import Reals List Bool String Lia.
From Verif Require Import Base BaseP GeometryM PathM SceneM SpecScene SceneP SceneOpsP PlotM SpecPlot.
Import ListNotations.
Open Scope string_scope.
Local Notation length := List.length.

(** ** Keyword arguments *)
Lemma kw_mem_get d k : kw_mem d k = match kw_get d k with Some _ => true | None => false end.
Proof. induction d as [|[k' v] d IH]; [reflexivity|]. cbn. destruct (String.eqb k k'); auto. Qed.
Lemma kw_get_app a b k : kw_get (a ++ b)%list k = match kw_get a k with Some v => Some v | None => kw_get b k end.
Proof. induction a as [|[k' v] a IH]; [reflexivity|]. cbn. destruct (String.eqb k k'); auto. Qed.
Lemma kw_get_del d j k : kw_get (kw_del d j) k = if String.eqb k j then None else kw_get d k.
Proof.
  unfold kw_del. induction d as [|[k' v] d IH]; [cbn; destruct (String.eqb k j); auto|]. cbn [filter kw_get].
  destruct (String.eqb_spec j k') as [->|N]; cbn [negb kw_get].
  - rewrite IH. destruct (String.eqb k k'); auto.
  - rewrite IH. destruct (String.eqb_spec k k') as [->|M]; auto. destruct (String.eqb_spec k' j); [congruence|auto].
Qed.
Lemma kw_get_setdefault d j v k : kw_get (setdefault d j v) k =
  match kw_get d k with Some w => Some w | None => if String.eqb k j then Some v else None end.
Proof.
  unfold setdefault. rewrite kw_mem_get. destruct (kw_get d j) eqn:E.
  - destruct (kw_get d k) eqn:F; auto. destruct (String.eqb_spec k j); [congruence|auto].
  - rewrite kw_get_app. cbn. destruct (kw_get d k); auto.
Qed.
Lemma kw_get_first j v d k : kw_get (kw_default_first j v d) k =
  match kw_get d k with Some w => Some w | None => if String.eqb k j then Some v else None end.
Proof.
  unfold kw_default_first. destruct (kw_get d j) as [v'|] eqn:E; cbn.
  - destruct (String.eqb_spec k j) as [->|N]; [rewrite E; auto|]. rewrite kw_get_del.
    destruct (String.eqb_spec k j); [contradiction|]. destruct (kw_get d k); auto.
  - destruct (String.eqb_spec k j) as [->|N]; [rewrite E; auto|]. destruct (kw_get d k); auto.
Qed.
Lemma kw_get_in d k : kw_get d k <> None <-> In k (map fst d).
Proof.
  induction d as [|[k' v] d IH]; cbn; [tauto|]. destruct (String.eqb_spec k k') as [->|N].
  - split; [auto|discriminate].
  - rewrite IH. split; [auto|intros [E|E]; [congruence|auto]].
Qed.
Lemma kw_merge_ok a b : disjoint_kw a b -> kw_merge a b = Ok (a ++ b)%list.
Proof.
  intro D. unfold kw_merge. replace (existsb (fun '(k, _) => kw_mem a k) b) with false; auto. symmetry.
  destruct (existsb _ b) eqn:E; auto. apply existsb_exists in E. destruct E as ([k v] & I & M).
  rewrite kw_mem_get in M. destruct (kw_get a k) eqn:G; [|discriminate].
  assert (X : kw_get b k = None) by (apply D; congruence).
  assert (Y : kw_get b k <> None) by (apply kw_get_in, in_map_iff; exists (k, v); auto). contradiction.
Qed.
Lemma kw_merge_clash a b k : kw_get a k <> None -> kw_get b k <> None -> kw_merge a b = Err TypeError.
Proof.
  intros A B. unfold kw_merge. replace (existsb (fun '(k, _) => kw_mem a k) b) with true; auto. symmetry.
  apply kw_get_in, in_map_iff in B. destruct B as ([k' v] & E & I). cbn in E. subst k'.
  apply existsb_exists. exists (k, v). split; auto. rewrite kw_mem_get. destruct (kw_get a k); [auto|contradiction].
Qed.
Lemma kw_reserved_ok names d : (forall k, In k names -> kw_get d k = None) -> kw_reserved names d = Ok d.
Proof.
  intro H. unfold kw_reserved. replace (existsb (fun k => kw_mem d k) names) with false; auto. symmetry.
  destruct (existsb _ names) eqn:E; auto. apply existsb_exists in E. destruct E as (k & I & M).
  rewrite kw_mem_get, (H k I) in M. discriminate.
Qed.

(** ** Drawing actions that make known calls *)
Definition makes (ax : axes) (m : plotting (list artist)) (Q : list axcall -> Prop) : Prop :=
  forall tr, exists calls l, Q calls /\ m tr = ((tr ++ calls)%list, Ok l) /\ answers ax tr calls = Ok l.
Lemma answers_app ax calls calls' : forall tr l l', answers ax tr calls = Ok l -> answers ax (tr ++ calls)%list calls' = Ok l' ->
  answers ax tr (calls ++ calls')%list = Ok (l ++ l')%list.
Proof.
  induction calls as [|c calls IH]; intros tr l l' H H'.
  - cbn in H. injection H as <-. rewrite app_nil_r in H'. auto.
  - cbn in H |- *. destruct (answer ax tr c) as [a|]; cbn [rbind] in *; [|discriminate].
    destruct (answers ax (tr ++ [c])%list calls) as [b|] eqn:E; cbn [rbind] in *; [|discriminate]. injection H as <-.
    rewrite (IH (tr ++ [c])%list b l'); auto.
    + cbn. rewrite app_assoc. reflexivity.
    + rewrite <- app_assoc. exact H'.
Qed.
Lemma makes_each {A} ax (f : A -> plotting (list artist)) Q l : (forall x, In x l -> makes ax (f x) (Q x)) ->
  makes ax (plot_each f l) (draws_each Q l).
Proof.
  induction l as [|x l IH]; intros H tr.
  - exists [], []. split; [exists []; split; auto|]. cbn. rewrite app_nil_r. auto.
  - destruct (H x (or_introl eq_refl) tr) as (c1 & l1 & Q1 & E1 & A1).
    destruct (IH (fun y I => H y (or_intror I)) (tr ++ c1)%list) as (c2 & l2 & (gs & F & G) & E2 & A2).
    exists (c1 ++ c2)%list, (l1 ++ l2)%list. split; [|split].
    + exists (c1 :: gs). split; [constructor; auto|]. cbn. subst c2. reflexivity.
    + cbn [plot_each]. unfold pbind. rewrite E1, E2. unfold preturn. rewrite app_assoc. reflexivity.
    + apply answers_app; auto.
Qed.

Lemma accepts_scatter ax tr c p a k : accepts_all ax -> c = Scatter p a k -> exists x, ax_scatter ax tr c = Ok x.
Proof. intros H ->. destruct (H tr (Scatter p a k)) as [l E]. cbn in E. destruct (ax_scatter ax tr (Scatter p a k)); [eauto|discriminate]. Qed.
Lemma accepts_annotate ax tr c t p q k : accepts_all ax -> c = Annotate t p q k -> exists x, ax_annotate ax tr c = Ok x.
Proof. intros H ->. destruct (H tr (Annotate t p q k)) as [l E]. cbn in E. destruct (ax_annotate ax tr (Annotate t p q k)); [eauto|discriminate]. Qed.
Lemma vadd_zero p : vadd p (0, 0)%R = p.
Proof. destruct p. unfold vadd. cbn. f_equal; ring. Qed.

Lemma point_makes ax p args kw label specific general defaults : accepts_all ax ->
  kw_get kw "self" = None -> kw_get kw "ax" = None -> kw_get kw "annotate_offset" = None -> kw_get kw "annotate_kwargs" = None ->
  kw_get kw "annotate" = match label with Some (Some s) => Some (VStr s) | Some None => Some VNone | None => None end ->
  (forall k, k <> "annotate" -> k <> "annotate_offset" -> k <> "annotate_kwargs" ->
     match kw_get kw k with Some v => Some v | None => if String.eqb k "marker" then Some (VStr "o") else if String.eqb k "color" then Some (VStr "red") else None end =
     match kw_get specific k with Some v => Some v | None => match kw_get general k with Some v => Some v | None => kw_get defaults k end end) ->
  (forall k, In k ["annotate"; "annotate_offset"; "annotate_kwargs"] -> kw_get specific k = None /\ kw_get general k = None /\ kw_get defaults k = None) ->
  makes ax (Point_plot ax p args kw) (draws_point p (match label with Some (Some s) => Some s | _ => None end) args specific general defaults).
Proof.
  intros AX S A O K L ST NO tr. unfold Point_plot.
  rewrite (kw_reserved_ok ["self"; "ax"]) by (intros k [<-|[<-|[]]]; auto). unfold pbind at 1, plift at 1. rewrite O, K, L.
  set (kw' := setdefault (setdefault (kw_del (kw_del (kw_del kw "annotate") "annotate_offset") "annotate_kwargs") "marker" (VStr "o")) "color" (VStr "red")).
  assert (SK : styled specific general defaults kw').
  { intro k. unfold kw'. rewrite !kw_get_setdefault, !kw_get_del.
    destruct (String.eqb_spec k "annotate_kwargs") as [->|N1].
    { destruct (NO "annotate_kwargs") as (-> & -> & ->); cbn; auto. }
    destruct (String.eqb_spec k "annotate_offset") as [->|N2].
    { destruct (NO "annotate_offset") as (-> & -> & ->); cbn; auto. }
    destruct (String.eqb_spec k "annotate") as [->|N3].
    { destruct (NO "annotate") as (-> & -> & ->); cbn; auto. }
    rewrite <- (ST k N3 N2 N1). destruct (kw_get kw k); auto. destruct (String.eqb k "marker"); auto. }
  destruct (accepts_scatter ax tr (Scatter p args kw') p args kw' AX eq_refl) as [a Ea].
  unfold pbind at 1, pcall at 1. rewrite Ea.
  assert (T : py_true match match label with Some (Some s) => Some (VStr s) | Some None => Some VNone | None => None end with Some v => v | None => VNone end =
    match label with Some (Some s) => negb (String.eqb s "") | _ => false end) by (destruct label as [[s|]|]; reflexivity).
  rewrite T. destruct label as [[s|]|]; [destruct (String.eqb s "") eqn:Es|..]; cbn [negb].
  - exists [Scatter p args kw'], [a]. split; [exists kw'; rewrite Es; auto|]. split; [reflexivity|]. cbn. rewrite Ea. reflexivity.
  - unfold as_offset, as_kwargs. unfold pbind, plift. cbn [kw_reserved existsb kw_mem]. rewrite vadd_zero. unfold kw_reserved. cbn [existsb kw_mem orb].
    destruct (accepts_annotate ax (tr ++ [Scatter p args kw'])%list (Annotate (VStr s) p p []) _ p p [] AX eq_refl) as [b Eb].
    unfold pcall. rewrite Eb.
    exists [Scatter p args kw'; Annotate (VStr s) p p []], [a; b]. split; [exists kw'; rewrite Es; auto|]. split.
    + unfold preturn. rewrite <- app_assoc. reflexivity.
    + cbn. rewrite Ea. cbn. rewrite Eb. reflexivity.
  - exists [Scatter p args kw'], [a]. split; [exists kw'; auto|]. split; [reflexivity|]. cbn. rewrite Ea. reflexivity.
  - exists [Scatter p args kw'], [a]. split; [exists kw'; auto|]. split; [reflexivity|]. cbn. rewrite Ea. reflexivity.
Qed.
Lemma point_label ax p args kw s dx dy v d before : accepts_all ax -> plain_kw kw -> s <> "" ->
  (forall k, In k ["xy"; "xytext"; "text"] -> kw_get d k = None) ->
  v = VDict d \/ v = VNone /\ d = [] ->
  exists kw' l, styled kw [] [("color", VStr "red"); ("marker", VStr "o")] kw' /\
    Point_plot ax p args (kw ++ [("annotate", VStr s); ("annotate_offset", VPair dx dy); ("annotate_kwargs", v)])%list before =
      ((before ++ [Scatter p args kw'; Annotate (VStr s) p ((fst p + dx)%R, (snd p + dy)%R) d])%list, Ok l) /\
    answers ax before [Scatter p args kw'; Annotate (VStr s) p ((fst p + dx)%R, (snd p + dy)%R) d] = Ok l.
Proof.
  intros AX PK S D V. assert (KV : as_kwargs (Some v) = Ok d) by (destruct V as [->|[-> ->]]; reflexivity). set (full := (kw ++ [("annotate", VStr s); ("annotate_offset", VPair dx dy); ("annotate_kwargs", v)])%list).
  assert (GET : forall k, kw_get full k = match kw_get kw k with Some v => Some v | None =>
    if String.eqb k "annotate" then Some (VStr s) else if String.eqb k "annotate_offset" then Some (VPair dx dy) else if String.eqb k "annotate_kwargs" then Some v else None end).
  { intro k. unfold full. rewrite kw_get_app. cbn [kw_get]. reflexivity. }
  unfold Point_plot. rewrite (kw_reserved_ok ["self"; "ax"]).
  2:{ intros k I. rewrite GET, PK by (cbn in *; tauto). destruct I as [<-|[<-|[]]]; reflexivity. }
  unfold pbind at 1, plift at 1. rewrite !(GET "annotate"), !(GET "annotate_offset"), !(GET "annotate_kwargs"), !PK by (cbn; tauto).
  set (kw' := setdefault (setdefault (kw_del (kw_del (kw_del full "annotate") "annotate_offset") "annotate_kwargs") "marker" (VStr "o")) "color" (VStr "red")).
  assert (SK : styled kw [] [("color", VStr "red"); ("marker", VStr "o")] kw').
  { intro k. unfold kw'. rewrite !kw_get_setdefault, !kw_get_del, GET.
    destruct (String.eqb_spec k "annotate_kwargs") as [->|N1]; [rewrite PK by (cbn; tauto); reflexivity|].
    destruct (String.eqb_spec k "annotate_offset") as [->|N2]; [rewrite PK by (cbn; tauto); reflexivity|].
    destruct (String.eqb_spec k "annotate") as [->|N3]; [rewrite PK by (cbn; tauto); reflexivity|].
    cbn [kw_get]. destruct (kw_get kw k); [reflexivity|].
    destruct (String.eqb_spec k "color") as [->|N4]; [reflexivity|]. destruct (String.eqb k "marker"); reflexivity. }
  destruct (accepts_scatter ax before (Scatter p args kw') p args kw' AX eq_refl) as [a Ea].
  unfold pbind at 1, pcall at 1. rewrite Ea. cbn [String.eqb Ascii.eqb Bool.eqb py_true].
  replace (String.eqb s "") with false by (symmetry; apply String.eqb_neq; auto). cbn [negb].
  unfold as_offset. rewrite KV. clear KV. unfold pbind, plift. rewrite (kw_reserved_ok ["xy"; "xytext"; "text"]) by exact D.
  set (q := ((fst p + dx)%R, (snd p + dy)%R)). change (vadd p (dx, dy)) with q.
  destruct (accepts_annotate ax (before ++ [Scatter p args kw'])%list (Annotate (VStr s) p q d) _ p q d AX eq_refl) as [b Eb].
  unfold pcall. rewrite Eb. exists kw', [a; b]. split; [exact SK|]. split.
  - unfold preturn. rewrite <- app_assoc. reflexivity.
  - cbn. rewrite Ea. cbn. rewrite Eb. reflexivity.
Qed.
Lemma line_makes ax color pts args kw specific general : accepts_all ax ->
  kw_get kw "self" = None -> kw_get kw "ax" = None ->
  (forall k, kw_get kw k = match kw_get specific k with Some v => Some v | None => kw_get general k end) ->
  makes ax (line_plot color ax pts args kw) (draws_line pts color args specific general).
Proof.
  intros AX S A ST tr. unfold line_plot. rewrite (kw_reserved_ok ["self"; "ax"]) by (intros k [<-|[<-|[]]]; auto).
  unfold pbind, plift, pcall. set (kw' := setdefault kw "color" (VStr color)).
  destruct (AX tr (Line pts args kw')) as [l E]. exists [Line pts args kw'], l. cbn in E. rewrite E. split; [|split].
  - exists kw'. split; auto. intro k. unfold kw'. rewrite kw_get_setdefault, ST. cbn.
    destruct (kw_get specific k); auto.
  - reflexivity.
  - cbn. rewrite E. cbn. rewrite app_nil_r. reflexivity.
Qed.
Ltac names := repeat match goal with |- context [String.eqb ?a ?b] => destruct (String.eqb_spec a b); subst; try discriminate end.
Lemma node_makes ax annotate args user general color node : accepts_all ax ->
  plain_kw user -> plain_kw general -> disjoint_kw user general -> kw_get general "color" = None ->
  makes ax (node_plot ax annotate args (kw_default_first "color" (VStr color) user) general node)
    (draws_node color annotate args user general node).
Proof.
  intros AX PU PG D C tr. unfold node_plot.
  assert (U : forall k, In k ["self"; "ax"; "annotate"; "annotate_offset"; "annotate_kwargs"] -> kw_get (kw_default_first "color" (VStr color) user) k = None).
  { intros k I. rewrite kw_get_first, (PU k I). cbn in I. destruct (String.eqb_spec k "color"); [|auto]. subst. intuition discriminate. }
  rewrite kw_merge_ok.
  2:{ intros k H. cbn in H. destruct (String.eqb_spec k "annotate"); [subst; apply U; cbn; auto|congruence]. }
  unfold pbind at 1, plift at 1. rewrite kw_merge_ok.
  2:{ intros k H. rewrite kw_get_app in H. cbn in H. destruct (String.eqb_spec k "annotate"); [subst; apply PG; cbn; auto|].
      rewrite kw_get_first in H. destruct (kw_get user k) eqn:E; [apply D; congruence|].
      destruct (String.eqb_spec k "color"); [subst; auto|congruence]. }
  unfold pbind at 1, plift at 1.
  set (kw := (([("annotate", if annotate then VStr (fst node) else VNone)] ++ kw_default_first "color" (VStr color) user) ++ general)%list).
  assert (GET : forall k, kw_get kw k = if String.eqb k "annotate" then Some (if annotate then VStr (fst node) else VNone)
    else match kw_get user k with Some v => Some v | None => if String.eqb k "color" then Some (VStr color) else kw_get general k end).
  { intro k. unfold kw. rewrite !kw_get_app. cbn [kw_get]. destruct (String.eqb k "annotate"); auto.
    rewrite kw_get_first. destruct (kw_get user k); auto. destruct (String.eqb k "color"); auto. }
  assert (Z : forall k, In k ["self"; "ax"; "annotate_offset"; "annotate_kwargs"] -> kw_get kw k = None).
  { intros k I. rewrite GET. rewrite (PU k), (PG k) by (cbn in *; tauto). cbn in I.
    destruct (String.eqb_spec k "annotate"); [subst; intuition discriminate|]. destruct (String.eqb_spec k "color"); [subst; intuition discriminate|auto]. }
  pose proof (point_makes ax (snd node) args kw (Some (if annotate then Some (fst node) else None)) user general [("color", VStr color); ("marker", VStr "o")] AX) as M.
  unfold draws_node. assert (EL : match Some (if annotate then Some (fst node) else None) with Some (Some s) => Some s | _ => None end =
    (if annotate then Some (fst node) else None)) by (destruct annotate; auto). cbv iota in M, EL. rewrite EL in M. apply M.
  - apply Z; cbn; auto.
  - apply Z; cbn; auto.
  - apply Z; cbn; auto.
  - apply Z; cbn; auto.
  - rewrite GET. cbn. destruct annotate; auto.
  - intros k N1 N2 N3. rewrite GET. destruct (String.eqb_spec k "annotate"); [contradiction|].
    destruct (kw_get user k) eqn:E; auto. cbn [kw_get]. destruct (String.eqb_spec k "color") as [->|NC].
    + rewrite C. auto.
    + destruct (kw_get general k); auto. 
  - intros k I. rewrite (PU k), (PG k) by (cbn in *; tauto). repeat split. cbn in I |- *.
    destruct (String.eqb_spec k "color"); [subst; intuition discriminate|]. destruct (String.eqb_spec k "marker"); [subst; intuition discriminate|auto].
Qed.
Lemma object_makes ax args user general o : accepts_all ax -> plain_kw user -> plain_kw general -> disjoint_kw user general ->
  makes ax (pbind (plift (kw_merge user general)) (fun d => obj_plot ax o args d)) (draws_object args user general o).
Proof.
  intros AX PU PG D tr. rewrite kw_merge_ok by auto. unfold pbind at 1, plift at 1.
  assert (Z : forall k, In k ["self"; "ax"; "annotate"; "annotate_offset"; "annotate_kwargs"] -> kw_get (user ++ general)%list k = None).
  { intros k I. rewrite kw_get_app, (PU k I), (PG k I). reflexivity. }
  destruct o as [w|w phi|q]; cbn [obj_plot draws_object].
  - apply line_makes; auto; [apply Z; cbn; auto..|]. intro k. apply kw_get_app.
  - unfold RIS_plot. rewrite (kw_reserved_ok ["self"; "ax"]) by (intros k [<-|[<-|[]]]; apply Z; cbn; auto). unfold pbind at 1, plift at 1.
    assert (Z' : forall k, k = "self" \/ k = "ax" -> kw_get (setdefault (user ++ general)%list "color" (VStr "green")) k = None).
    { intros k I. rewrite kw_get_setdefault, (Z k) by (cbn; intuition). destruct I; subst; reflexivity. }
    destruct (line_makes ax "blue" [w_origin w; w_dest w] args (setdefault (user ++ general)%list "color" (VStr "green"))
      (setdefault (user ++ general)%list "color" (VStr "green")) [] AX (Z' _ (or_introl eq_refl)) (Z' _ (or_intror eq_refl))) with (tr := tr) as (calls & l & (kw & SK & ->) & E1 & E2).
    { intro k. cbn. destruct (kw_get _ k); auto. }
    exists [Line [w_origin w; w_dest w] args kw], l. split; [|auto]. exists kw. split; auto. intro k. rewrite SK, kw_get_setdefault, kw_get_app. cbn.
    destruct (kw_get user k); auto. destruct (kw_get general k); auto. destruct (String.eqb k "color"); auto.
  - unfold Vertex_plot. rewrite (kw_reserved_ok ["self"; "ax"]) by (intros k [<-|[<-|[]]]; apply Z; cbn; auto). unfold pbind at 1, plift at 1.
    set (kw := setdefault (setdefault (setdefault (user ++ general)%list "edgecolors" (VStr "black")) "facecolors" (VOther 0)) "linestyle" (VStr "dashed")).
    assert (GET : forall k, kw_get kw k = match kw_get (user ++ general)%list k with Some v => Some v | None =>
       if String.eqb k "edgecolors" then Some (VStr "black") else if String.eqb k "facecolors" then Some (VOther 0) else if String.eqb k "linestyle" then Some (VStr "dashed") else None end).
    { intro k. unfold kw. rewrite !kw_get_setdefault. destruct (kw_get (user ++ general)%list k); auto.
      destruct (String.eqb k "edgecolors"); auto. destruct (String.eqb k "facecolors"); auto. }
    assert (Zk : forall k, In k ["self"; "ax"; "annotate"; "annotate_offset"; "annotate_kwargs"] -> kw_get kw k = None).
    { intros k I. rewrite GET, (Z k I). cbn in I. destruct I as [<-|[<-|[<-|[<-|[<-|[]]]]]]; reflexivity. }
    pose proof (point_makes ax q args kw None user general
      [("edgecolors", VStr "black"); ("facecolors", VOther 0); ("linestyle", VStr "dashed"); ("marker", VStr "o"); ("color", VStr "red")] AX) as M.
    apply M; try (apply Zk; cbn; tauto).
    + intros k _ _ _. rewrite GET, kw_get_app. cbn [kw_get]. destruct (kw_get user k); auto. destruct (kw_get general k); auto.
      destruct (String.eqb k "edgecolors"); auto. destruct (String.eqb k "facecolors"); auto. destruct (String.eqb k "linestyle"); auto.
    + intros k I. rewrite (PU k), (PG k) by (cbn in *; tauto). repeat split. cbn in I. destruct I as [<-|[<-|[<-|[]]]]; reflexivity.
Qed.

Lemma C70_lemma ax s pa t r : accepts_all ax -> represents (transmitters s) t -> represents (receivers s) r ->
  plain_kw (pa_kwargs pa) -> kw_get (pa_kwargs pa) "color" = None ->
  (forall d, In d [pa_transmitters_kwargs pa; pa_objects_kwargs pa; pa_receivers_kwargs pa] ->
     plain_kw (or_empty d) /\ disjoint_kw (or_empty d) (pa_kwargs pa)) ->
  makes ax (Scene_plot ax s pa) (fun calls => exists ct co cr, calls = (ct ++ co ++ cr)%list /\
    draws_each (draws_node "blue" (pa_annotate pa) (pa_transmitters_args pa ++ pa_args pa)%list (or_empty (pa_transmitters_kwargs pa)) (pa_kwargs pa))
      (if pa_transmitters pa then t else []) ct /\
    draws_each (draws_object (pa_objects_args pa ++ pa_args pa)%list (or_empty (pa_objects_kwargs pa)) (pa_kwargs pa))
      (if pa_objects pa then objects s else []) co /\
    draws_each (draws_node "green" (pa_annotate pa) (pa_receivers_args pa ++ pa_args pa)%list (or_empty (pa_receivers_kwargs pa)) (pa_kwargs pa))
      (if pa_receivers pa then r else []) cr).
Proof.
  intros AX T R PK CK H tr. pose proof (represents_items _ _ T) as [ET _]. pose proof (represents_items _ _ R) as [ER _].
  destruct (H (pa_transmitters_kwargs pa)) as [P1 D1]; [cbn; auto|]. destruct (H (pa_objects_kwargs pa)) as [P2 D2]; [cbn; auto|].
  destruct (H (pa_receivers_kwargs pa)) as [P3 D3]; [cbn; auto|].
  assert (ME : forall {A} (b : bool) (f : A -> plotting (list artist)) Q l, (forall x, makes ax (f x) (Q x)) ->
    makes ax (if b then plot_each f l else preturn []) (draws_each Q (if b then l else []))).
  { intros A b f Q l M. destruct b; [apply makes_each; auto|]. intro tr0. exists [], []. split; [exists []; auto|].
    unfold preturn. rewrite app_nil_r. auto. }
  unfold Scene_plot. rewrite ET, ER.
  destruct (ME _ (pa_transmitters pa) _ _ t (fun x => node_makes ax (pa_annotate pa) (pa_transmitters_args pa ++ pa_args pa)%list _ _ "blue" x AX P1 PK D1 CK) tr)
    as (ct & l1 & Q1 & E1 & A1).
  unfold pbind at 1. rewrite E1.
  destruct (ME _ (pa_objects pa) _ _ (objects s) (fun x => object_makes ax (pa_objects_args pa ++ pa_args pa)%list _ _ x AX P2 PK D2) (tr ++ ct)%list)
    as (co & l2 & Q2 & E2 & A2).
  unfold pbind at 1. rewrite E2.
  destruct (ME _ (pa_receivers pa) _ _ r (fun x => node_makes ax (pa_annotate pa) (pa_receivers_args pa ++ pa_args pa)%list _ _ "green" x AX P3 PK D3 CK) ((tr ++ ct) ++ co)%list)
    as (cr & l3 & Q3 & E3 & A3).
  unfold pbind at 1. rewrite E3.
  exists (ct ++ co ++ cr)%list, (l1 ++ l2 ++ l3)%list. split; [|split].
  - exists ct, co, cr. auto.
  - unfold preturn. rewrite <- !app_assoc. reflexivity.
  - apply answers_app; auto. apply answers_app; auto. 
Qed.

(** ** A general colour clashes with the default colours of the nodes *)
Lemma node_clash ax annotate args user general color node tr : kw_get general "color" <> None ->
  node_plot ax annotate args (kw_default_first "color" (VStr color) user) general node tr = (tr, Err TypeError).
Proof.
  intro C. unfold node_plot. unfold pbind at 1, plift at 1.
  destruct (kw_merge [("annotate", if annotate then VStr (fst node) else VNone)] (kw_default_first "color" (VStr color) user)) as [d|e] eqn:E.
  - unfold pbind, plift. rewrite (kw_merge_clash _ _ "color"); auto.
    unfold kw_merge in E. destruct (existsb _ _); [discriminate|]. injection E as <-. cbn [kw_get app].
    rewrite kw_get_first. destruct (kw_get user "color"); discriminate.
  - unfold kw_merge in E. destruct (existsb _ _); congruence.
Qed.
Lemma C70_color_lemma ax s pa t r tr : accepts_all ax -> represents (transmitters s) t -> represents (receivers s) r ->
  kw_get (pa_kwargs pa) "color" <> None ->
  (pa_transmitters pa = true -> t <> [] -> Scene_plot ax s pa tr = (tr, Err TypeError)) /\
  (pa_receivers pa = true -> r <> [] -> (pa_transmitters pa = false \/ t = []) -> plain_kw (pa_kwargs pa) ->
   plain_kw (or_empty (pa_objects_kwargs pa)) -> disjoint_kw (or_empty (pa_objects_kwargs pa)) (pa_kwargs pa) ->
   exists co, Scene_plot ax s pa tr = ((tr ++ co)%list, Err TypeError) /\
     draws_each (draws_object (pa_objects_args pa ++ pa_args pa)%list (or_empty (pa_objects_kwargs pa)) (pa_kwargs pa))
      (if pa_objects pa then objects s else []) co).
Proof.
  intros AX T R C. pose proof (represents_items _ _ T) as [ET _]. pose proof (represents_items _ _ R) as [ER _]. split.
  - intros B N. unfold Scene_plot. rewrite B, ET. destruct t as [|x t]; [contradiction|]. cbn [plot_each].
    unfold pbind at 1 2. rewrite node_clash by auto. reflexivity.
  - intros B N H PK PO D. unfold Scene_plot. rewrite ET, ER, B.
    assert (E0 : (if pa_transmitters pa then plot_each (node_plot ax (pa_annotate pa) (pa_transmitters_args pa ++ pa_args pa)%list
       (kw_default_first "color" (VStr "blue") (or_empty (pa_transmitters_kwargs pa))) (pa_kwargs pa)) t else preturn []) tr = (tr, Ok [])).
    { destruct H as [->|E]; [reflexivity|]. rewrite E. destruct (pa_transmitters pa); reflexivity. }
    unfold pbind at 1. rewrite E0.
    assert (M : makes ax (if pa_objects pa then plot_each (fun o => pbind (plift (kw_merge (or_empty (pa_objects_kwargs pa)) (pa_kwargs pa))) (fun d =>
               obj_plot ax o (pa_objects_args pa ++ pa_args pa)%list d)) (objects s) else preturn [])
      (draws_each (draws_object (pa_objects_args pa ++ pa_args pa)%list (or_empty (pa_objects_kwargs pa)) (pa_kwargs pa)) (if pa_objects pa then objects s else []))).
    { destruct (pa_objects pa).
      - apply makes_each. intros x _. apply object_makes; auto.
      - intro tr0. exists [], []. split; [exists []; auto|]. unfold preturn. rewrite app_nil_r. auto. }
    destruct (M tr) as (co & l & Q & E & _). unfold pbind at 1. rewrite E. exists co. split; auto.
    destruct r as [|x r]; [contradiction|]. cbn [plot_each]. unfold pbind at 1 2. rewrite node_clash by auto. reflexivity.
Qed.

(** ** The calls made before are never forgotten *)
Definition grows {A} (m : plotting A) : Prop := forall tr, exists calls, fst (m tr) = (tr ++ calls)%list.
Lemma grows_return {A} (a : A) : grows (preturn a). Proof. intro tr. exists []. symmetry. apply app_nil_r. Qed.
Lemma grows_lift {A} (r : res A) : grows (plift r). Proof. intro tr. exists []. symmetry. apply app_nil_r. Qed.
Lemma grows_call {A} (f : list axcall -> axcall -> res A) c : grows (pcall f c).
Proof. intro tr. exists [c]. reflexivity. Qed.
Lemma grows_bind {A B} (m : plotting A) (f : A -> plotting B) : grows m -> (forall a, grows (f a)) -> grows (pbind m f).
Proof.
  intros M F tr. unfold pbind. destruct (M tr) as [c E]. destruct (m tr) as [tr' [a|e]]; cbn in E; subst tr'; [|exists c; auto].
  destruct (F a (tr ++ c)%list) as [c' E']. exists (c ++ c')%list. rewrite app_assoc. auto.
Qed.
Lemma grows_each {A} (f : A -> plotting (list artist)) l : (forall x, grows (f x)) -> grows (plot_each f l).
Proof.
  intro F. induction l; cbn [plot_each]; [apply grows_return|]. apply grows_bind; auto. intro. apply grows_bind; auto. intro. apply grows_return.
Qed.
Lemma grows_point ax p args kw : grows (Point_plot ax p args kw).
Proof.
  apply grows_bind; [apply grows_lift|]. intro. cbv zeta. apply grows_bind; [apply grows_call|]. intro.
  match goal with |- grows (if ?b then _ else _) => destruct b end; [|apply grows_return].
  repeat (apply grows_bind; [apply grows_lift|intro]). apply grows_bind; [apply grows_call|]. intro. apply grows_return.
Qed.
Lemma grows_line color ax pts args kw : grows (line_plot color ax pts args kw).
Proof. apply grows_bind; [apply grows_lift|]. intro. apply grows_call. Qed.
Lemma grows_object ax o args kw : grows (obj_plot ax o args kw).
Proof.
  destruct o; cbn [obj_plot]; [apply grows_line|apply grows_bind; [apply grows_lift|]; intro; apply grows_line|].
  apply grows_bind; [apply grows_lift|]. intro. apply grows_point.
Qed.
Lemma grows_node ax annotate args kw k node : grows (node_plot ax annotate args kw k node).
Proof. do 2 (apply grows_bind; [apply grows_lift|intro]). apply grows_point. Qed.
Lemma grows_scene ax s pa : grows (Scene_plot ax s pa).
Proof.
  apply grows_bind.
  { destruct (pa_transmitters pa); [|apply grows_return]. apply grows_each. intro. apply grows_node. }
  intro. apply grows_bind.
  { destruct (pa_objects pa); [|apply grows_return]. apply grows_each. intro. apply grows_bind; [apply grows_lift|]. intro. apply grows_object. }
  intro. apply grows_bind.
  { destruct (pa_receivers pa); [|apply grows_return]. apply grows_each. intro. apply grows_node. }
  intro. apply grows_return.
Qed.

(** ** Lines *)
Lemma path_draws ax color pts args kw tr : accepts_all ax -> kw_get kw "self" = None -> kw_get kw "ax" = None ->
  exists calls l, draws_line pts color args kw [] calls /\
    line_plot color ax pts args kw tr = ((tr ++ calls)%list, Ok l) /\ answers ax tr calls = Ok l.
Proof. intros AX S A. apply line_makes; auto. intro k. destruct (kw_get kw k); auto. Qed.
Lemma point_draws ax p args kw tr : accepts_all ax ->  plain_kw kw ->
  exists calls l, draws_point p None args kw [] [("color", VStr "red"); ("marker", VStr "o")] calls /\
    Point_plot ax p args kw tr = ((tr ++ calls)%list, Ok l) /\ answers ax tr calls = Ok l.
Proof.
  intros AX P. pose proof (point_makes ax p args kw None kw [] [("color", VStr "red"); ("marker", VStr "o")] AX) as M. apply M; clear M.
  - apply P; cbn; auto.
  - apply P; cbn; auto.
  - apply P; cbn; auto.
  - apply P; cbn; auto 10.
  - apply P; cbn; auto.
  - intros k _ _ _. cbn. destruct (kw_get kw k); auto. destruct (String.eqb_spec k "marker") as [->|]; auto.
  - intros k I. rewrite (P k) by (cbn in *; tauto). cbn in I. destruct I as [<-|[<-|[<-|[]]]]; repeat split; reflexivity.
Qed.
