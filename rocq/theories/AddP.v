(** Proofs: accumulated values are additive in the orders, the nodes and the function. *)
From Coq Require Import Reals List Bool ZArith String Lia Lra.
From Verif Require Import Base BaseP LogicM SpecLogic LogicP GeometryM OptimizeM PathM CandidatesM SceneM SpecCandidates SpecScene SpecRun SpecOrder
  SegP PathP PathShapeP PathSmoothP CandidatesP SceneP SceneOpsP SceneRunP SceneAccP SceneGridP OrderP SpecPower PowerP SpecAdd.
Import ListNotations.
Local Notation length := List.length.
Open Scope nat_scope.

Lemma xadd_comm x y : xadd x y = xadd y x.
Proof. destruct x, y; cbn; auto. f_equal. lra. Qed.
Lemma xadd_assoc x y z : xadd x (xadd y z) = xadd (xadd x y) z.
Proof. destruct x, y, z; cbn; auto. f_equal. lra. Qed.
Lemma xadd_0_l x : xadd (Fin 0) x = x.
Proof. destruct x; cbn; auto. f_equal. lra. Qed.
Lemma xadd_0_r x : xadd x (Fin 0) = x.
Proof. rewrite xadd_comm. apply xadd_0_l. Qed.
Lemma xfold l : forall a, fold_left xadd l a = xadd a (xsum l).
Proof.
  induction l as [|x l IH]; intro a; unfold xsum; cbn [fold_left]; [rewrite xadd_0_r; auto|].
  rewrite (IH (xadd a x)), (IH (xadd (Fin 0) x)), xadd_0_l, xadd_assoc. reflexivity.
Qed.
Lemma xsum_cons x l : xsum (x :: l) = xadd x (xsum l).
Proof. unfold xsum at 1. cbn [fold_left]. rewrite xfold, xadd_0_l. reflexivity. Qed.
Lemma xsum_app l l' : xsum (l ++ l') = xadd (xsum l) (xsum l').
Proof. unfold xsum at 1. rewrite fold_left_app, xfold. reflexivity. Qed.
Lemma xsum_zero {A} (l : list A) : xsum (map (fun _ => Fin 0) l) = Fin 0.
Proof. induction l as [|x l IH]; [reflexivity|]. cbn [map]. rewrite xsum_cons, IH, xadd_0_l. reflexivity. Qed.
Lemma xsum_add {A} (u v : A -> xreal) l : xsum (map (fun x => xadd (u x) (v x)) l) = xadd (xsum (map u l)) (xsum (map v l)).
Proof.
  induction l as [|x l IH]; cbn [map]; [cbn; f_equal; lra|]. rewrite !xsum_cons, IH.
  rewrite <- !xadd_assoc. f_equal. rewrite !xadd_assoc. f_equal. apply xadd_comm.
Qed.

(** What a candidate contributes to a pair of nodes. *)
Definition share (P : prng) (g : bool) (s : scene) (cls : path_cls) (va : validargs) (f : pathfun) (tx rx : vec) (c : list nat) : xreal :=
  match from_tx_objects_rx P cls None tx (objects_at s c) rx with
  | Ok p => match is_valid g p (objects s) (map Z.of_nat c) (objects_at s c) (va_tol va) (va_patch va) (va_approx va) (va_kw va) with
            | Ok v => xmul (to_f v) (f tx rx p (objects_at s c))
            | Err _ => NaN
            end
  | Err _ => NaN
  end.
Lemma sums_share P g s cls ca va f tx rx v : sums_candidates P g s cls ca va None f tx rx v ->
  v = xsum (map (share P g s cls va f tx rx) (scene_candidates s ca)).
Proof.
  intros (its & F & ->). f_equal. cbn [one_key_each] in F. rewrite combine_repeat in F. revert its F.
  induction (scene_candidates s ca) as [|c cs IH]; intros its F; inversion F as [|? it ? its' I F']; subst; [reflexivity|].
  cbn [map]. f_equal; [|auto]. cbn [fst snd] in I. destruct I as (_ & _ & E3 & _ & E5 & E6). cbn [snd] in *.
  unfold contribution, share. rewrite E5, E6, E3, map_nat_z. reflexivity.
Qed.
Definition total_over {A} (V : vec -> vec -> A -> xreal) (t r : list (string * vec)) (cs : list A) : xreal :=
  xsum (map (fun tr => xsum (map (V (snd (fst tr)) (snd (snd tr))) cs)) (list_prod t r)).
Lemma total_eq P g s cls ca va f t r : good_split P -> represents (transmitters s) t -> represents (receivers s) r ->
  never_fails cls (@None (key_t P)) s ->
  accumulate_over_paths_reduced P g s cls ca va None f =
  Ok (total_over (share P g s cls va f) t r (scene_candidates s ca)).
Proof.
  intros G T R N. rewrite C53_reduced. cbv zeta. destruct (scene_candidates s ca) as [|c cs] eqn:Ec.
  - rewrite C53_none by auto. cbn [raised yielded]. f_equal. unfold total_over. cbn [map].
    change (xsum []) with (Fin 0). rewrite xsum_zero. reflexivity.
  - rewrite <- Ec. assert (C1 : scene_candidates s ca <> []) by congruence. clear Ec c cs.
    destruct (C53_lemma P g s cls va ca None f t r G T R C1) as [A1 A2].
    pose proof (C51_total_lemma P g s cls va ca None t r G T R N) as Ra. rewrite Ra in A1, A2. rewrite A1, A2.
    f_equal. unfold total_over. f_equal. rewrite map_map. apply map_ext_in. intros [tx rx] I. apply in_prod_iff in I. destruct I as [It Ir].
    destruct (facc_sums P g s cls ca va None f (snd tx) (snd rx) G N) as (v & _ & V). cbn [fst snd].
    pose proof (sums_pair P g s s cls va ca f t r tx rx v G eq_refl T R Ra It Ir V) as Q. unfold pair_result in Q. cbn [fst snd] in Q.
    rewrite <- (sums_share _ _ _ _ _ _ _ _ _ _ V). injection Q as Q. exact Q.
Qed.
Lemma cands_split s lo mid hi keep : lo <= S mid -> mid <= hi ->
  scene_candidates s (mkcandargs lo hi None keep) =
  scene_candidates s (mkcandargs lo mid None keep) ++ scene_candidates s (mkcandargs (S mid) hi None keep).
Proof.
  intros A B. unfold scene_candidates, all_path_candidates. cbn [ca_min ca_max ca_order ca_filter].
  rewrite <- flat_map_app. f_equal. unfold order_range.
  replace (S hi - lo) with ((S mid - lo) + (S hi - S mid)) by lia. rewrite seq_app. f_equal. f_equal. lia.
Qed.
Lemma cands_order s lo hi k keep : scene_candidates s (mkcandargs lo hi (Some k) keep) = scene_candidates s (mkcandargs k k None keep).
Proof. reflexivity. Qed.
Lemma total_split {A} (V : vec -> vec -> A -> xreal) t r cs cs' :
  total_over V t r (cs ++ cs') = xadd (total_over V t r cs) (total_over V t r cs').
Proof.
  unfold total_over. rewrite <- xsum_add. f_equal. apply map_ext. intros tr. rewrite map_app. apply xsum_app.
Qed.
Lemma list_prod_app_l {A B} (l1 l2 : list A) (l : list B) : list_prod (l1 ++ l2) l = list_prod l1 l ++ list_prod l2 l.
Proof. induction l1 as [|x l1 IH]; [reflexivity|]. cbn. rewrite IH, app_assoc. reflexivity. Qed.
Lemma total_tx {A} (V : vec -> vec -> A -> xreal) t1 t2 r cs :
  total_over V (t1 ++ t2) r cs = xadd (total_over V t1 r cs) (total_over V t2 r cs).
Proof. unfold total_over. rewrite list_prod_app_l, map_app. apply xsum_app. Qed.
Lemma total_rx {A} (V : vec -> vec -> A -> xreal) t r1 r2 cs :
  total_over V t (r1 ++ r2) cs = xadd (total_over V t r1 cs) (total_over V t r2 cs).
Proof.
  unfold total_over. induction t as [|x t IH]; [cbn; f_equal; lra|]. cbn [list_prod]. rewrite !map_app, !xsum_app, IH.
  rewrite <- !xadd_assoc. f_equal. rewrite !xadd_assoc. f_equal. apply xadd_comm.
Qed.
Lemma total_ext {A} (V W : vec -> vec -> A -> xreal) t r cs :
  (forall tx rx c, In tx t -> In rx r -> In c cs -> V (snd tx) (snd rx) c = W (snd tx) (snd rx) c) -> total_over V t r cs = total_over W t r cs.
Proof.
  intro H. unfold total_over. f_equal. apply map_ext_in. intros [tx rx] I. apply in_prod_iff in I. f_equal. apply map_ext_in. intros c C. cbn. apply H; tauto.
Qed.
Lemma total_add {A} (V W : vec -> vec -> A -> xreal) t r cs :
  total_over (fun tx rx c => xadd (V tx rx c) (W tx rx c)) t r cs = xadd (total_over V t r cs) (total_over W t r cs).
Proof.
  unfold total_over. rewrite <- xsum_add. f_equal. apply map_ext. intros tr. apply xsum_add.
Qed.
Lemma share_add P g s cls va f1 f2 tx rx c : shipped (va_kw va) ->
  (forall p inter, exists x, f1 tx rx p inter = Fin x) -> (forall p inter, exists y, f2 tx rx p inter = Fin y) ->
  share P g s cls va (fun tx rx p inter => xadd (f1 tx rx p inter) (f2 tx rx p inter)) tx rx c =
  xadd (share P g s cls va f1 tx rx c) (share P g s cls va f2 tx rx c).
Proof.
  intros H F1 F2. unfold share. destruct (from_tx_objects_rx P cls None tx (objects_at s c) rx) as [p|e]; [|reflexivity].
  destruct (is_valid g p _ _ _ _ _ _ _) as [v|e] eqn:E; [|reflexivity].
  destruct (F1 p (objects_at s c)) as (x & ->), (F2 p (objects_at s c)) as (y & ->).
  pose proof (valid_unit g p _ _ _ _ _ _ _ v H E) as (w & -> & _).
  cbn. f_equal. lra.
Qed.
Lemma share_scale P g s cls va f a tx rx c : shipped (va_kw va) ->
  (forall p inter, exists x, f tx rx p inter = Fin x) ->
  share P g s cls va (fun tx rx p inter => xmul (Fin a) (f tx rx p inter)) tx rx c = xmul (Fin a) (share P g s cls va f tx rx c).
Proof.
  intros H F1. unfold share. destruct (from_tx_objects_rx P cls None tx (objects_at s c) rx) as [p|e]; [|reflexivity].
  destruct (is_valid g p _ _ _ _ _ _ _) as [v|e] eqn:E; [|reflexivity].
  destruct (F1 p (objects_at s c)) as (x & ->).
  pose proof (valid_unit g p _ _ _ _ _ _ _ v H E) as (w & -> & _).
  cbn. f_equal. lra.
Qed.
Definition fn (x : xreal) : Prop := x = NaN \/ exists v, x = Fin v.
Lemma fn_add x y : fn x -> fn y -> fn (xadd x y).
Proof. intros [->|(a & ->)] [->|(b & ->)]; cbn; [left; auto..|right; eauto]. Qed.
Lemma fn_sum l : Forall fn l -> fn (xsum l).
Proof. induction 1 as [|x l X _ IH]; [right; exists 0%R; reflexivity|]. rewrite xsum_cons. apply fn_add; auto. Qed.
Lemma scale_sum a l : Forall fn l -> xsum (map (xmul (Fin a)) l) = xmul (Fin a) (xsum l).
Proof.
  induction 1 as [|x l X L IH]; [cbn; f_equal; lra|]. cbn [map]. rewrite !xsum_cons, IH. pose proof (fn_sum l L) as Y.
  destruct X as [->|(u & ->)], Y as [->|(v & ->)]; cbn; auto. f_equal. lra.
Qed.
Lemma share_fn P g s cls va f tx rx c : shipped (va_kw va) -> (forall p inter, exists x, f tx rx p inter = Fin x) ->
  fn (share P g s cls va f tx rx c).
Proof.
  intros H F1. unfold share. destruct (from_tx_objects_rx P cls None tx (objects_at s c) rx) as [p|e]; [|left; reflexivity].
  destruct (is_valid g p _ _ _ _ _ _ _) as [v|e] eqn:E; [|left; reflexivity].
  destruct (F1 p (objects_at s c)) as (x & ->).
  destruct (valid_unit g p _ _ _ _ _ _ _ v H E) as (w & -> & _). right. eexists. reflexivity.
Qed.
Lemma total_scale {A} (V : vec -> vec -> A -> xreal) a t r cs : (forall tx rx c, fn (V tx rx c)) ->
  total_over (fun tx rx c => xmul (Fin a) (V tx rx c)) t r cs = xmul (Fin a) (total_over V t r cs).
Proof.
  intro H. unfold total_over. rewrite <- scale_sum.
  - f_equal. rewrite map_map. apply map_ext. intros tr. rewrite <- (map_map (V (snd (fst tr)) (snd (snd tr))) (xmul (Fin a))). apply scale_sum.
    apply Forall_forall. intros x X. apply in_map_iff in X. destruct X as (c & <- & _). apply H.
  - apply Forall_forall. intros x X. apply in_map_iff in X. destruct X as (tr & <- & _). apply fn_sum.
    apply Forall_forall. intros x X. apply in_map_iff in X. destruct X as (c & <- & _). apply H.
Qed.
Lemma share_objects P g s s' cls va f tx rx c : objects s' = objects s ->
  share P g s' cls va f tx rx c = share P g s cls va f tx rx c.
Proof. intro E. unfold share, objects_at. rewrite E. reflexivity. Qed.
Lemma cands_objects' s s' ca : objects s' = objects s -> scene_candidates s' ca = scene_candidates s ca.
Proof. intro E. unfold scene_candidates, filtered_nodes. rewrite E. reflexivity. Qed.
Lemma never_objects P cls (key : option (key_t P)) s s' : objects s' = objects s -> never_fails cls key s -> never_fails cls key s'.
Proof. intro E. unfold never_fails. rewrite E. auto. Qed.

(** ** The grids *)
Lemma rx_cells P g s cls ca va f gradop X Y t : good_split P -> represents (transmitters s) t ->
  never_fails cls (@None (key_t P)) s -> same_shape X Y ->
  exists result, accumulate_on_receivers_grid P g s cls ca va None f gradop MVal X Y = Ok (mkgen result None) /\
    map fst result = map fst t /\
    forall n name pos Z, nth_error t n = Some (name, pos) -> nth_error result n = Some (name, Z) ->
      same_shape Z X /\
      forall i j x y, entry X i j = Some x -> entry Y i j = Some y ->
        entry Z i j = Some (CVal (xsum (map (share P g s cls va f pos (x, y)) (scene_candidates s ca)))).
Proof.
  intros G T N Sh. destruct (C54_rx P g s cls ca va None f gradop MVal X Y t G T N Sh) as (result & E & Nm & H).
  exists result. split; auto. split; auto. intros n name pos Z A B. destruct (H n name pos Z A B) as [S1 C]. split; auto.
  intros i j x y Ex Ey. destruct (C i j x y Ex Ey) as (c & h & Ec & M & Hh & V & _). rewrite Ec. f_equal.
  destruct c as [v|d|v d]; try contradiction. f_equal. destruct (Hh (x, y)) as (v' & Ev & Sv).
  rewrite V in Ev by discriminate. injection Ev as <-. cbn [val_of] in Sv. apply sums_share. auto.
Qed.
Lemma tx_cells P g s cls ca va f gradop X Y r : good_split P -> represents (receivers s) r ->
  never_fails cls (@None (key_t P)) s -> same_shape X Y ->
  exists result, accumulate_on_transmitters_grid P g s cls ca va None f gradop MVal X Y = Ok (mkgen result None) /\
    map fst result = map fst r /\
    forall n name pos Z, nth_error r n = Some (name, pos) -> nth_error result n = Some (name, Z) ->
      same_shape Z X /\
      forall i j x y, entry X i j = Some x -> entry Y i j = Some y ->
        entry Z i j = Some (CVal (xsum (map (share P g s cls va f (x, y) pos) (scene_candidates s ca)))).
Proof.
  intros G T N Sh. destruct (C54_tx P g s cls ca va None f gradop MVal X Y r G T N Sh) as (result & E & Nm & H).
  exists result. split; auto. split; auto. intros n name pos Z A B. destruct (H n name pos Z A B) as [S1 C]. split; auto.
  intros i j x y Ex Ey. destruct (C i j x y Ex Ey) as (c & h & Ec & M & Hh & V & _). rewrite Ec. f_equal.
  destruct c as [v|d|v d]; try contradiction. f_equal. destruct (Hh (x, y)) as (v' & Ev & Sv).
  rewrite V in Ev by discriminate. injection Ev as <-. cbn [val_of] in Sv. apply sums_share. auto.
Qed.
Definition cells (t : list (string * vec)) (X Y : list (list R)) (V : vec -> vec -> xreal) (result : list (string * list (list cell))) : Prop :=
  map fst result = map fst t /\
  forall n name pos Z, nth_error t n = Some (name, pos) -> nth_error result n = Some (name, Z) ->
      same_shape Z X /\
      forall i j x y, entry X i j = Some x -> entry Y i j = Some y -> entry Z i j = Some (CVal (V pos (x, y))).
Lemma shape_nth {A B} (l : list (list A)) (l' : list (list B)) : same_shape l l' -> forall i j c, entry l i j = Some c -> exists d, entry l' i j = Some d.
Proof.
  unfold same_shape, entry. induction 1 as [|a b l l' E _ IH]; intros i j c; [destruct i; discriminate|].
  destruct i as [|i]; cbn [nth_error]; [|apply IH]. intro H.
  assert (L : j < length b) by (rewrite <- E; apply nth_error_Some; congruence).
  apply nth_error_Some in L. destruct (nth_error b j); [eauto|contradiction].
Qed.
Lemma shape_sym {A B} (l : list (list A)) (l' : list (list B)) : same_shape l l' -> same_shape l' l.
Proof. unfold same_shape. induction 1; constructor; auto. Qed.
Lemma shape_trans {A B C} (l : list (list A)) (l' : list (list B)) (l'' : list (list C)) : same_shape l l' -> same_shape l' l'' -> same_shape l l''.
Proof.
  unfold same_shape. intro H. revert l''. induction H; intros l'' K; inversion K; subst; constructor; [congruence|auto].
Qed.
Lemma names_nth {A B} (u : list (string * A)) (v : list (string * B)) n name a : map fst u = map fst v -> nth_error u n = Some (name, a) ->
  exists b, nth_error v n = Some (name, b).
Proof.
  intros E H. apply (f_equal (fun l => nth_error l n)) in E. rewrite !nth_error_map, H in E. cbn in E.
  destruct (nth_error v n) as [[m b]|]; [|discriminate]. cbn in E. injection E as <-. eauto.
Qed.
Lemma grids_sum t X Y V V1 V2 u u1 u2 : same_shape X Y -> cells t X Y V u -> cells t X Y V1 u1 -> cells t X Y V2 u2 ->
  (forall pos q, V pos q = xadd (V1 pos q) (V2 pos q)) -> sum_of_grids u u1 u2.
Proof.
  intros Sh [N C] [N1 C1] [N2 C2] H. split; [congruence|]. split; [congruence|]. intros n name Z E.
  destruct (names_nth u t n name Z N E) as (pos & Et).
  destruct (names_nth t u1 n name pos (eq_sym N1) Et) as (Z1 & E1). destruct (names_nth t u2 n name pos (eq_sym N2) Et) as (Z2 & E2).
  exists Z1, Z2. split; auto. split; auto. destruct (C _ _ _ _ Et E) as [S Cv]. destruct (C1 _ _ _ _ Et E1) as [S1 Cv1]. destruct (C2 _ _ _ _ Et E2) as [S2 Cv2].
  split; [eapply shape_trans; [exact S1|apply shape_sym; exact S]|]. split; [eapply shape_trans; [exact S2|apply shape_sym; exact S]|].
  intros i j c Ec. destruct (shape_nth _ _ S i j c Ec) as (x & Ex). destruct (shape_nth _ _ Sh i j x Ex) as (y & Ey).
  exists (V1 pos (x, y)), (V2 pos (x, y)). split; [|split; auto]. rewrite (Cv i j x y Ex Ey) in Ec. injection Ec as <-. rewrite H. reflexivity.
Qed.

(** ** The statements *)
Lemma orders_add P g s cls va f t r lo mid hi keep : good_split P -> represents (transmitters s) t -> represents (receivers s) r ->
  never_fails cls (@None (key_t P)) s -> lo <= S mid -> mid <= hi ->
  exists x y, accumulate_over_paths_reduced P g s cls (mkcandargs lo mid None keep) va None f = Ok x /\
    accumulate_over_paths_reduced P g s cls (mkcandargs (S mid) hi None keep) va None f = Ok y /\
    accumulate_over_paths_reduced P g s cls (mkcandargs lo hi None keep) va None f = Ok (xadd x y).
Proof.
  intros G T R N A B. rewrite !(total_eq P g s cls _ va f t r) by auto. do 2 eexists. split; [reflexivity|]. split; [reflexivity|].
  rewrite (cands_split s lo mid hi keep), total_split by auto. reflexivity.
Qed.
Lemma order_by_order P g s cls va f t r keep : good_split P -> represents (transmitters s) t -> represents (receivers s) r ->
  never_fails cls (@None (key_t P)) s -> forall n lo a b,
  exists xs, Forall2 (fun k x => accumulate_over_paths_reduced P g s cls (mkcandargs a b (Some k) keep) va None f = Ok x) (seq lo (S n)) xs /\
    accumulate_over_paths_reduced P g s cls (mkcandargs lo (lo + n) None keep) va None f = Ok (xsum xs).
Proof.
  intros G T R N n. induction n as [|n IH]; intros lo a b.
  - rewrite (total_eq P g s cls _ va f t r) by auto. exists [total_over (share P g s cls va f) t r (scene_candidates s (mkcandargs a b (Some lo) keep))].
    split; [constructor; [|constructor]; apply total_eq; auto|].
    rewrite xsum_cons. change (xsum []) with (Fin 0). rewrite xadd_0_r, cands_order, Nat.add_0_r. reflexivity.
  - destruct (IH (S lo) a b) as (xs & F & E).
    destruct (orders_add P g s cls va f t r lo lo (lo + S n) keep G T R N ltac:(lia) ltac:(lia)) as (x & y & Ex & Ey & Es).
    replace (S lo + n) with (lo + S n) in E by lia. rewrite E in Ey. injection Ey as <-.
    exists (x :: xs). split.
    + change (seq lo (S (S n))) with (lo :: seq (S lo) (S n)). constructor; [|exact F].
      rewrite !(total_eq P g s cls _ va f t r) in * by auto. rewrite cands_order. exact Ex.
    + rewrite Es, xsum_cons. reflexivity.
Qed.
Lemma tx_add P g s s1 s2 cls ca va f t1 t2 r : good_split P ->
  represents (transmitters s) (t1 ++ t2) -> represents (transmitters s1) t1 -> represents (transmitters s2) t2 ->
  represents (receivers s) r -> represents (receivers s1) r -> represents (receivers s2) r ->
  objects s1 = objects s -> objects s2 = objects s -> never_fails cls (@None (key_t P)) s ->
  exists x y, accumulate_over_paths_reduced P g s1 cls ca va None f = Ok x /\
    accumulate_over_paths_reduced P g s2 cls ca va None f = Ok y /\
    accumulate_over_paths_reduced P g s cls ca va None f = Ok (xadd x y).
Proof.
  intros G T T1 T2 R R1 R2 O1 O2 N. pose proof (never_objects P cls None s s1 O1 N) as N1. pose proof (never_objects P cls None s s2 O2 N) as N2.
  rewrite (total_eq P g s1 cls ca va f t1 r), (total_eq P g s2 cls ca va f t2 r), (total_eq P g s cls ca va f (t1 ++ t2) r) by auto.
  do 2 eexists. split; [reflexivity|]. split; [reflexivity|]. rewrite total_tx, (cands_objects' s s1), (cands_objects' s s2) by auto.
  do 2 f_equal; apply total_ext; intros; symmetry; apply share_objects; auto.
Qed.
Lemma rx_add P g s s1 s2 cls ca va f t r1 r2 : good_split P ->
  represents (receivers s) (r1 ++ r2) -> represents (receivers s1) r1 -> represents (receivers s2) r2 ->
  represents (transmitters s) t -> represents (transmitters s1) t -> represents (transmitters s2) t ->
  objects s1 = objects s -> objects s2 = objects s -> never_fails cls (@None (key_t P)) s ->
  exists x y, accumulate_over_paths_reduced P g s1 cls ca va None f = Ok x /\
    accumulate_over_paths_reduced P g s2 cls ca va None f = Ok y /\
    accumulate_over_paths_reduced P g s cls ca va None f = Ok (xadd x y).
Proof.
  intros G R R1 R2 T T1 T2 O1 O2 N. pose proof (never_objects P cls None s s1 O1 N) as N1. pose proof (never_objects P cls None s s2 O2 N) as N2.
  rewrite (total_eq P g s1 cls ca va f t r1), (total_eq P g s2 cls ca va f t r2), (total_eq P g s cls ca va f t (r1 ++ r2)) by auto.
  do 2 eexists. split; [reflexivity|]. split; [reflexivity|]. rewrite total_rx, (cands_objects' s s1), (cands_objects' s s2) by auto.
  do 2 f_equal; apply total_ext; intros; symmetry; apply share_objects; auto.
Qed.
Lemma fun_linear P g s cls ca va f1 f2 a t r : good_split P ->
  represents (transmitters s) t -> represents (receivers s) r -> never_fails cls (@None (key_t P)) s -> shipped (va_kw va) ->
  numeric f1 -> numeric f2 ->
  exists x y, accumulate_over_paths_reduced P g s cls ca va None f1 = Ok x /\
    accumulate_over_paths_reduced P g s cls ca va None f2 = Ok y /\
    accumulate_over_paths_reduced P g s cls ca va None (fun_add f1 f2) = Ok (xadd x y) /\
    accumulate_over_paths_reduced P g s cls ca va None (fun_scale a f1) = Ok (xmul (Fin a) x).
Proof.
  intros G T R N H F1 F2. rewrite !(total_eq P g s cls ca va _ t r) by auto. do 2 eexists. split; [reflexivity|]. split; [reflexivity|]. split.
  - rewrite <- total_add. f_equal. apply total_ext. intros. apply share_add; auto.
  - rewrite <- total_scale by (intros; apply share_fn; auto). f_equal. apply total_ext. intros. apply share_scale; auto.
Qed.
Lemma rx_grid_add P g s cls va f gradop X Y t lo mid hi keep : good_split P -> represents (transmitters s) t ->
  never_fails cls (@None (key_t P)) s -> same_shape X Y -> lo <= S mid -> mid <= hi ->
  let grid lo hi := accumulate_on_receivers_grid P g s cls (mkcandargs lo hi None keep) va None f gradop MVal X Y in
  exists u u1 u2, grid lo hi = Ok (mkgen u None) /\ grid lo mid = Ok (mkgen u1 None) /\ grid (S mid) hi = Ok (mkgen u2 None) /\ sum_of_grids u u1 u2.
Proof.
  intros G T N Sh A B. cbv zeta.
  destruct (rx_cells P g s cls (mkcandargs lo hi None keep) va f gradop X Y t G T N Sh) as (u & E & C).
  destruct (rx_cells P g s cls (mkcandargs lo mid None keep) va f gradop X Y t G T N Sh) as (u1 & E1 & C1).
  destruct (rx_cells P g s cls (mkcandargs (S mid) hi None keep) va f gradop X Y t G T N Sh) as (u2 & E2 & C2).
  exists u, u1, u2. split; auto. split; auto. split; auto.
  apply (grids_sum t X Y (fun pos q => xsum (map (share P g s cls va f pos q) (scene_candidates s (mkcandargs lo hi None keep))))
    (fun pos q => xsum (map (share P g s cls va f pos q) (scene_candidates s (mkcandargs lo mid None keep))))
    (fun pos q => xsum (map (share P g s cls va f pos q) (scene_candidates s (mkcandargs (S mid) hi None keep))))); auto.
  intros pos q. rewrite (cands_split s lo mid hi keep), map_app, xsum_app by auto. reflexivity.
Qed.
Lemma tx_grid_add P g s cls va f gradop X Y r lo mid hi keep : good_split P -> represents (receivers s) r ->
  never_fails cls (@None (key_t P)) s -> same_shape X Y -> lo <= S mid -> mid <= hi ->
  let grid lo hi := accumulate_on_transmitters_grid P g s cls (mkcandargs lo hi None keep) va None f gradop MVal X Y in
  exists u u1 u2, grid lo hi = Ok (mkgen u None) /\ grid lo mid = Ok (mkgen u1 None) /\ grid (S mid) hi = Ok (mkgen u2 None) /\ sum_of_grids u u1 u2.
Proof.
  intros G T N Sh A B. cbv zeta.
  destruct (tx_cells P g s cls (mkcandargs lo hi None keep) va f gradop X Y r G T N Sh) as (u & E & C).
  destruct (tx_cells P g s cls (mkcandargs lo mid None keep) va f gradop X Y r G T N Sh) as (u1 & E1 & C1).
  destruct (tx_cells P g s cls (mkcandargs (S mid) hi None keep) va f gradop X Y r G T N Sh) as (u2 & E2 & C2).
  exists u, u1, u2. split; auto. split; auto. split; auto.
  apply (grids_sum r X Y (fun pos q => xsum (map (share P g s cls va f q pos) (scene_candidates s (mkcandargs lo hi None keep))))
    (fun pos q => xsum (map (share P g s cls va f q pos) (scene_candidates s (mkcandargs lo mid None keep))))
    (fun pos q => xsum (map (share P g s cls va f q pos) (scene_candidates s (mkcandargs (S mid) hi None keep))))); auto.
  intros pos q. rewrite (cands_split s lo mid hi keep), map_app, xsum_app by auto. reflexivity.
Qed.
Lemma grid_fun_add P g s cls ca va f1 f2 gradop X Y t r : good_split P -> represents (transmitters s) t -> represents (receivers s) r ->
  never_fails cls (@None (key_t P)) s -> same_shape X Y -> shipped (va_kw va) -> numeric f1 -> numeric f2 ->
  (let grid f := accumulate_on_receivers_grid P g s cls ca va None f gradop MVal X Y in
   exists u u1 u2, grid (fun_add f1 f2) = Ok (mkgen u None) /\ grid f1 = Ok (mkgen u1 None) /\ grid f2 = Ok (mkgen u2 None) /\ sum_of_grids u u1 u2) /\
  (let grid f := accumulate_on_transmitters_grid P g s cls ca va None f gradop MVal X Y in
   exists u u1 u2, grid (fun_add f1 f2) = Ok (mkgen u None) /\ grid f1 = Ok (mkgen u1 None) /\ grid f2 = Ok (mkgen u2 None) /\ sum_of_grids u u1 u2).
Proof.
  intros G T R N Sh H F1 F2. split; cbv zeta.
  - destruct (rx_cells P g s cls ca va (fun_add f1 f2) gradop X Y t G T N Sh) as (u & E & C).
    destruct (rx_cells P g s cls ca va f1 gradop X Y t G T N Sh) as (u1 & E1 & C1).
    destruct (rx_cells P g s cls ca va f2 gradop X Y t G T N Sh) as (u2 & E2 & C2).
    exists u, u1, u2. split; auto. split; auto. split; auto.
    apply (grids_sum t X Y (fun pos q => xsum (map (share P g s cls va (fun_add f1 f2) pos q) (scene_candidates s ca)))
      (fun pos q => xsum (map (share P g s cls va f1 pos q) (scene_candidates s ca)))
      (fun pos q => xsum (map (share P g s cls va f2 pos q) (scene_candidates s ca)))); auto.
    intros pos q. rewrite <- xsum_add. f_equal. apply map_ext. intro c. apply share_add; auto.
  - destruct (tx_cells P g s cls ca va (fun_add f1 f2) gradop X Y r G R N Sh) as (u & E & C).
    destruct (tx_cells P g s cls ca va f1 gradop X Y r G R N Sh) as (u1 & E1 & C1).
    destruct (tx_cells P g s cls ca va f2 gradop X Y r G R N Sh) as (u2 & E2 & C2).
    exists u, u1, u2. split; auto. split; auto. split; auto.
    apply (grids_sum r X Y (fun pos q => xsum (map (share P g s cls va (fun_add f1 f2) q pos) (scene_candidates s ca)))
      (fun pos q => xsum (map (share P g s cls va f1 q pos) (scene_candidates s ca)))
      (fun pos q => xsum (map (share P g s cls va f2 q pos) (scene_candidates s ca)))); auto.
    intros pos q. rewrite <- xsum_add. f_equal. apply map_ext. intro c. apply share_add; auto.
Qed.
Lemma acc_list P g s cls ca va f t r : good_split P -> represents (transmitters s) t -> represents (receivers s) r ->
  never_fails cls (@None (key_t P)) s ->
  accumulate_over_paths P g s cls ca va None f =
  mkgen (match scene_candidates s ca with [] => [] | _ =>
    map (fun tr => (fst (fst tr), fst (snd tr), xsum (map (share P g s cls va f (snd (fst tr)) (snd (snd tr))) (scene_candidates s ca))))
      (list_prod t r) end) None.
Proof.
  intros G T R N. destruct (scene_candidates s ca) as [|c cs] eqn:Ec; [apply C53_none; auto|].
  rewrite <- Ec. assert (C1 : scene_candidates s ca <> []) by congruence. clear Ec c cs.
  destruct (C53_lemma P g s cls va ca None f t r G T R C1) as [A1 A2].
  pose proof (C51_total_lemma P g s cls va ca None t r G T R N) as Ra. rewrite Ra in A1, A2.
  destruct (accumulate_over_paths P g s cls ca va None f) as [u e]. cbn [yielded raised] in A1, A2. subst. f_equal.
  apply map_ext_in. intros [tx rx] I. apply in_prod_iff in I. destruct I as [It Ir].
  destruct (facc_sums P g s cls ca va None f (snd tx) (snd rx) G N) as (v & _ & V). cbn [fst snd].
  pose proof (sums_pair P g s s cls va ca f t r tx rx v G eq_refl T R Ra It Ir V) as Q. 
  rewrite <- (sums_share _ _ _ _ _ _ _ _ _ _ V). exact Q.
Qed.
Lemma tx_concat P g s s1 s2 cls ca va f t1 t2 r : good_split P ->
  represents (transmitters s) (t1 ++ t2) -> represents (transmitters s1) t1 -> represents (transmitters s2) t2 ->
  represents (receivers s) r -> represents (receivers s1) r -> represents (receivers s2) r ->
  objects s1 = objects s -> objects s2 = objects s -> never_fails cls (@None (key_t P)) s ->
  exists u1 u2, accumulate_over_paths P g s1 cls ca va None f = mkgen u1 None /\
    accumulate_over_paths P g s2 cls ca va None f = mkgen u2 None /\
    accumulate_over_paths P g s cls ca va None f = mkgen (u1 ++ u2) None.
Proof.
  intros G T T1 T2 R R1 R2 O1 O2 N. pose proof (never_objects P cls None s s1 O1 N) as N1. pose proof (never_objects P cls None s s2 O2 N) as N2.
  rewrite (acc_list P g s1 cls ca va f t1 r), (acc_list P g s2 cls ca va f t2 r), (acc_list P g s cls ca va f (t1 ++ t2) r) by auto.
  do 2 eexists. split; [reflexivity|]. split; [reflexivity|]. rewrite (cands_objects' s s1), (cands_objects' s s2) by auto. f_equal.
  destruct (scene_candidates s ca) as [|c cs]; [reflexivity|]. rewrite list_prod_app_l, map_app.
  f_equal; apply map_ext; intro tr; do 2 f_equal; apply map_ext; intro; symmetry; apply share_objects; auto.
Qed.
