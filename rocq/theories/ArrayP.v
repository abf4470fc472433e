(** Proofs about arrays of truth values. *)
From Coq Require Import Reals List Bool ZArith Arith Lia.
From Verif Require Import Base LogicM ArrayM SpecArray.
Import ListNotations.
Local Notation length := List.length.

Lemma shape_eqb_spec s t : shape_eqb s t = true <-> s = t.
Proof. unfold shape_eqb. destruct (list_eq_dec Nat.eq_dec s t); split; congruence. Qed.
Lemma shape_eqb_refl s : shape_eqb s s = true. Proof. now apply shape_eqb_spec. Qed.
Lemma shape_eqb_false s t : s <> t -> shape_eqb s t = false.
Proof. intros H. destruct (shape_eqb s t) eqn:E; auto. apply shape_eqb_spec in E. contradiction. Qed.

Lemma shape_of_asarray v : shape_of v = shp (asarray v). Proof. now destruct v as [[]| |]. Qed.
Lemma shape_of_enter jit v : shape_of (enter jit v) = shape_of v. Proof. now destruct v as [[]| |], jit. Qed.
Lemma elem_enter jit v i : elem (enter jit v) i = elem v i. Proof. now destruct v as [[]| |], jit. Qed.
Lemma is_float_enter jit v : is_float (enter jit v) <-> is_float v. Proof. now destruct v as [[]| |], jit. Qed.
Lemma python_enter v : ~ is_python (enter true v). Proof. now destruct v as [[]| |]. Qed.
Lemma compatible_enter jit x y : compatible jit x y <-> compatible jit (enter jit x) (enter jit y).
Proof.
  unfold compatible. rewrite !shape_of_enter. destruct jit; [|now destruct x as [[]| |], y as [[]| |]].
  split; (intros [H|[H _]]; [now left|discriminate]).
Qed.

(** The checks on two operands. *)
Definition guarded (check : option shape -> pyval -> res (option shape)) (x y : pyval) (r : nd) : res nd :=
  rbind (check None x) (fun m => rbind (check m y) (fun m => ret_truthy m r)).
Lemma joint_refl x y s : shape_of x = s -> shape_of y = s -> joint x y = s.
Proof. unfold joint. intros -> ->. now destruct s. Qed.
Lemma joint_bshape x y : joint x y = bshape (shp (asarray x)) (shp (asarray y)).
Proof. unfold joint, bshape. rewrite !shape_of_asarray. now destruct (shp (asarray x)). Qed.
Lemma guarded_ok jit x y r : compatible jit x y -> shp r = joint x y -> guarded check_truthy x y r = Ok r.
Proof.
  unfold guarded, compatible. intros C J.
  destruct x as [[s f|s f]| |], y as [[t h|t h]| |]; cbn -[joint shp] in *;
  try (assert (E : s = t) by (destruct C as [C|[_ [C|C]]]; [exact C|contradiction|contradiction]); subst t; cbn -[joint shp]; rewrite shape_eqb_refl);
  unfold ret_truthy; cbn -[joint shp]; rewrite ?J; unfold joint; cbn -[shp]; try reflexivity;
  try (destruct s; cbn; rewrite ?shape_eqb_refl; reflexivity); try (destruct t; cbn; rewrite ?shape_eqb_refl; reflexivity).
Qed.
Lemma guarded_err jit x y r : (jit = true -> ~ is_python x /\ ~ is_python y) -> ~ compatible jit x y ->
  guarded check_truthy x y r = Err TypeCheckError.
Proof.
  unfold guarded, compatible. intros Hj C. assert (N : shape_of x <> shape_of y) by tauto.
  destruct jit; try (destruct (Hj eq_refl)); destruct x as [[s f|s f]| |], y as [[t h|t h]| |]; cbn in *; try tauto;
  rewrite shape_eqb_false by congruence; reflexivity.
Qed.
Lemma check_float_float m v : is_float v -> check_float m v = check_truthy m v.
Proof. now destruct v as [[]| |]. Qed.
Lemma check_float_not m v : ~ is_float v -> check_float m v = Err TypeCheckError.
Proof. destruct v as [[]| |]; cbn; tauto. Qed.
Lemma check_float_or m v : check_float m v = check_truthy m v \/ check_float m v = Err TypeCheckError.
Proof. destruct v as [[]| |]; cbn; auto. Qed.
Lemma check_truthy_err m v e : check_truthy m v = Err e -> e = TypeCheckError.
Proof.
  destruct v as [a| |]; cbn; try discriminate. unfold bind_shape. destruct m; [|discriminate].
  destruct (shape_eqb _ _); congruence.
Qed.
Lemma guarded_float_ok jit x y r : is_float x -> is_float y -> compatible jit x y -> shp r = joint x y -> guarded check_float x y r = Ok r.
Proof.
  intros Fx Fy C J. rewrite <- (guarded_ok jit x y r C J). unfold guarded. rewrite check_float_float by auto.
  destruct (check_truthy None x) as [m|]; cbn; [now rewrite check_float_float by auto|reflexivity].
Qed.
Lemma guarded_float_err jit x y r : (jit = true -> ~ is_python x /\ ~ is_python y) -> ~ (is_float x /\ is_float y /\ compatible jit x y) ->
  guarded check_float x y r = Err TypeCheckError.
Proof.
  intros Hj C. unfold guarded.
  assert (D : forall v, is_float v \/ ~ is_float v) by (intros [[]| |]; cbn; tauto).
  destruct (D x) as [Fx|Fx]; [|now rewrite check_float_not by auto].
  rewrite check_float_float by auto. destruct (check_truthy None x) as [m|e] eqn:E; cbn.
  - destruct (D y) as [Fy|Fy]; [|now rewrite check_float_not by auto].
    rewrite check_float_float by auto. pose proof (guarded_err jit x y r Hj ltac:(tauto)) as G. unfold guarded in G. rewrite E in G. exact G.
  - now rewrite (check_truthy_err _ _ _ E).
Qed.

(** Elements of operands. *)
Lemma within_nil i : within i [] -> i = []. Proof. inversion 1. reflexivity. Qed.
Lemma operand jit x y i : compatible jit x y -> within i (joint x y) ->
  forall v, v = x \/ v = y -> fget (asarray v) i = to_f (elem v i) /\ tget (asarray v) i = to_b (elem v i).
Proof.
  intros C W v Hv.
  assert (A : match v with PArr a => shp a = [] -> i = [] | _ => True end).
  { destruct v as [a| |]; auto. intros E. apply within_nil. replace (joint x y) with (@nil nat) in W; [exact W|].
    symmetry. unfold joint. rewrite !shape_of_asarray. destruct Hv as [<-|<-]; cbn.
    - rewrite E. destruct C as [C|[_ [C|C]]]; [|contradiction|].
      + rewrite !shape_of_asarray in C. cbn in C. rewrite <- C. exact E.
      + destruct y as [|x0|b]; [contradiction| |]; reflexivity.
    - rewrite E. destruct C as [C|[_ [C|C]]]; [| |contradiction].
      + rewrite !shape_of_asarray in C. cbn in C. rewrite C, E. reflexivity.
      + destruct x as [|x0|b]; [contradiction| |]; reflexivity. }
  destruct v as [[s f|s f]| |]; cbn in *; try (split; reflexivity).
  - unfold bget. destruct s; [rewrite (A eq_refl)|]; split; reflexivity.
  - unfold bget. destruct s; [rewrite (A eq_refl)|]; split; reflexivity.
Qed.
Lemma gives_ok r s e : shp r = s -> (forall i, within i s -> get r i = e i) -> gives (Ok r) s e.
Proof. intros <- H. exists r. split; [reflexivity|]. split; [now destruct r|]. intros i W. rewrite <- (H i); [now destruct r|]. now destruct r. Qed.

Section Ops.
Variables (jit g : bool) (x y : pyval) (approx : option bool).
Lemma joint_enter : joint (enter jit x) (enter jit y) = joint x y.
Proof. unfold joint. now rewrite !shape_of_enter. Qed.
Lemma entered : jit = true -> ~ is_python (enter jit x) /\ ~ is_python (enter jit y).
Proof. intros ->. split; apply python_enter. Qed.
Lemma or_gives : compatible jit x y -> gives (a_logical_or jit g x y approx) (joint x y) (fun i => logical_or g (elem x i) (elem y i) approx).
Proof.
  intros C. pose proof (proj1 (compatible_enter _ _ _) C) as C'. unfold a_logical_or.
  set (r := if resolve g approx then _ else _).
  change (gives (guarded check_truthy (enter jit x) (enter jit y) r) (joint x y) (fun i => logical_or g (elem x i) (elem y i) approx)).
  assert (S : shp r = joint x y).
  { rewrite <- joint_enter, joint_bshape. unfold r, jnp_maximum. destruct (resolve g approx), (asarray (enter jit x)), (asarray (enter jit y)); reflexivity. }
  rewrite (guarded_ok jit) by (rewrite ?joint_enter; auto). apply gives_ok; [exact S|]. intros i W. rewrite <- joint_enter in W.
  destruct (operand _ _ _ i C' W (enter jit x) (or_introl eq_refl)) as [Fx Tx].
  destruct (operand _ _ _ i C' W (enter jit y) (or_intror eq_refl)) as [Fy Ty].
  rewrite !elem_enter in *. unfold r, logical_or. destruct (resolve g approx).
  - unfold jnp_maximum. destruct x as [[]| |], y as [[]| |], jit; cbn [enter asarray get] in *; rewrite ?Fx, ?Fy, ?Tx, ?Ty; reflexivity.
  - cbn [get]. now rewrite Tx, Ty.
Qed.
Lemma and_gives : compatible jit x y -> gives (a_logical_and jit g x y approx) (joint x y) (fun i => logical_and g (elem x i) (elem y i) approx).
Proof.
  intros C. pose proof (proj1 (compatible_enter _ _ _) C) as C'. unfold a_logical_and.
  set (r := if resolve g approx then _ else _).
  change (gives (guarded check_truthy (enter jit x) (enter jit y) r) (joint x y) (fun i => logical_and g (elem x i) (elem y i) approx)).
  assert (S : shp r = joint x y).
  { rewrite <- joint_enter, joint_bshape. unfold r, jnp_minimum. destruct (resolve g approx), (asarray (enter jit x)), (asarray (enter jit y)); reflexivity. }
  rewrite (guarded_ok jit) by (rewrite ?joint_enter; auto). apply gives_ok; [exact S|]. intros i W. rewrite <- joint_enter in W.
  destruct (operand _ _ _ i C' W (enter jit x) (or_introl eq_refl)) as [Fx Tx].
  destruct (operand _ _ _ i C' W (enter jit y) (or_intror eq_refl)) as [Fy Ty].
  rewrite !elem_enter in *. unfold r, logical_and. destruct (resolve g approx).
  - unfold jnp_minimum. destruct x as [[]| |], y as [[]| |], jit; cbn [enter asarray get] in *; rewrite ?Fx, ?Fy, ?Tx, ?Ty; reflexivity.
  - cbn [get]. now rewrite Tx, Ty.
Qed.
Lemma or_raises : ~ compatible jit x y -> a_logical_or jit g x y approx = Err TypeCheckError.
Proof. intros C. rewrite compatible_enter in C. apply (guarded_err jit _ _ _ entered C). Qed.
Lemma and_raises : ~ compatible jit x y -> a_logical_and jit g x y approx = Err TypeCheckError.
Proof. intros C. rewrite compatible_enter in C. apply (guarded_err jit _ _ _ entered C). Qed.

Lemma felem_to_f v i : felem v i = to_f (elem v i).
Proof. unfold felem. destruct (elem v i) as [[]|]; reflexivity. Qed.
Lemma compare_gives sub cmp k : is_float x -> is_float y -> compatible jit x y ->
  gives (a_compare sub cmp jit g x y approx k) (joint x y)
    (fun i => if resolve g approx then TF (activation (sub (felem x i) (felem y i)) k) else TB (cmp (felem x i) (felem y i))).
Proof.
  intros Hx Hy C. pose proof (proj1 (compatible_enter _ _ _) C) as C'. unfold a_compare.
  set (r := if resolve g approx then _ else _).
  change (gives (guarded check_float (enter jit x) (enter jit y) r) (joint x y)
    (fun i => if resolve g approx then TF (activation (sub (felem x i) (felem y i)) k) else TB (cmp (felem x i) (felem y i)))).
  assert (S : shp r = joint x y).
  { rewrite <- joint_enter, joint_bshape. unfold r. destruct (resolve g approx); reflexivity. }
  rewrite (guarded_float_ok jit) by (rewrite ?joint_enter, ?is_float_enter; auto). apply gives_ok; [exact S|]. intros i W. rewrite <- joint_enter in W.
  destruct (operand _ _ _ i C' W (enter jit x) (or_introl eq_refl)) as [Fx _].
  destruct (operand _ _ _ i C' W (enter jit y) (or_intror eq_refl)) as [Fy _].
  rewrite !elem_enter in *. rewrite !felem_to_f. unfold r. destruct (resolve g approx); cbn [get]; now rewrite Fx, Fy.
Qed.
Lemma compare_raises sub cmp k : ~ (is_float x /\ is_float y /\ compatible jit x y) -> a_compare sub cmp jit g x y approx k = Err TypeCheckError.
Proof.
  intros C. apply (guarded_float_err jit _ _ _ entered). rewrite !is_float_enter, <- compatible_enter. exact C.
Qed.

(** One operand. *)
Lemma self : compatible jit x x. Proof. now left. Qed.
Lemma joint_self v : joint v v = shape_of v. Proof. unfold joint. now destruct (shape_of v). Qed.
Lemma own i : within i (shape_of x) -> fget (asarray (enter jit x)) i = to_f (elem x i) /\ tget (asarray (enter jit x)) i = to_b (elem x i).
Proof.
  intros W. rewrite <- (shape_of_enter jit x), <- joint_self in W.
  destruct (operand jit (enter jit x) (enter jit x) i (or_introl eq_refl) W (enter jit x) (or_introl eq_refl)) as [A B].
  rewrite elem_enter in *. auto.
Qed.
Lemma bind_own : exists m, check_truthy None (enter jit x) = Ok m /\ forall r, shp r = shape_of x -> ret_truthy m r = Ok r.
Proof.
  destruct (enter jit x) as [a| |] eqn:E; cbn; (eexists; split; [reflexivity|]); intros r S; unfold ret_truthy; cbn.
  - replace (shp r) with (shp a); [now rewrite shape_eqb_refl|]. rewrite S, <- (shape_of_enter jit x), E. now destruct a.
  - reflexivity.
  - reflexivity.
Qed.
Lemma shp_own : shp (asarray (enter jit x)) = shape_of x.
Proof. now rewrite <- shape_of_asarray, shape_of_enter. Qed.
Lemma not_gives : gives (a_logical_not jit g x approx) (shape_of x) (fun i => logical_not g (elem x i) approx).
Proof.
  unfold a_logical_not. destruct bind_own as [m [-> Hr]]. cbn [rbind]. rewrite Hr by (destruct (resolve g approx); apply shp_own).
  apply gives_ok; [destruct (resolve g approx); apply shp_own|]. intros i W. destruct (own i W) as [A B]. unfold logical_not.
  destruct (resolve g approx); cbn [get]; now rewrite ?A, ?B.
Qed.
Lemma is_false_gives tol : gives (a_is_false jit g x tol approx) (shape_of x)
  (fun i => match is_false g (elem x i) tol approx with Ok b => TB b | Err _ => TF NaN end).
Proof.
  unfold a_is_false. destruct bind_own as [m [-> Hr]]. cbn [rbind]. unfold ret_bool, is_false.
  destruct (resolve g approx); (rewrite Hr by apply shp_own; apply gives_ok; [apply shp_own|]; intros i W; destruct (own i W) as [A B]; cbn [get]; now rewrite ?A, ?B).
Qed.
Lemma is_true_approx_gives tol : resolve g approx = true -> gives (a_is_true jit g x tol approx) (shape_of x)
  (fun i => match is_true g (elem x i) tol approx with Ok b => TB b | Err _ => TF NaN end).
Proof.
  intros R. unfold a_is_true. destruct bind_own as [m [-> Hr]]. cbn [rbind]. unfold ret_bool, is_true. rewrite R.
  rewrite Hr by apply shp_own. apply gives_ok; [apply shp_own|]. intros i W. destruct (own i W) as [A B]. cbn [get]. now rewrite A.
Qed.
Lemma is_true_exact_gives tol : resolve g approx = false -> ~ is_float x -> gives (a_is_true jit g x tol approx) (shape_of x) (elem x).
Proof.
  intros R F. unfold a_is_true. destruct bind_own as [m [-> Hr]]. cbn [rbind]. unfold ret_bool. rewrite R.
  pose proof shp_own as S. rewrite <- (is_float_enter jit) in F.
  destruct (enter jit x) as [[s f|s f]|q|b] eqn:E; cbn [is_float asarray] in *; try tauto; rewrite Hr by exact S;
  (apply gives_ok; [exact S|]); intros i W; rewrite <- (elem_enter jit x), E; reflexivity.
Qed.
Lemma is_true_exact_raises tol : resolve g approx = false -> is_float x -> a_is_true jit g x tol approx = Err TypeCheckError.
Proof.
  intros R F. unfold a_is_true. destruct bind_own as [m [-> Hr]]. cbn [rbind]. unfold ret_bool. rewrite R.
  rewrite <- (is_float_enter jit) in F. destruct (enter jit x) as [[s f|s f]|q|b] eqn:E; cbn [is_float asarray] in *; tauto.
Qed.
Lemma unary_gives h : is_float x -> gives (a_unary_float h jit x) (shape_of x) (fun i => TF (h (felem x i))).
Proof.
  intros F. unfold a_unary_float. rewrite check_float_float by now apply is_float_enter. destruct bind_own as [m [-> Hr]]. cbn [rbind]. unfold ret_float.
  rewrite Hr by apply shp_own. apply gives_ok; [apply shp_own|]. intros i W. destruct (own i W) as [A _]. cbn [get]. now rewrite A, felem_to_f.
Qed.
Lemma unary_raises h : ~ is_float x -> a_unary_float h jit x = Err TypeCheckError.
Proof. intros F. unfold a_unary_float. rewrite check_float_not; [reflexivity|]. now rewrite is_float_enter. Qed.
End Ops.
