(** C88: the logic functions on arrays. *)
From Coq Require Import Reals List Bool ZArith Arith Lia.
From Verif Require Import Base LogicM ArrayM SpecArray ArrayP ArrayRedP.
Import ListNotations.
Open Scope R_scope.
Local Notation length := List.length.

(** Two operands of the same shape: the result has that shape, and its elements are
    the results on the elements.  Without jit a Python number goes with anything. *)
Theorem C88_connectives_are_element_wise : forall jit g x y approx, compatible jit x y ->
  gives (a_logical_or jit g x y approx) (joint x y) (fun i => logical_or g (elem x i) (elem y i) approx) /\
  gives (a_logical_and jit g x y approx) (joint x y) (fun i => logical_and g (elem x i) (elem y i) approx).
Proof. intros. split; [now apply or_gives|now apply and_gives]. Qed.
Print Assumptions C88_connectives_are_element_wise.
Theorem C88_comparisons_are_element_wise : forall jit g x y approx k, is_float x -> is_float y -> compatible jit x y ->
  gives (a_greater jit g x y approx k) (joint x y) (fun i => greater g (felem x i) (felem y i) approx k) /\
  gives (a_greater_equal jit g x y approx k) (joint x y) (fun i => greater_equal g (felem x i) (felem y i) approx k) /\
  gives (a_less jit g x y approx k) (joint x y) (fun i => less g (felem x i) (felem y i) approx k) /\
  gives (a_less_equal jit g x y approx k) (joint x y) (fun i => less_equal g (felem x i) (felem y i) approx k).
Proof. intros. repeat split; now apply compare_gives. Qed.
Print Assumptions C88_comparisons_are_element_wise.
Theorem C88_one_operand_functions_are_element_wise : forall jit g x approx,
  gives (a_logical_not jit g x approx) (shape_of x) (fun i => logical_not g (elem x i) approx) /\
  (forall tol, exists a, a_is_false jit g x tol approx = Ok a /\ shape_of (PArr a) = shape_of x /\
     forall i, within i (shape_of x) -> exists b, is_false g (elem x i) tol approx = Ok b /\ elem (PArr a) i = TB b) /\
  (forall tol, resolve g approx = true \/ ~ is_float x ->
     exists a, a_is_true jit g x tol approx = Ok a /\ shape_of (PArr a) = shape_of x /\
     forall i, within i (shape_of x) -> exists b, is_true g (elem x i) tol approx = Ok b /\ elem (PArr a) i = TB b) /\
  (is_float x -> forall alpha,
     gives (a_sigmoid jit x alpha) (shape_of x) (fun i => TF (sigmoid (felem x i) alpha)) /\
     gives (a_hard_sigmoid jit x alpha) (shape_of x) (fun i => TF (hard_sigmoid (felem x i) alpha))).
Proof.
  intros. split; [apply not_gives|]. split; [|split].
  - intros tol. destruct (is_false_gives jit g x approx tol) as (a & E & S & H). exists a. split; auto. split; auto.
    intros i W. rewrite (H i W). unfold is_false. destruct (resolve g approx); eauto.
  - intros tol [R|F].
    + destruct (is_true_approx_gives jit g x approx tol R) as (a & E & S & H). exists a. split; auto. split; auto.
      intros i W. rewrite (H i W). unfold is_true. rewrite R. eauto.
    + destruct (resolve g approx) eqn:R.
      * destruct (is_true_approx_gives jit g x approx tol R) as (a & E & S & H). exists a. split; auto. split; auto.
        intros i W. rewrite (H i W). unfold is_true. rewrite R. eauto.
      * destruct (is_true_exact_gives jit g x approx tol R F) as (a & E & S & H). exists a. split; auto. split; auto.
        intros i W. rewrite (H i W). unfold is_true. rewrite R. destruct x as [[]| |]; cbn in *; try tauto; eauto.
  - intros F alpha. split; now apply unary_gives.
Qed.
Print Assumptions C88_one_operand_functions_are_element_wise.

(** Anything else is refused: there is no broadcasting; with jit, a Python number
    has no axis and cannot be combined with an array that has one. *)
Theorem C88_other_operands_are_refused : forall jit g x y approx,
  (~ compatible jit x y ->
     a_logical_or jit g x y approx = Err TypeCheckError /\ a_logical_and jit g x y approx = Err TypeCheckError) /\
  (~ (is_float x /\ is_float y /\ compatible jit x y) -> forall k,
     a_greater jit g x y approx k = Err TypeCheckError /\ a_greater_equal jit g x y approx k = Err TypeCheckError /\
     a_less jit g x y approx k = Err TypeCheckError /\ a_less_equal jit g x y approx k = Err TypeCheckError) /\
  (resolve g approx = false -> is_float x -> forall tol, a_is_true jit g x tol approx = Err TypeCheckError) /\
  (~ is_float x -> forall alpha,
     a_sigmoid jit x alpha = Err TypeCheckError /\ a_hard_sigmoid jit x alpha = Err TypeCheckError).
Proof.
  intros. split; [|split; [|split]].
  - intros C. split; [now apply or_raises|now apply and_raises].
  - intros C k. repeat split; now apply compare_raises.
  - intros. now apply is_true_exact_raises.
  - intros F alpha. split; now apply unary_raises.
Qed.
Print Assumptions C88_other_operands_are_refused.

(** [axis=0]: the result has the shape of the arguments, and each of its elements
    combines the elements of the arguments there. *)
Theorem C88_axis_0_combines_the_arguments : forall jit g xs s approx,
  xs <> [] -> Forall (fun v => shape_of v = s) xs ->
  (exists r, a_logical_all jit g xs (AxInt 0) approx = Ok r /\ shape_of (PArr r) = s /\
     forall i, within i s -> logical_all g (map (fun v => elem v i) xs) approx = Ok (elem (PArr r) i)) /\
  (exists r, a_logical_any jit g xs (AxInt 0) approx = Ok r /\ shape_of (PArr r) = s /\
     forall i, within i s -> logical_any g (map (fun v => elem v i) xs) approx = Ok (elem (PArr r) i)).
Proof.
  intros jit g xs s approx N H. split;
  [destruct (red_axis0 false jit g xs s approx N H) as (r & E & S & G)|destruct (red_axis0 true jit g xs s approx N H) as (r & E & S & G)];
  (exists r; split; [exact E|]; split; [destruct r; exact S|]; intros i W; specialize (G i W); destruct r; exact G).
Qed.
Print Assumptions C88_axis_0_combines_the_arguments.

(** The default [axis=None] works on arguments without axes only; on arrays it
    raises, although it is documented to flatten them. *)
Theorem C88_default_axis_refuses_arrays : forall jit g xs s approx,
  xs <> [] -> Forall (fun v => shape_of v = s) xs ->
  (s = [] ->
     (exists r, a_logical_all jit g xs AxNone approx = Ok r /\ shape_of (PArr r) = [] /\
        logical_all g (map (fun v => elem v []) xs) approx = Ok (elem (PArr r) [])) /\
     (exists r, a_logical_any jit g xs AxNone approx = Ok r /\ shape_of (PArr r) = [] /\
        logical_any g (map (fun v => elem v []) xs) approx = Ok (elem (PArr r) []))) /\
  (s <> [] -> jit = true ->
     (exists e, a_logical_all jit g xs AxNone approx = Err e /\
        (e = TypeCheckError \/ e = ValueError /\ resolve g approx = true /\ In 0%nat s)) /\
     (exists e, a_logical_any jit g xs AxNone approx = Err e /\
        (e = TypeCheckError \/ e = ValueError /\ resolve g approx = true /\ In 0%nat s))).
Proof.
  intros jit g xs s approx N H.
  destruct (red_none false jit g xs s approx N H) as [A1 A2]. destruct (red_none true jit g xs s approx N H) as [B1 B2].
  split.
  - intros E. destruct (A1 E) as (r1 & E1 & S1 & G1). destruct (B1 E) as (r2 & E2 & S2 & G2). split.
    + exists r1. split; [exact E1|]. split; [destruct r1; exact S1|destruct r1; exact G1].
    + exists r2. split; [exact E2|]. split; [destruct r2; exact S2|destruct r2; exact G2].
  - intros E J. split; [exact (A2 E J)|exact (B2 E J)].
Qed.
Print Assumptions C88_default_axis_refuses_arrays.

(** Another axis [p] (counted from 0, the axis of the arguments) is accepted exactly
    when the lengths of the axes before it are all the number of arguments; then the
    lines along that axis of the stacked arguments are combined. *)
Theorem C88_other_axes : forall g xs s k p approx,
  xs <> [] -> Forall (fun v => shape_of v = s) xs ->
  (p <= length s)%nat -> (k = Z.of_nat p \/ k = Z.of_nat p - Z.of_nat (S (length s)))%Z ->
  ((forall q, (q < p)%nat -> nth_error s q = Some (length xs)) -> forall jit,
     (exists r, a_logical_all jit g xs (AxInt k) approx = Ok r /\ shape_of (PArr r) = s /\
        forall i, within i s -> exists ts, length ts = length xs /\
          (forall j t, nth_error ts j = Some t -> stacked xs (insert p j i) t) /\
          logical_all g ts approx = Ok (elem (PArr r) i)) /\
     (exists r, a_logical_any jit g xs (AxInt k) approx = Ok r /\ shape_of (PArr r) = s /\
        forall i, within i s -> exists ts, length ts = length xs /\
          (forall j t, nth_error ts j = Some t -> stacked xs (insert p j i) t) /\
          logical_any g ts approx = Ok (elem (PArr r) i))) /\
  (~ (forall q, (q < p)%nat -> nth_error s q = Some (length xs)) ->
     (exists e, a_logical_all true g xs (AxInt k) approx = Err e /\
        (e = TypeCheckError \/ e = ValueError /\ resolve g approx = true /\ In 0%nat s)) /\
     (exists e, a_logical_any true g xs (AxInt k) approx = Err e /\
        (e = TypeCheckError \/ e = ValueError /\ resolve g approx = true /\ In 0%nat s))).
Proof.
  intros g xs s k p approx N H Hp Hk. split.
  - intros Hq jit. split;
    [destruct (red_axis false jit g xs s k p approx N H Hp Hk Hq) as (r & E & S & G)|destruct (red_axis true jit g xs s k p approx N H Hp Hk Hq) as (r & E & S & G)];
    (exists r; split; [exact E|]; split; [destruct r; exact S|]; intros i W; destruct (G i W) as (ts & L & T & _ & R);
     exists ts; split; [exact L|]; split; [exact T|destruct r; exact R]).
  - intros Hq. split; [apply (red_axis_other false g xs s k p approx N H Hp Hk Hq)|apply (red_axis_other true g xs s k p approx N H Hp Hk Hq)].
Qed.
Print Assumptions C88_other_axes.

(** Axes out of range, tuples of axes, arguments of several shapes, no argument. *)
Theorem C88_other_calls : forall g xs s approx, xs <> [] -> Forall (fun v => shape_of v = s) xs ->
  (forall jit k, ~ (- Z.of_nat (S (length s)) <= k < Z.of_nat (S (length s)))%Z ->
     a_logical_all jit g xs (AxInt k) approx = Err ValueError /\ a_logical_any jit g xs (AxInt k) approx = Err ValueError) /\
  (forall jit k, a_logical_all jit g xs (AxTuple [k]) approx = a_logical_all jit g xs (AxInt k) approx /\
     a_logical_any jit g xs (AxTuple [k]) approx = a_logical_any jit g xs (AxInt k) approx) /\
  (forall ks, length ks <> 1%nat ->
     (exists e, a_logical_all true g xs (AxTuple ks) approx = Err e /\ (e = TypeCheckError \/ e = ValueError)) /\
     (exists e, a_logical_any true g xs (AxTuple ks) approx = Err e /\ (e = TypeCheckError \/ e = ValueError))).
Proof.
  intros g xs s approx N H. split; [|split].
  - intros jit k K. split; [apply (red_out false jit g xs s k approx N H K)|apply (red_out true jit g xs s k approx N H K)].
  - intros jit k. split; [apply (red_tuple_one false jit g xs s k approx N H)|apply (red_tuple_one true jit g xs s k approx N H)].
  - intros ks L. split; [apply (red_tuple false g xs s ks approx N H L)|apply (red_tuple true g xs s ks approx N H L)].
Qed.
Print Assumptions C88_other_calls.
Theorem C88_arguments_of_several_shapes_are_refused : forall g xs ax approx v w,
  In v xs -> In w xs -> shape_of v <> shape_of w ->
  a_logical_all true g xs ax approx = Err TypeCheckError /\ a_logical_any true g xs ax approx = Err TypeCheckError.
Proof. intros g xs ax approx v w A B C. split; [exact (red_mixed false g xs ax approx v w A B C)|exact (red_mixed true g xs ax approx v w A B C)]. Qed.
Print Assumptions C88_arguments_of_several_shapes_are_refused.
(** Without jit Python numbers escape the check, but not the stacking. *)
Theorem C88_several_shapes_without_jit : forall g xs ax approx v w,
  In v xs -> In w xs -> shape_of v <> shape_of w ->
  (~ is_python v -> ~ is_python w ->
     a_logical_all false g xs ax approx = Err TypeCheckError /\ a_logical_any false g xs ax approx = Err TypeCheckError) /\
  ((forall a b, In a xs -> In b xs -> ~ is_python a -> ~ is_python b -> shape_of a = shape_of b) ->
     a_logical_all false g xs ax approx = Err ValueError /\ a_logical_any false g xs ax approx = Err ValueError).
Proof.
  intros g xs ax approx v w A B C.
  destruct (red_mixed_nojit false g xs ax approx v w A B C) as [A1 A2]. destruct (red_mixed_nojit true g xs ax approx v w A B C) as [B1 B2].
  split; intros; split; [apply A1|apply B1|apply A2|apply B2]; auto.
Qed.
Print Assumptions C88_several_shapes_without_jit.
Theorem C88_no_argument : forall jit g ax approx, ax = AxNone \/ ax = AxInt 0 \/ ax = AxInt (-1) ->
  (resolve g approx = true ->
     a_logical_all jit g [] ax approx = Err ValueError /\ a_logical_any jit g [] ax approx = Err ValueError) /\
  (resolve g approx = false ->
     (exists r, a_logical_all jit g [] ax approx = Ok r /\ shape_of (PArr r) = [] /\ elem (PArr r) [] = TB true) /\
     (exists r, a_logical_any jit g [] ax approx = Ok r /\ shape_of (PArr r) = [] /\ elem (PArr r) [] = TB false)).
Proof.
  intros jit g ax approx A. destruct (red_empty false jit g ax approx A) as [A1 A2]. destruct (red_empty true jit g ax approx A) as [B1 B2].
  split; intros R.
  - split; [exact (A1 R)|exact (B1 R)].
  - destruct (A2 R) as (r1 & E1 & S1 & G1). destruct (B2 R) as (r2 & E2 & S2 & G2). split.
    + exists r1. split; [exact E1|]. split; [destruct r1; exact S1|destruct r1; exact G1].
    + exists r2. split; [exact E2|]. split; [destruct r2; exact S2|destruct r2; exact G2].
Qed.
Print Assumptions C88_no_argument.

(** Two masks of shape 2 x 3, a Python number, and three rows of length 3. *)
Example C88_nonvacuous :
  let m := PArr (NB [2; 3]%nat (fun i => Nat.eqb (hd 0%nat i) 0)) in
  let f := PArr (NF [2; 3]%nat (fun i => Fin (INR (hd 0%nat i)))) in
  let row := PArr (NF [3]%nat (fun i => Fin (INR (hd 0%nat i)))) in
  compatible true m f /\ ~ compatible true f (PFloat 0) /\ compatible false f (PFloat 0) /\ is_float f /\ is_float (PFloat 0) /\
  Forall (fun v => shape_of v = [2; 3]%nat) [m; f] /\ within [1; 2]%nat [2; 3]%nat /\
  (Forall (fun v => shape_of v = [3]%nat) [row; row; row] /\ (forall q, (q < 1)%nat -> nth_error [3]%nat q = Some (length [row; row; row]))) /\
  ~ (forall q, (q < 1)%nat -> nth_error [3]%nat q = Some (length [row; row])).
Proof.
  cbv zeta. split; [now left|]. split; [intros [E|[E _]]; discriminate|]. split; [right; split; [reflexivity|now right]|].
  split; [exact I|]. split; [exact I|]. split; [repeat constructor|]. split; [repeat constructor|]. split.
  - split; [repeat constructor|]. intros q Hq. replace q with 0%nat by lia. reflexivity.
  - intros H. specialize (H 0%nat ltac:(lia)). discriminate.
Qed.
