(** Model of the automatic differentiation that [jax.grad] and
    [jax.value_and_grad] apply to the code (differt2d/optimize.py:85,
    differt2d/scene.py:1617-1620, 1920-1923).

    A traced computation is an expression over the entries of the
    differentiated argument; the other inputs are constants.  Reverse mode
    sends a cotangent down the expression, using JAX's rule for each primitive,
    with IEEE special values.

    Simplifications: the cotangents of a value used several times are sent down
    separately instead of being summed first; no rounding; zero is +0. *)
From Coq Require Import Reals List Bool ZArith Arith.
From Verif Require Import Base LogicM GeometryM PathM UtilsM.
Import ListNotations.
Open Scope R_scope.
Local Notation length := List.length.

(** IEEE division. *)
Definition xdiv (x y : xreal) : xreal :=
  match x, y with
  | NaN, _ => NaN
  | _, NaN => NaN
  | Fin a, Fin b => fdiv a b
  | Fin _, _ => Fin 0
  | PInf, Fin b => if Rltb b 0 then NInf else PInf
  | NInf, Fin b => if Rltb b 0 then PInf else NInf
  | _, _ => NaN
  end.

(** [lax.integer_pow(x, -2)]. *)
Definition xinvsq (x : xreal) : xreal :=
  match x with
  | Fin b => if Reqb b 0 then PInf else Fin (1 / (b * b))
  | PInf | NInf => Fin 0
  | NaN => NaN
  end.

(** [lax.sqrt]. *)
Definition xsqrt (x : xreal) : xreal :=
  match x with
  | Fin r => if Rltb r 0 then NaN else Fin (sqrt r)
  | PInf => PInf
  | _ => NaN
  end.

(** [lax.logistic]. *)
Definition xlogistic (x : xreal) : xreal :=
  match x with
  | Fin r => Fin (1 / (1 + exp (- r)))
  | PInf => Fin 1
  | NInf => Fin 0
  | NaN => NaN
  end.

(** IEEE equality (NaN differs from everything). *)
Definition xeqb (x y : xreal) : bool :=
  match x, y with
  | Fin a, Fin b => Reqb a b
  | PInf, PInf => true
  | NInf, NInf => true
  | _, _ => false
  end.

(** The conditions of [jnp.where] in the code: [x == 0.0], and those of
    [jnp.nan_to_num]. *)
Inductive cond := IsZero | IsNan | IsPosInf | IsNegInf.
Definition holds (c : cond) (x : xreal) : bool :=
  match c, x with
  | IsZero, Fin r => Reqb r 0
  | IsNan, NaN => true
  | IsPosInf, PInf => true
  | IsNegInf, NInf => true
  | _, _ => false
  end.

(** The primitives of the traced code. *)
Inductive expr :=
| EVar (i : nat)
| ECst (x : xreal)
| ENeg (a : expr)
| EAdd (a b : expr)
| ESub (a b : expr)
| EMul (a b : expr)
| EDiv (a b : expr)
| ESqrt (a : expr)
| ESq (a : expr)                    (* [lax.integer_pow(x, 2)], from [x ** 2] *)
| ELogistic (a : expr)
| EMax (a b : expr)
| EMin (a b : expr)
| EMin3 (a b c : expr)              (* [jnp.min] of three values *)
| EWhere (c : cond) (l a b : expr). (* [jnp.where(c(l), a, b)] *)

(** Value at the point [env]. *)
Fixpoint eval (env : nat -> R) (e : expr) : xreal :=
  match e with
  | EVar i => Fin (env i)
  | ECst x => x
  | ENeg a => xopp (eval env a)
  | EAdd a b => xadd (eval env a) (eval env b)
  | ESub a b => xsub (eval env a) (eval env b)
  | EMul a b => xmul (eval env a) (eval env b)
  | EDiv a b => xdiv (eval env a) (eval env b)
  | ESqrt a => xsqrt (eval env a)
  | ESq a => xmul (eval env a) (eval env a)
  | ELogistic a => xlogistic (eval env a)
  | EMax a b => xmax (eval env a) (eval env b)
  | EMin a b => xmin (eval env a) (eval env b)
  | EMin3 a b c => xmin (xmin (eval env a) (eval env b)) (eval env c)
  | EWhere c l a b => if holds c (eval env l) then eval env a else eval env b
  end.

(** [_balanced_eq(x, z, y)] (JAX's rule for [lax.max] and [lax.min]): the share of
    the operand [x] in the result [z], the other operand being [y]. *)
Definition share (x z y : xreal) : xreal :=
  if xeqb x z then (if xeqb y z then Fin (1 / 2) else Fin 1) else Fin 0.
(** JAX's rule for [jnp.min]: equal shares among the minima. *)
Definition hits (z : xreal) (xs : list xreal) : R := INR (length (filter (fun x => xeqb x z) xs)).
Definition xflag (b : bool) : xreal := if b then Fin 1 else Fin 0.

(** The cotangent that reaches the variable [i] when [ct] is the one of [e]. *)
Fixpoint bp (env : nat -> R) (e : expr) (ct : xreal) (i : nat) : xreal :=
  match e with
  | EVar j => if Nat.eqb i j then ct else Fin 0
  | ECst _ => Fin 0
  | ENeg a => bp env a (xopp ct) i
  | EAdd a b => xadd (bp env a ct i) (bp env b ct i)
  | ESub a b => xadd (bp env a ct i) (bp env b (xopp ct) i)
  | EMul a b => xadd (bp env a (xmul ct (eval env b)) i) (bp env b (xmul ct (eval env a)) i)
  | EDiv a b =>
      xadd (bp env a (xdiv ct (eval env b)) i)
           (bp env b (xopp (xmul (xmul ct (xinvsq (eval env b))) (eval env a))) i)
  | ESqrt a => bp env a (xmul ct (xdiv (Fin (1 / 2)) (xsqrt (eval env a)))) i
  | ESq a => bp env a (xmul ct (xmul (Fin 2) (eval env a))) i
  | ELogistic a =>
      let ans := xlogistic (eval env a) in
      bp env a (xmul (xmul ct (xsub (Fin 1) ans)) ans) i
  | EMax a b =>
      let x := eval env a in let y := eval env b in let z := xmax x y in
      xadd (bp env a (xmul ct (share x z y)) i) (bp env b (xmul ct (share y z x)) i)
  | EMin a b =>
      let x := eval env a in let y := eval env b in let z := xmin x y in
      xadd (bp env a (xmul ct (share x z y)) i) (bp env b (xmul ct (share y z x)) i)
  | EMin3 a b c =>
      let x := eval env a in let y := eval env b in let w := eval env c in
      let z := xmin (xmin x y) w in
      let ct' := xdiv ct (Fin (hits z [x; y; w])) in
      xadd (xadd (bp env a (xmul ct' (xflag (xeqb x z))) i) (bp env b (xmul ct' (xflag (xeqb y z))) i))
           (bp env c (xmul ct' (xflag (xeqb w z))) i)
  | EWhere c l a b =>
      (* the branch that is not selected receives a zero, not nothing *)
      if holds c (eval env l) then xadd (bp env a ct i) (bp env b (Fin 0) i)
      else xadd (bp env a (Fin 0) i) (bp env b ct i)
  end.

(** [jax.grad(e)] at [env]: the cotangent 1 is sent down. *)
Definition grad (env : nat -> R) (e : expr) (i : nat) : xreal := bp env e (Fin 1) i.

(** ** The code, traced *)
Notation C r := (ECst (Fin r)).
Definition evec := (expr * expr)%type.
Definition e_vadd (u v : evec) : evec := (EAdd (fst u) (fst v), EAdd (snd u) (snd v)).
Definition e_vsub (u v : evec) : evec := (ESub (fst u) (fst v), ESub (snd u) (snd v)).
Definition e_vscale (k : expr) (u : evec) : evec := (EMul k (fst u), EMul k (snd u)).
Definition e_dot (u v : evec) : expr := EAdd (EMul (fst u) (fst v)) (EMul (snd u) (snd v)).
Definition e_cross (u v : evec) : expr := ESub (EMul (fst u) (snd v)) (EMul (snd u) (fst v)).
Definition e_norm (u : evec) : expr := ESqrt (e_dot u u).
(** A point that is not differentiated. *)
Definition cvec (v : vec) : evec := (C (fst v), C (snd v)).

(** differt2d/geometry.py:178-203 [path_length]. *)
Fixpoint e_diffs (pts : list evec) : list evec :=
  match pts with
  | p :: ((q :: _) as tl) => e_vsub q p :: e_diffs tl
  | _ => []
  end.
Definition e_path_length (eps : R) (pts : list evec) : expr :=
  fold_right EAdd (C 0)
    (map (fun v => e_norm (EAdd (fst v) (C eps), EAdd (snd v) (C eps))) (e_diffs pts)).

(** differt2d/geometry.py:208-230 [normalize]. *)
Definition e_normalize (v : evec) : evec :=
  let length := e_norm v in
  let length := EWhere IsZero length (C 1) length in
  (EDiv (fst v) length, EDiv (snd v) length).

(** A wall, as its two rows. *)
Definition ewall := (evec * evec)%type.
Definition cwall (w : wall) : ewall := (cvec (w_origin w), cvec (w_dest w)).
(** differt2d/geometry.py:467-474 [Ray.t]. *)
Definition e_t (w : ewall) : evec := e_vsub (snd w) (fst w).
(** differt2d/geometry.py:563-573 [Wall.normal]. *)
Definition e_normal (w : ewall) : evec :=
  let t := e_t w in e_normalize (snd t, ENeg (fst t)).
(** differt2d/geometry.py:591-598 [Wall.cartesian_to_parametric]. *)
Definition e_c2p (w : ewall) (p : evec) : expr :=
  let other := e_vsub p (fst w) in
  let squared_length := e_dot (e_t w) (e_t w) in
  let squared_length := EWhere IsZero squared_length (C 1) squared_length in
  EDiv (e_dot (e_t w) other) squared_length.
(** differt2d/geometry.py:643-650 [Wall.evaluate_cartesian]. *)
Definition e_evaluate (w : ewall) (a b c : evec) : expr :=
  let i := e_vsub b a in
  let r := e_vsub c b in
  let n := e_normal w in
  let i := e_normalize i in
  let r := e_normalize r in
  let e := e_vsub r (e_vsub i (e_vscale (EMul (C 2) (e_dot i n)) n)) in
  e_dot e e.
(** differt2d/geometry.py:654-670 [Wall.image_of]. *)
Definition e_image_of (w : ewall) (p : evec) : evec :=
  let i := e_vsub p (fst w) in
  e_vsub p (e_vscale (EMul (C 2) (e_dot i (e_normal w))) (e_normal w)).
(** differt2d/geometry.py:700-711 [RIS.evaluate_cartesian]; [phi] is not
    differentiated. *)
Definition e_ris_evaluate (w : ewall) (phi : R) (b c : evec) : expr :=
  let r := e_vsub c b in
  let n := e_normal w in
  let r := e_normalize r in
  let nr := (ENeg (fst r), ENeg (snd r)) in
  EAdd (ESq (ESub (e_cross nr n) (C (sin phi)))) (ESq (ESub (e_dot nr n) (C (cos phi)))).

(** The two activations of differt2d/logic.py:220-255. *)
Inductive act := Hard | Sigm.
Record eakw := mkeakw { ek_alpha : R; ek_act : act }.
Definition e_activation (k : eakw) (x : expr) : expr :=
  match ek_act k with
  | Hard => EDiv (EMin (EMax (EAdd (EMul (C (ek_alpha k)) x) (C 3)) (C 0)) (C 6)) (C 6)
  | Sigm => ELogistic (EMul (C (ek_alpha k)) x)
  end.
(** differt2d/logic.py:340-487 with [approx=True]. *)
Definition e_greater_equal (k : eakw) (x y : expr) : expr := e_activation k (ESub x y).
Definition e_less (k : eakw) (x y : expr) : expr := e_activation k (ESub y x).
Definition e_less_equal (k : eakw) (x y : expr) : expr := e_activation k (ESub y x).

(** differt2d/geometry.py:84-173 [segments_intersect]. *)
Definition e_seg_test (k : eakw) (num den : expr) (tol : R) : expr :=
  let den' := EWhere IsZero den (C 1) den in
  let t := EWhere IsZero den (ECst PInf) (EDiv num den') in
  EMin (e_greater_equal k t (C (- tol))) (e_less_equal k t (C (1 + tol))).
Definition e_segments_intersect (k : eakw) (P1 P2 P3 P4 : evec) (tol : R) : expr :=
  let A := e_vsub P2 P1 in
  let B := e_vsub P3 P4 in
  let C := e_vsub P1 P3 in
  let a := ESub (EMul (snd B) (fst C)) (EMul (fst B) (snd C)) in
  let b := ESub (EMul (fst A) (snd C)) (EMul (snd A) (fst C)) in
  let d := ESub (EMul (snd A) (fst B)) (EMul (fst A) (snd B)) in
  EMin (e_seg_test k a d tol) (e_seg_test k b d tol).

(** differt2d/geometry.py:625-639 [Wall.intersects_cartesian]. *)
Definition e_intersects (k : eakw) (w : ewall) (ray0 ray1 : evec) (patch : R) : expr :=
  e_segments_intersect k (e_vsub (fst w) (e_vscale (C patch) (e_t w)))
    (e_vadd (snd w) (e_vscale (C patch) (e_t w))) ray0 ray1 SEG_TOL.
(** differt2d/geometry.py:602-621 [Wall.contains_parametric]. *)
Definition e_contains (k : eakw) (s : expr) : expr :=
  EMin (e_greater_equal k s (C 0)) (e_less_equal k s (C 1)).

(** differt2d/geometry.py:1086-1112: the image method on walls. *)
Fixpoint e_images (image : evec) (ws : list wall) : list evec :=
  match ws with
  | [] => []
  | w :: tl => let image := e_image_of (cwall w) image in image :: e_images image tl
  end.
Definition e_backward (point : evec) (x : wall * evec) : evec :=
  let '(w, image) := x in
  let p := fst (cwall w) in
  let n := e_normal (cwall w) in
  let u := e_vsub point image in
  let v := e_vsub p point in
  let un := e_dot u n in
  let vn := e_dot v n in
  let inc := (EWhere IsZero un (C 0) (EDiv (EMul vn (fst u)) un),
              EWhere IsZero un (C 0) (EDiv (EMul vn (snd u)) un)) in
  e_vadd point inc.
Fixpoint e_backward_scan (rx : evec) (xs : list (wall * evec)) : evec * list evec :=
  match xs with
  | [] => (rx, [])
  | x :: tl =>
      let '(c, ys) := e_backward_scan rx tl in
      let point := e_backward c x in
      (point, point :: ys)
  end.
Definition e_image_points (tx : evec) (ws : list wall) (rx : evec) : list evec :=
  tx :: snd (e_backward_scan rx (combine ws (e_images tx ws))) ++ [rx].

(** [a[i, :]]. *)
Definition e_row (pts : list evec) (i : nat) : evec :=
  nth (Nat.min i (length pts - 1)) pts (cvec (0, 0)).

(** differt2d/geometry.py:1077-1084 [path_loss], over walls and RIS. *)
Definition e_obj_evaluate (o : object) (a b c : evec) : expr :=
  match o with
  | OWall w => e_evaluate (cwall w) a b c
  | ORIS w phi => e_ris_evaluate (cwall w) phi b c
  | OVertex _ => C 0
  end.
Definition e_path_loss (objects : list object) (pts : list evec) : expr :=
  fold_left
    (fun l '(i, obj) => EAdd l (e_obj_evaluate obj (e_row pts i) (e_row pts (i + 1)) (e_row pts (i + 2))))
    (enumerate objects) (C 0).

(** differt2d/geometry.py:823-963: the validity test with [approx=True]. *)
Definition e_obj_contains (k : eakw) (o : object) (p : evec) : expr :=
  match o with
  | OWall w => e_contains k (e_c2p (cwall w) p)
  | ORIS w _ => e_contains k (e_c2p (cwall w) p)
  | OVertex _ => C 1
  end.
Definition e_on_objects (k : eakw) (pts : list evec) (objects : list object) : expr :=
  fold_left (fun contains '(i, obj) => EMin contains (e_obj_contains k obj (e_row pts (i + 1))))
    (enumerate objects) (C 1).
Definition e_obj_intersects (k : eakw) (o : object) (r0 r1 : evec) (patch : R) : expr :=
  match o with
  | OWall w => e_intersects k (cwall w) r0 r1 patch
  | ORIS w _ => e_intersects k (cwall w) r0 r1 patch
  | OVertex _ => C 0
  end.
Definition e_intersects_with_objects (k : eakw) (pts : list evec) (objects : list object)
    (cand : list Z) (patch : R) : expr :=
  let indices := interacting_object_indices cand in
  fold_left
    (fun acc i =>
       fold_left
         (fun acc '(obj_index, obj) =>
            let ignore := (Z.eqb (Z.of_nat obj_index) (nth (i + 0) indices 0%Z)
                           || Z.eqb (Z.of_nat obj_index) (nth (i + 1) indices 0%Z))%bool in
            if ignore then acc
            else EMax acc (e_obj_intersects k obj (e_row pts i) (e_row pts (i + 1)) patch))
         (enumerate objects) acc)
    (seq 0 (length pts - 1)) (C 0).
(** [jnp.nan_to_num]. *)
Definition e_nan_to_num (x : expr) : expr :=
  let out := EWhere IsNan x (C 0) x in
  let out := EWhere IsPosInf out (C float32_max) out in
  EWhere IsNegInf out (C (- float32_max)) out.
Definition e_is_valid (k : eakw) (pts : list evec) (loss : expr) (objects : list object)
    (cand : list Z) (interacting : list object) (tol patch : R) : expr :=
  e_nan_to_num
    (EMin3 (e_on_objects k pts interacting)
       (ESub (C 1) (e_intersects_with_objects k pts objects cand patch))
       (e_less k loss (C tol))).

(** differt2d/utils.py:17-54 [received_power]. *)
Definition e_received_power (eps : R) (pts : list evec) (r_coef height : R) : expr :=
  let r := e_path_length eps pts in
  let n := (length pts - 2)%nat in
  EDiv (C (r_coef ^ n)) (EAdd (C (height * height)) (EMul r r)).

(** The term of one candidate in [facc] (differt2d/scene.py:1585-1611), for
    [ImagePath] and [received_power], with [approx=True]. *)
Definition e_term (k : eakw) (eps r_coef height tol patch : R) (objects : list object)
    (tx rx : evec) (x : list Z * list wall) : expr :=
  let '(cand, ws) := x in
  let pts := e_image_points tx ws rx in
  EMul (e_is_valid k pts (match ws with [] => C 0 | _ => e_path_loss (map OWall ws) pts end) objects cand (map OWall ws) tol patch)
       (e_received_power eps pts r_coef height).
Definition e_facc (k : eakw) (eps r_coef height tol patch : R) (objects : list object)
    (work : list (list Z * list wall)) (tx rx : evec) : expr :=
  fold_left (fun acc x => EAdd acc (e_term k eps r_coef height tol patch objects tx rx x)) work (C 0).

(** The same with [approx=False]: the validity is a boolean, which has no
    derivative; the product turns it into the constant 0 or 1. *)
Definition e_exact_term (eps r_coef height : R) (tx rx : evec) (x : bool * list wall) : expr :=
  let '(valid, ws) := x in
  EMul (C (if valid then 1 else 0)) (e_received_power eps (e_image_points tx ws rx) r_coef height).
Definition e_exact_facc (eps r_coef height : R) (work : list (bool * list wall)) (tx rx : evec) : expr :=
  fold_left (fun acc x => EAdd acc (e_exact_term eps r_coef height tx rx x)) work (C 0).
