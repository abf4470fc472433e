(** The validity test, the path length and the received power in single precision:
    the same functions as in [LogicM], [GeometryM], [PathM] and [UtilsM], on IEEE-754
    binary32 numbers with rounding to nearest, overflow, gradual underflow and NaN.

    Assumed: XLA evaluates every operation separately, in the order written in the
    source, without fusing a product and a sum, and rounds to nearest even; sums along
    an axis may be done in any order. *)
From Coq Require Import List Bool ZArith Permutation.
From Flocq Require Import IEEE754.BinarySingleNaN.
From Verif Require Import Base LogicM GeometryM PathM.
Import ListNotations.

(** [jnp.float32], the default floating-point type of JAX. *)
Definition f32 := binary_float 24 128.
Definition f_nan : f32 := B754_nan.
Definition f_inf : f32 := B754_infinity false.

Local Instance prec_pos : FLX.Prec_gt_0 24 := eq_refl.
Local Instance prec_emax : Prec_lt_emax 24 128 := eq_refl.

(** IEEE operations, rounding to nearest even. *)
Definition f_add (x y : f32) : f32 := Bplus mode_NE x y.
Definition f_sub (x y : f32) : f32 := Bminus mode_NE x y.
Definition f_mul (x y : f32) : f32 := Bmult mode_NE x y.
Definition f_div (x y : f32) : f32 := Bdiv mode_NE x y.
Definition f_sqrt (x : f32) : f32 := Bsqrt mode_NE x.
Definition f_opp (x : f32) : f32 := Bopp x.
Definition f_ltb (x y : f32) : bool := Bltb x y.
Definition f_leb (x y : f32) : bool := Bleb x y.
Definition f_eqb (x y : f32) : bool := Beqb x y.

(** An integer times a power of two, and a decimal literal [n / d]. *)
Definition f_scaled (m e : Z) : f32 := binary_normalize 24 128 prec_pos prec_emax mode_NE m e false.
Definition f_int (m : Z) : f32 := f_scaled m 0.
Definition f_lit (n d : Z) : f32 := f_div (f_int n) (f_int d).
Definition f_zero : f32 := B754_zero false.
Definition f_one : f32 := f_int 1.

(** [jnp.maximum], [jnp.minimum]: NaN if either operand is NaN. *)
Definition f_max (x y : f32) : f32 := if is_nan x || is_nan y then f_nan else if f_ltb x y then y else x.
Definition f_min (x y : f32) : f32 := if is_nan x || is_nan y then f_nan else if f_ltb y x then y else x.

(** [jnp.nan_to_num]. *)
Definition f_max_float : f32 := f_scaled (2 ^ 24 - 1) 104.
Definition f_nan_to_num (x : f32) : f32 :=
  match x with
  | B754_nan => f_zero
  | B754_infinity s => if s then f_opp f_max_float else f_max_float
  | _ => x
  end.

(** ** differt2d/logic.py *)

(** A truth value: boolean or float. *)
Inductive ftruthy := FB (b : bool) | FF (x : f32).
Definition f_to_f (t : ftruthy) : f32 :=
  match t with FB true => f_one | FB false => f_zero | FF x => x end.
Definition f_to_b (t : ftruthy) : bool :=
  match t with FB b => b | FF x => negb (f_eqb x f_zero) end.

(** [jax.nn.relu6] and differt2d/logic.py:240-255 [hard_sigmoid].  The compiler may
    replace the division by 6 with a product by the rounded inverse: both are given. *)
Definition f_relu6 (x : f32) : f32 := f_min (f_max x f_zero) (f_int 6).
Definition f_hard_sigmoid (x alpha : f32) : f32 :=
  f_div (f_relu6 (f_add (f_mul alpha x) (f_int 3))) (f_int 6).
Definition f_hard_sigmoid_inv (x alpha : f32) : f32 :=
  f_mul (f_relu6 (f_add (f_mul alpha x) (f_int 3))) (f_lit 1 6).

(** Keyword arguments of [activation] (differt2d/logic.py:260-312). *)
Record fkw := mkfkw { fk_alpha : f32; fk_function : f32 -> f32 -> f32 }.
Definition default_fkw : fkw := mkfkw (f_int 100) f_hard_sigmoid.
Definition f_activation (x : f32) (k : fkw) : f32 := fk_function k x (fk_alpha k).

(** differt2d/logic.py:317-617; [approx] is the resolved mode. *)
Definition f_or (approx : bool) (x y : ftruthy) : ftruthy :=
  if approx then
    match x, y with FB a, FB b => FB (a || b) | _, _ => FF (f_max (f_to_f x) (f_to_f y)) end
  else FB (f_to_b x || f_to_b y).
Definition f_and (approx : bool) (x y : ftruthy) : ftruthy :=
  if approx then
    match x, y with FB a, FB b => FB (a && b) | _, _ => FF (f_min (f_to_f x) (f_to_f y)) end
  else FB (f_to_b x && f_to_b y).
Definition f_not (approx : bool) (x : ftruthy) : ftruthy :=
  if approx then FF (f_sub f_one (f_to_f x)) else FB (negb (f_to_b x)).
Definition f_greater (approx : bool) (x y : f32) (k : fkw) : ftruthy :=
  if approx then FF (f_activation (f_sub x y) k) else FB (f_ltb y x).
Definition f_greater_equal (approx : bool) (x y : f32) (k : fkw) : ftruthy :=
  if approx then FF (f_activation (f_sub x y) k) else FB (f_leb y x).
Definition f_less (approx : bool) (x y : f32) (k : fkw) : ftruthy :=
  if approx then FF (f_activation (f_sub y x) k) else FB (f_ltb x y).
Definition f_less_equal (approx : bool) (x y : f32) (k : fkw) : ftruthy :=
  if approx then FF (f_activation (f_sub y x) k) else FB (f_leb x y).
Definition f_all (approx : bool) (t : ftruthy) (ts : list ftruthy) : ftruthy :=
  if approx then
    if forallb (fun u => match u with FB _ => true | FF _ => false end) (t :: ts)
    then FB (forallb f_to_b (t :: ts))
    else FF (fold_left (fun m u => f_min m (f_to_f u)) ts (f_to_f t))
  else FB (forallb f_to_b (t :: ts)).
Definition f_any (approx : bool) (t : ftruthy) (ts : list ftruthy) : ftruthy :=
  if approx then
    if forallb (fun u => match u with FB _ => true | FF _ => false end) (t :: ts)
    then FB (existsb f_to_b (t :: ts))
    else FF (fold_left (fun m u => f_max m (f_to_f u)) ts (f_to_f t))
  else FB (existsb f_to_b (t :: ts)).
(** differt2d/logic.py:542-585 on a float, smoothed. *)
Definition f_is_true (x tol : f32) : bool := f_ltb (f_sub f_one tol) x.
Definition f_is_false (x tol : f32) : bool := f_ltb x tol.
Definition f_true (approx : bool) : ftruthy := if approx then FF f_one else FB true.
Definition f_false (approx : bool) : ftruthy := if approx then FF f_zero else FB false.

(** ** differt2d/geometry.py *)

Definition fvec : Type := (f32 * f32)%type.
Definition fv_add (u v : fvec) : fvec := (f_add (fst u) (fst v), f_add (snd u) (snd v)).
Definition fv_sub (u v : fvec) : fvec := (f_sub (fst u) (fst v), f_sub (snd u) (snd v)).
Definition fv_scale (k : f32) (u : fvec) : fvec := (f_mul k (fst u), f_mul k (snd u)).
Definition f_dot (u v : fvec) : f32 := f_add (f_mul (fst u) (fst v)) (f_mul (snd u) (snd v)).

(** differt2d/geometry.py:161-171 and 84-173 [segments_intersect]. *)
Definition f_seg_test (approx : bool) (num den tol : f32) (k : fkw) : ftruthy :=
  let den_is_zero := f_eqb den f_zero in
  let den' := if den_is_zero then f_one else den in
  let t := if den_is_zero then f_inf else f_div num den' in
  f_and approx (f_greater_equal approx t (f_opp tol) k) (f_less_equal approx t (f_add f_one tol) k).
Definition f_segments_intersect (approx : bool) (P1 P2 P3 P4 : fvec) (tol : f32) (k : fkw) : ftruthy :=
  let A := fv_sub P2 P1 in
  let B := fv_sub P3 P4 in
  let C := fv_sub P1 P3 in
  let a := f_sub (f_mul (snd B) (fst C)) (f_mul (fst B) (snd C)) in
  let b := f_sub (f_mul (fst A) (snd C)) (f_mul (snd A) (fst C)) in
  let d := f_sub (f_mul (snd A) (fst B)) (f_mul (fst A) (snd B)) in
  f_and approx (f_seg_test approx a d tol k) (f_seg_test approx b d tol k).

(** differt2d/geometry.py:89 the default tolerance. *)
Definition F_SEG_TOL : f32 := f_lit 5 1000.

Record fwall := mkfwall { fw_origin : fvec; fw_dest : fvec }.
Definition fw_t (w : fwall) : fvec := fv_sub (fw_dest w) (fw_origin w).

(** A wall, a RIS (its angle plays no role in the validity test) or a vertex. *)
Inductive fobject := FWall (w : fwall) | FRIS (w : fwall) (phi : f32) | FVertex (p : fvec).

(** differt2d/geometry.py:591-598 [Wall.cartesian_to_parametric]. *)
Definition f_c2p (w : fwall) (p : fvec) : f32 :=
  let other := fv_sub p (fw_origin w) in
  let squared_length := f_dot (fw_t w) (fw_t w) in
  let squared_length := if f_eqb squared_length f_zero then f_one else squared_length in
  f_div (f_dot (fw_t w) other) squared_length.
(** differt2d/geometry.py:602-621 [Wall.contains_parametric]. *)
Definition f_contains (approx : bool) (s : f32) (k : fkw) : ftruthy :=
  f_and approx (f_greater_equal approx s f_zero k) (f_less_equal approx s f_one k).
(** The two together, as called by [Path.on_objects]. *)
Definition f_obj_contains (approx : bool) (o : fobject) (p : fvec) (k : fkw) : ftruthy :=
  match o with
  | FWall w => f_contains approx (f_c2p w p) k
  | FRIS w _ => f_contains approx (f_c2p w p) k
  | FVertex _ => f_true approx
  end.
(** differt2d/geometry.py:407-414, 625-639 [intersects_cartesian]. *)
Definition f_obj_intersects (approx : bool) (o : fobject) (r0 r1 : fvec) (patch : f32) (k : fkw) : ftruthy :=
  match o with
  | FWall w | FRIS w _ =>
      f_segments_intersect approx (fv_sub (fw_origin w) (fv_scale patch (fw_t w)))
        (fv_add (fw_dest w) (fv_scale patch (fw_t w))) r0 r1 F_SEG_TOL k
  | FVertex _ => f_false approx
  end.

(** A path: its points and its loss. *)
Record fpath := mkfpath { f_xys : list fvec; f_loss : f32 }.
Definition f_row (pts : list fvec) (i : nat) : fvec := nth (Nat.min i (length pts - 1)) pts (f_zero, f_zero).

(** differt2d/geometry.py:823-854 [Path.on_objects]. *)
Definition f_on_objects (approx : bool) (p : fpath) (objects : list fobject) (k : fkw) : ftruthy :=
  fold_left
    (fun contains '(i, obj) => f_and approx contains (f_obj_contains approx obj (f_row (f_xys p) (i + 1)) k))
    (enumerate objects) (f_true approx).

(** differt2d/geometry.py:858-906 [Path.intersects_with_objects]. *)
Definition f_intersects_with_objects (approx : bool) (p : fpath) (objects : list fobject)
    (cand : list Z) (patch : f32) (k : fkw) : res ftruthy :=
  let indices := interacting_object_indices cand in
  let segs := (length (f_xys p) - 1)%nat in
  if (Nat.ltb (length cand + 1) segs && negb (Nat.eqb (length objects) 0))%bool
  then Err IndexError
  else Ok (
    fold_left
      (fun acc i =>
         fold_left
           (fun acc '(obj_index, obj) =>
              if (Z.eqb (Z.of_nat obj_index) (nth (i + 0) indices 0%Z)
                  || Z.eqb (Z.of_nat obj_index) (nth (i + 1) indices 0%Z))%bool
              then acc
              else f_or approx acc
                     (f_obj_intersects approx obj (f_row (f_xys p) i) (f_row (f_xys p) (i + 1)) patch k))
           (enumerate objects) acc)
      (seq 0 segs) (f_false approx)).

(** differt2d/geometry.py:910-963 [Path.is_valid]. *)
Definition f_tnan_to_num (t : ftruthy) : ftruthy :=
  match t with FB b => FB b | FF x => FF (f_nan_to_num x) end.
Definition f_is_valid (approx : bool) (p : fpath) (objects : list fobject) (cand : list Z)
    (interacting : list fobject) (tol patch : f32) (k : fkw) : res ftruthy :=
  rbind (f_intersects_with_objects approx p objects cand patch k) (fun inter =>
    Ok (f_tnan_to_num
          (f_all approx (f_on_objects approx p interacting k)
             [f_not approx inter; f_less approx (f_loss p) tol k]))).

(** ** Lengths and power *)

(** [jnp.sum] in single precision: some order of the terms, some grouping. *)
Inductive f_sum : list f32 -> f32 -> Prop :=
| f_sum_nil : f_sum [] f_zero
| f_sum_one x : f_sum [x] x
| f_sum_add l l' a b : f_sum l a -> f_sum l' b -> f_sum (l ++ l') (f_add a b)
| f_sum_perm l l' a : Permutation l l' -> f_sum l a -> f_sum l' a.
(** [x ** n] for a static integer: some grouping of the products. *)
Inductive f_power (x : f32) : nat -> f32 -> Prop :=
| f_power_0 : f_power x 0 f_one
| f_power_1 : f_power x 1 x
| f_power_mul m n a b : f_power x m a -> f_power x n b -> f_power x (m + n) (f_mul a b).

(** [jnp.finfo(jnp.float32).eps]. *)
Definition F_EPS : f32 := f_scaled 1 (-23).
Fixpoint f_diffs (pts : list fvec) : list fvec :=
  match pts with
  | p :: ((q :: _) as tl) => fv_sub q p :: f_diffs tl
  | _ => []
  end.
Definition f_norm (u : fvec) : f32 := f_sqrt (f_dot u u).
(** The summands of differt2d/geometry.py:178-203 [path_length], and its results. *)
Definition f_lengths (pts : list fvec) : list f32 :=
  map (fun v => f_norm (f_add (fst v) F_EPS, f_add (snd v) F_EPS)) (f_diffs pts).
Definition f_path_length (pts : list fvec) (r : f32) : Prop := f_sum (f_lengths pts) r.

(** differt2d/utils.py:17-54 [received_power]: its possible results. *)
Definition f_received_power (pts : list fvec) (r_coef height : f32) (x : f32) : Prop :=
  exists r c, f_path_length pts r /\ f_power r_coef (length pts - 2) c /\
    x = f_div c (f_add (f_mul height height) (f_mul r r)).

(** differt2d/scene.py:1311-1323: the accumulation of validity times power for one
    pair, in the order of the candidates. *)
Definition f_accumulate (terms : list (ftruthy * f32)) : f32 :=
  fold_left (fun acc '(v, x) => f_add acc (f_mul (f_to_f v) x)) terms f_zero.
