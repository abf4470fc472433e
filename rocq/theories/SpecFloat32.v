(** Vocabulary of the statements about single-precision numbers. *)
From Coq Require Import Reals List Bool ZArith.
From Flocq Require Import Core.Core IEEE754.BinarySingleNaN.
From Verif Require Import Base LogicM FloatM.
Import ListNotations.
Open Scope R_scope.

(** The number a float stands for. *)
Definition fval (x : f32) : xreal :=
  match x with
  | B754_nan => NaN
  | B754_infinity s => if s then NInf else PInf
  | _ => Fin (B2R x)
  end.
Definition finite (x : f32) : Prop := exists r, fval x = Fin r.
Definition not_nan (x : f32) : Prop := fval x <> NaN.

(** A truth value between 0 and 1. *)
Definition unit_float (x : f32) : Prop := exists r, fval x = Fin r /\ 0 <= r <= 1.
Definition unit_truth (t : ftruthy) : Prop := match t with FB _ => True | FF x => unit_float x end.
Definition unit_or_nan (t : ftruthy) : Prop := match t with FB _ => True | FF x => fval x = NaN \/ unit_float x end.
Definition is_nan_truth (t : ftruthy) : Prop := match t with FB _ => False | FF x => fval x = NaN end.

(** An activation function that only gives numbers between 0 and 1 (or NaN). *)
Definition unit_function (h : f32 -> f32 -> f32) : Prop :=
  forall x alpha, fval (h x alpha) = NaN \/ unit_float (h x alpha).

(** Rounding of a real number to single precision. *)
Definition rnd (r : R) : R := round radix2 (FLT_exp (-149) 24) ZnearestE r.
(** The float nearest to a real number, infinite beyond the range. *)
Definition xround (x : xreal) : xreal :=
  match x with
  | Fin r => if Rltb (Rabs (rnd r)) (bpow radix2 128) then Fin (rnd r) else if Rltb 0 r then PInf else NInf
  | y => y
  end.

(** ** Segments *)
(** A point whose coordinates are both [i * 2^e] with [|i| <= 1024]. *)
Definition on_grid (e : Z) (p : fvec) (q : R * R) : Prop :=
  exists i j, (Z.abs i <= 1024)%Z /\ (Z.abs j <= 1024)%Z /\
    q = (IZR i * bpow radix2 e, IZR j * bpow radix2 e) /\
    fval (fst p) = Fin (fst q) /\ fval (snd p) = Fin (snd q).
(** The lines through [Q1 Q2] and [Q3 Q4] share a point whose two parameters are in [[lo, hi]]. *)
Definition crosses (lo hi : R) (Q1 Q2 Q3 Q4 : R * R) : Prop :=
  exists s t, lo <= s <= hi /\ lo <= t <= hi /\
    fst Q1 + s * (fst Q2 - fst Q1) = fst Q3 + t * (fst Q4 - fst Q3) /\
    snd Q1 + s * (snd Q2 - snd Q1) = snd Q3 + t * (snd Q4 - snd Q3).
Definition parallel (Q1 Q2 Q3 Q4 : R * R) : Prop :=
  (fst Q2 - fst Q1) * (snd Q4 - snd Q3) = (snd Q2 - snd Q1) * (fst Q4 - fst Q3).

(** The two ways a compiler may evaluate the division of the hard sigmoid. *)
Definition hard_sigmoid_like (h : f32 -> f32 -> f32) : Prop := h = f_hard_sigmoid \/ h = f_hard_sigmoid_inv.
(** The smoothed comparison over the real numbers: [relu6 (alpha * d + 3) / 6]. *)
Definition exact_sigmoid (d alpha : R) : R := Rmin (Rmax (alpha * d + 3) 0) 6 / 6.
(** A comparison between the numbers two floats stand for (false with NaN). *)
Definition below (x y : f32) : Prop := xltb (fval x) (fval y) = true.
Definition at_most (x y : f32) : Prop := xleb (fval x) (fval y) = true.
(** A point with finite coordinates; a path point that is NaN. *)
Definition finite_point (p : fvec) : Prop := finite (fst p) /\ finite (snd p).
Definition nan_point (p : fvec) : Prop := fval (fst p) = NaN \/ fval (snd p) = NaN.
