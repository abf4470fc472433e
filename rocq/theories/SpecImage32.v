(** Vocabulary of the statements about the image method in single precision. *)
From Coq Require Import Reals List ZArith.
From Flocq Require Import Core.Core.
From Verif Require Import Base FloatM SpecFloat32.
Import ListNotations.
Open Scope R_scope.

(** Float coordinates and the point they stand for. *)
Definition stands_for (p : fvec) (q : R * R) : Prop := fval (fst p) = Fin (fst q) /\ fval (snd p) = Fin (snd q).
(** The same, with both coordinates of the form [i * 2^e], [|i| <= N]. *)
Definition within_grid (N e : Z) (p : fvec) (q : R * R) : Prop :=
  stands_for p q /\ exists i j, (Z.abs i <= N)%Z /\ (Z.abs j <= N)%Z /\ q = (IZR i * bpow radix2 e, IZR j * bpow radix2 e).

(** Walls along an axis. *)
Inductive axis := Horizontal | Vertical.
Definition along {A} (d : axis) (p : A * A) : A := match d with Horizontal => fst p | Vertical => snd p end.
Definition across {A} (d : axis) (p : A * A) : A := match d with Horizontal => snd p | Vertical => fst p end.
(** A wall of non-zero length in the direction [d], at the position [c] of the other axis. *)
Definition axis_wall (N e : Z) (w : fwall) (dc : axis * R) : Prop :=
  exists a b, within_grid N e (fw_origin w) a /\ within_grid N e (fw_dest w) b /\
    across (fst dc) a = snd dc /\ across (fst dc) b = snd dc /\ along (fst dc) a <> along (fst dc) b.

(** The mirror image in a line, and in several lines one after the other. *)
Definition mirror (dc : axis * R) (q : R * R) : R * R :=
  match fst dc with Horizontal => (fst q, 2 * snd dc - snd q) | Vertical => (2 * snd dc - fst q, snd q) end.
Fixpoint mirrors (q : R * R) (lines : list (axis * R)) : list (R * R) :=
  match lines with [] => [] | l :: tl => mirror l q :: mirrors (mirror l q) tl end.
Definition on_line (dc : axis * R) (q : R * R) : Prop := across (fst dc) q = snd dc.

(** The point of the segment [a b] at parameter [s]. *)
Definition between (a b : R * R) (s : R) : R * R := (fst a + s * (fst b - fst a), snd a + s * (snd b - snd a)).
(** The reflection points [qs] of the path to [b]: each on its line, strictly between the
    image [i] of the transmitter, which is off the line, and the next point. *)
Inductive unfolds : list (axis * R) -> list (R * R) -> R * R -> list (R * R) -> Prop :=
| unfolds_nil b : unfolds [] [] b []
| unfolds_cons l lines i images b q qs s : unfolds lines images b qs ->
    ~ on_line l i -> on_line l q -> 0 < s < 1 -> q = between i (hd b qs) s ->
    unfolds (l :: lines) (i :: images) b (q :: qs).
Definition reflections (lines : list (axis * R)) (a b : R * R) (qs : list (R * R)) : Prop := unfolds lines (mirrors a lines) b qs.

(** Computed coordinates within [m] of a point, and exact across the direction [d]. *)
Definition near (d : axis) (m : R) (p : fvec) (q : R * R) : Prop :=
  fval (across d p) = Fin (across d q) /\ exists x, fval (along d p) = Fin x /\ Rabs (x - along d q) <= m.

(** A point of the line of a wall with ends [a] and [b], at least [m] inside or outside the wall. *)
Definition inside_by (d : axis) (m : R) (a b q : R * R) : Prop :=
  Rmin (along d a) (along d b) + m <= along d q <= Rmax (along d a) (along d b) - m.
Definition outside_by (d : axis) (m : R) (a b q : R * R) : Prop :=
  along d q <= Rmin (along d a) (along d b) - m \/ Rmax (along d a) (along d b) + m <= along d q.
(** The same for a wall in single precision. *)
Definition well_inside (d : axis) (m : R) (w : fwall) (q : R * R) : Prop :=
  exists a b, stands_for (fw_origin w) a /\ stands_for (fw_dest w) b /\ inside_by d m a b q.
Definition well_outside (d : axis) (m : R) (w : fwall) (q : R * R) : Prop :=
  exists a b, stands_for (fw_origin w) a /\ stands_for (fw_dest w) b /\ outside_by d m a b q.
