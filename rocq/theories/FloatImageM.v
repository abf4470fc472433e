(** The image method in single precision: [Wall.normal], [Wall.image_of],
    [Wall.evaluate_cartesian] and [ImagePath.from_tx_objects_rx], as in [GeometryM] and
    [PathM], on IEEE-754 binary32 numbers and under the assumptions of [FloatM].  Only
    lists of walls ([RIS.evaluate_cartesian] uses trigonometric functions, which IEEE-754
    does not specify). *)
From Coq Require Import List Bool ZArith.
From Verif Require Import Base PathM FloatM.
Import ListNotations.

Definition fv_div (u : fvec) (k : f32) : fvec := (f_div (fst u) k, f_div (snd u) k).

(** differt2d/geometry.py:206-230 [normalize]. *)
Definition f_normalize (v : fvec) : fvec * f32 :=
  let length := f_norm v in
  let length := if f_eqb length f_zero then f_one else length in
  (fv_div v length, length).

(** differt2d/geometry.py:561-573 [Wall.normal]. *)
Definition f_normal (w : fwall) : fvec :=
  let t := fw_t w in
  fst (f_normalize (snd t, f_opp (fst t))).

(** differt2d/geometry.py:652-670 [Wall.image_of]. *)
Definition f_image_of (w : fwall) (p : fvec) : fvec :=
  let i := fv_sub p (fw_origin w) in
  fv_sub p (fv_scale (f_mul (f_int 2) (f_dot i (f_normal w))) (f_normal w)).

(** differt2d/geometry.py:641-650 [Wall.evaluate_cartesian]; the ray path is given by its
    three rows. *)
Definition f_evaluate (w : fwall) (a b c : fvec) : f32 :=
  let i := fv_sub b a in
  let r := fv_sub c b in
  let n := f_normal w in
  let i := fst (f_normalize i) in
  let r := fst (f_normalize r) in
  let e := fv_sub r (fv_sub i (fv_scale (f_mul (f_int 2) (f_dot i n)) n)) in
  f_dot e e.

(** differt2d/geometry.py:1077-1084 [path_loss]. *)
Definition f_path_loss (ws : list fwall) (pts : list fvec) : f32 :=
  fold_left
    (fun l '(i, w) => f_add l (f_evaluate w (f_row pts i) (f_row pts (i + 1)) (f_row pts (i + 2))))
    (enumerate ws) f_zero.

(** differt2d/geometry.py:1086-1091 [forward], as scanned at 1109. *)
Fixpoint f_images (image : fvec) (ws : list fwall) : list fvec :=
  match ws with
  | [] => []
  | w :: tl => let image := f_image_of w image in image :: f_images image tl
  end.

(** differt2d/geometry.py:1093-1107 [backward]. *)
Definition f_backward (point : fvec) (x : fwall * fvec) : fvec :=
  let '(w, image) := x in
  let p := fw_origin w in
  let n := f_normal w in
  let u := fv_sub point image in
  let v := fv_sub p point in
  let un := f_dot u n in
  let vn := f_dot v n in
  let inc := if f_eqb un f_zero then (f_zero, f_zero) else fv_div (fv_scale vn u) un in
  fv_add point inc.

(** differt2d/geometry.py:1110, the scan in reverse order. *)
Fixpoint f_backward_scan (rx : fvec) (xs : list (fwall * fvec)) : fvec * list fvec :=
  match xs with
  | [] => (rx, [])
  | x :: tl =>
      let '(c, ys) := f_backward_scan rx tl in
      let point := f_backward c x in
      (point, point :: ys)
  end.

(** differt2d/geometry.py:1109-1112, and 1019-1114 [ImagePath.from_tx_objects_rx] on walls. *)
Definition f_image_points (tx : fvec) (ws : list fwall) (rx : fvec) : list fvec :=
  tx :: snd (f_backward_scan rx (combine ws (f_images tx ws))) ++ [rx].
Definition f_ImagePath_from (tx : fvec) (ws : list fwall) (rx : fvec) : fpath :=
  match ws with
  | [] => mkfpath [tx; rx] f_zero
  | _ => let pts := f_image_points tx ws rx in mkfpath pts (f_path_loss ws pts)
  end.
