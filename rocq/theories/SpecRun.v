(** Vocabulary of the statements about enumerating and accumulating paths. *)
From Coq Require Import Reals List Bool ZArith String.
From Verif Require Import Base LogicM GeometryM OptimizeM PathM CandidatesM SceneM SpecScene.
Import ListNotations.
Local Notation length := List.length.

(** Transmitter-major, then receiver, then candidate. *)
Definition triples {A B C} (ts : list A) (rs : list B) (cs : list C) : list (A * B * C) :=
  flat_map (fun tx => flat_map (fun rx => map (fun c => (tx, rx, c)) cs) rs) ts.

(** The objects at the given indices. *)
Definition objects_at (s : scene) (c : list nat) : list object :=
  flat_map (fun i => match nth_error (objects s) i with Some o => [o] | None => [] end) c.

(** The random key of the [n]-th path: the key is split in two before each path,
    the first half is kept for the rest and the second one is used. *)
Fixpoint kept (P : prng) (k : key_t P) (n : nat) : key_t P :=
  match n with O => k | S n => hd k (rsplit P (kept P k n) 2) end.
Definition nth_key (P : prng) (key : option (key_t P)) (n : nat) : option (key_t P) :=
  match key with None => None | Some k => nth_error (rsplit P (kept P k n) 2) 1 end.
(** Splitting a key in [n] gives [n] keys. *)
Definition good_split (P : prng) : Prop := forall k n, length (rsplit P k n) = n.

(** [it] is the item for the transmitter [tx], the receiver [rx] and the candidate
    [c], with its path built using [key]. *)
Definition is_item (P : prng) (g : bool) (s : scene) (cls : path_cls) (va : validargs)
    (key : option (key_t P)) (trc : (string * vec) * (string * vec) * list nat) (it : pathitem) : Prop :=
  let '(tx, rx, c) := trc in
  it_tx it = fst tx /\ it_rx it = fst rx /\ it_cand it = map Z.of_nat c /\
  length (objects_at s c) = length c /\
  from_tx_objects_rx P cls key (snd tx) (objects_at s c) (snd rx) = Ok (it_path it) /\
  is_valid g (it_path it) (objects s) (map Z.of_nat c) (objects_at s c)
    (va_tol va) (va_patch va) (va_approx va) (va_kw va) = Ok (it_valid it).

(** IEEE sum from left to right, starting with 0. *)
Definition xsum (l : list xreal) : xreal := fold_left xadd l (Fin 0).

(** The contribution of an item: validity times the value of the function. *)
Definition contribution (s : scene) (f : pathfun) (tx rx : vec) (it : pathitem) : xreal :=
  xmul (to_f (it_valid it)) (f tx rx (it_path it) (objects_at s (map Z.to_nat (it_cand it)))).

(** The items of a pair of nodes. *)
Definition of_pair (tx rx : string) (its : list pathitem) : list pathitem :=
  filter (fun it => (String.eqb (it_tx it) tx && String.eqb (it_rx it) rx)%bool) its.

(** Configurations for which building a path never fails: the base class, the
    image method on walls only or on RIS only, and the solvers with a key, at
    least one step and one try. *)
Definition never_fails {P : prng} (cls : path_cls) (key : option (key_t P)) (s : scene) : Prop :=
  match cls with
  | ClsPath => True
  | ClsImage => (forall o, In o (objects s) -> exists w, o = OWall w) \/
                (forall o, In o (objects s) -> exists w phi, o = ORIS w phi)
  | ClsFermat _ sv => key <> None /\ (1 <= sv_steps sv)%nat /\ (1 <= sv_many sv)%nat
  | ClsMin sv => key <> None /\ (1 <= sv_steps sv)%nat /\ (1 <= sv_many sv)%nat
  end.

(** Entry [i, j] of a two-dimensional array. *)
Definition entry {A} (Z : list (list A)) (i j : nat) : option A :=
  match nth_error Z i with Some row => nth_error row j | None => None end.
Definition same_shape {A B} (X : list (list A)) (Y : list (list B)) : Prop :=
  Forall2 (fun a b => length a = length b) X Y.

(** One key per candidate, as the grid methods use them. *)
Definition one_key_each (P : prng) (key : option (key_t P)) (n : nat) : list (option (key_t P)) :=
  match key with Some k => map Some (rsplit P k n) | None => repeat None n end.

(** [v] is the sum over the candidates of validity times [f], for paths from [tx] to
    [rx], the path of each candidate being built with its own key. *)
Definition sums_candidates (P : prng) (g : bool) (s : scene) (cls : path_cls) (ca : candargs)
    (va : validargs) (key : option (key_t P)) (f : pathfun) (tx rx : vec) (v : xreal) : Prop :=
  let cs := scene_candidates s ca in
  exists its,
    Forall2 (fun ck it => is_item P g s cls va (snd ck) ((it_tx it, tx), (it_rx it, rx), fst ck) it)
      (combine cs (one_key_each P key (length cs))) its /\
    v = xsum (map (contribution s f tx rx) its).

(** The parts of a grid entry, and whether it has the parts of the mode. *)
Definition val_of (c : cell) : xreal := match c with CVal x => x | CBoth x _ => x | CGrad _ => Fin 0 end.
Definition grad_of (c : cell) : xreal * xreal := match c with CVal _ => (Fin 0, Fin 0) | CBoth _ d => d | CGrad d => d end.
Definition of_mode (m : gridmode) (c : cell) : Prop :=
  match m, c with MVal, CVal _ => True | MGrad, CGrad _ => True | MBoth, CBoth _ _ => True | _, _ => False end.
