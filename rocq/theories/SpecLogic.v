(** Vocabulary of the statements about logic.py. *)
From Coq Require Import Reals List Bool.
From Verif Require Import Base LogicM.
Import ListNotations.
Open Scope R_scope.

(** A float result. *)
Definition fl (r : R) : truthy := TF (Fin r).

(** The 0/1 encoding of a boolean. *)
Definition enc (b : bool) : truthy := fl (if b then 1 else 0).

(** A value between 0 and 1 (or a boolean). *)
Definition in01 (t : truthy) : Prop :=
  match t with
  | TB _ => True
  | TF (Fin r) => 0 <= r <= 1
  | TF _ => False
  end.

(** One of the two activation functions shipped with the library. *)
Definition shipped (k : akw) : Prop :=
  ak_function k = sigmoid \/ ak_function k = hard_sigmoid.

(** The four comparison functions. *)
Inductive cmpfun := Gt | Ge | Lt | Le.
Definition run_cmp (c : cmpfun) : bool -> xreal -> xreal -> option bool -> akw -> truthy :=
  match c with Gt => greater | Ge => greater_equal | Lt => less | Le => less_equal end.

(** What each of them says about two numbers, exactly. *)
Definition cmp_holds (c : cmpfun) (x y : R) : Prop :=
  match c with Gt => x > y | Ge => x >= y | Lt => x < y | Le => x <= y end.

(** The strict version. *)
Definition cmp_strict (c : cmpfun) (x y : R) : Prop :=
  match c with Gt | Ge => x > y | Lt | Le => x < y end.
