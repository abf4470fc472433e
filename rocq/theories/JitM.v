(** Model of the compilation cache of the jitted functions that read
    [ENABLE_APPROX] (differt2d/logic.py:315-617: every logic function is
    [jax.jit]-ed with [approx] static; geometry.py methods are [eqx.filter_jit]-ed
    and call them).  Only the choice "smoothed or exact" is tracked.

    Assumed behaviour of JAX (documented at logic.py:139-180): a jitted function
    is traced at the first call with given static arguments and signature, also
    when it is called while another function is being traced; later calls reuse
    the trace; [f.clear_cache()] forgets the traces of [f]. *)
From Coq Require Import List Bool Arith.
From Verif Require Import LogicM.
Import ListNotations.

(** Shape of a function: it resolves [approx] itself ([Resolve], e.g. the body of
    [greater]), does one thing after another, or is a jitted function named [id]. *)
Inductive code :=
| Resolve
| Then (a b : code)
| Jitted (id : nat) (body : code).

Scheme Equality for code.

Definition approx_eqb (a b : option bool) : bool :=
  match a, b with
  | None, None => true
  | Some x, Some y => Bool.eqb x y
  | _, _ => false
  end.

(** Cache key: function, argument signature, static [approx]. *)
Definition key : Type := (nat * code * nat * option bool)%type.
Definition key_eqb (a b : key) : bool :=
  let '(i, c, s, x) := a in
  let '(j, d, t, y) := b in
  Nat.eqb i j && code_beq c d && Nat.eqb s t && approx_eqb x y.

(** Traces: for each key, the modes used by the successive resolutions. *)
Definition cache : Type := list (key * list bool).
Fixpoint lookup (k : key) (c : cache) : option (list bool) :=
  match c with
  | [] => None
  | (k', m) :: tl => if key_eqb k' k then Some m else lookup k tl
  end.

(** Calling a function with switch value [g]: the modes used by its resolutions,
    and the new cache. *)
Fixpoint call (g : bool) (sig : nat) (approx : option bool) (f : code) (c : cache)
    : list bool * cache :=
  match f with
  | Resolve => ([resolve g approx], c)
  | Then a b =>
      let '(ma, c1) := call g sig approx a c in
      let '(mb, c2) := call g sig approx b c1 in
      (ma ++ mb, c2)
  | Jitted id body =>
      match lookup (id, body, sig, approx) c with
      | Some m => (m, c)
      | None =>
          let '(m, c1) := call g sig approx body c in
          (m, ((id, body, sig, approx), m) :: c1)
      end
  end.

(** What a program does. *)
Inductive op :=
| OCall (f : code) (sig : nat) (approx : option bool)
| OSwitch (b : bool)     (** the switch takes value [b] (set_approx / enable_approx) *)
| OClear (id : nat).     (** [f.clear_cache()] *)

Record jstate := mkj { j_flag : bool; j_cache : cache }.

(** One operation: new state and, for a call, the modes used. *)
Definition jstep (s : jstate) (o : op) : jstate * option (list bool) :=
  match o with
  | OCall f sig a =>
      let '(m, c) := call (j_flag s) sig a f (j_cache s) in
      (mkj (j_flag s) c, Some m)
  | OSwitch b => (mkj b (j_cache s), None)
  | OClear id =>
      (mkj (j_flag s) (filter (fun '(k, _) => negb (Nat.eqb (fst (fst (fst k))) id)) (j_cache s)), None)
  end.

(** A history: final state and the modes used by the calls, in order. *)
Fixpoint jrun (s : jstate) (h : list op) : jstate * list (list bool) :=
  match h with
  | [] => (s, [])
  | o :: tl =>
      let '(s1, out) := jstep s o in
      let '(s2, outs) := jrun s1 tl in
      (s2, match out with Some m => m :: outs | None => outs end)
  end.

(** A fresh process: nothing compiled yet. *)
Definition jinit (f : bool) : jstate := mkj f [].
