(** Specification of the switch: what a program does when it runs alone
    (big-step, no lock, no interleaving). *)
From Coq Require Import List Bool.
From Verif Require Import SwitchM.
Import ListNotations.

(** Running [c] with switch value [f]; [inside] tells whether we are in a
    [with enable_approx] block.  Result: final switch, reads, raised? *)
Fixpoint alone (inside : bool) (c : cmd) (f : bool) : bool * list obs * bool :=
  match c with
  | CSkip => (f, [], false)
  | CSeq a b =>
      let '(f1, r1, e1) := alone inside a f in
      if e1 then (f1, r1, true)
      else let '(f2, r2, e2) := alone inside b f1 in (f2, r1 ++ r2, e2)
  | CSet b => (b, [], false)
  | CWith b body =>
      let '(_, r, e) := alone true body b in
      (f, r, e)
  | CRead => (f, [(inside, f)], false)
  | CRaise => (f, [], true)
  | CTry body h =>
      let '(f1, r1, e1) := alone inside body f in
      if e1 then let '(f2, r2, e2) := alone inside h f1 in (f2, r1 ++ r2, e2)
      else (f1, r1, false)
  end.

Definition alone_flag (c : cmd) (f : bool) : bool := fst (fst (alone false c f)).
Definition alone_reads (c : cmd) (f : bool) : list obs := snd (fst (alone false c f)).

(** The values read inside [with enable_approx] blocks. *)
Definition inside_values (l : list obs) : list bool := map snd (filter fst l).
