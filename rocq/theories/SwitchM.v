(** Model of the global switch of differt2d/logic.py: [ENABLE_APPROX], its
    [RLock], [set_approx] and the context manager [enable_approx], run by any
    number of threads.  One machine step is one access to shared state (or a
    purely local move). *)
From Coq Require Import List Bool Arith.
Import ListNotations.

(** What a thread does with the switch. *)
Inductive cmd :=
| CSkip
| CSeq (a b : cmd)
| CSet (b : bool)                 (** [set_approx(b)] *)
| CWith (b : bool) (body : cmd)   (** [with enable_approx(b): body] *)
| CRead                           (** an evaluation of [ENABLE_APPROX] *)
| CRaise                          (** raises an exception *)
| CTry (body handler : cmd).      (** [try: body except: handler] *)

(** differt2d/logic.py:199-215 [disable_approx]: [with enable_approx(not disable)]. *)
Definition disable_approx (disable : bool) (body : cmd) : cmd := CWith (negb disable) body.

(** Stack items of a thread: what remains to be done. *)
Inductive item :=
| IDo (c : cmd)
| IAcqWith (saved b : bool) (body : cmd)    (** about to run [with _LOCK] (logic.py:192) *)
| IWriteWith (saved b : bool) (body : cmd)  (** about to run [ENABLE_APPROX = enable] (194) *)
| IRestore (saved : bool)                   (** the [finally] clause (196-197) *)
| IAcqSet (b : bool)                        (** [set_approx]: about to take the lock (90) *)
| IWriteSet (b : bool)                      (** [set_approx]: about to write (91) *)
| IRelease                                  (** leaving [with _LOCK] *)
| ICatch (handler : cmd).

(** A read of the switch: whether it happened while the thread was inside one of
    its [with enable_approx] blocks, and the value. *)
Definition obs : Type := (bool * bool)%type.

Record thread := mkthread { stack : list item; raising : bool; reads : list obs }.

(** Global state: the switch, the lock (owner and re-entrance count) and the
    threads. *)
Record sys := mksys {
  flag : bool;
  owner : option (nat * nat);
  threads : list thread }.

(** Number of [with _LOCK] blocks a stack is inside of. *)
Fixpoint depth (st : list item) : nat :=
  match st with
  | [] => O
  | IRelease :: tl => S (depth tl)
  | _ :: tl => depth tl
  end.

(** [RLock.acquire] by thread [t]: [None] means it blocks. *)
Definition acquire (o : option (nat * nat)) (t : nat) : option (option (nat * nat)) :=
  match o with
  | None => Some (Some (t, 1))
  | Some (t', n) => if Nat.eqb t t' then Some (Some (t, S n)) else None
  end.

(** [RLock.release] by its owner. *)
Definition release (o : option (nat * nat)) : option (nat * nat) :=
  match o with
  | Some (t, S (S n)) => Some (t, S n)
  | _ => None
  end.

(** One step of thread [t] ([None]: blocked or finished).  Cites
    differt2d/logic.py: 88-91 ([set_approx]), 190-197 ([enable_approx]; note that
    the old value is read at 191, before the lock is taken at 192). *)
Definition step (t : nat) (f : bool) (o : option (nat * nat)) (th : thread)
    : option (bool * option (nat * nat) * thread) :=
  match stack th with
  | [] => None
  | i :: k =>
      if raising th then
        match i with
        | IRestore s => Some (s, o, mkthread k true (reads th))
        | IRelease => Some (f, release o, mkthread k true (reads th))
        | ICatch h => Some (f, o, mkthread (IDo h :: k) false (reads th))
        | _ => Some (f, o, mkthread k true (reads th))
        end
      else
        match i with
        | IDo CSkip => Some (f, o, mkthread k false (reads th))
        | IDo (CSeq a b) => Some (f, o, mkthread (IDo a :: IDo b :: k) false (reads th))
        | IDo (CSet b) => Some (f, o, mkthread (IAcqSet b :: k) false (reads th))
        | IDo (CWith b body) => Some (f, o, mkthread (IAcqWith f b body :: k) false (reads th))
        | IDo CRead =>
            Some (f, o, mkthread k false (reads th ++ [(Nat.ltb 0 (depth k), f)]))
        | IDo CRaise => Some (f, o, mkthread k true (reads th))
        | IDo (CTry body h) => Some (f, o, mkthread (IDo body :: ICatch h :: k) false (reads th))
        | IAcqWith s b body =>
            match acquire o t with
            | Some o' => Some (f, o', mkthread (IWriteWith s b body :: IRelease :: k) false (reads th))
            | None => None
            end
        | IWriteWith s b body =>
            Some (b, o, mkthread (IDo body :: IRestore s :: k) false (reads th))
        | IRestore s => Some (s, o, mkthread k false (reads th))
        | IAcqSet b =>
            match acquire o t with
            | Some o' => Some (f, o', mkthread (IWriteSet b :: IRelease :: k) false (reads th))
            | None => None
            end
        | IWriteSet b => Some (b, o, mkthread k false (reads th))
        | IRelease => Some (f, release o, mkthread k false (reads th))
        | ICatch _ => Some (f, o, mkthread k false (reads th))
        end
  end.

Fixpoint set_thread (ts : list thread) (t : nat) (th : thread) : list thread :=
  match ts, t with
  | [], _ => []
  | _ :: tl, O => th :: tl
  | x :: tl, S t' => x :: set_thread tl t' th
  end.

(** The scheduler picks thread [t]; nothing happens if it is blocked, finished or
    does not exist. *)
Definition sched1 (s : sys) (t : nat) : sys :=
  match nth_error (threads s) t with
  | None => s
  | Some th =>
      match step t (flag s) (owner s) th with
      | None => s
      | Some (f, o, th') => mksys f o (set_thread (threads s) t th')
      end
  end.

(** Running a schedule. *)
Definition run (s : sys) (sched : list nat) : sys := fold_left sched1 sched s.

(** Initial state: every thread is about to run its program; [f] is the initial
    value of [ENABLE_APPROX] (logic.py:58). *)
Definition start (f : bool) (progs : list cmd) : sys :=
  mksys f None (map (fun c => mkthread [IDo c] false []) progs).

(** All threads have finished. *)
Definition finished (s : sys) : bool :=
  forallb (fun th => match stack th with [] => true | _ => false end) (threads s).
