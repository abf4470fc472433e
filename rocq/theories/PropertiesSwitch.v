(** Final statements about the global switch (C08-C11). *)
From Coq Require Import List Bool Arith.
From Verif Require Import LogicM SwitchM SpecSwitch SwitchP JitM JitP.
Import ListNotations.

(** C08: one thread, any initial value, any body (nested blocks, set_approx calls,
    exceptions): when a [with enable_approx(b)] program has finished, the switch
    is back, and the reads are those of the body started with value [b]. *)
Theorem C08_enable_approx_restores :
  forall f b body sched,
  let s := run (start f [CWith b body]) sched in
  finished s = true ->
  flag s = f /\ exists th, threads s = [th] /\
     reads th = snd (fst (alone true body b)) /\ raising th = snd (alone true body b).
Proof. exact C08_restore. Qed.
Print Assumptions C08_enable_approx_restores.

(** C08: reading the switch before and after the block gives the same value even
    if the body raises. *)
Theorem C08_same_value_before_and_after :
  forall f b body sched,
  let s := run (start f [CSeq CRead (CSeq (CTry (CWith b body) CSkip) CRead)]) sched in
  finished s = true ->
  flag s = f /\ exists th inner, threads s = [th] /\ raising th = false /\
    reads th = (false, f) :: inner ++ [(false, f)].
Proof. exact C08_around. Qed.
Print Assumptions C08_same_value_before_and_after.

(** C08: any single-threaded program behaves as the lock-free specification. *)
Theorem C08_single_thread_refines_spec :
  forall f c sched,
  let s := run (start f [c]) sched in
  finished s = true ->
  flag s = alone_flag c f /\
  exists th, threads s = [th] /\ reads th = alone_reads c f /\ raising th = snd (alone false c f).
Proof. exact single_finished. Qed.
Print Assumptions C08_single_thread_refines_spec.

Theorem C08_disable_is_enable_not :
  forall f b body sched,
  run (start f [disable_approx b body]) sched = run (start f [CWith (negb b) body]) sched.
Proof. exact C08_disable. Qed.
Print Assumptions C08_disable_is_enable_not.

Example C08_nonvacuous :
  let c := CWith true (CSeq CRead (CSeq (CSet false) (CSeq CRead (CSeq (CWith true CRead) CRaise)))) in
  let s := run (start false [c]) (repeat 0 40) in
  finished s = true /\ flag s = false /\
  map reads (threads s) = [[(true, true); (true, false); (true, true)]] /\
  map raising (threads s) = [true].
Proof. vm_compute. auto. Qed.

(** C09: whatever the other threads do and whatever the schedule, the values a
    thread reads inside its blocks are (a prefix of, and when it is finished all
    of) those it reads when it runs alone, from any initial switch [f0]. *)
Theorem C09_blocks_are_isolated :
  forall f progs sched t c th f0,
  nth_error progs t = Some c ->
  nth_error (threads (run (start f progs) sched)) t = Some th ->
  exists rest, inside_values (reads th) ++ rest = inside_values (alone_reads c f0) /\
    (stack th = [] -> rest = []).
Proof. exact C09_lemma. Qed.
Print Assumptions C09_blocks_are_isolated.

Example C09_nonvacuous :
  let progs := [CWith true (CSeq CRead CRead); CSet false; CWith false CRead] in
  let s := run (start false progs) [0;0;0;1;2;0;1;1;2;0;0;1;2;0;0;0;1;1;1;1;2;2;2;2;2;2;2] in
  finished s = true /\
  map (fun th => inside_values (reads th)) (threads s) = [[true; true]; []; [false]].
Proof. vm_compute. auto. Qed.

(** C10: the documented restore property fails across threads ... *)
Theorem C10_restore_refuted_across_threads :
  exists f progs sched,
    (forall c, In c progs -> exists b, c = CWith b CSkip) /\ length progs = 2 /\
    finished (run (start f progs) sched) = true /\ flag (run (start f progs) sched) <> f.
Proof. exact restore_fails_concurrently. Qed.
Print Assumptions C10_restore_refuted_across_threads.

(** ... and no schedule deadlocks: from every reachable state all threads can be
    run to their end. *)
Theorem C10_no_deadlock :
  forall f progs sched, exists more, finished (run (start f progs) (sched ++ more)) = true.
Proof. exact no_deadlock. Qed.
Print Assumptions C10_no_deadlock.

(** C11: with an explicit [approx], in every history, every resolution follows it. *)
Theorem C11_explicit_approx_always_followed :
  forall g0 h f sig b,
  let s := fst (jrun (jinit g0) h) in
  Forall (eq b) (fst (call (j_flag s) sig (Some b) f (j_cache s))).
Proof. exact explicit_always. Qed.
Print Assumptions C11_explicit_approx_always_followed.

(** C11: the outcome of the first call is frozen until that function's cache is
    cleared, whatever happens to the switch in between. *)
Theorem C11_first_call_freezes :
  forall s id body sig a h,
  ~ In (OClear id) h ->
  let first := call (j_flag s) sig a (Jitted id body) (j_cache s) in
  let s1 := mkj (j_flag s) (snd first) in
  let s2 := fst (jrun s1 h) in
  fst (call (j_flag s2) sig a (Jitted id body) (j_cache s2)) = fst first.
Proof. exact frozen. Qed.
Print Assumptions C11_first_call_freezes.

Example C11_nonvacuous :
  let s := jinit false in
  let f := Jitted 7 Resolve in
  let s2 := fst (jrun s [OCall f 0 None; OSwitch true]) in
  j_flag s2 = true /\ fst (call (j_flag s2) 0 None f (j_cache s2)) = [false].
Proof. vm_compute. auto. Qed.

(** C11: a logic function called for the first time, or after [clear_cache],
    follows the current switch. *)
Theorem C11_uncached_call_follows_switch :
  (forall s id sig a, lookup (id, Resolve, sig, a) (j_cache s) = None ->
     fst (call (j_flag s) sig a (Jitted id Resolve) (j_cache s)) = [resolve (j_flag s) a]) /\
  (forall s id sig a, let s1 := fst (jstep s (OClear id)) in
     fst (call (j_flag s1) sig a (Jitted id Resolve) (j_cache s1)) = [resolve (j_flag s) a]).
Proof. exact (conj first_call call_after_clear). Qed.
Print Assumptions C11_uncached_call_follows_switch.

(** C11: as long as the switch keeps its initial value every call follows it. *)
Theorem C11_constant_switch :
  forall g h f sig a, (forall b, In (OSwitch b) h -> b = g) ->
  let s := fst (jrun (jinit g) h) in
  Forall (eq (resolve g a)) (fst (call (j_flag s) sig a f (j_cache s))).
Proof. exact constant_switch. Qed.
Print Assumptions C11_constant_switch.

(** C11, findings: after a change of the switch a compiled function may mix exact
    and smoothed parts, and clearing only its own cache does not help. *)
Theorem C11_consistent_mode_refuted :
  exists h f sig, let s := fst (jrun (jinit false) h) in
    fst (call (j_flag s) sig None f (j_cache s)) = [false; true].
Proof. exact mixed_modes. Qed.
Print Assumptions C11_consistent_mode_refuted.

Theorem C11_clearing_outer_cache_refuted :
  exists f id body, f = Jitted id body /\
    let s := fst (jrun (jinit false) [OCall f 0 None; OSwitch true; OClear id]) in
    j_flag s = true /\ fst (call (j_flag s) 0 None f (j_cache s)) = [false].
Proof. exact clear_outer_not_enough. Qed.
Print Assumptions C11_clearing_outer_cache_refuted.
