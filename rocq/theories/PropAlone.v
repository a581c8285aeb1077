(** Threads that only emit do not disturb each other (C61). *)
From Verif Require Import Witness AloneFair.

(** C61: from a state in which every thread has finished or is about to run a program that only
    emits and queries, the callables and combiners doing no more than that: whatever the
    interleaving, every thread does what it would do if it ran alone, and ends with the same
    result. *)
Theorem C61_as_if_alone : forall e ps w0 sc w t st0, looking_client e -> reachable e ps w0 -> all_lookers w0 ->
  w_thr w0 !! t = Some st0 -> run e w0 sc = inl w ->
  exists n wt evs, run e w0 (alone t n) = inl wt /\ done_by t w0 w evs /\ done_by t w0 wt evs /\
    forall o, finished_with w t o <-> finished_with wt t o.
Proof. exact as_if_alone. Qed.
Print Assumptions C61_as_if_alone.

(** If some interleaving is undefined, a thread that runs alone is undefined in the same way. *)
Theorem C61_undefined_alone : forall e ps w0 sc u, looking_client e -> reachable e ps w0 -> all_lookers w0 ->
  run e w0 sc = inr u -> exists t n, run e w0 (alone t n) = inr u.
Proof. exact undefined_alone. Qed.
Print Assumptions C61_undefined_alone.

Example C61_example : reachable cross_env cross_threads cross_start /\ all_lookers cross_start /\
  run cross_env cross_start (concat (repeat (sch [(1, 1); (2, 1)]) 100)) = inl cross_end /\
  finished_with cross_end 1 OutUnit /\ finished_with cross_end 2 OutUnit /\
  (exists evs, done_by 1 cross_start cross_end evs /\ slots_called evs = [0; 1; 0; 0; 1]) /\
  (exists evs, done_by 2 cross_start cross_end evs /\ slots_called evs = [1; 0; 1; 1; 0]).
Proof. exact ex_crossed. Qed.
Example C61_example_client : looking_client cross_env.
Proof. exact cross_looks. Qed.
(** A thread that disconnects disturbs the others. *)
Example C61_example_disturbed : ~ all_lookers mixed_start /\
  calls_of 1 (run add_env mixed_start (alone 1 100)) = Some [0; 0] /\
  calls_of 1 (run add_env mixed_start (sch [(1, 20); (2, 20); (1, 80)])) = Some [0].
Proof. exact ex_disturbed. Qed.

(** If every thread comes to its end when it runs alone, all of them come to their end under every
    schedule that gives each of them turns often enough: nobody waits for ever for a mutex. *)
Theorem C61_everything_finishes : forall e ps w0, looking_client e -> reachable e ps w0 -> all_lookers w0 -> each_ends e w0 ->
  exists k, forall sc, rounds (length (w_thr w0)) k sc ->
    exists w, run e w0 sc = inl w /\ forall t, t < length (w_thr w0) -> exists o, finished_with w t o.
Proof. exact everything_finishes. Qed.
Print Assumptions C61_everything_finishes.

Example C61_example_ends : each_ends cross_env cross_start.
Proof. exact ex_cross_ends. Qed.

(** Loops of emissions come to their end. *)
Theorem C61_loops_end : forall e ps w0, looking_client e -> simple_bodies e -> reachable e ps w0 -> loops w0 -> each_ends e w0.
Proof. exact loops_end. Qed.
Print Assumptions C61_loops_end.

(** A thread that emits [m] times and has finished has called the slots in the list [m] times in
    the order of the list, whatever the others do. *)
Theorem C61_a_loop_calls_every_slot : forall e ps w0 sc w t m s args xs o,
  looking_client e -> simple_bodies e -> reachable e ps w0 -> all_lookers w0 -> ready w0 s xs ->
  w_thr w0 !! t = Some [FProg (emit_many m s args)] -> run e w0 sc = inl w -> finished_with w t o ->
  o = OutUnit /\ exists new, w_log w = new ++ w_log w0 /\ slots_called (mine t new) = concat (repeat xs m).
Proof. exact loop_calls. Qed.
Print Assumptions C61_a_loop_calls_every_slot.

(** Such loops are never undefined. *)
Theorem C61_loops_are_defined : forall e ps w0 sc u, looking_client e -> simple_bodies e -> reachable e ps w0 -> loops w0 ->
  run e w0 sc <> inr u.
Proof. exact loops_defined. Qed.
Print Assumptions C61_loops_are_defined.

(** [n] threads of [m] emissions: no call is lost. *)
Theorem C61_no_call_is_lost : forall e ps w0 sc w n m s args xs o,
  looking_client e -> simple_bodies e -> reachable e ps w0 -> ready w0 s xs ->
  w_thr w0 = [FRet o] :: replicate n [FProg (emit_many m s args)] -> run e w0 sc = inl w ->
  (forall t, t < S n -> exists o, finished_with w t o) ->
  exists new, w_log w = new ++ w_log w0 /\ length (slots_called new) = n * m * length xs.
Proof. exact invoke_threaded. Qed.
Print Assumptions C61_no_call_is_lost.

(** C62: the test InvokeThreaded, under every interleaving. *)
Theorem C62_the_threaded_test_passes : forall sc,
  match run add_env (init test_threads) (one 12 ++ sc) with
  | inl w => (forall t, t < 11 -> exists o, finished_with w t o) -> length (slots_called (w_log w)) = 1000
  | inr _ => False
  end.
Proof. exact threaded_test. Qed.
Print Assumptions C62_the_threaded_test_passes.

(** It ends under every fair schedule. *)
Theorem C62_the_threaded_test_finishes : exists k, forall sc, rounds 11 k sc ->
  exists w, run add_env (init test_threads) (one 12 ++ sc) = inl w /\ (forall t, t < 11 -> exists o, finished_with w t o) /\
    length (slots_called (w_log w)) = 1000.
Proof. exact threaded_test_finishes. Qed.
Print Assumptions C62_the_threaded_test_finishes.

Example C62_example_threaded : exists w0, run add_env (init test_threads) (one 12) = inl w0 /\ ready w0 0 [0] /\ slots_called (w_log w0) = [] /\
  exists o, w_thr w0 = [FRet o] :: replicate 10 [FProg (emit_many 100 0 [ARef 0; AVal 1])].
Proof. exact test_spawned. Qed.
