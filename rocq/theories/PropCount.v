(** * The number of calls when threads connect and emit *)
From Verif Require Import TestsProof RepoTests SpecUse SpecTidy TidySafe Witness AloneTest TidyExamples EndExamples QuietExamples CountExamples.

(** C67.  The test ThreadedConnect (tests/signal_tests.cpp, 264-302) for all numbers of threads and
    rounds and all schedules.  A thread that connects [n] times and emits [m] times with each of its
    connections calls slots at least [n * m] times, and at most that many times for each thread that was
    at work: no emission misses the slot its own thread has connected, none calls a slot twice, none
    calls a slot whose thread has let go of it before the emission began. *)
Theorem C67_calls_of_a_thread ps w0 sc w new t n m o : Forall functions ps -> reachable add_env ps w0 -> about_to_connect w0 ->
  run add_env w0 sc = inl w -> w_log w = new ++ w_log w0 ->
  w_thr w0 !! t = Some [FProg (connect_invoke n m)] -> finished_with w t o -> o <> oom \/ (forall t m, (t, m) ∈ sc -> m = MOk) ->
  n * m <= length (slots_called (mine t new)) <= n * m * working w0.
Proof. exact (connect_calls ps w0 sc w new t n m o). Qed.
Print Assumptions C67_calls_of_a_thread.
Example C67_example_begins N n m : exists w0, run add_env (init (count_threads N n m)) (repeat (0, MOk) 20) = inl w0 /\ Forall functions (count_threads N n m) /\ about_to_connect w0 /\
  is_Some (v_store (w_vars w0) !! 0) /\ w_thr w0 = [FRet OutUnit] :: replicate N [FProg (connect_invoke n m)] /\ working w0 = N /\ slots_called (w_log w0) = [].
Proof. exact (ex_begins N n m). Qed.
(** Two threads, twice two emissions each: one after the other, and in turn. *)
Example C67_example_bounds : counted (repeat (1, MOk) 400 ++ repeat (2, MOk) 400) = Some (4, 4, true) /\ counted (concat (repeat [(1, MOk); (2, MOk)] 400)) = Some (8, 8, true).
Proof. exact ex_bounds. Qed.
Example C67_example_no_memory : counted (repeat (1, MThrow) 10 ++ repeat (2, MOk) 400) = Some (0, 4, true).
Proof. exact ex_oom. Qed.

(** C67.  A thread that is alone at work makes exactly [n * m] calls. *)
Theorem C67_alone ps w0 sc w new t n m o : Forall functions ps -> reachable add_env ps w0 -> about_to_connect w0 -> working w0 = 1 ->
  run add_env w0 sc = inl w -> w_log w = new ++ w_log w0 ->
  w_thr w0 !! t = Some [FProg (connect_invoke n m)] -> finished_with w t o -> o <> oom \/ (forall t m, (t, m) ∈ sc -> m = MOk) ->
  length (slots_called (mine t new)) = n * m.
Proof. exact (connect_alone ps w0 sc w new t n m o). Qed.
Print Assumptions C67_alone.

(** C67.  All threads together, under every fair schedule, come to an end with between [N * (n * m)]
    and [N * N * (n * m)] calls. *)
Theorem C67_all_threads ps w0 f n m N o : Forall functions ps -> reachable add_env ps w0 -> about_to_connect w0 -> is_Some (v_store (w_vars w0) !! 0) ->
  0 < N -> w_thr w0 = [FRet o] :: replicate N [FProg (connect_invoke n m)] -> fair (length (w_thr w0)) f -> (forall i, snd (f i) = MOk) ->
  exists i w new, run add_env w0 (first f i) = inl w /\ all_finished w /\ w_log w = new ++ w_log w0 /\
    N * (n * m) <= length (slots_called new) <= N * (n * m * N).
Proof. exact (connect_total ps w0 f n m N o). Qed.
Print Assumptions C67_all_threads.

(** C67.  The first part of the test: EXPECT_EQ(i, 10000), where [i] counts the calls. *)
Theorem C67_first_part_of_test f : fair 2 f -> (forall i, snd (f i) = MOk) ->
  exists i w, run add_env (init (count_threads 1 100 100)) (repeat (0, MOk) 20 ++ first f i) = inl w /\ all_finished w /\ length (slots_called (w_log w)) = 100 * 100.
Proof. exact (test_alone f). Qed.
Print Assumptions C67_first_part_of_test.
(** C67.  The second part, ten threads. *)
Theorem C67_second_part_of_test f : fair 11 f -> (forall i, snd (f i) = MOk) ->
  exists i w, run add_env (init (count_threads 10 100 100)) (repeat (0, MOk) 20 ++ first f i) = inl w /\ all_finished w /\ 10 * (100 * 100) <= length (slots_called (w_log w)) <= 100 * (100 * 100).
Proof. exact (test_threads f). Qed.
Print Assumptions C67_second_part_of_test.
Example C67_example_fair : fair 2 (in_turn 2) /\ fair 11 (in_turn 11) /\ forall n i, snd (in_turn n i) = MOk.
Proof. exact ex_fair. Qed.
