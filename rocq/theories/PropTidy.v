(** * Properties: clients that keep to the rules of ownership *)
From Verif Require Import TestsProof RepoTests SpecUse SpecTidy TidySafe Witness AloneTest TidyExamples.

(** C64.  If all client code is tidy and no operator== and no destructor locks a signal, the only
    thing that can go wrong is std::terminate for lack of memory, and only if memory ran out. *)
Theorem C64_tidy_clients_are_safe e G caps ps own w0 sc u : tidy_env e G caps -> lockless_env e -> settled e G caps ps own w0 -> run e w0 sc = inr u ->
  u = UTerminate /\ exists t m, (t, m) ∈ sc /\ m <> MOk.
Proof. exact (fun Ht => tidy_safe_lockless e G caps ps Ht own w0 sc u). Qed.
Print Assumptions C64_tidy_clients_are_safe.
Example C64_example : tidy_env keep_env [] keep_caps /\ lockless_env keep_env /\ settled keep_env [] keep_caps [keep_prog] (fun _ => []) (init [keep_prog]) /\
  exists w, run keep_env (init [keep_prog]) (one 400) = inl w /\ finished_with w 0 (OutZ 100) /\ slots_called (w_log w) = [1; 0; 1; 0; 2; 2].
Proof. exact ex_keep. Qed.
Example C64_example_untidy : run keep_env (init [untidy_prog]) (one 60) = inr UDangling /\ ~ tidy keep_env [] keep_caps Main [] untidy_prog.
Proof. exact ex_untidy. Qed.

(** C64.  With enough memory nothing undefined happens whatever the interleaving, and until all
    threads have finished there is one that can go on. *)
Theorem C64_tidy_clients_go_on e G caps ps own w0 sc : tidy_env e G caps -> lockless_env e -> settled e G caps ps own w0 -> (forall t m, (t, m) ∈ sc -> m = MOk) ->
  exists w, run e w0 sc = inl w /\ ((forall t st, w_thr w !! t = Some st -> finished w t) \/ exists t w', step e w t MOk = SOk w').
Proof. exact (fun Ht => tidy_with_memory e G caps ps Ht own w0 sc). Qed.
Print Assumptions C64_tidy_clients_go_on.

(** C64.  If operator== and destructors may lock signals, a thread may also wait for itself. *)
Theorem C64_tidy_clients_that_lock e G caps ps own w0 sc u : tidy_env e G caps -> settled e G caps ps own w0 -> run e w0 sc = inr u ->
  (u = UTerminate /\ exists t m, (t, m) ∈ sc /\ m <> MOk) \/ u = ULockSelf.
Proof. exact (fun Ht => tidy_safe e G caps ps Ht own w0 sc u). Qed.
Print Assumptions C64_tidy_clients_that_lock.

(** C64.  Programs that are tidy with nothing to begin with may begin. *)
Theorem C64_tidy_programs_may_begin e caps ps : Forall (tidy e [] caps Main []) ps -> settled e [] caps ps (fun _ => []) (init ps).
Proof. exact (settled_init e [] caps ps eq_refl). Qed.
Print Assumptions C64_tidy_programs_may_begin.
Example C64_example_begin : tidy keep_env [] keep_caps Main [] keep_prog.
Proof. exact keep_tidy. Qed.

(** C64, C62.  ThreadedConnect: threads that connect, emit and disconnect on one signal.  For any
    number of threads, rounds and emissions, nothing undefined happens and no thread waits for
    ever. *)
Theorem C64_threaded_connect ps w0 sc : reachable add_env ps w0 -> (forall s1 s2, EMoveSig s1 s2 ∉ w_log w0) -> signal_lives w0 0 -> is_Some (v_store (w_vars w0) !! 0) ->
  (forall t st, w_thr w0 !! t = Some st -> (exists o, st = [FRet o]) \/ exists n m, st = [FProg (connect_invoke n m)]) ->
  (forall t m, (t, m) ∈ sc -> m = MOk) ->
  exists w, run add_env w0 sc = inl w /\ ((forall t st, w_thr w !! t = Some st -> finished w t) \/ exists t w', step add_env w t MOk = SOk w').
Proof. exact (threaded_connect ps w0 sc). Qed.
Print Assumptions C64_threaded_connect.
Example C64_example_threaded n m : exists w0, run add_env (init (connect_threads n m)) (one 200) = inl w0 /\ finished w0 0 /\ length (slots_called (w_log w0)) = 6 /\
  slots_of w0 0 = [] /\ signal_lives w0 0 /\ is_Some (v_store (w_vars w0) !! 0) /\ (forall s1 s2, EMoveSig s1 s2 ∉ w_log w0) /\
  (forall t st, w_thr w0 !! t = Some st -> (exists o, st = [FRet o]) \/ exists n m, st = [FProg (connect_invoke n m)]).
Proof. exact (ex_threaded_connect n m). Qed.
