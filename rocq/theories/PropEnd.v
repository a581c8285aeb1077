(** * Everything comes to an end *)
From Verif Require Import TestsProof RepoTests SpecUse SpecTidy TidySafe Witness AloneTest TidyExamples EndExamples.

(** C65.  If recursion through signals goes to smaller arguments and operator== and destructors lock
    no signal, no run goes on for ever, whatever the schedule: at some point no thread does anything
    any more. *)
Theorem C65_no_endless_run mu e ps (ws : nat -> world) : lockless_env e -> ends_env mu e -> reachable e ps (ws 0) ->
  ~ forall i, exists t m, step e (ws i) t m = SOk (ws (S i)).
Proof. exact (fun Hl Hm => no_endless mu e ps Hl Hm ws). Qed.
Print Assumptions C65_no_endless_run.
Example C65_example : lockless_env down_env /\ ends_env down_mu down_env /\ reachable down_env [down_prog 2] (init [down_prog 2]) /\
  exists w, step down_env (init [down_prog 2]) 0 MOk = SOk w.
Proof. exact ex_no_endless. Qed.
Example C65_example_endless : lockless_env loop_env /\ (forall mu, ~ ends_env mu loop_env) /\
  forall n, exists w, run loop_env (init [loop_prog]) (one n) = inl w /\ ~ finished w 0.
Proof. exact ex_loop. Qed.

(** C65.  Under every schedule that gives each thread its turn again and again, all threads finish
    or something undefined happens. *)
Theorem C65_fair_schedules_finish mu e ps f w0 : lockless_env e -> ends_env mu e -> reachable e ps w0 -> fair (length (w_thr w0)) f ->
  exists i, match run e w0 (first f i) with inl w => all_finished w | inr _ => True end.
Proof. exact (fun Hl Hm => fair_ends mu e ps Hl Hm f w0). Qed.
Print Assumptions C65_fair_schedules_finish.
Example C65_example_down : lockless_env down_env /\ ends_env down_mu down_env /\ fair 1 (in_turn 1) /\
  match run down_env (init [down_prog 2]) (first (in_turn 1) 300) with
  | inl w => finished w 0 /\ slots_called (w_log w) = [0; 0; 0; 1; 1; 0; 1; 1; 0; 0; 1; 1; 0; 1]
  | inr _ => False
  end.
Proof. exact ex_down. Qed.
Example C65_example_crossed : lockless_env cross_env /\ ends_env cross_mu cross_env /\ reachable cross_env cross_threads cross_start /\ fair 3 (in_turn 3) /\
  match run cross_env cross_start (first (in_turn 3) 250) with inl w => all_finished w | inr _ => False end.
Proof. exact ex_cross_ends. Qed.

(** C65.  Tidy clients (C64) with enough memory finish, with nothing undefined on the way. *)
Theorem C65_tidy_clients_finish mu e G caps ps own w0 f : tidy_env e G caps -> lockless_env e -> ends_env mu e -> settled e G caps ps own w0 ->
  fair (length (w_thr w0)) f -> (forall i, snd (f i) = MOk) -> exists i w, run e w0 (first f i) = inl w /\ all_finished w.
Proof. exact (tidy_ends mu e G caps ps own w0 f). Qed.
Print Assumptions C65_tidy_clients_finish.
Example C65_example_tidy n m : exists w0, reachable add_env (connect_threads n m) w0 /\ settled add_env shared no_caps (connect_threads n m) (fun _ => []) w0 /\
  length (w_thr w0) = 11 /\ tidy_env add_env shared no_caps /\ lockless_env add_env /\ ends_env (fun _ => 0) add_env /\ fair 11 (in_turn 11) /\ forall i, snd (in_turn 11 i) = MOk.
Proof. exact (ex_tidy_ends n m). Qed.

(** C65, C62.  ThreadedConnect ends, for any number of threads, rounds and emissions. *)
Theorem C65_threaded_connect_ends ps w0 f : reachable add_env ps w0 -> (forall s1 s2, EMoveSig s1 s2 ∉ w_log w0) -> signal_lives w0 0 -> is_Some (v_store (w_vars w0) !! 0) ->
  (forall t st, w_thr w0 !! t = Some st -> (exists o, st = [FRet o]) \/ exists n m, st = [FProg (connect_invoke n m)]) ->
  fair (length (w_thr w0)) f -> (forall i, snd (f i) = MOk) -> exists i w, run add_env w0 (first f i) = inl w /\ all_finished w.
Proof. exact (connect_ends ps w0 f). Qed.
Print Assumptions C65_threaded_connect_ends.
Example C65_example_threaded n m : exists w0, run add_env (init (connect_threads n m)) (one 200) = inl w0 /\ finished w0 0 /\ length (slots_called (w_log w0)) = 6 /\
  slots_of w0 0 = [] /\ signal_lives w0 0 /\ is_Some (v_store (w_vars w0) !! 0) /\ (forall s1 s2, EMoveSig s1 s2 ∉ w_log w0) /\
  (forall t st, w_thr w0 !! t = Some st -> (exists o, st = [FRet o]) \/ exists n m, st = [FProg (connect_invoke n m)]).
Proof. exact (connect_begins n m). Qed.
