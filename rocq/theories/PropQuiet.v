(** * What is left when nothing is running *)
From Verif Require Import TestsProof RepoTests SpecUse SpecTidy TidySafe Witness AloneTest TidyExamples EndExamples QuietExamples.

(** C66.  A slot in a signal's list that nobody is in the middle of disconnecting has its flag set; or
    it was connected from a slot object whose flag was clear, or its tracked object died in the course of
    a call. *)
Theorem C66_listed_slots_are_connected e ps w s l : reachable e ps w -> none_inside w l -> l ∈ slots_of w s ->
  spec_flag (w_log w) l = true \/ born_disconnected (w_log w) l \/ died_in_call (w_log w) l.
Proof. exact (listed_connected e ps w s l). Qed.
Print Assumptions C66_listed_slots_are_connected.
Example C66_example_inside : exists w, run rest_env (init [rest_prog]) (one 26) = inl w /\ slots_of w 0 = [0; 1; 2] /\
  none_inside w 0 /\ spec_flag (w_log w) 0 = true /\ ~ none_inside w 1 /\ spec_flag (w_log w) 1 = false /\ ~ born_disconnected (w_log w) 1.
Proof. exact ex_inside. Qed.

(** C66.  With one thread there are no such exceptions. *)
Theorem C66_one_thread e ps w s l : length ps = 1 -> reachable e ps w -> none_inside w l -> l ∈ slots_of w s -> spec_flag (w_log w) l = true.
Proof. exact (fun H => one_listed e ps H w s l). Qed.
Print Assumptions C66_one_thread.

(** C66.  As long as signal::disconnect(f) has removed nothing, a slot whose flag is set is in the list of
    the signal it was connected to, or in the list of a signal that one was moved into. *)
Theorem C66_connected_slots_are_listed e ps w l : reachable e ps w -> (forall t s l', EErased t s l' ∉ w_log w) -> spec_flag (w_log w) l = true ->
  exists s, spec_home (w_log w) l = Some s /\ exists s', l ∈ slots_of w s' /\ (s' = s \/ exists s2, EMoveSig s s2 ∈ w_log w).
Proof. exact (connected_listed e ps w l). Qed.
Print Assumptions C66_connected_slots_are_listed.
Example C66_example_erased : exists w, run rest_env (init [erased_prog]) (one 60) = inl w /\ all_finished w /\ signal_lives w 0 /\ slots_of w 0 = [] /\
  spec_home (w_log w) 0 = Some 0 /\ spec_flag (w_log w) 0 = true.
Proof. exact ex_erased. Qed.

(** C66.  When all threads have finished, in a client that connects functions only and has not used
    signal::disconnect(f) or moved a signal, a slot is in a signal's list exactly if it was connected to
    that signal and has not been disconnected. *)
Theorem C66_list_at_rest e ps w s l : functions_env e -> Forall functions ps -> reachable e ps w -> all_finished w ->
  (forall t s l, EErased t s l ∉ w_log w) -> (forall s1 s2, EMoveSig s1 s2 ∉ w_log w) ->
  l ∈ slots_of w s <-> spec_home (w_log w) l = Some s /\ spec_flag (w_log w) l = true.
Proof. exact (fun He Hps => fun_at_rest e ps He Hps w s l). Qed.
Print Assumptions C66_list_at_rest.
Example C66_example_rest : functions_env rest_env /\ functions rest_prog /\
  exists w, run rest_env (init [rest_prog]) (one 60) = inl w /\ all_finished w /\ slots_of w 0 = [0; 2] /\
    (forall t s l, EErased t s l ∉ w_log w) /\ (forall s1 s2, EMoveSig s1 s2 ∉ w_log w) /\
    map (fun l => (spec_flag (w_log w) l, spec_home (w_log w) l)) [0; 1; 2] = [(true, Some 0); (false, Some 0); (true, Some 0)].
Proof. exact ex_rest. Qed.

(** C66.  The same for all clients of one thread, whatever they connect. *)
Theorem C66_one_thread_at_rest e ps w s l : length ps = 1 -> reachable e ps w -> all_finished w ->
  (forall t s l, EErased t s l ∉ w_log w) -> (forall s1 s2, EMoveSig s1 s2 ∉ w_log w) ->
  l ∈ slots_of w s <-> spec_home (w_log w) l = Some s /\ spec_flag (w_log w) l = true.
Proof. exact (fun H => one_at_rest e ps H w s l). Qed.
Print Assumptions C66_one_thread_at_rest.
Example C66_example_one : exists w, run drop_env (init [drop_prog]) (one 100) = inl w /\ all_finished w /\ slots_of w 0 = [0; 2] /\ slots_called (w_log w) = [0] /\
    (forall t s l, EErased t s l ∉ w_log w) /\ (forall s1 s2, EMoveSig s1 s2 ∉ w_log w) /\
    map (fun l => (spec_flag (w_log w) l, spec_home (w_log w) l)) [0; 1; 2] = [(true, Some 0); (false, Some 0); (true, Some 0)].
Proof. exact ex_one. Qed.

(** C66.  A client that only makes scoped connections and destroys each of them: when all threads have
    finished no connection is left ... *)
Theorem C66_scoped_connections_gone e ps w c r : neat_env e -> Forall neat ps -> reachable e ps w -> all_finished w ->
  v_conns (w_vars w) !! c = Some r -> cn_live r = false /\ cn_scoped r = true.
Proof. exact (fun He Hps => neat_conns e ps He Hps w c r). Qed.
Print Assumptions C66_scoped_connections_gone.
(** ... no slot that still exists has its flag set ... *)
Theorem C66_scoped_slots_disconnected e ps w l : neat_env e -> Forall neat ps -> reachable e ps w -> all_finished w ->
  spec_flag (w_log w) l = true -> spec_alive (w_log w) l = false.
Proof. exact (fun He Hps => neat_flags e ps He Hps w l). Qed.
Print Assumptions C66_scoped_slots_disconnected.
(** ... and a signal's list has nothing in it but slots of the two kinds of the first theorem. *)
Theorem C66_scoped_clients_leave_nothing e ps w s l : neat_env e -> Forall neat ps -> reachable e ps w -> all_finished w ->
  signal_lives w s -> l ∈ slots_of w s -> born_disconnected (w_log w) l \/ died_in_call (w_log w) l.
Proof. exact (fun He Hps => neat_lists e ps He Hps w s l). Qed.
Print Assumptions C66_scoped_clients_leave_nothing.
Example C66_example_expired : neat_env rest_env /\ neat expired_prog /\ neat reset_prog /\
  exists w, run rest_env (init [expired_prog; reset_prog]) (expired_sched 17) = inl w /\ all_finished w /\ signal_lives w 0 /\ slots_of w 0 = [0] /\ died_in_call (w_log w) 0.
Proof. exact ex_expired. Qed.
Example C66_example_born : neat_env rest_env /\ neat born_prog /\ neat reset_prog /\
  exists w, run rest_env (init [born_prog; reset_prog]) (expired_sched 10) = inl w /\ all_finished w /\ signal_lives w 0 /\ slots_of w 0 = [0] /\ born_disconnected (w_log w) 0.
Proof. exact ex_born. Qed.

(** C66.  If such a client connects functions only, all lists are empty. *)
Theorem C66_lists_empty e ps w s : neat_env e -> functions_env e -> Forall neat ps -> Forall functions ps -> reachable e ps w -> all_finished w -> signal_lives w s ->
  slots_of w s = [].
Proof. exact (neat_empty e ps w s). Qed.
Print Assumptions C66_lists_empty.
Example C66_example_two : neat_env add_env /\ functions_env add_env /\ Forall neat two_threads /\ Forall functions two_threads /\
  exists w, run add_env (init two_threads) (repeat (0, MOk) 3 ++ first (in_turn 2) 120) = inl w /\ all_finished w /\ signal_lives w 0 /\
    v_conns (w_vars w) = [ConnV false true None; ConnV false true None].
Proof. exact ex_two. Qed.

(** C66, C65.  ThreadedConnect, with any numbers of rounds and emissions, ends under every fair schedule, and
    the signal is empty then. *)
Theorem C66_threaded_connect_leaves_nothing n m w0 f : reachable add_env (connect_threads n m) w0 -> (forall s1 s2, EMoveSig s1 s2 ∉ w_log w0) -> signal_lives w0 0 -> is_Some (v_store (w_vars w0) !! 0) ->
  (forall t st, w_thr w0 !! t = Some st -> (exists o, st = [FRet o]) \/ exists n m, st = [FProg (connect_invoke n m)]) ->
  fair (length (w_thr w0)) f -> (forall i, snd (f i) = MOk) ->
  exists i w, run add_env w0 (first f i) = inl w /\ all_finished w /\ signal_lives w 0 /\ slots_of w 0 = [].
Proof. exact (connect_leaves_nothing n m w0 f). Qed.
Print Assumptions C66_threaded_connect_leaves_nothing.
Example C66_example_threaded n m : exists w0, reachable add_env (connect_threads n m) w0 /\ (forall s1 s2, EMoveSig s1 s2 ∉ w_log w0) /\ signal_lives w0 0 /\ is_Some (v_store (w_vars w0) !! 0) /\
  (forall t st, w_thr w0 !! t = Some st -> (exists o, st = [FRet o]) \/ exists n m, st = [FProg (connect_invoke n m)]) /\
  length (w_thr w0) = 11 /\ fair 11 (in_turn 11) /\ forall i, snd (in_turn 11 i) = MOk.
Proof. exact (ex_leaves n m). Qed.
