(** * Properties: what emissions mean *)
From Verif Require Import Witness TestsProof SpecMean MeanProof MeanTest.

(** C63.  While the threads only look ([looks]): whatever the schedule, what a thread returned and
    the calls it made are what its program means. *)
Theorem C63_threads_do_what_they_mean e ps w0 sc w t p o : looking_client e -> reachable e ps w0 -> all_lookers w0 ->
  w_thr w0 !! t = Some [FProg p] -> run e w0 sc = inl w -> finished_with w t o ->
  exists new, w_log w = new ++ w_log w0 /\ means e w0 None [] p o (calls_in (mine t new)).
Proof. exact (finished_means e ps w0 sc w t p o). Qed.
Print Assumptions C63_threads_do_what_they_mean.
Example C63_example : let w0 := mean_start (mean_prog 3) in let w := mean_end (mean_prog 3) in
  reachable mean_env [mean_main; mean_prog 3] w0 /\ all_lookers w0 /\ w_thr w0 !! 1 = Some [FProg (mean_prog 3)] /\
  run mean_env w0 (alone 1 200) = inl w /\ finished_with w 1 (OutZ 34) /\
  means mean_env w0 None [] (mean_prog 3) (OutZ 34) [(0, [AVal 3]); (1, [AVal 3]); (2, [AVal 30]); (3, [AVal 30])].
Proof. exact ex_mean. Qed.
Example C63_example_client : looking_client mean_env.
Proof. exact mean_looks. Qed.
Example C63_example_exception : let w0 := mean_start (mean_prog 6) in let w := mean_end (mean_prog 6) in
  reachable mean_env [mean_main; mean_prog 6] w0 /\ all_lookers w0 /\ w_thr w0 !! 1 = Some [FProg (mean_prog 6)] /\
  run mean_env w0 (alone 1 200) = inl w /\ finished_with w 1 (OutExn (UserExn 7)) /\
  means mean_env w0 None [] (mean_prog 6) (OutExn (UserExn 7)) [(0, [AVal 6]); (1, [AVal 6]); (2, [AVal 60]); (3, [AVal 60])].
Proof. exact ex_mean_throws. Qed.

(** C63.  A program that means something does it: alone, the thread comes to its end. *)
Theorem C63_meanings_are_carried_out e ps w0 t p o tr : looking_client e -> reachable e ps w0 -> all_lookers w0 -> w_thr w0 !! t = Some [FProg p] ->
  means e w0 None [] p o tr ->
  exists n new w', run e w0 (alone t n) = inl w' /\ w_log w' = new ++ w_log w0 /\ calls_in new = tr /\
    Forall (fun ev => thread_of ev = Some t) new /\ finished_with w' t o.
Proof. exact (means_alone e ps w0 t p o tr). Qed.
Print Assumptions C63_meanings_are_carried_out.

(** C63.  A program means at most one thing. *)
Theorem C63_meanings_are_unique e w cx a p o tr : means e w cx a p o tr -> forall o' tr', means e w cx a p o' tr' -> o' = o /\ tr' = tr.
Proof. exact (means_unique e w cx a p o tr). Qed.
Print Assumptions C63_meanings_are_unique.

(** C63.  If the programs of all threads mean something, nothing undefined happens, and under a
    schedule that gives every thread enough turns all finish. *)
Theorem C63_meanings_are_defined e ps w0 sc u : looking_client e -> reachable e ps w0 -> meaningful e w0 -> run e w0 sc <> inr u.
Proof. exact (meaningful_defined e ps w0 sc u). Qed.
Print Assumptions C63_meanings_are_defined.
Theorem C63_meanings_are_finished e ps w0 : looking_client e -> reachable e ps w0 -> meaningful e w0 ->
  exists k, forall sc, rounds (length (w_thr w0)) k sc ->
    exists w, run e w0 sc = inl w /\ forall t, t < length (w_thr w0) -> exists o, finished_with w t o.
Proof. exact (meaningful_finishes e ps w0). Qed.
Print Assumptions C63_meanings_are_finished.
Example C63_example_meaningful m p1 p2 : p1 = emit_from 0 (2 * m) 0 -> p2 = emit_from 0 (2 * m) 1 ->
  exists w0, reachable cross_env [cross_main; p1; p2] w0 /\ meaningful cross_env w0 /\ w_thr w0 !! 1 = Some [FProg p1] /\ w_thr w0 !! 2 = Some [FProg p2].
Proof. exact (ex_meaningful m p1 p2). Qed.

(** C63.  With optional_last_value an emission calls the slots in order and returns the last value,
    or stops at the first exception. *)
Theorem C63_the_default_combiner e w xs a o tr : means e w (Some xs) a (combiner e None (length xs)) o tr <-> last_value_of e w xs a o tr.
Proof. exact (default_combiner e w xs a o tr). Qed.
Print Assumptions C63_the_default_combiner.

(** C62.  ThreadedCrossed: two threads emit signals that emit each other.  For any number of rounds
    and any schedule nothing undefined happens, and once all have finished the sum is right. *)
Theorem C62_crossed_emissions_add_up m sc :
  match run cross_env (init (crossed_threads (2 * m))) (one 24 ++ sc) with
  | inl w => (forall t, t < 3 -> exists o, finished_with w t o) -> counted (calls_in (w_log w)) = (4 * Z.of_nat m * Z.of_nat m)%Z
  | inr _ => False
  end.
Proof. exact (crossed_counts m sc). Qed.
Print Assumptions C62_crossed_emissions_add_up.
Theorem C62_the_crossed_test_passes sc :
  match run cross_env (init (crossed_threads (2 * Z.to_nat 500000))) (one 24 ++ sc) with
  | inl w => (forall t, t < 3 -> exists o, finished_with w t o) -> counted (calls_in (w_log w)) = 1000000000000%Z
  | inr _ => False
  end.
Proof. exact (crossed_test sc). Qed.
Print Assumptions C62_the_crossed_test_passes.
Theorem C62_the_crossed_test_finishes m : exists k, forall sc, rounds 3 k sc ->
  exists w, run cross_env (init (crossed_threads (2 * m))) (one 24 ++ sc) = inl w /\ forall t, t < 3 -> exists o, finished_with w t o.
Proof. exact (crossed_finishes m). Qed.
Print Assumptions C62_the_crossed_test_finishes.
