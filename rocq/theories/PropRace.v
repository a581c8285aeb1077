(** * C58: data races *)
From Verif Require Import RaceExamples.

(** The statements are about the actions of runs, in the order in which they happen.
    Every run has its actions. *)
Theorem C58_runs_have_actions e ps w : reachable e ps w -> exists tr, traced e ps w tr.
Proof. exact (reach_traced e ps w). Qed.
Print Assumptions C58_runs_have_actions.

(** Mutexes and reference counts order all accesses to the pointers to the vectors of
    slots and to the indices of slots, and whoever accesses a vector after somebody
    wrote to it. *)
Theorem C58_writes_come_first e ps w tr i j l (a b : bool) :
  traced e ps w tr -> i < j -> accesses tr i l a -> accesses tr j l b -> a = true \/ b = true ->
  (forall v, l = LVec v -> a = true) -> hb sw_lib tr i j.
Proof. exact (ordered_lib e ps w tr i j l a b). Qed.
Print Assumptions C58_writes_come_first.

Example C58_example : exists w tr, traced y1_env [y1_prog; y1_other] w tr /\
  accesses tr 8 (LVec 0) true /\ accesses tr 12 (LPtr 0) false /\ accesses tr 21 (LVec 0) false /\ accesses tr 23 (LPtr 0) true /\ accesses tr 32 (LVec 0) true /\
  (fst <$> tr !! 8) = Some 0 /\ (fst <$> tr !! 21) = Some 1 /\ (fst <$> tr !! 32) = Some 0.
Proof. exact ex_C58. Qed.

(** A vector of slots is destroyed by the owner that gives up the last share, directly
    after doing so; everybody else who touched the vector did so before. *)
Theorem C58_destroyed_last e ps w tr i j u v (b : bool) :
  traced e ps w tr -> i < S j -> accesses tr i (LVec v) b ->
  tr !! j = Some (u, Rel (YCount v)) -> tr !! S j = Some (u, Wr (LVec v)) -> hb sw_lib tr i (S j).
Proof. exact (destroyed_last e ps w tr i j u v b). Qed.
Print Assumptions C58_destroyed_last.

Example C58_destroyed_example : exists w tr, traced y1_env [y1_prog; y1_other] w tr /\
  accesses tr 21 (LVec 0) false /\ (fst <$> tr !! 21) = Some 1 /\ tr !! 31 = Some (0, Rel (YCount 0)) /\ tr !! 32 = Some (0, Wr (LVec 0)).
Proof. exact ex_C58_destroyed. Qed.

(** So the only race there can be is between a thread that reads a vector of slots and
    another that later writes to it; and the write is not the end of the vector. *)
Theorem C58_only_race e ps w tr i j :
  traced e ps w tr -> race sw_lib tr i j -> i < j ->
  exists t u v, t <> u /\ tr !! i = Some (t, Rd (LVec v)) /\ tr !! j = Some (u, Wr (LVec v)) /\
    tr !! pred j <> Some (u, Rel (YCount v)).
Proof. exact (only_race e ps w tr i j). Qed.
Print Assumptions C58_only_race.

Example C58_race_example : exists w tr, traced y1_env [y1_prog; y1_other] w tr /\ race sw_lib tr 15 25.
Proof. exact ex_C58_race. Qed.

(** It does happen: cow_ptr decides by use_count() whether it may write, and that
    does not wait for the threads that gave up their share.  A thread that emitted and
    a thread that connects afterwards race, whatever the atomic flags may add to the
    order. *)
Theorem C58_no_race_refuted :
  ~ (forall e ps w tr i j, traced e ps w tr -> ~ race sw_all tr i j).
Proof. exact two_threads_race. Qed.
Print Assumptions C58_no_race_refuted.

(** If use_count() acquired what those threads released, there would be no race. *)
Theorem C58_no_race_if_use_count_acquires e ps w tr i j :
  traced e ps w tr -> ~ race sw_use tr i j.
Proof. exact (no_race_use e ps w tr i j). Qed.
Print Assumptions C58_no_race_if_use_count_acquires.
