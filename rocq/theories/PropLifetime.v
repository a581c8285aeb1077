(** * C69: the life of slot objects *)
From Verif Require Import RaceExamples LifeExamples LogActs.

(** The statements are about the actions of runs, in the order in which they happen,
    those of C58 and those on slot objects.  Every run has its actions. *)
Theorem C69_runs_have_actions e ps w : reachable e ps w -> exists tr, lived e ps w tr.
Proof. exact (reach_lived e ps w). Qed.
Print Assumptions C69_runs_have_actions.

(** The actions are those the code does: the step that logs an event about a slot has the
    uses of the slot object that go with the event, and makes and destroys the object when
    the log says that a slot was connected or is gone. *)
Theorem C69_log_has_actions e ps w tr t fail w' new :
  lived e ps w tr -> step e w t fail = SOk w' -> w_log w' = new ++ w_log w ->
  exists as_, lived e ps w' (tr ++ (pair t <$> as_)) /\ forall ev a, ev ∈ new -> a ∈ slot_acts (w_log w) ev -> a ∈ as_.
Proof. exact (lived_log_acts e ps w tr t fail w' new). Qed.
Print Assumptions C69_log_has_actions.

Example C69_log_example : exists w tr w', lived y1_env z1_ps w tr /\ step y1_env w 1 MOk = SOk w' /\ w_log w' = [ESlotDead 0; EDisc 1 0 true] ++ w_log w.
Proof. exact ex_C69_log. Qed.

(** Every slot ever connected is made once, before anything else is done with it, and
    destroyed once at most, after everything else was done with it. *)
Theorem C69_one_life e ps w tr t s l i :
  lived e ps w tr -> EConn t s l i ∈ w_log w -> one_life (w_log w) tr l.
Proof. exact (connected_life e ps w tr t s l i). Qed.
Print Assumptions C69_one_life.

Example C69_one_life_example : exists w tr, lived y1_env z1_ps w tr /\ (exists i, EConn 0 0 0 i ∈ w_log w) /\ spec_alive (w_log w) 0 = false /\
  tr !! 6 = Some (0, Wr (LSlot 0)) /\ tr !! 26 = Some (0, Rd (LSlot 0)) /\ tr !! 49 = Some (1, Wr (LSlot 0)).
Proof. exact ex_C69_life. Qed.

(** Whoever uses a slot object, or destroys it, does so after it was made also in the
    order that mutexes and reference counts give. *)
Theorem C69_made_before_used e ps w tr i j l (b : bool) :
  lived e ps w tr -> i < j -> accesses tr i (LSlot l) true -> accesses tr j (LSlot l) b -> hb sw_life tr i j.
Proof. exact (made_first e ps w tr i j l b). Qed.
Print Assumptions C69_made_before_used.

(** A slot that was never taken out of a list goes with the list.  It is destroyed after
    all its uses in that order. *)
Theorem C69_destroyed_with_the_list_after_all_uses e ps w tr i j l (b : bool) :
  lived e ps w tr -> ~ taken_out (w_log w) l ->
  i < j -> accesses tr i (LSlot l) b -> accesses tr j (LSlot l) true -> hb sw_life tr i j.
Proof. exact (destroyed_after e ps w tr i j l b). Qed.
Print Assumptions C69_destroyed_with_the_list_after_all_uses.

Example C69_destroyed_example : exists w tr, lived y1_env z2_ps w tr /\ ~ taken_out (w_log w) 0 /\
  tr !! 26 = Some (0, Rd (LSlot 0)) /\ tr !! 36 = Some (1, Wr (LSlot 0)).
Proof. exact ex_C69_last. Qed.

(** Not so a slot that was disconnected: the thread that disconnects it may destroy the
    functor although a call of the functor by another thread, over long ago, is not
    ordered before that, whatever the atomic flags may add to the order. *)
Theorem C69_destroyed_after_all_uses_refuted :
  ~ (forall e ps w tr i j l t u, lived e ps w tr -> i < j ->
       tr !! i = Some (t, Rd (LSlot l)) -> tr !! j = Some (u, Wr (LSlot l)) -> hb sw_life_all tr i j).
Proof. exact destroyed_unordered. Qed.
Print Assumptions C69_destroyed_after_all_uses_refuted.

(** That and the race of C58 are all the races there can be. *)
Theorem C69_only_race e ps w tr i j :
  lived e ps w tr -> race sw_life tr i j -> i < j ->
  exists t u x, t <> u /\ tr !! i = Some (t, Rd x) /\ tr !! j = Some (u, Wr x) /\
    ((exists v, x = LVec v) \/ (exists l, x = LSlot l /\ taken_out (w_log w) l)).
Proof. exact (only_race_life e ps w tr i j). Qed.
Print Assumptions C69_only_race.

Example C69_race_example : exists w tr, lived y1_env z1_ps w tr /\ race sw_life tr 26 49.
Proof. exact ex_C69_race. Qed.

(** Both come from use_count(): if it acquired, there would be none. *)
Theorem C69_no_race_if_use_count_acquires e ps w tr i j :
  lived e ps w tr -> ~ race sw_life_use tr i j.
Proof. exact (no_race_life_use e ps w tr i j). Qed.
Print Assumptions C69_no_race_if_use_count_acquires.
