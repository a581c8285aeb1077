(** * C70: the life of tracked objects *)
From Verif Require Import RaceExamples LifeExamples ObjLifeExamples LogActs.

(** The statements are about the actions of runs, in the order in which they happen,
    those of C58, those of C69 and those on tracked objects.  Every run has its actions. *)
Theorem C70_runs_have_actions e ps w : reachable e ps w -> exists tr, tracked_run e ps w tr.
Proof. exact (reach_tracked e ps w). Qed.
Print Assumptions C70_runs_have_actions.

(** Every call of a slot that tracks an object is a use of the object, by the thread that
    makes the call. *)
Theorem C70_calls_are_uses e ps w tr t l eid c args n o :
  tracked_run e ps w tr -> ECall t (RSlot l) eid c args n ∈ w_log w -> spec_tracks (w_log w) l = Some o ->
  exists i, tr !! i = Some (t, Rd (LObj o)).
Proof. exact (calls_are_uses e ps w tr t l eid c args n o). Qed.
Print Assumptions C70_calls_are_uses.

(** More exactly: the step that logs the call, and the step that logs its return, use the
    object; the steps that log that an object was made or is gone make and destroy it. *)
Theorem C70_log_has_actions e ps w tr t fail w' new :
  tracked_run e ps w tr -> step e w t fail = SOk w' -> w_log w' = new ++ w_log w ->
  exists as_, tracked_run e ps w' (tr ++ (pair t <$> as_)) /\
    forall ev a, ev ∈ new -> a ∈ slot_acts (w_log w) ev ++ object_acts (w_log w) ev -> a ∈ as_.
Proof. exact (tracked_log_acts e ps w tr t fail w' new). Qed.
Print Assumptions C70_log_has_actions.

Example C70_log_example : exists w tr w', tracked_run y1_env o1_ps w tr /\ step y1_env w 1 MOk = SOk w' /\
  w_log w' = [EObjDead 0; ERet 1 (RSlot 0) (Some 0) (OutOpt (Some 1%Z))] ++ w_log w /\ spec_tracks (w_log w) 0 = Some 0.
Proof. exact ex_C70_log. Qed.

(** A tracked object is made once, before anything else is done with it, and destroyed once
    at most, after everything else was done with it. *)
Theorem C70_one_life e ps w tr o :
  tracked_run e ps w tr -> ENewObj o ∈ w_log w -> one_object_life (w_log w) tr o.
Proof. exact (object_life e ps w tr o). Qed.
Print Assumptions C70_one_life.

Example C70_one_life_example : exists w tr, tracked_run y1_env o1_ps w tr /\ ENewObj 0 ∈ w_log w /\ spec_obj (w_log w) 0 = false /\ made_before_connected (w_log w) 0 /\
  tr !! 3 = Some (0, Wr (LObj 0)) /\ tr !! 30 = Some (1, Rd (LObj 0)) /\ tr !! 42 = Some (0, Wr (LObj 0)).
Proof. exact ex_C70_client. Qed.

(** Whatever a call did with the object happens before the object is destroyed, by whichever
    thread, in the order that mutexes and reference counts give. *)
Theorem C70_used_before_destroyed e ps w tr i j o (b : bool) :
  tracked_run e ps w tr -> i < j -> accesses tr i (LObj o) b -> accesses tr j (LObj o) true -> hb sw_obj tr i j.
Proof. exact (before_destroyed e ps w tr i j o b). Qed.
Print Assumptions C70_used_before_destroyed.

Example C70_used_example : exists w tr, tracked_run y1_env o1_ps w tr /\ made_before_connected (w_log w) 0 /\ (exists c args n, ECall 1 (RSlot 0) (Some 0) c args n ∈ w_log w) /\ spec_tracks (w_log w) 0 = Some 0 /\
  tr !! 3 = Some (0, Wr (LObj 0)) /\ tr !! 32 = Some (0, Acq (YGive 0)) /\ tr !! 35 = Some (1, Rd (LObj 0)) /\ tr !! 40 = Some (1, Wr (LObj 0)).
Proof. exact ex_C70_call. Qed.

(** That the object was made happens before every call that uses it, also when the thread
    that calls only found the slot in the list of the signal. *)
Theorem C70_made_before_used e ps w tr i j o (b : bool) :
  tracked_run e ps w tr -> made_before_connected (w_log w) o ->
  i < j -> accesses tr i (LObj o) true -> accesses tr j (LObj o) b -> hb sw_obj tr i j.
Proof. exact (after_made e ps w tr i j o b). Qed.
Print Assumptions C70_made_before_used.

(** So there is no race on tracked objects: all races are those of C69. *)
Theorem C70_only_race e ps w tr i j :
  tracked_run e ps w tr -> (forall o, made_before_connected (w_log w) o) -> race sw_obj tr i j -> i < j ->
  exists t u x, t <> u /\ tr !! i = Some (t, Rd x) /\ tr !! j = Some (u, Wr x) /\
    ((exists v, x = LVec v) \/ (exists l, x = LSlot l /\ taken_out (w_log w) l)).
Proof. exact (only_race_obj e ps w tr i j). Qed.
Print Assumptions C70_only_race.

Example C70_race_example : exists w tr, tracked_run y1_env z1_ps w tr /\ (forall o, made_before_connected (w_log w) o) /\ race sw_obj tr 26 49.
Proof. exact ex_C70_race. Qed.
