(** * Properties: deadlock and undefined behaviour *)
From Verif Require Import SpecUse InvUse InvFault UseExamples.

(** C28.  With operator== and destructors of functors that take no mutex, no thread ever locks a
    mutex it holds. *)
Theorem C28_no_self_deadlock e ps w t fail : lockless_env e -> reachable e ps w -> step e w t fail <> SUB ULockSelf.
Proof. exact (no_self_lock e ps w t fail). Qed.
Print Assumptions C28_no_self_deadlock.

(** C28.  A thread that has to wait waits for another one, which is not waiting itself. *)
Theorem C28_waits_for_a_running_thread e ps w t fail : lockless_env e -> reachable e ps w -> step e w t fail = SBlocked ->
  exists t' s, t' <> t /\ owns w t' s /\ can_move e w t'.
Proof. exact (blocked_by e ps w t fail). Qed.
Print Assumptions C28_waits_for_a_running_thread.

(** C28.  Until every thread has returned, some thread can go on. *)
Theorem C28_no_deadlock e ps w : lockless_env e -> reachable e ps w ->
  (forall t st, w_thr w !! t = Some st -> finished w t) \/ exists t, can_move e w t.
Proof. exact (no_stuck e ps w). Qed.
Print Assumptions C28_no_deadlock.

(** C28.  While a thread waits for a mutex it holds none, however deep in callbacks it is. *)
Theorem C28_no_hold_and_wait e ps w t s k st : lockless_env e -> reachable e ps w -> w_thr w !! t = Some (FLock s k :: st) ->
  forall s', ~ owns w t s'.
Proof. exact (lock_holds_nothing e ps w t s k st). Qed.
Print Assumptions C28_no_hold_and_wait.
Example C28_example : lockless_env x2_env /\ exists w, reachable x2_env [x2_prog; x2_other] w /\
  step x2_env w 1 MOk = SBlocked /\ owns w 0 0.
Proof. exact ex_C28. Qed.

(** C28.  Without that assumption: an operator== that emits the signal it is called from, a
    destructor that connects to the signal its functor is erased from. *)
Theorem C28_operator_eq_refuted : goes_ub u1_env [u1_prog] ULockSelf.
Proof. exact ex_C28_self_eq. Qed.
Print Assumptions C28_operator_eq_refuted.
Theorem C28_destructor_refuted : goes_ub u2_env [u1_prog] ULockSelf.
Proof. exact ex_C28_self_dtor. Qed.
Print Assumptions C28_destructor_refuted.
(** C28.  And two threads may wait for each other for ever. *)
Theorem C28_two_threads_refuted : exists w, reachable u3_env [u3_prog; u3_other] w /\ length (w_thr w) = 2 /\
  forall t, t < 2 -> forall fail, step u3_env w t fail = SBlocked.
Proof. exact ex_C28_deadlock. Qed.
Print Assumptions C28_two_threads_refuted.

(** C30.  Undefined behaviour always has one of the listed causes: a fault in the code running, or
    a signal destroyed, moved from or locked already. *)
Theorem C30_causes e ps w t fail u st : reachable e ps w -> w_thr w !! t = Some st -> step e w t fail = SUB u ->
  fault e w fail st u \/ sig_fault w t st u.
Proof. exact (ub_blame e ps w t fail u st). Qed.
Print Assumptions C30_causes.

(** C30.  For clients that keep their signals and whose operator== and destructors take no mutex
    only the faults of the code running remain. *)
Theorem C30_only_client_faults e ps w t fail u st : lockless_env e -> reachable e ps w ->
  (forall s, EDestroySig s ∉ w_log w) -> (forall s1 s2, EMoveSig s1 s2 ∉ w_log w) ->
  w_thr w !! t = Some st -> step e w t fail = SUB u -> fault e w fail st u.
Proof. exact (ub_client e ps w t fail u st). Qed.
Print Assumptions C30_only_client_faults.
Example C30_fault_example : lockless_env u5_env /\ goes_ub u5_env [u5_prog] UBadIter.
Proof. exact ex_C30_fault. Qed.
Example C30_moved_example : goes_ub x2_env [u6_prog] UNullVec.
Proof. exact ex_C30_moved. Qed.

(** C30.  A client without faults never meets undefined behaviour; it may be ended by
    std::terminate (memory exhausted, or a destructor that throws). *)
Theorem C30_blameless_clients_are_safe e ps u : lockless_env e -> blameless e ps -> goes_ub e ps u -> u = UTerminate.
Proof. exact (blameless_safe e ps u). Qed.
Print Assumptions C30_blameless_clients_are_safe.
Example C30_blameless_example : lockless_env u4_env /\ blameless u4_env [u4_prog] /\ exists w, reachable u4_env [u4_prog] w /\ finished w 0.
Proof. exact ex_C30. Qed.

(** C30.  The list of faults is exact: each one is undefined behaviour. *)
Theorem C30_faults_are_undefined e w t fail st u : w_thr w !! t = Some st -> fault e w fail st u -> u <> UTerminate ->
  exists u', step e w t MOk = SUB u'.
Proof. exact (fault_bad e w t fail st u). Qed.
Print Assumptions C30_faults_are_undefined.
