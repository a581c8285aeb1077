(** * C72: who waits for whom *)
From Verif Require Import Witness UseExamples AtomicExamples WaitExamples.

(** C72.  A thread that waits waits in a step of a call that locks the mutex of a signal
    [s], and it waits for another thread that is inside such a call on the same signal and
    past the lock: connect, disconnect, disconnect(f), the start of an emission, a move. *)
Theorem C72_who_waits e ps w t fail : reachable e ps w -> step e w t fail = SBlocked ->
  exists s t' op k st w0 stk op' k' st' w0' pre b f,
    t' <> t /\ w_thr w !! t = Some stk /\ own_step k st stk /\ reachable e ps w0 /\ in_call e t op k st w0 w /\ locks w0 op s /\
    w_thr w !! t' = Some (pre ++ b ++ FWait k' :: st') /\ f ∈ b /\ in_section s f /\ reachable e ps w0' /\ in_call e t' op' k' st' w0' w /\ locks w0' op' s.
Proof. exact (who_waits e ps w t fail). Qed.
Print Assumptions C72_who_waits.

Example C72_example : exists w, reachable x2_env [x2_prog; x2_other] w /\ step x2_env w 1 MOk = SBlocked.
Proof. exact ex_C72. Qed.

(** All other operations never wait, whoever has a mutex: connected(), blocked(), valid(),
    block and unblock, blockers, copies and moves of connections, calls of slots. *)
Theorem C72_others_never_wait e ps t op k st w0 w stk fail :
  reachable e ps w0 -> (forall pos, op <> ODeref pos) -> in_call e t op k st w0 w -> w_thr w !! t = Some stk -> own_step k st stk ->
  (forall s, ~ locks w0 op s) -> step e w t fail <> SBlocked.
Proof. exact (no_wait e ps t op k st w0 w stk fail). Qed.
Print Assumptions C72_others_never_wait.

Example C72_others_example : exists k st w0 w stk, reachable q1_env [q1_prog; q2_other] w0 /\ in_call q1_env 1 (OVar (VConnected 0)) k st w0 w /\
  w_thr w !! 1 = Some stk /\ own_step k st stk /\ owns w 0 0 /\ forall s, ~ locks w0 (OVar (VConnected 0)) s.
Proof. exact ex_C72_others. Qed.

(** Slot functions delay nobody: while all other threads run code outside the sections, as
    slot functions are however long they take, a thread never waits. *)
Theorem C72_slot_functions_delay_nobody e ps w t fail :
  reachable e ps w -> (forall t', t' <> t -> outside w t') -> step e w t fail <> SBlocked.
Proof. exact (no_delay e ps w t fail). Qed.
Print Assumptions C72_slot_functions_delay_nobody.

Example C72_delay_example : exists w c st st0, reachable q1_env [q1_prog; q1_other] w /\ (forall t', t' <> 1 -> outside w t') /\
  w_thr w !! 1 = Some (FLock 0 (KAdd c) :: st) /\ w_thr w !! 0 = Some st0 /\ exists pin start, FSlot (RSlot 0) SRun [] pin (Some 0) start ∈ st0.
Proof. exact ex_C72_delay. Qed.

(** Sections are short: between the lock, or an operator== that disconnect(f) called, and the
    unlock, or the next operator==, a call takes at most three steps, whatever the other
    threads do ... *)
Theorem C72_sections_are_short e ps t s k st n w w' : reachable e ps w -> section_run e t s k st n w w' -> n <= 3.
Proof. exact (section_short e ps t s k st n w w'). Qed.
Print Assumptions C72_sections_are_short.

Example C72_sections_example : exists k st w w', reachable q1_env [q3_prog] w /\ section_run q1_env 0 0 k st 3 w w'.
Proof. exact ex_C72_short. Qed.

(** ... and in none of them does it wait. *)
Theorem C72_sections_do_not_wait e ps t s k st n w w' fail : reachable e ps w -> section_run e t s k st n w w' -> step e w' t fail <> SBlocked.
Proof. exact (section_moves e ps t s k st n w w' fail). Qed.
Print Assumptions C72_sections_do_not_wait.

Example C72_sections_wait_example : exists k st w w', reachable q1_env [q3_prog] w /\ section_run q1_env 0 0 k st 3 w w'.
Proof. exact ex_C72_short. Qed.
