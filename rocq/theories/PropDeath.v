(** When a slot is destroyed and who runs its functor's destructor (C60). *)
From Verif Require Import OpDeath.

(** C60: a slot has not been destroyed exactly as long as the list of a signal not destroyed yet
    contains it or a call in progress has a shared_ptr to it. *)
Theorem C60_alive_while_owned e ps w l : reachable e ps w -> (spec_alive (w_log w) l = true <-> has_owner w l).
Proof. exact (alive_owned e ps w l). Qed.
Print Assumptions C60_alive_while_owned.

(** The thread whose step destroys slots runs the destructors of their functors at once, in
    the order of the events; no other thread is affected, and nothing else starts destructors. *)
Theorem C60_destructors_run_where_the_slot_was_given_up e ps w t fail st w' : reachable e ps w -> w_thr w !! t = Some st -> step e w t fail = SOk w' ->
  exists new rest, w_log w' = new ++ w_log w /\
    w_thr w' !! t = Some (running_first e (w_log w') (deaths new) rest) /\ n_dtor rest <= n_dtor st /\
    forall t', t' <> t -> w_thr w' !! t' = w_thr w !! t'.
Proof. exact (step_destroys e ps w t fail st w'). Qed.
Print Assumptions C60_destructors_run_where_the_slot_was_given_up.

(** Thread 1 only calls connected() and runs the destructor of a functor that thread 0 connected
    and disconnected; thread 0 has finished. *)
Example C60_example : exists w, reachable d1_env [d1_prog; d1_query] w /\
  occurs [EConn 0 0 0 (new_impl (fn 1)); EConnd 1 0 true; EDisc 0 0 true; EValid 0 0 true; ESlotDead 0] (rev (w_log w)) = true /\
  stack_is w 0 (fun st => match st with [FRet OutUnit] => true | _ => false end) &&
  stack_is w 1 (fun st => match st with [FProg (Do (OVar (VNewConn false)) _); FDtor _; FRet (OutBool true); FWait _] => true | _ => false end) = true.
Proof. exact ex_C60. Qed.

(** connected(), blocked(), block(), unblock() and the blockers' operations on a slot not
    destroyed yet own it from their first step until they return. *)
Theorem C60_a_query_owns_its_slot e ps w t fail v l k st : reachable e ps w -> w_thr w !! t = Some (FProg (Do (OVar v) k) :: st) -> locks (w_vars w) v l ->
  spec_alive (w_log w) l = true -> exists w' o, step e w t fail = SOk w' /\ w_thr w' !! t = Some (FRet o :: FTmp l :: FWait k :: st).
Proof. exact (query_holds e ps w t fail v l k st). Qed.
Print Assumptions C60_a_query_owns_its_slot.
Example C60_example_query : exists w k st, reachable d1_env [d1_prog; d1_query] w /\ w_thr w !! 1 = Some (FProg (Do (OVar (VConnected 1)) k) :: st) /\
  locks (w_vars w) (VConnected 1) 0 /\ spec_alive (w_log w) 0 = true.
Proof. exact ex_C60_query. Qed.

(** C24: not only an emission keeps a slot of a destroyed signal: connected() in another thread
    does so too, and disconnect() of a handle is undefined behaviour meanwhile. *)
Theorem C24_during_a_query_refuted : goes_ub x2_env [d2_prog; d1_query] UDangling.
Proof. exact disc_during_query_after_destroy. Qed.
Print Assumptions C24_during_a_query_refuted.
