(** * C73: the operations on signals act as those of sequential lists *)
From Verif Require Import ListsExamples OpExamples Witness RaceExamples.

(** C73.  Whatever the threads do, the acts of connect, disconnect, disconnect(f), emission and
    move on the lists of slots of the signals form a history of sequential lists: each happens
    at once, and reports what is right for the list on which it happens. *)
Theorem C73_lists_are_sequential e ps w : reachable e ps w -> lsequential (lhistory (w_log w)).
Proof. exact (lists_sequential e ps w). Qed.
Print Assumptions C73_lists_are_sequential.

Example C73_example : exists w f, reachable x2_env b1_ps w /\
  lhistory (w_log w) = [LMove 0 1; LErase 0 f [2; 1; 3] [2] (OutNat 2); LRead 0 [2; 1; 3]; LAdd 0 3; LTake 0 0 0; LAdd 0 2; LAdd 0 1; LAdd 0 0].
Proof. exact ex_C73. Qed.

(** The list the history leaves is the one in memory, whenever nobody has the mutex. *)
Theorem C73_lists_in_memory e ps w s r :
  reachable e ps w -> w_sigs w !! s = Some r -> sg_lock r = None -> lafter (lhistory (w_log w)) s = slots_of w s.
Proof. exact (lists_in_memory e ps w s r). Qed.
Print Assumptions C73_lists_in_memory.

Example C73_memory_example : exists w r, reachable x2_env b1_ps w /\ w_sigs w !! 0 = Some r /\ sg_lock r = None /\ slots_of w 0 = [2; 1; 3].
Proof. exact ex_C73_memory. Qed.

(** A call of an operation on a signal acts once, and its result is that of the act; if it
    runs out of memory it may do nothing. *)
Theorem C73_signal_calls_act_once e ps t p k st w0 w o evs :
  reachable e ps w0 -> call_log e t p k st w0 w evs -> returned t k st w o -> op_sig p <> None -> lperforms w0 p o (lhistory evs).
Proof. exact (list_ops e ps t p k st w0 w o evs). Qed.
Print Assumptions C73_signal_calls_act_once.

Example C73_erase_example : exists k st w0 w r evs, reachable x2_env b1_ps w0 /\ call_log x2_env 0 (OErase 0 (SrcFn (fn 2))) k st w0 w evs /\ returned 0 k st w r /\ r = OutNat 2.
Proof. exact ex_C73_erase. Qed.
Example C73_emit_example : exists k st w0 w r evs, reachable x2_env b1_ps w0 /\ call_log x2_env 0 (OEmit 0 []) k st w0 w evs /\ returned 0 k st w r /\ slots_of w0 0 = [2; 1; 3].
Proof. exact ex_C73_emit. Qed.

(** A call that disconnects a slot acts on a list once if it finds the slot connected, and not
    at all otherwise. *)
Theorem C73_disconnect_acts_once e ps t op k st w0 w o evs l :
  reachable e ps w0 -> call_log e t op k st w0 w evs -> returned t k st w o -> disconnects w0 op l ->
  (history evs = [ADisconnect l true] /\ exists s, lhistory evs = [LMiss s l] \/ exists l', lhistory evs = [LTake s l l']) \/
  (history evs = [ADisconnect l false] /\ lhistory evs = []).
Proof. exact (disconnect_lists e ps t op k st w0 w o evs l). Qed.
Print Assumptions C73_disconnect_acts_once.

Example C73_disconnect_example : exists k st w0 w r evs, reachable x2_env [r1_prog] w0 /\ call_log x2_env 0 (OVar (VDisc 0)) k st w0 w evs /\ returned 0 k st w r /\ disconnects w0 (OVar (VDisc 0)) 0.
Proof. exact ex_C71_disc. Qed.

(** Every act is that of a call in progress on the thread that makes the step, and of a kind
    that asks for it. *)
Theorem C73_acts_belong_to_calls e ps w t fail w' new ev a :
  reachable e ps w -> step e w t fail = SOk w' -> since w w' new -> ev ∈ new -> lact_of ev = Some a ->
  exists op k st w0 evs, reachable e ps w0 /\ call_log e t op k st w0 w' evs /\ ev ∈ evs /\ lpart w0 op a.
Proof. exact (lists_belong e ps w t fail w' new ev a). Qed.
Print Assumptions C73_acts_belong_to_calls.

Example C73_belong_example : exists w w', reachable x2_env b1_ps w /\ step x2_env w 0 MOk = SOk w' /\ since w w' [EErase 0 0 (Some (fn 2)) [2; 1; 3] [2] 2].
Proof. exact ex_C73_belong. Qed.

(** If a call begins after another returned, its act comes after that of the other. *)
Theorem C73_real_time_order e t1 op1 k1 st1 w1 w1' evs1 a1 sc t2 op2 k2 st2 w2 w2' evs2 a2 :
  call_log e t1 op1 k1 st1 w1 w1' evs1 -> run e w1' sc = inl w2 -> call_log e t2 op2 k2 st2 w2 w2' evs2 ->
  a1 ∈ lhistory evs1 -> a2 ∈ lhistory evs2 ->
  exists x y z, lhistory (w_log w2') = x ++ a2 :: y ++ a1 :: z ++ lhistory (w_log w1).
Proof. exact (lreal_time e t1 op1 k1 st1 w1 w1' evs1 a1 sc t2 op2 k2 st2 w2 w2' evs2 a2). Qed.
Print Assumptions C73_real_time_order.

Example C73_real_time_example : exists k1 st1 w1 w1' r1 evs1 k2 st2 w2 w2' evs2, reachable x2_env b1_ps w1 /\ call_log x2_env 1 (OConnect 0 (SrcFn (fn 2)) false) k1 st1 w1 w1' evs1 /\ returned 1 k1 st1 w1' r1 /\
  run x2_env w1' (sch [(0, 2)]) = inl w2 /\ call_log x2_env 0 (OEmit 0 []) k2 st2 w2 w2' evs2 /\
  bool_decide (slots_of w1 0 = [2; 1]) && bool_decide (slots_of w2 0 = [2; 1; 3]) = true.
Proof. exact ex_C73_real_time. Qed.
