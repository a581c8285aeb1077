(** * C71: the operations on connections act as those of a sequential object *)
From Verif Require Import Witness OpQuery RaceExamples AtomicExamples.

(** C71.  Whatever the threads do, the acts of connect, disconnect, the queries, block and
    unblock, taken in the order of the log, are a history of the sequential object: each has
    the result that goes with the state its predecessors left. *)
Theorem C71_history_is_sequential e ps w : reachable e ps w -> sequential (history (w_log w)).
Proof. exact (history_sequential e ps w). Qed.
Print Assumptions C71_history_is_sequential.

Example C71_example : exists w i, reachable y1_env a1_ps w /\
  history (w_log w) = [ABlocked 0 false; AValid 0 false; AConnected 0 false; AGone 0; ADisconnect 0 false; ABlock 0 true; ADisconnect 0 true; AConnected 0 true; AConnect 0 i].
Proof. exact ex_C71. Qed.

(** The state of the sequential object is what is in memory. *)
Theorem C71_table_in_memory e ps w l r : reachable e ps w -> w_slots w !! l = Some r ->
  t_slot (after (history (w_log w))) l =
    Some (Cell (slot_alive w l) (im_conn (sl_impl r)) (im_blk (sl_impl r)) (match c_kind (im_c (sl_impl r)) with KTracked => Some (c_pv (im_c (sl_impl r))) | _ => None end)).
Proof. exact (table_in_memory e ps w l r). Qed.
Print Assumptions C71_table_in_memory.

Example C71_table_example : exists w r, reachable y1_env a1_ps w /\ w_slots w !! 0 = Some r /\ slot_alive w 0 = true /\ im_conn (sl_impl r) = false.
Proof. exact ex_C71_table. Qed.

Theorem C71_objects_in_memory e ps w o : reachable e ps w -> t_obj (after (history (w_log w))) o = obj_alive w o.
Proof. exact (table_objects e ps w o). Qed.
Print Assumptions C71_objects_in_memory.

(** A call that disconnects performs one act, and its result is that of the act. *)
Theorem C71_disconnect_acts_once e ps t op k st w0 w o evs l :
  reachable e ps w0 -> call_log e t op k st w0 w evs -> returned t k st w o -> disconnects w0 op l ->
  exists a, history evs = [a] /\ performs w0 op l o a.
Proof. exact (disconnect_acts e ps t op k st w0 w o evs l). Qed.
Print Assumptions C71_disconnect_acts_once.

Example C71_disconnect_example : exists k st w0 w r evs, reachable x2_env [r1_prog] w0 /\ call_log x2_env 0 (OVar (VDisc 0)) k st w0 w evs /\ returned 0 k st w r /\ disconnects w0 (OVar (VDisc 0)) 0.
Proof. exact ex_C71_disc. Qed.

(** So does a query. *)
Theorem C71_query_acts_once e ps t v k st w0 w o evs l :
  reachable e ps w0 -> call_log e t (OVar v) k st w0 w evs -> returned t k st w o -> looks_at w0 v l ->
  exists a, history evs = [a] /\ performs w0 (OVar v) l o a.
Proof. exact (query_acts e ps t v k st w0 w o evs l). Qed.
Print Assumptions C71_query_acts_once.

Example C71_query_example : exists k st w0 w r evs, reachable x2_env [r1_prog] w0 /\ call_log x2_env 0 (OVar (VBlocked 0)) k st w0 w evs /\ returned 0 k st w r /\ looks_at w0 (VBlocked 0) 0.
Proof. exact ex_C71_query. Qed.

(** And a call that blocks or unblocks, unless the slot is gone when it begins. *)
Theorem C71_block_acts_once e ps t v k st w0 w o evs l b :
  reachable e ps w0 -> call_log e t (OVar v) k st w0 w evs -> returned t k st w o -> sets_block w0 v (Some l) b ->
  (exists a, history evs = [a] /\ performs w0 (OVar v) l o a) \/ (history evs = [] /\ slot_alive w0 l = false).
Proof. exact (block_acts e ps t v k st w0 w o evs l b). Qed.
Print Assumptions C71_block_acts_once.

Example C71_block_example : exists k st w0 w r evs, reachable x2_env [r1_prog] w0 /\ call_log x2_env 0 (OVar (VBlock 0)) k st w0 w evs /\ returned 0 k st w r /\ sets_block w0 (VBlock 0) (Some 0) true /\ slot_alive w0 0 = true.
Proof. exact ex_C71_block. Qed.

(** And connect: the connection it returns is to the slot of the act; if it throws it did
    nothing. *)
Theorem C71_connect_acts_once e ps t s src sc k st w0 w c evs :
  reachable e ps w0 -> call_log e t (OConnect s src sc) k st w0 w evs -> returned t k st w (OutId c) ->
  exists l a, history evs = [a] /\ performs w0 (OConnect s src sc) l (OutId c) a /\ EHandle t l c ∈ evs.
Proof. exact (connect_acts e ps t s src sc k st w0 w c evs). Qed.
Print Assumptions C71_connect_acts_once.

Example C71_connect_example : exists k st w0 w c evs, reachable x2_env [r1_prog] w0 /\ call_log x2_env 0 (OConnect 0 (SrcFn (fn 2)) true) k st w0 w evs /\ returned 0 k st w (OutId c).
Proof. exact ex_C71_connect. Qed.

Theorem C71_connect_throws e ps t s src sc k st w0 w x evs :
  reachable e ps w0 -> call_log e t (OConnect s src sc) k st w0 w evs -> returned t k st w (OutExn x) -> history evs = [].
Proof. exact (connect_throws_acts e ps t s src sc k st w0 w x evs). Qed.
Print Assumptions C71_connect_throws.

Example C71_throws_example : exists k st w0 w x evs, reachable y1_env a1_ps w0 /\ call_log y1_env 0 (OConnect 0 (SrcFn (fn 1)) false) k st w0 w evs /\ returned 0 k st w (OutExn x).
Proof. exact ex_C71_connect_throws. Qed.

(** The act is done between the beginning of the call and its end. *)
Theorem C71_acts_within_call e t op k st w0 w evs :
  call_log e t op k st w0 w evs -> exists new, since w0 w new /\ sublist evs new.
Proof. exact (call_log_since e t op k st w0 w evs). Qed.
Print Assumptions C71_acts_within_call.

(** So if a call begins after another returned, its act comes after that of the other. *)
Theorem C71_real_time_order e t1 op1 k1 st1 w1 w1' evs1 a1 sc t2 op2 k2 st2 w2 w2' evs2 a2 :
  call_log e t1 op1 k1 st1 w1 w1' evs1 -> run e w1' sc = inl w2 -> call_log e t2 op2 k2 st2 w2 w2' evs2 ->
  a1 ∈ history evs1 -> a2 ∈ history evs2 ->
  exists x y z, history (w_log w2') = x ++ a2 :: y ++ a1 :: z ++ history (w_log w1).
Proof. exact (real_time e t1 op1 k1 st1 w1 w1' evs1 a1 sc t2 op2 k2 st2 w2 w2' evs2 a2). Qed.
Print Assumptions C71_real_time_order.

Example C71_real_time_example : exists k1 st1 w1 w1' r1 evs1 k2 st2 w2 w2' evs2, reachable y1_env a1_ps w1 /\ call_log y1_env 0 (OVar (VDisc 0)) k1 st1 w1 w1' evs1 /\ returned 0 k1 st1 w1' r1 /\
  run y1_env w1' (sch [(1, 4)]) = inl w2 /\ call_log y1_env 1 (OVar (VConnected 0)) k2 st2 w2 w2' evs2 /\
  bool_decide (v_conns (w_vars w1) !! 0 = Some (ConnV true false (Some 0))) && bool_decide (v_conns (w_vars w2) !! 0 = Some (ConnV true false (Some 0))) = true.
Proof. exact ex_C71_real_time. Qed.

(** Nothing else is in the history: every act is that of a call in progress on the thread
    that makes the step, and of a kind that asks for it, except the end of slots and objects
    and the making of objects. *)
Theorem C71_acts_belong_to_calls e ps w t fail w' new ev a :
  reachable e ps w -> step e w t fail = SOk w' -> since w w' new -> ev ∈ new -> act_of ev = Some a -> by_nobody a = false ->
  exists op k st w0 evs, reachable e ps w0 /\ call_log e t op k st w0 w' evs /\ ev ∈ evs /\ part_of w0 op a.
Proof. exact (acts_belong e ps w t fail w' new ev a). Qed.
Print Assumptions C71_acts_belong_to_calls.

Example C71_belong_example : exists w w', reachable y1_env a1_ps w /\ step y1_env w 1 MOk = SOk w' /\ since w w' [ESlotDead 0; EDisc 1 0 false].
Proof. exact ex_C71_belong. Qed.
Example C71_belong_emission_example : exists w w', reachable y1_env a2_ps w /\ step y1_env w 0 MOk = SOk w' /\ since w w' [ESkip 0 (RSlot 0) (Some 0) 5; EFlag 0].
Proof. exact ex_C71_belong_emit. Qed.

(** The steps of a thread belong to one call at a time. *)
Theorem C71_one_call k st k' st' stk : own_step k st stk -> own_step k' st' stk -> k = k' /\ st = st'.
Proof. exact (one_call k st k' st' stk). Qed.
Print Assumptions C71_one_call.

Example C71_one_call_example : own_step (fun o => Ret o) [] [FDisc 0; FWait (fun o => Ret o)].
Proof. exact ex_C71_one. Qed.
