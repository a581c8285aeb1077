(** * Properties: what calls return is what they did *)
From Verif Require Import OpQuery TwoLoads.

(** C52: the result a caller gets agrees with what the call itself did, as opposed to what
    client code run by the call or other threads did meanwhile. Every call has such a list
    of its own events. *)
Theorem C52_every_call_has_its_events e ps t op k st w0 w : reachable e ps w0 -> (forall pos, op <> ODeref pos) -> in_call e t op k st w0 w ->
  exists evs, call_log e t op k st w0 w evs.
Proof. exact (call_log_ex e ps t op k st w0 w). Qed.
Print Assumptions C52_every_call_has_its_events.

(** connection::disconnect returns true exactly when this very call cleared the flag. *)
Theorem C52_disconnect e ps t c k st w0 w r o evs : reachable e ps w0 -> v_conns (w_vars w0) !! c = Some r -> cn_live r = true ->
  call_log e t (OVar (VDisc c)) k st w0 w evs -> returned t k st w o ->
  match cn_slot r with
  | None => o = OutBool false /\ evs = []
  | Some l => exists b, o = OutBool b /\ disc_deed t l b evs
  end.
Proof. exact (disconnect_returns e ps t c k st w0 w r o evs). Qed.
Print Assumptions C52_disconnect.

(** Destroying a scoped_connection and assigning to one disconnect what it held. *)
Theorem C52_scoped e ps t v d k st w0 w r o evs : reachable e ps w0 -> v_conns (w_vars w0) !! d = Some r -> cn_live r = true -> cn_scoped r = true ->
  v = VDestroyConn d \/ (exists s, v = VAssignCopy d s) \/ (exists s, v = VAssignMove d s) ->
  call_log e t (OVar v) k st w0 w evs -> returned t k st w o ->
  o = OutUnit /\
  match cn_slot r with
  | None => evs = []
  | Some l => exists b evs', evs = EScoped t l :: evs' /\ disc_deed t l b evs'
  end.
Proof. exact (scoped_returns e ps t v d k st w0 w r o evs). Qed.
Print Assumptions C52_scoped.

(** valid, connected and blocked return the answer they record (C05, C11 say which it is). *)
Theorem C52_queries e ps t v c k st w0 w r o evs : reachable e ps w0 -> v_conns (w_vars w0) !! c = Some r -> cn_live r = true ->
  asks c v -> call_log e t (OVar v) k st w0 w evs -> returned t k st w o ->
  match cn_slot r with
  | None => o = OutBool false /\ evs = []
  | Some l => exists b, o = OutBool b /\ evs = [answer t v l b]
  end.
Proof. exact (query_returns e ps t v c k st w0 w r o evs). Qed.
Print Assumptions C52_queries.

(** Blocking operations set the flag of the slot they refer to, if it still exists. *)
Theorem C52_blocking e ps t v m b k st w0 w o evs : reachable e ps w0 -> sets_block w0 v m b ->
  call_log e t (OVar v) k st w0 w evs -> returned t k st w o ->
  match m with
  | Some l => (slot_alive w0 l = true /\ evs = [EBlk l b]) \/ (slot_alive w0 l = false /\ evs = [])
  | None => evs = []
  end.
Proof. exact (blocking_returns e ps t v m b k st w0 w o evs). Qed.
Print Assumptions C52_blocking.

(** An emission returns the result of its combiner, and the combiner got from every
    dereference what the function of that slot returned, or a disengaged optional. *)
Theorem C52_emission e ps t s args k st w0 w o evs : reachable e ps w0 -> call_log e t (OEmit s args) k st w0 w evs -> returned t k st w o ->
  exists eid xs m, evs = EEmitRet t eid o :: m ++ [EEmit t eid s args xs] /\ emission_deeds e t eid m.
Proof. exact (emit_returns e ps t s args k st w0 w o evs). Qed.
Print Assumptions C52_emission.

(** Calling a slot object returns what its function returned, or a disengaged optional. *)
Theorem C52_slot_call e ps t u args k st w0 w r evs : reachable e ps w0 -> call_log e t (OSlotCall u args) k st w0 w evs -> returned t k st w r ->
  slot_call_deed e t u args r evs.
Proof. exact (slotcall_returns e ps t u args k st w0 w r evs). Qed.
Print Assumptions C52_slot_call.

(** A functor reads the state it records (C40 says which it is). *)
Theorem C52_functor_state e ps t r k st w0 w o evs : reachable e ps w0 -> call_log e t (OSelfGet r) k st w0 w evs -> returned t k st w o ->
  exists z, o = OutZ z /\ evs = [EGet t r z].
Proof. exact (selfget_returns e ps t r k st w0 w o evs). Qed.
Print Assumptions C52_functor_state.

(** Creating and moving signals. *)
Theorem C52_new_signal e ps t c k st w0 w o evs : reachable e ps w0 -> call_log e t (ONewSignal c) k st w0 w evs -> returned t k st w o ->
  (o = OutExn BadAlloc /\ evs = []) \/ (exists s, o = OutId s /\ evs = [ENewSig s c]).
Proof. exact (newsig_returns e ps t c k st w0 w o evs). Qed.
Print Assumptions C52_new_signal.
Theorem C52_move_signal e ps t s k st w0 w o evs : reachable e ps w0 -> call_log e t (OMoveSignal s) k st w0 w evs -> returned t k st w o ->
  exists s2, o = OutId s2 /\ evs = [EMoveSig s s2].
Proof. exact (move_returns e ps t s k st w0 w o evs). Qed.
Print Assumptions C52_move_signal.

Example C52_example_disconnect : exists k st w0 w r evs, reachable x2_env [r1_prog] w0 /\ call_log x2_env 0 (OVar (VDisc 0)) k st w0 w evs /\ returned 0 k st w r /\
  gets (OutBool true) w0 w r && bool_decide (v_conns (w_vars w0) !! 0 = Some (ConnV true false (Some 0))) = true.
Proof. exact ex_C52_disc. Qed.
Example C52_example_scoped : exists k st w0 w r evs, reachable x2_env [r1_prog] w0 /\ call_log x2_env 0 (OVar (VDestroyConn 1)) k st w0 w evs /\ returned 0 k st w r /\
  bool_decide (v_conns (w_vars w0) !! 1 = Some (ConnV true true (Some 1))) = true.
Proof. exact ex_C52_scoped. Qed.
Example C52_example_query : exists k st w0 w r evs, reachable x2_env [r1_prog] w0 /\ call_log x2_env 0 (OVar (VBlocked 0)) k st w0 w evs /\ returned 0 k st w r /\
  gets (OutBool true) w0 w r && bool_decide (v_conns (w_vars w0) !! 0 = Some (ConnV true false (Some 0))) = true.
Proof. exact ex_C52_query. Qed.
Example C52_example_block : exists k st w0 w r evs, reachable x2_env [r1_prog] w0 /\ call_log x2_env 0 (OVar (VBlock 0)) k st w0 w evs /\ returned 0 k st w r /\
  slot_alive w0 0 && bool_decide (v_conns (w_vars w0) !! 0 = Some (ConnV true false (Some 0))) = true.
Proof. exact ex_C52_block. Qed.
Example C52_example_emission : exists k st w0 w r evs, reachable x2_env [r1_prog] w0 /\ call_log x2_env 0 (OEmit 0 []) k st w0 w evs /\ returned 0 k st w r /\
  gets (OutOpt (Some 2%Z)) w0 w r = true.
Proof. exact ex_C52_emit. Qed.
Example C52_example_slot_call : exists k st w0 w r evs, reachable x2_env [r1_prog] w0 /\ call_log x2_env 0 (OSlotCall 0 []) k st w0 w evs /\ returned 0 k st w r /\
  gets (OutOpt (Some 3%Z)) w0 w r = true.
Proof. exact ex_C52_slot_call. Qed.
Example C52_example_state : exists k st w0 w r evs, reachable x5_env [x5_prog] w0 /\ call_log x5_env 0 (OSelfGet (RSlot 1)) k st w0 w evs /\ returned 0 k st w r /\
  gets (OutZ 1) w0 w r = true.
Proof. exact ex_C52_state. Qed.
Example C52_example_signals : exists k st w0 w r evs, reachable x2_env [r1_prog] w0 /\ call_log x2_env 0 (OMoveSignal 0) k st w0 w evs /\ returned 0 k st w r /\
  gets (OutId 1) w0 w r = true.
Proof. exact ex_C52_signals. Qed.

(** C05.  The model reads the tracked pointer and the flag at once; the code reads one after
    the other. Its answer is the one of the first or the one of the second moment, whatever
    other threads do in between. *)
Theorem C05_two_loads e ps w1 sc w2 l b : reachable e ps w1 -> run e w1 sc = inl w2 -> two_loads w1 w2 l = Some b ->
  b = slot_connected w1 l \/ b = slot_connected w2 l.
Proof. exact (two_loads_linear e ps w1 sc w2 l b). Qed.
Print Assumptions C05_two_loads.
Example C05_two_loads_example : exists w1 sc w2, reachable x3_env [x3_prog] w1 /\ run x3_env w1 sc = inl w2 /\
  two_loads w1 w2 0 = Some true /\ slot_connected w1 0 = true /\ slot_connected w2 0 = false.
Proof. exact ex_two_loads. Qed.
