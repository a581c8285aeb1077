(** * Properties: connection objects and handles *)
From Verif Require Import Examples.

(** C04: a disconnect takes a slot out of the list of the signal it was connected to; it is
    the slot of the handle unless that slot had been taken out before. Without
    signal::disconnect(f) it always is. When disconnect returns true, the slot is in no list.
    No slot is taken out twice this way. *)
Theorem C04_what_disconnect_takes_out e ps w : reachable e ps w ->
  log_all (fun ev pre => match ev with
    | ERem t s l l' => spec_home pre l = Some s /\ l' ∈ spec_list pre s /\ EDestroySig s ∉ pre /\ (~ out_of_list pre l -> l' = l)
    | ERemMiss t s l => spec_home pre l = Some s /\ EDestroySig s ∉ pre /\ out_of_list pre l
    | _ => True end) (w_log w).
Proof. exact (rem_facts e ps w). Qed.
Print Assumptions C04_what_disconnect_takes_out.

Theorem C04_exactly_its_own_slot e ps w : reachable e ps w -> (forall t s l, EErased t s l ∉ w_log w) ->
  log_all (fun ev pre => match ev with
    | ERem t s l l' => l' = l
    | ERemMiss t s l => False
    | _ => True end) (w_log w).
Proof. exact (rem_exact e ps w). Qed.
Print Assumptions C04_exactly_its_own_slot.

Theorem C04_gone_when_disconnect_returns e ps w : reachable e ps w ->
  log_all (fun ev pre => match ev with
    | EDisc t l true => removed pre t l /\ out_of_list pre l /\ forall s, l ∉ spec_list pre s
    | _ => True end) (w_log w).
Proof. exact (disc_true_out e ps w). Qed.
Print Assumptions C04_gone_when_disconnect_returns.

Theorem C04_only_once e ps w l : reachable e ps w -> ecount (is_rem l) (w_log w) <= 1.
Proof. exact (rem_once e ps w l). Qed.
Print Assumptions C04_only_once.

Example C04_example : exists w, reachable x1_env [x1_prog] w /\ occurs [ERem 0 0 1 1; EDisc 0 1 true] (rev (w_log w)) = true.
Proof. exact ex_C04. Qed.

(** After signal::disconnect(f) took the slot out, disconnect through its handle takes out
    another slot. *)
Theorem C04_after_signal_disconnect_refuted :
  ~ (forall e ps w, reachable e ps w ->
       log_all (fun ev pre => match ev with ERem _ _ l l' => l' = l | _ => True end) (w_log w)).
Proof. exact disconnect_takes_another. Qed.
Print Assumptions C04_after_signal_disconnect_refuted.

(** C20: after the tracked object died the slot is not called and not connected, and it stays
    in the list unless something takes it out. *)
Theorem C20_expired_slots_stay e ps w post o pre l s : reachable e ps w -> w_log w = post ++ EObjDead o :: pre ->
  spec_tracks pre l = Some o -> 
  (forall t eid c args start, ECall t (RSlot l) eid c args start ∉ post) /\
  (forall t b, EConnd t l b ∈ post -> b = false) /\
  (l ∈ spec_list pre s -> (forall ev, ev ∈ post -> ~ takes_out l ev) -> (forall s2, EMoveSig s s2 ∉ post) -> l ∈ spec_list (w_log w) s).
Proof. exact (expired_stays e ps w post o pre l s). Qed.
Print Assumptions C20_expired_slots_stay.

Example C20_example : exists w, reachable x3_env [x3_prog] w /\
  occurs [EConn 0 0 0 (new_impl (trk 7 0)); EObjDead 0; EConnd 0 0 false; EEmit 0 1 0 [] [0]; ESkip 0 (RSlot 0) (Some 1) 13] (rev (w_log w)) = true.
Proof. exact ex_C20. Qed.

(** C21: the destructor of a scoped connection goes through disconnect of the slot (or finds
    it destroyed); when it has returned, disconnect had returned, and no invocation that begins
    later calls the slot. *)
Theorem C21_destructor_disconnects e ps w t fail c r l k st w' : reachable e ps w ->
  w_thr w !! t = Some (FProg (Do (OVar (VDestroyConn c)) k) :: st) ->
  v_conns (w_vars w) !! c = Some r -> cn_live r = true -> cn_scoped r = true -> cn_slot r = Some l ->
  step e w t fail = SOk w' ->
  exists D f, dtorish D /\ (f = FDisc l \/ f = FRet (OutBool false)) /\ w_thr w' !! t = Some (D ++ f :: FUnit l :: FWait k :: st).
Proof. exact (scoped_starts e ps w t fail c r l k st w'). Qed.
Print Assumptions C21_destructor_disconnects.

Theorem C21_disconnect_done_when_it_returns e ps w : reachable e ps w ->
  log_all (fun ev pre => match ev with EScoped t l => exists b, EDisc t l b ∈ pre | _ => True end) (w_log w).
Proof. exact (scoped_disc e ps w). Qed.
Print Assumptions C21_disconnect_done_when_it_returns.

Theorem C21_no_call_afterwards e ps w : reachable e ps w ->
  log_all (fun ev pre => match ev with
    | ECall _ (RSlot l) _ _ _ start => start <= length pre /\ forall t, EScoped t l ∉ older start pre
    | EScoped t l => spec_connected pre l = false
    | _ => True end) (w_log w).
Proof. exact (no_call_after_scoped e ps w). Qed.
Print Assumptions C21_no_call_afterwards.

Example C21_example_start : exists w, reachable x2_env [x13_prog] w /\
  stack_is w 0 (fun st => match st with FProg (Do (OVar (VDestroyConn 0)) _) :: _ => true | _ => false end) && goes x2_env w 0 &&
  bool_decide (v_conns (w_vars w) !! 0 = Some (ConnV true true (Some 0))) = true.
Proof. exact ex_C21_start. Qed.

Example C21_example : exists w, reachable x2_env [x13_prog] w /\
  occurs [ECall 0 (RSlot 0) (Some 0) (fn 1) [] 4; EDisc 0 0 true; EScoped 0 0; EEmit 0 1 0 [] []] (rev (w_log w)) = true.
Proof. exact ex_C21. Qed.

(** C23: creating, copying, moving, swapping, assigning and destroying plain connection
    objects changes nothing but connection objects. *)
Theorem C23_plain_connections_own_nothing e w t fail v k st w' : w_thr w !! t = Some (FProg (Do (OVar v) k) :: st) -> plain_op (w_vars w) v ->
  step e w t fail = SOk w' ->
  w_sigs w' = w_sigs w /\ w_vecs w' = w_vecs w /\ w_slots w' = w_slots w /\ w_log w' = w_log w /\
  (exists cs, w_vars w' = set_conns (w_vars w) cs) /\ (exists o, w_thr w' = <[t := FRet o :: FWait k :: st]> (w_thr w)).
Proof. exact (plain_step e w t fail v k st w'). Qed.
Print Assumptions C23_plain_connections_own_nothing.

Example C23_example : exists w, reachable x2_env [x13_prog] w /\
  stack_is w 0 (fun st => match st with FProg (Do (OVar (VSwap 1 2)) _) :: _ => true | _ => false end) && goes x2_env w 0 = true.
Proof. exact ex_C23. Qed.

(** C24: a slot whose list belongs to a destroyed signal, and that no emission and no
    disconnect is using, is destroyed; then its handles answer false and touch nothing. *)
Theorem C24_slots_die_with_the_signal e ps w l : reachable e ps w ->
  (forall s, l ∈ slots_of w s -> EDestroySig s ∈ w_log w) -> not_in_use w l -> slot_alive w l = false.
Proof. exact (dead_after_destroy e ps w l). Qed.
Print Assumptions C24_slots_die_with_the_signal.

Theorem C24_list_dies_with_the_signal e ps w l t s i : reachable e ps w -> EConn t s l i ∈ w_log w -> EDestroySig s ∈ w_log w ->
  (forall s2, EMoveSig s s2 ∉ w_log w) -> forall s', l ∈ slots_of w s' -> EDestroySig s' ∈ w_log w.
Proof. exact (list_destroyed e ps w l t s i). Qed.
Print Assumptions C24_list_dies_with_the_signal.

Theorem C24_handles_of_destroyed_slots e ps w t fail c r l v k st : reachable e ps w ->
  w_thr w !! t = Some (FProg (Do (OVar v) k) :: st) -> v = VValid c \/ v = VConnected c \/ v = VBlocked c \/ v = VDisc c ->
  v_conns (w_vars w) !! c = Some r -> cn_live r = true -> cn_slot r = Some l -> slot_alive w l = false ->
  exists w' ev, step e w t fail = SOk w' /\ w_sigs w' = w_sigs w /\ w_vecs w' = w_vecs w /\ w_slots w' = w_slots w /\
    w_vars w' = w_vars w /\ w_log w' = ev :: w_log w /\
    w_thr w' = <[t := FRet (OutBool false) :: FWait k :: st]> (w_thr w).
Proof. exact (dead_handle e ps w t fail c r l v k st). Qed.
Print Assumptions C24_handles_of_destroyed_slots.

Example C24_example : exists w, reachable x10_env [x10_prog] w /\
  stack_is w 0 (fun st => match st with [FProg (Do (OVar (VDisc 0)) _)] => true | _ => false end) &&
  bool_decide (EDestroySig 0 ∈ w_log w) && bool_decide (v_conns (w_vars w) !! 0 = Some (ConnV true false (Some 0))) &&
  negb (slot_alive w 0) = true.
Proof. exact ex_C24. Qed.

(** Whatever locks the mutex of a destroyed signal is undefined behaviour. That happens when
    a handle is disconnected while an emission keeps a slot of a destroyed signal alive. *)
Theorem C24_entering_a_destroyed_signal_is_undefined e ps w t fail s k st : reachable e ps w -> EDestroySig s ∈ w_log w ->
  w_thr w !! t = Some (FLock s k :: st) -> step e w t fail = SUB UDangling.
Proof. exact (destroyed_use_ub e ps w t fail s k st). Qed.
Print Assumptions C24_entering_a_destroyed_signal_is_undefined.

Theorem C24_during_an_emission_refuted : goes_ub x11_env [x10_prog] UDangling.
Proof. exact disc_during_emission_after_destroy. Qed.
Print Assumptions C24_during_an_emission_refuted.
