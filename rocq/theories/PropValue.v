(** Connections, blockers and slot objects as values, and the last test before a tracked call (C53, C54). *)
From Verif Require Import OpHandle.

(** C53 *)
Theorem C53_operations_on_handles e w t fail v k st cs bs us o : w_thr w !! t = Some (FProg (Do (OVar v) k) :: st) -> handle_op (w_vars w) v cs bs us o ->
  exists w' D T, step e w t fail = SOk w' /\ dtorish D /\ (T = [] \/ exists l, T = [FTmp l]) /\
    w_thr w' !! t = Some (D ++ FRet o :: T ++ FWait k :: st) /\
    written (v_conns (w_vars w)) (v_conns (w_vars w')) cs /\ written (v_blks (w_vars w)) (v_blks (w_vars w')) bs /\
    written (v_us (w_vars w)) (v_us (w_vars w')) us /\
    v_objs (w_vars w') = v_objs (w_vars w) /\ v_store (w_vars w') = v_store (w_vars w) /\
    w_sigs w' = w_sigs w /\ w_vecs w' = w_vecs w /\ length (w_slots w') = length (w_slots w).
Proof. exact (handle_step e w t fail v k st cs bs us o). Qed.
Print Assumptions C53_operations_on_handles.

Theorem C53_copy_assignment_to_a_scoped_one_starts e w t fail d s l scs m k st w' : w_thr w !! t = Some (FProg (Do (OVar (VAssignCopy d s)) k) :: st) ->
  conn_is (w_vars w) d true (Some l) -> conn_is (w_vars w) s scs m -> step e w t fail = SOk w' ->
  w_vars w' = w_vars w /\
  exists D f, dtorish D /\ (f = FDisc l \/ f = FRet (OutBool false)) /\ w_thr w' !! t = Some (D ++ f :: FAssign d m l :: FWait k :: st).
Proof. exact (scoped_copy_starts e w t fail d s l scs m k st w'). Qed.
Print Assumptions C53_copy_assignment_to_a_scoped_one_starts.

Theorem C53_moving_a_plain_one_to_a_scoped_one_starts e w t fail d s l m k st w' : w_thr w !! t = Some (FProg (Do (OVar (VAssignMove d s)) k) :: st) ->
  conn_is (w_vars w) d true (Some l) -> conn_is (w_vars w) s false m -> step e w t fail = SOk w' ->
  written (v_conns (w_vars w)) (v_conns (w_vars w')) [(s, ConnV true false None)] /\
  exists D f, dtorish D /\ (f = FDisc l \/ f = FRet (OutBool false)) /\ w_thr w' !! t = Some (D ++ f :: FAssign d m l :: FWait k :: st).
Proof. exact (scoped_move_starts e w t fail d s l m k st w'). Qed.
Print Assumptions C53_moving_a_plain_one_to_a_scoped_one_starts.

Theorem C53_assignment_to_a_scoped_one_ends e w t fail d m md l o st w' : w_thr w !! t = Some (FRet o :: FAssign d m l :: st) ->
  conn_is (w_vars w) d true md -> step e w t fail = SOk w' ->
  written (v_conns (w_vars w)) (v_conns (w_vars w')) [(d, ConnV true true m)] /\
  exists D, dtorish D /\ w_thr w' !! t = Some (D ++ FRet OutUnit :: st).
Proof. exact (scoped_assign_ends e w t fail d m md l o st w'). Qed.
Print Assumptions C53_assignment_to_a_scoped_one_ends.

Theorem C53_slot_object_connected e w t fail u m k st : w_thr w !! t = Some (FProg (Do (OVar (VSlotConnected u)) k) :: st) -> slot_is (w_vars w) u m ->
  exists w' b, step e w t fail = SOk w' /\ completes w w' t k st (OutBool b) /\ w_vars w' = w_vars w /\ w_log w' = w_log w /\
    (b = true <-> exists i, m = Some i /\ im_conn i = true /\ (c_kind (im_c i) = KTracked -> obj_alive w (c_pv (im_c i)) = true)).
Proof. exact (slot_connected_step e w t fail u m k st). Qed.
Print Assumptions C53_slot_object_connected.

Example C53_example_copy : exists w k st, reachable x2_env [h1_prog] w /\ w_thr w !! 0 = Some (FProg (Do (OVar (VCopyConn 0 false)) k) :: st) /\
  handle_op (w_vars w) (VCopyConn 0 false) [(2, ConnV true false (Some 0))] [] [] (OutId 2).
Proof. exact ex_C53_copy. Qed.
Example C53_example_swap : exists w k st, reachable x2_env [h1_prog] w /\ w_thr w !! 0 = Some (FProg (Do (OVar (VSwap 0 1)) k) :: st) /\
  handle_op (w_vars w) (VSwap 0 1) [(0, ConnV true false (Some 1)); (1, ConnV true true (Some 0))] [] [] OutUnit.
Proof. exact ex_C53_swap. Qed.
Example C53_example_blocker : exists w k st, reachable x2_env [h1_prog] w /\ w_thr w !! 0 = Some (FProg (Do (OVar (VBAssign 1 0)) k) :: st) /\
  handle_op (w_vars w) (VBAssign 1 0) [] [(1, BlkV true (Some 1)); (0, BlkV true None)] [] OutUnit.
Proof. exact ex_C53_blocker. Qed.
Example C53_example_slot : exists w k st, reachable x2_env [h1_prog] w /\ w_thr w !! 0 = Some (FProg (Do (OVar (VSlotCopy 0)) k) :: st) /\
  handle_op (w_vars w) (VSlotCopy 0) [] [] [(1, UsV true (Some (Impl (fn 3) 0 true true 0)))] (OutId 1).
Proof. exact ex_C53_slot. Qed.
Example C53_example_scoped : exists w k st, reachable x2_env [h1_prog] w /\ w_thr w !! 0 = Some (FProg (Do (OVar (VAssignCopy 1 2)) k) :: st) /\
  conn_is (w_vars w) 1 true (Some 0) /\ conn_is (w_vars w) 2 false (Some 0).
Proof. exact ex_C53_scoped. Qed.
Example C53_example_scoped_move : exists w k st, reachable x2_env [h2_prog] w /\ w_thr w !! 0 = Some (FProg (Do (OVar (VAssignMove 1 0)) k) :: st) /\
  conn_is (w_vars w) 1 true (Some 1) /\ conn_is (w_vars w) 0 false (Some 0).
Proof. exact ex_C53_scoped_move. Qed.
Example C53_example_scoped_end : exists w, reachable x2_env [h2_prog] w /\
  stack_is w 0 (fun st => match st with [FRet _; FAssign 1 (Some 0) 1; FWait _] => true | _ => false end) && goes x2_env w 0 &&
  bool_decide (v_conns (w_vars w) !! 1 = Some (ConnV true true (Some 1))) && bool_decide (v_conns (w_vars w) !! 0 = Some (ConnV true false None)) = true.
Proof. exact ex_C53_scoped_end. Qed.
Example C53_example_connected : exists w k st, reachable x2_env [h1_prog] w /\ w_thr w !! 0 = Some (FProg (Do (OVar (VSlotConnected 0)) k) :: st) /\
  slot_is (w_vars w) 0 (Some (Impl (fn 3) 0 true false 0)).
Proof. exact ex_C53_connected. Qed.

(** C54 *)
Theorem C54_tested_again_with_the_object_held e ps w t fail l g a pin eid start st w' a' pin' eid' start' o : reachable e ps w ->
  w_thr w !! t = Some (FSlot (RSlot l) g a pin eid start :: st) -> step e w t fail = SOk w' ->
  w_thr w' !! t = Some (FSlot (RSlot l) SCall a' pin' eid' start' :: st) ->
  spec_tracks (w_log w) l = Some o ->
  spec_flag (w_log w) l = true /\ pin = Some o /\ spec_obj (w_log w) o = true /\
  a' = a /\ pin' = pin /\ eid' = eid /\ start' = start.
Proof. exact (tracked_rechecked e ps w t fail l g a pin eid start st w' a' pin' eid' start' o). Qed.
Print Assumptions C54_tested_again_with_the_object_held.

Theorem C54_every_call_comes_from_there e ps w t fail st w' r eid c args start : reachable e ps w ->
  w_thr w !! t = Some st -> step e w t fail = SOk w' -> ECall t r eid c args start ∈ w_log w' -> ECall t r eid c args start ∉ w_log w ->
  exists pin st0, st = FSlot r SCall args pin eid start :: st0.
Proof. exact (call_from_SCall e ps w t fail st w' r eid c args start). Qed.
Print Assumptions C54_every_call_comes_from_there.

Example C54_example : exists w, reachable x2_env [h3_prog] w /\
  stack_is w 0 (fun st => match st with FSlot (RSlot 0) SPin [] (Some 0) (Some 0) _ :: _ => true | _ => false end) &&
  step_is x2_env w 0 (fun w' => stack_is w' 0 (fun st => match st with FSlot (RSlot 0) SCall [] (Some 0) (Some 0) _ :: _ => true | _ => false end)) &&
  bool_decide (spec_tracks (w_log w) 0 = Some 0) = true.
Proof. exact ex_C54. Qed.
(** Another thread disconnects between the first test and the second one: no call. *)
Example C54_example_race : exists w, reachable x2_env [h3_prog; h3_other] w /\
  occurs [EEmit 0 0 0 [] [0]; EDisc 1 0 true; ESkip 0 (RSlot 0) (Some 0) 5] (rev (w_log w)) = true /\ ECall 0 (RSlot 0) (Some 0) (trk 1 0) [] 5 ∉ w_log w.
Proof. exact ex_C54_race. Qed.
