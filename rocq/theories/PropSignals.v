(** * Properties: signals, their lists and mutexes *)
From Verif Require Import Examples.

(** C27: the vector of slots that a step changes is one no emission in progress, in any
    thread, iterates over; the thread holds the mutex of the signal that owns it. *)
Theorem C27_no_list_changes_under_an_emission e ps w t fail w' v xs : reachable e ps w -> step e w t fail = SOk w' ->
  w_vecs w !! v = Some xs -> w_vecs w' !! v <> Some xs ->
  (forall t' st s eid a, w_thr w !! t' = Some st -> FEmit s eid v a ∉ st) /\
  exists s r, w_sigs w !! s = Some r /\ sg_lock r = Some t /\ sg_alive r = true /\ sg_vec r = Some v.
Proof. exact (vec_modified e ps w t fail w' v xs). Qed.
Print Assumptions C27_no_list_changes_under_an_emission.

Theorem C27_list_changes_only_under_the_mutex e ps w t fail w' s : reachable e ps w -> step e w t fail = SOk w' ->
  s < length (w_sigs w) -> slots_of w' s <> slots_of w s ->
  (exists r, w_sigs w !! s = Some r /\ sg_lock r = Some t) /\
  exists st f, w_thr w !! t = Some st /\ f ∈ st /\ in_section s f.
Proof. exact (list_modified e ps w t fail w' s). Qed.
Print Assumptions C27_list_changes_only_under_the_mutex.

Example C27_example : exists w, reachable x1_env [x1_prog] w /\
  stack_is w 0 (existsb (fun f => match f with FEmit 0 _ 0 _ => true | _ => false end)) &&
  step_is x1_env w 0 (fun w' => bool_decide (w_vecs w' !! 1 <> w_vecs w !! 1) && bool_decide (w_vecs w !! 1 = Some [0; 1])) = true.
Proof. exact ex_C27. Qed.

(** C29: a thread holds the mutex of a signal exactly while one of the functions on its
    stack is in the locked part of connect, disconnect, the start of an emission or a move
    of that signal. While client code of an emission runs, and after a call has returned,
    none is held. *)
Theorem C29_mutex_held_only_inside e ps w t st s : reachable e ps w -> w_thr w !! t = Some st ->
  ((exists r, w_sigs w !! s = Some r /\ sg_lock r = Some t) <-> exists f, f ∈ st /\ in_section s f).
Proof. exact (lock_iff e ps w t st s). Qed.
Print Assumptions C29_mutex_held_only_inside.

Theorem C29_no_mutex_held_in_callbacks e ps w t f st : reachable e ps w -> w_thr w !! t = Some (f :: st) -> calm (f :: st) ->
  (forall s, ~ in_section s f) -> forall s r, w_sigs w !! s = Some r -> sg_lock r <> Some t.
Proof. exact (no_lock_in_callbacks e ps w t f st). Qed.
Print Assumptions C29_no_mutex_held_in_callbacks.

Example C29_example_held : exists w, reachable x1_env [x1_prog] w /\ locked_by w 0 0 = true.
Proof. exact ex_C29_held. Qed.

Example C29_example_callback : exists w, reachable x1_env [x1_prog] w /\
  stack_is w 0 (fun st => match st with [FProg _; FSlot _ _ _ _ _ _; FDeref _ _ _; FEmit 0 _ _ _; FWait _] => true | _ => false end) = true.
Proof. exact ex_C29_callback. Qed.

(** C12, the rest: the step that ends an emission, normally or by an exception, changes no
    list, no slot and no mutex; the mutexes the thread then holds are those it held
    because of functions it has not returned from. *)
Theorem C12_end_of_an_emission_leaves_the_signal_alone e ps w t fail w' o s eid v a st : reachable e ps w ->
  w_thr w !! t = Some (FRet o :: FEmit s eid v a :: st) -> step e w t fail = SOk w' ->
  w_sigs w' = w_sigs w /\ w_vecs w' = w_vecs w /\ w_slots w' = w_slots w /\
  (exists D, dtorish D /\ w_thr w' !! t = Some (D ++ FRet o :: st)) /\
  (forall s', (exists r, w_sigs w' !! s' = Some r /\ sg_lock r = Some t) <-> exists f, f ∈ st /\ in_section s' f).
Proof. exact (emission_end e ps w t fail w' o s eid v a st). Qed.
Print Assumptions C12_end_of_an_emission_leaves_the_signal_alone.

Example C12_example_end : exists w, reachable x7_env [x7_prog] w /\
  stack_is w 0 (fun st => match st with FRet (OutExn _) :: FEmit 0 _ _ _ :: _ => true | _ => false end) && goes x7_env w 0 = true.
Proof. exact ex_C12_end. Qed.

(** C38: a step that changes the list of a signal is inside a section of that signal, and
    such a section is only entered by an operation on that signal or by disconnect of a slot
    that was connected to it. *)
Theorem C38_only_a_section_of_the_signal_changes_its_list e ps w t fail w' s : reachable e ps w -> step e w t fail = SOk w' ->
  s < length (w_sigs w) -> slots_of w' s <> slots_of w s ->
  (exists r, w_sigs w !! s = Some r /\ sg_lock r = Some t) /\
  exists st f, w_thr w !! t = Some st /\ f ∈ st /\ in_section s f.
Proof. exact (list_modified e ps w t fail w' s). Qed.
Print Assumptions C38_only_a_section_of_the_signal_changes_its_list.

Theorem C38_sections_belong_to_the_operation e ps w t fail w' st st' s : reachable e ps w -> step e w t fail = SOk w' ->
  w_thr w !! t = Some st -> w_thr w' !! t = Some st' ->
  (forall f, f ∈ st' -> in_section s f -> (exists g, g ∈ st /\ in_section s g) \/ exists k, FLock s k ∈ st) /\
  (forall k, FLock s k ∈ st' -> FLock s k ∈ st \/
     (exists o k' st0, st = FProg (Do o k') :: st0 /\ op_sig o = Some s) \/
     (exists l st0, st = FDisc l :: st0 /\ spec_home (w_log w) l = Some s)).
Proof. exact (section_entered e ps w t fail w' st st' s). Qed.
Print Assumptions C38_sections_belong_to_the_operation.

Example C38_example : exists w, reachable x2_env [x14_prog] w /\ bool_decide (slots_of w 1 = [1]) &&
  step_is x2_env w 0 (fun w' => bool_decide (slots_of w' 0 <> slots_of w 0) && bool_decide (0 < length (slots_of w 0))) = true.
Proof. exact ex_C38. Qed.

(** C39: the flag is never set, and a call of a living signal always goes on to copy the list. *)
Theorem C39_signals_are_never_blocked e ps w s r : reachable e ps w -> w_sigs w !! s = Some r -> sg_blocked r = false.
Proof. exact (never_blocked e ps w s r). Qed.
Print Assumptions C39_signals_are_never_blocked.

Theorem C39_emissions_always_start e ps w t fail s args k st : reachable e ps w ->
  w_thr w !! t = Some (FProg (Do (OEmit s args) k) :: st) ->
  (exists r, w_sigs w !! s = Some r /\ sg_alive r = true) ->
  exists w' D, step e w t fail = SOk w' /\ dtorish D /\ w_thr w' !! t = Some (D ++ FLock s (KRead args) :: FWait k :: st).
Proof. exact (emit_starts e ps w t fail s args k st). Qed.
Print Assumptions C39_emissions_always_start.

Example C39_example : exists w, reachable x1_env [x1_prog] w /\
  stack_is w 0 (fun st => match st with FProg (Do (OEmit 0 []) _) :: _ => true | _ => false end) = true.
Proof. exact ex_C39. Qed.

(** C26: what the move constructor does once it has the mutex; any other use of the
    moved-from signal, or of one of its handles, ends in undefined behaviour; move assignment
    is always undefined. *)
Theorem C26_move_takes_the_slots e ps w t fail w' s st : reachable e ps w -> w_thr w !! t = Some (FWrite s KMove :: st) -> step e w t fail = SOk w' ->
  let s2 := length (w_sigs w) in
  (exists r2, w_sigs w' !! s2 = Some r2 /\ sg_alive r2 = true) /\ slots_of w' s2 = slots_of w s /\ slots_of w' s = [] /\
  (forall s', s' <> s -> s' <> s2 -> slots_of w' s' = slots_of w s') /\ w_slots w' = w_slots w /\
  exists D, dtorish D /\ w_thr w' !! t = Some (D ++ FUnlock s (OutId s2) :: st).
Proof. exact (move_list e ps w t fail w' s st). Qed.
Print Assumptions C26_move_takes_the_slots.

Theorem C26_moved_from_use_is_undefined e ps w t fail s s2 k st : reachable e ps w -> EMoveSig s s2 ∈ w_log w ->
  w_thr w !! t = Some (FWrite s k :: st) -> k <> KMove -> step e w t fail = SUB UNullVec.
Proof. exact (moved_use_ub e ps w t fail s s2 k st). Qed.
Print Assumptions C26_moved_from_use_is_undefined.

Theorem C26_move_assignment_is_undefined e w t fail a b k st : w_thr w !! t = Some (FProg (Do (OMoveAssignSignal a b) k) :: st) ->
  step e w t fail = SUB UNoReturn.
Proof. exact (move_assign_ub e w t fail a b k st). Qed.
Print Assumptions C26_move_assignment_is_undefined.

Example C26_example : exists w, reachable x2_env [x12_prog] w /\
  stack_is w 0 (fun st => match st with FWrite 0 KMove :: _ => true | _ => false end) && goes x2_env w 0 &&
  bool_decide (slots_of w 0 = [0; 1]) = true.
Proof. exact ex_C26. Qed.

Example C26_example_emit : exists w, reachable x2_env [x12_prog] w /\
  occurs [EMoveSig 0 1; EEmit 0 0 1 [] [0; 1]; EEmitRet 0 0 (OutOpt (Some 2%Z))] (rev (w_log w)) = true.
Proof. exact ex_C26_emit. Qed.

Example C26_example_moved_from : exists w, reachable x2_env [x12_prog' (OEmit 0 [])] w /\
  stack_is w 0 (fun st => match st with FWrite 0 (KRead []) :: _ => true | _ => false end) &&
  bool_decide (EMoveSig 0 1 ∈ w_log w) && ub_is x2_env w 0 UNullVec = true.
Proof. exact ex_C26_moved_from. Qed.

(** Disconnecting a handle obtained before the move, and emitting, connecting and
    disconnecting on the source, all run into undefined behaviour. *)
Theorem C26_handles_and_source_after_move_refuted :
  goes_ub x2_env [x12_prog' (OVar (VDisc 1))] UNullVec /\
  goes_ub x2_env [x12_prog' (OEmit 0 [])] UNullVec /\
  goes_ub x2_env [x12_prog' (OConnect 0 (SrcFn (fn 1)) false)] UNullVec /\
  goes_ub x2_env [x12_prog' (OErase 0 (SrcFn (fn 1)))] UNullVec /\
  goes_ub x2_env [x12_prog' (OMoveAssignSignal 0 1)] UNoReturn.
Proof. exact use_after_move. Qed.
Print Assumptions C26_handles_and_source_after_move_refuted.

(** C25: the code of an emission between calls of callables never goes wrong, whatever the
    callables did to the signal; with the default combiner the program of the emission is
    always such code. *)
Theorem C25_emission_code_never_goes_wrong e ps w t fail st : reachable e ps w -> w_thr w !! t = Some st -> machinery w st ->
  exists w', step e w t fail = SOk w'.
Proof. exact (emit_machinery e ps w t fail st). Qed.
Print Assumptions C25_emission_code_never_goes_wrong.

Theorem C25_default_combiner_stays_in_range e ps w t p s eid v a st a0 xs : reachable e ps w ->
  w_thr w !! t = Some (FProg p :: FEmit s eid v a :: st) -> began (w_log w) t eid s a0 xs None ->
  machinery w (FProg p :: FEmit s eid v a :: st).
Proof. exact (default_in_range e ps w t p s eid v a st a0 xs). Qed.
Print Assumptions C25_default_combiner_stays_in_range.

Example C25_example : exists w, reachable x10_env [x10_prog] w /\
  stack_is w 0 (fun st => match st with FProg (Do (ODeref 1) _) :: FEmit 0 _ _ _ :: _ => true | _ => false end) &&
  bool_decide (EDestroySig 0 ∈ w_log w) = true.
Proof. exact ex_C25. Qed.

Example C25_example_end : exists w, reachable x10_env [x10_prog] w /\
  occurs [EEmit 0 0 0 [] [0; 1]; EDestroySig 0; ECall 0 (RSlot 1) (Some 0) (fn 2) [] 11; EEmitRet 0 0 (OutOpt (Some 2%Z))] (rev (w_log w)) = true.
Proof. exact ex_C25_end. Qed.
