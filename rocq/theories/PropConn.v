(** * Properties: connect, slot objects, scoped connections *)
From Verif Require Import OpExamples.

(** C31: connect throws only when memory runs out, and then this thread did nothing; the list is
    what it was unless another thread changed it. If connect returns, it has added exactly one slot,
    which did not exist before, at the end of the list. *)
Theorem C31_when_connect_throws e ps t s src sc k st w0 w x : reachable e ps w0 -> in_call e t (OConnect s src sc) k st w0 w -> returned t k st w (OutExn x) ->
  x = BadAlloc /\ exists new, since w0 w new /\ mine t new = [] /\
    ((forall ev, ev ∈ new -> thread_of ev <> Some t -> ~ touches s ev) -> slots_of w s = slots_of w0 s).
Proof. exact (connect_throws e ps t s src sc k st w0 w x). Qed.
Print Assumptions C31_when_connect_throws.

Theorem C31_when_connect_returns e ps t s src sc k st w0 w c : reachable e ps w0 -> in_call e t (OConnect s src sc) k st w0 w -> returned t k st w (OutId c) ->
  exists new l i, since w0 w new /\ connects w0 src i /\ mine t new = [EHandle t l c; EConn t s l i] /\
    (forall ev, ev ∈ w_log w0 -> l ∉ ev_slots ev) /\
    ((forall ev, ev ∈ new -> thread_of ev <> Some t -> ~ touches s ev) -> slots_of w s = slots_of w0 s ++ [l]).
Proof. exact (connect_done e ps t s src sc k st w0 w c). Qed.
Print Assumptions C31_when_connect_returns.

Theorem C31_nothing_else e ps t s src sc k st w0 w o : reachable e ps w0 -> in_call e t (OConnect s src sc) k st w0 w -> returned t k st w o ->
  o = OutExn BadAlloc \/ exists c, o = OutId c.
Proof. exact (connect_result e ps t s src sc k st w0 w o). Qed.
Print Assumptions C31_nothing_else.

(** The step that returns makes one new variable, of the kind asked for, that refers to the new
    slot. *)
Theorem C31_the_handle e ps t s src sc k st w0 w fail w' h : reachable e ps w0 -> in_call e t (OConnect s src sc) k st w0 w ->
  (forall o, ~ returned t k st w o) -> step e w t fail = SOk w' -> returned t k st w' (OutId h) ->
  h = length (v_conns (w_vars w)) /\ exists l, v_conns (w_vars w') = v_conns (w_vars w) ++ [ConnV true sc (Some l)] /\
    v_blks (w_vars w') = v_blks (w_vars w) /\ v_us (w_vars w') = v_us (w_vars w) /\ v_objs (w_vars w') = v_objs (w_vars w) /\
    v_store (w_vars w') = v_store (w_vars w) /\ EHandle t l h ∈ w_log w' /\ exists i, EConn t s l i ∈ w_log w'.
Proof. exact (connect_handle e ps t s src sc k st w0 w fail w' h). Qed.
Print Assumptions C31_the_handle.

Example C31_example : exists k st w0 w r, reachable x2_env [y1_prog] w0 /\
  in_call x2_env 0 (OConnect 0 (SrcFn (fn 3)) false) k st w0 w /\ returned 0 k st w r /\ lists_are 0 [0; 1; 2] [0; 1; 2; 3] (OutId 3) w0 w r = true.
Proof. exact ex_C31. Qed.
Example C31_example_handle : exists k st w0 w fail w', reachable x2_env [y31_prog] w0 /\ in_call x2_env 0 (OConnect 0 (SrcFn (fn 2)) true) k st w0 w /\
  (forall o, ~ returned 0 k st w o) /\ step x2_env w 0 fail = SOk w' /\ returned 0 k st w' (OutId 1).
Proof. exact ex_C31_handle. Qed.
Example C31_example_throws : exists k st w0 w r, reachable x2_env [y1_prog] w0 /\
  in_call x2_env 0 (OConnect 0 (SrcFn (fn 3)) false) k st w0 w /\ returned 0 k st w r /\ lists_are 0 [0; 1; 2] [0; 1; 2] (OutExn BadAlloc) w0 w r = true.
Proof. exact ex_C31_throws. Qed.

(** C34: what connect(slot) puts into the list is a copy of what the slot object held at the
    beginning of the call (C31 with [connects]). From then on the slot in the list only changes by
    what is done to that slot, and the slot object only by what is done to it. *)
Theorem C34_connect_copies e ps t s u sc k st w0 w c : reachable e ps w0 -> in_call e t (OConnect s (SrcSlot u) sc) k st w0 w -> returned t k st w (OutId c) ->
  exists new l i i0, since w0 w new /\ v_us (w_vars w0) !! u = Some (UsV true (Some i0)) /\ mine t new = [EHandle t l c; EConn t s l i] /\
    im_c i = im_c i0 /\ im_conn i = im_conn i0 /\ im_blk i = im_blk i0 /\ im_st i = im_st i0.
Proof. exact (connect_slot_copies e ps t s u sc k st w0 w c). Qed.
Print Assumptions C34_connect_copies.

Theorem C34_the_slot_in_the_list e ps w0 w new l r0 r : reachable e ps w0 -> reachable e ps w -> since w0 w new ->
  w_slots w0 !! l = Some r0 -> w_slots w !! l = Some r ->
  im_c (sl_impl r) = im_c (sl_impl r0) /\
  (im_conn (sl_impl r) <> im_conn (sl_impl r0) -> exists ev, ev ∈ new /\ sets_flag l ev) /\
  (im_blk (sl_impl r) <> im_blk (sl_impl r0) -> exists ev, ev ∈ new /\ sets_blk l ev) /\
  (im_st (sl_impl r) <> im_st (sl_impl r0) -> exists ev, ev ∈ new /\ sets_st l ev).
Proof. exact (slot_changes e ps w0 w new l r0 r). Qed.
Print Assumptions C34_the_slot_in_the_list.

Theorem C34_the_slot_object e w t fail w' u : step e w t fail = SOk w' -> u < length (v_us (w_vars w)) ->
  v_us (w_vars w') !! u <> v_us (w_vars w) !! u ->
  (exists o k st, w_thr w !! t = Some (FProg (Do o k) :: st) /\ on_slot u o) \/
  (exists g args pin eid start st, w_thr w !! t = Some (FSlot (RUser u) g args pin eid start :: st)).
Proof. exact (slot_object_changes e w t fail w' u). Qed.
Print Assumptions C34_the_slot_object.

Example C34_example : exists w, reachable x2_env [y6_prog] w /\
  occurs [EConn 0 0 0 (im_set_blk true (new_impl (fn 1))); EConn 0 0 1 (im_set_idx 1 (new_impl (fn 1))); EEmit 0 0 0 [] [0; 1];
          ESkip 0 (RSlot 0) (Some 0) 6; ECall 0 (RSlot 1) (Some 0) (fn 1) [] 8] (rev (w_log w)) = true.
Proof. exact ex_C34. Qed.
Example C34_example_call : exists k st w0 w r, reachable x2_env [y6_prog] w0 /\
  in_call x2_env 0 (OConnect 0 (SrcSlot 0) false) k st w0 w /\ returned 0 k st w r /\
  lists_are 0 [] [0] (OutId 0) w0 w r && bool_decide (v_us (w_vars w0) !! 0 = Some (UsV true (Some (im_set_blk true (new_impl (fn 1)))))) = true.
Proof. exact ex_C34_call. Qed.
Example C34_example_change : exists w, reachable x2_env [y6_prog] w /\
  step_is x2_env w 0 (fun w' => bool_decide (v_us (w_vars w') !! 0 <> v_us (w_vars w) !! 0)) && bool_decide (0 < length (v_us (w_vars w))) = true.
Proof. exact ex_C34_change. Qed.

(** An empty slot cannot be connected. *)
Theorem C34_connecting_an_empty_slot_refuted : goes_ub x2_env [y7_prog] UNullSlot.
Proof. exact connect_empty_undefined. Qed.
Print Assumptions C34_connecting_an_empty_slot_refuted.

Theorem C34_empty_slots_are_undefined e w t s u sc k st r : w_thr w !! t = Some (FProg (Do (OConnect s (SrcSlot u) sc) k) :: st) ->
  v_us (w_vars w) !! u = Some (UsV true None) -> w_sigs w !! s = Some r -> sg_alive r = true -> step e w t MOk = SUB UNullSlot.
Proof. exact (connect_empty_ub e w t s u sc k st r). Qed.
Print Assumptions C34_empty_slots_are_undefined.

(** C35: disconnect on a slot object. *)
Theorem C35_slot_disconnect_does_nothing e w t fail u i k st : w_thr w !! t = Some (FProg (Do (OVar (VSlotDisc u)) k) :: st) ->
  v_us (w_vars w) !! u = Some (UsV true i) ->
  exists w', step e w t fail = SOk w' /\ completes w w' t k st (OutBool false) /\ w_log w' = w_log w /\
    w_vars w' = w_vars w /\ w_sigs w' = w_sigs w /\ w_vecs w' = w_vecs w /\ w_slots w' = w_slots w.
Proof. exact (slot_disc_nothing e w t fail u i k st). Qed.
Print Assumptions C35_slot_disconnect_does_nothing.

Example C35_example : exists w, reachable x2_env [y6_prog] w /\
  stack_is w 0 (fun st => match st with [FProg (Do (OVar (VSlotDisc 0)) _)] => true | _ => false end) &&
  bool_decide (v_us (w_vars w) !! 0 = Some (UsV true (Some (new_impl (fn 1))))) = true.
Proof. exact ex_C35. Qed.

(** C37: each connect makes a slot of its own, and no two slots share anything: a slot is not
    changed by what is done to another one. *)
Theorem C37_two_connects_two_slots e ps w : reachable e ps w ->
  log_all (fun ev pre => match ev with
    | EConn t s l i => forall t' s' i', EConn t' s' l i' ∉ pre
    | _ => True end) (w_log w).
Proof. exact (connects_distinct e ps w). Qed.
Print Assumptions C37_two_connects_two_slots.

Theorem C37_slots_are_independent e ps w0 w new l r0 r : reachable e ps w0 -> reachable e ps w -> since w0 w new ->
  w_slots w0 !! l = Some r0 -> w_slots w !! l = Some r -> (forall ev, ev ∈ new -> ~ sets_flag l ev /\ ~ sets_blk l ev /\ ~ sets_st l ev) ->
  im_c (sl_impl r) = im_c (sl_impl r0) /\ im_conn (sl_impl r) = im_conn (sl_impl r0) /\ im_blk (sl_impl r) = im_blk (sl_impl r0) /\
  im_st (sl_impl r) = im_st (sl_impl r0).
Proof. exact (slots_independent e ps w0 w new l r0 r). Qed.
Print Assumptions C37_slots_are_independent.

Theorem C37_only_through_its_own_handle e ps w : reachable e ps w ->
  log_all (fun ev pre => match ev with
    | ERem t s l l' => ~ out_of_list pre l -> l' = l
    | _ => True end) (w_log w).
Proof. exact (rem_own e ps w). Qed.
Print Assumptions C37_only_through_its_own_handle.

Example C37_example : exists w, reachable x2_env [y9_prog] w /\
  occurs [EConn 0 0 0 (new_impl (fn 1)); EHandle 0 0 0; EConn 0 0 1 (im_set_idx 1 (new_impl (fn 1))); EHandle 0 1 1; 
          EEmit 0 0 0 [] [0; 1]; ECall 0 (RSlot 0) (Some 0) (fn 1) [] 6; ECall 0 (RSlot 1) (Some 0) (fn 1) [] 9;
          EBlk 0 true; EEmit 0 1 0 [] [0; 1]; ESkip 0 (RSlot 0) (Some 1) 15; ECall 0 (RSlot 1) (Some 1) (fn 1) [] 17;
          EDisc 0 0 true; EEmit 0 2 0 [] [1]; ECall 0 (RSlot 1) (Some 2) (fn 1) [] 27] (rev (w_log w)) = true.
Proof. exact ex_C37. Qed.

(** C22: moving and releasing a scoped connection; move assignment; an emptied one. *)
Theorem C22_moving_and_releasing_empty_the_source e w t fail v c sc r k st : w_thr w !! t = Some (FProg (Do (OVar v) k) :: st) ->
  v = VMoveConn c sc \/ (v = VRelease c /\ sc = false) -> v_conns (w_vars w) !! c = Some r -> cn_live r = true ->
  let n := length (v_conns (w_vars w)) in
  exists w', step e w t fail = SOk w' /\ completes w w' t k st (OutId n) /\ w_log w' = w_log w /\ only_conns w w' [c] /\
    v_conns (w_vars w') !! n = Some (ConnV true sc (cn_slot r)) /\ v_conns (w_vars w') !! c = Some (ConnV true (cn_scoped r) None).
Proof. exact (move_gives e w t fail v c sc r k st). Qed.
Print Assumptions C22_moving_and_releasing_empty_the_source.

Theorem C22_move_assignment_to_an_empty_one e w t fail d s rd rs k st : w_thr w !! t = Some (FProg (Do (OVar (VAssignMove d s)) k) :: st) -> d <> s ->
  v_conns (w_vars w) !! d = Some rd -> cn_live rd = true -> v_conns (w_vars w) !! s = Some rs -> cn_live rs = true ->
  cn_scoped rd = false \/ cn_slot rd = None ->
  exists w', step e w t fail = SOk w' /\ completes w w' t k st OutUnit /\ w_log w' = w_log w /\ only_conns w w' [d; s] /\
    v_conns (w_vars w') !! d = Some (ConnV true (cn_scoped rd) (cn_slot rs)) /\ v_conns (w_vars w') !! s = Some (ConnV true (cn_scoped rs) None).
Proof. exact (move_assign_empty e w t fail d s rd rs k st). Qed.
Print Assumptions C22_move_assignment_to_an_empty_one.

Theorem C22_move_assignment_disconnects_first e w t fail d s rd rs l k st w' : w_thr w !! t = Some (FProg (Do (OVar (VAssignMove d s)) k) :: st) ->
  v_conns (w_vars w) !! d = Some rd -> cn_live rd = true -> v_conns (w_vars w) !! s = Some rs -> cn_live rs = true ->
  cn_scoped rd = true -> cn_scoped rs = true -> cn_slot rd = Some l -> step e w t fail = SOk w' ->
  w_vars w' = w_vars w /\
  exists D f, dtorish D /\ (f = FDisc l \/ f = FRet (OutBool false)) /\ w_thr w' !! t = Some (D ++ f :: FAssignMv d s l :: FWait k :: st).
Proof. exact (move_assign_starts e w t fail d s rd rs l k st w'). Qed.
Print Assumptions C22_move_assignment_disconnects_first.

Theorem C22_move_assignment_ends e w t fail d s rd rs l o st w' : w_thr w !! t = Some (FRet o :: FAssignMv d s l :: st) -> d <> s ->
  v_conns (w_vars w) !! d = Some rd -> cn_live rd = true -> v_conns (w_vars w) !! s = Some rs -> cn_live rs = true ->
  step e w t fail = SOk w' ->
  only_conns w w' [d; s] /\
  v_conns (w_vars w') !! d = Some (ConnV true (cn_scoped rd) (cn_slot rs)) /\ v_conns (w_vars w') !! s = Some (ConnV true (cn_scoped rs) None) /\
  exists D, dtorish D /\ w_thr w' !! t = Some (D ++ FRet OutUnit :: st).
Proof. exact (move_assign_ends e w t fail d s rd rs l o st w'). Qed.
Print Assumptions C22_move_assignment_ends.

Theorem C22_an_emptied_one_disconnects_nothing e w t fail v c r k st : w_thr w !! t = Some (FProg (Do (OVar v) k) :: st) ->
  v = VDestroyConn c \/ v = VDisc c -> v_conns (w_vars w) !! c = Some r -> cn_live r = true -> cn_slot r = None ->
  exists w' o, step e w t fail = SOk w' /\ completes w w' t k st o /\ w_log w' = w_log w /\ only_conns w w' [c].
Proof. exact (empty_does_nothing e w t fail v c r k st). Qed.
Print Assumptions C22_an_emptied_one_disconnects_nothing.

Example C22_example_move : exists w, reachable x2_env [z1_prog] w /\
  about_to x2_env w (OVar (VMoveConn 0 true)) && bool_decide (v_conns (w_vars w) !! 0 = Some (ConnV true true (Some 0))) = true.
Proof. exact ex_C22_move. Qed.
Example C22_example_release : exists w, reachable x2_env [z1_prog] w /\
  about_to x2_env w (OVar (VRelease 0)) && bool_decide (v_conns (w_vars w) !! 0 = Some (ConnV true true (Some 0))) = true.
Proof. exact ex_C22_release. Qed.
Example C22_example_assign_empty : exists w, reachable x2_env [z1_prog] w /\
  about_to x2_env w (OVar (VAssignMove 0 2)) && bool_decide (v_conns (w_vars w) !! 0 = Some (ConnV true true None)) &&
  bool_decide (v_conns (w_vars w) !! 2 = Some (ConnV true true (Some 0))) = true.
Proof. exact ex_C22_assign_empty. Qed.
Example C22_example_assign : exists w, reachable x2_env [z1_prog] w /\
  about_to x2_env w (OVar (VAssignMove 1 4)) && bool_decide (v_conns (w_vars w) !! 1 = Some (ConnV true true (Some 1))) &&
  bool_decide (v_conns (w_vars w) !! 4 = Some (ConnV true true (Some 0))) = true.
Proof. exact ex_C22_assign. Qed.
Example C22_example_assign_end : exists w, reachable x2_env [z1_prog] w /\
  stack_is w 0 (fun st => match st with [FRet _; FAssignMv 1 4 1; FWait _] => true | _ => false end) && goes x2_env w 0 &&
  bool_decide (v_conns (w_vars w) !! 1 = Some (ConnV true true (Some 1))) && bool_decide (v_conns (w_vars w) !! 4 = Some (ConnV true true (Some 0))) = true.
Proof. exact ex_C22_assign_end. Qed.
Example C22_example_empty : exists w, reachable x2_env [z1_prog] w /\
  about_to x2_env w (OVar (VDestroyConn 4)) && bool_decide (v_conns (w_vars w) !! 4 = Some (ConnV true true None)) = true.
Proof. exact ex_C22_empty. Qed.
Example C22_example : exists w, reachable x2_env [z1_prog] w /\
  occurs [EDisc 0 1 true; EScoped 0 1; EDisc 0 0 true; EScoped 0 0; EEmit 0 0 0 [] []] (rev (w_log w)) = true.
Proof. exact ex_C22. Qed.
