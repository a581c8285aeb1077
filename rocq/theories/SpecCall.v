(** * Specification: a call made by client code, from its first step until it returns *)
From Verif Require Export Machine SpecErase.

(** [in_call e t op k st w0 w]: in [w0] thread [t] is about to call [op], to continue with
    [k]; [st] is what is below on its stack.  [w] is a later state, reached by steps of all
    threads, in which the call is in progress or has returned and [k] was not yet entered. *)
Inductive in_call (e : env) (t : tid) (op : op) (k : out -> prog) (st : list frame) (w0 : world) : world -> Prop :=
| C_start fail w :
    w_thr w0 !! t = Some (FProg (Do op k) :: st) -> step e w0 t fail = SOk w -> in_call e t op k st w0 w
| C_step t' fail w w' :
    in_call e t op k st w0 w -> (t' = t -> forall o, w_thr w !! t <> Some (FRet o :: FWait k :: st)) ->
    step e w t' fail = SOk w' -> in_call e t op k st w0 w'.

(** The call has returned [o] (or thrown, if [o] is an exception). *)
Definition returned (t : tid) (k : out -> prog) (st : list frame) (w : world) (o : out) : Prop :=
  w_thr w !! t = Some (FRet o :: FWait k :: st).

(** The events since [w0]. *)
Definition since (w0 w : world) (new : list event) : Prop := w_log w = new ++ w_log w0.

(** The thread an event belongs to, for those that say. *)
Definition thread_of (ev : event) : option tid :=
  match ev with
  | EConn t _ _ _ | EHandle t _ _ | ERem t _ _ _ | ERemMiss t _ _ | EErased t _ _ | EErase t _ _ _ _ _ | EEraseExn t _ _ _ _ _
  | EDisc t _ _ | EConnd t _ _ | EBlkd t _ _ | EValid t _ _ | EScoped t _ | EEmit t _ _ _ _ | EDeref t _ _ _ _
  | EEmitRet t _ _ | ECall t _ _ _ _ _ | ERet t _ _ _ | ESkip t _ _ _ | EGet t _ _ | ESet t _ _ => Some t
  | _ => None
  end.
(** The events of thread [t]. *)
Definition mine (t : tid) (log : list event) : list event := filter (fun ev => thread_of ev = Some t) log.

(** What connect and disconnect(f) are given: a callable, or the contents of a slot object. *)
Definition given (w : world) (src : csrc) (a : option callable) : Prop :=
  match src with
  | SrcFn c => a = Some c
  | SrcSlot u => exists i, v_us (w_vars w) !! u = Some (UsV true i) /\ a = im_c <$> i
  end.
(** The slot that connect puts into the list: a new one for a callable, a copy for a slot. *)
Definition connects (w : world) (src : csrc) (i : impl) : Prop :=
  match src with
  | SrcFn c => im_c i = c /\ im_conn i = true /\ im_blk i = false /\ im_st i = 0%Z
  | SrcSlot u => exists i0, v_us (w_vars w) !! u = Some (UsV true (Some i0)) /\
      im_c i = im_c i0 /\ im_conn i = im_conn i0 /\ im_blk i = im_blk i0 /\ im_st i = im_st i0
  end.

(** The events that change the connected flag, the blocked flag, the functor state of slot [l]. *)
Definition sets_flag (l : lid) (ev : event) : Prop := ev = EFlag l.
Definition sets_blk (l : lid) (ev : event) : Prop := exists b, ev = EBlk l b.
Definition sets_st (l : lid) (ev : event) : Prop := exists t z, ev = ESet t (RSlot l) z.
(** The operations that may change the slot object [u]. *)
Definition on_slot (u : uid) (o : op) : Prop :=
  match o with
  | OVar (VSlotMove u') | OVar (VSlotDestroy u') | OVar (VSlotBlock u') | OVar (VSlotUnblock u') => u' = u
  | OVar (VSlotAssignMove d s) => d = u \/ s = u
  | OSelfSet (RUser u') _ => u' = u
  | _ => False
  end.

(** Only connection objects differ, and of these only those in [cs], and objects that are new. *)
Definition only_conns (w w' : world) (cs : list cid) : Prop :=
  w_sigs w' = w_sigs w /\ w_vecs w' = w_vecs w /\ w_slots w' = w_slots w /\
  (exists m, w_vars w' = set_conns (w_vars w) m) /\
  forall c, c < length (v_conns (w_vars w)) -> c ∉ cs -> v_conns (w_vars w') !! c = v_conns (w_vars w) !! c.
(** The step of thread [t] that completes an operation on variables with result [o]. *)
Definition completes (w w' : world) (t : tid) (k : out -> prog) (st : list frame) (o : out) : Prop :=
  w_thr w' = <[t := FRet o :: FWait k :: st]> (w_thr w).

(** During a call of thread [t], in which [new] was logged, no other thread changed the list of [s]. *)
Definition undisturbed (t : tid) (s : sid) (new : list event) : Prop :=
  forall ev, ev ∈ new -> thread_of ev <> Some t -> ~ touches s ev.
