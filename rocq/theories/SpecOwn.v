(** * Specification: what a call itself logs, as opposed to the client code it runs *)
From Verif Require Export SpecCall.

(** Frames of client code: a program being run, a program waiting for a call it made, the
    destructor of a functor. *)
Definition client_frame (f : frame) : bool :=
  match f with FProg _ | FWait _ | FDtor _ => true | _ => false end.
(** Above the continuation [k], [st] of a call the stack has no frames of client code: the
    next step of the thread is a step of the call itself. *)
Definition own_step (k : out -> prog) (st : list frame) (stk : list frame) : Prop :=
  exists c, stk = c ++ FWait k :: st /\ forall f, f ∈ c -> client_frame f = false.
(** Everything but the notes that an object was destroyed. *)
Definition is_death (ev : event) : bool := match ev with ESlotDead _ | EObjDead _ => true | _ => false end.
Definition deeds (L : list event) : list event := filter (fun ev => is_death ev = false) L.

(** [call_log e t op k st w0 w evs]: as [in_call], and [evs] are the events, newest first,
    that the steps of the call itself logged: not those of other threads and not those of
    client code (slot functions, combiners, comparison operators, destructors) that the call
    runs. *)
Inductive call_log (e : env) (t : tid) (op : op) (k : out -> prog) (st : list frame) (w0 : world) : world -> list event -> Prop :=
| L_start fail w new :
    w_thr w0 !! t = Some (FProg (Do op k) :: st) -> step e w0 t fail = SOk w -> since w0 w new ->
    call_log e t op k st w0 w (deeds new)
| L_other t' fail w w' evs :
    call_log e t op k st w0 w evs -> (t' = t -> forall stk, w_thr w !! t = Some stk -> ~ own_step k st stk) ->
    step e w t' fail = SOk w' -> call_log e t op k st w0 w' evs
| L_own fail w w' stk new evs :
    call_log e t op k st w0 w evs -> w_thr w !! t = Some stk -> own_step k st stk ->
    (forall o, ~ returned t k st w o) -> step e w t fail = SOk w' -> since w w' new ->
    call_log e t op k st w0 w' (deeds new ++ evs).

(** What connection::disconnect on slot [l] did, and the result that goes with it: it found
    the slot gone or disconnected; or it cleared the flag and then either took an element out
    of the list of a signal or found none at its index. *)
Definition disc_deed (t : tid) (l : lid) (b : bool) (evs : list event) : Prop :=
  (b = false /\ evs = [EDisc t l false]) \/
  (b = true /\ exists s x, evs = [EDisc t l true; x; EFlag l] /\ (x = ERemMiss t s l \/ exists l', x = ERem t s l l')).
(** What slot::operator() makes of the outcome [o] of the function: its value in an engaged
    optional, nothing for a void function, or the exception. *)
Definition wrapped (e : env) (o o' : out) : Prop :=
  (exists x, o = OutExn x /\ o' = OutExn x) \/
  (exists z, e_void e = false /\ o = OutZ z /\ o' = OutOpt (Some z)) \/
  (e_void e = true /\ o = OutUnit /\ o' = OutOpt None).
(** One call of a slot: [c] was called with [args], and its code returned what [r] wraps. *)
Definition gives (e : env) (s : slotref) (c : callable) (args : list arg) (r : out) : Prop :=
  exists o, may_ret (e_body e s c args) o /\ wrapped e o r.
(** What the steps of emission [eid] log between its beginning and its end: for every
    dereference by the combiner, the slot is skipped (the flag of a slot is cleared if its
    object turned out to be gone) and the combiner gets a disengaged optional, or it is
    called and the combiner gets what the call gave. *)
Inductive emission_deeds (e : env) (t : tid) (eid : nat) : list event -> Prop :=
| ED_nil : emission_deeds e t eid []
| ED_skip pos l start flag evs :
    emission_deeds e t eid evs -> flag = [] \/ flag = [EFlag l] ->
    emission_deeds e t eid (EDeref t eid pos l (OutOpt None) :: ESkip t (RSlot l) (Some eid) start :: flag ++ evs)
| ED_call pos l start c args r evs :
    emission_deeds e t eid evs -> gives e (RSlot l) c args r ->
    emission_deeds e t eid (EDeref t eid pos l r :: ERet t (RSlot l) (Some eid) r ::
                            ECall t (RSlot l) (Some eid) c args start :: evs).
(** What a call of slot object [u] by the client did, and the result that goes with it. *)
Definition slot_call_deed (e : env) (t : tid) (u : uid) (args : list arg) (r : out) (evs : list event) : Prop :=
  (r = OutOpt None /\ exists start, evs = [ESkip t (RUser u) None start]) \/
  (exists c start, evs = [ERet t (RUser u) None r; ECall t (RUser u) None c args start] /\ gives e (RUser u) c args r).
(** The queries of a connection object [c], and the event that records the answer [b]. *)
Definition asks (c : cid) (v : vop) : Prop := v = VValid c \/ v = VConnected c \/ v = VBlocked c.
Definition answer (t : tid) (v : vop) (l : lid) (b : bool) : event :=
  match v with VValid _ => EValid t l b | VConnected _ => EConnd t l b | _ => EBlkd t l b end.
(** Operation [v] blocks ([b]) or unblocks the slot [m] its connection or blocker refers to. *)
Definition sets_block (w : world) (v : vop) (m : option lid) (b : bool) : Prop :=
  match v with
  | VBlock c | VBlocker c => exists r, v_conns (w_vars w) !! c = Some r /\ cn_live r = true /\ cn_slot r = m /\ true = b
  | VUnblock c => exists r, v_conns (w_vars w) !! c = Some r /\ cn_live r = true /\ cn_slot r = m /\ false = b
  | VBAssign d s => exists r r', v_blks (w_vars w) !! d = Some r /\ bk_live r = true /\ v_blks (w_vars w) !! s = Some r' /\ bk_live r' = true /\
      bk_slot r = m /\ false = b
  | VBDestroy d => exists r, v_blks (w_vars w) !! d = Some r /\ bk_live r = true /\ bk_slot r = m /\ false = b
  | _ => False
  end.
