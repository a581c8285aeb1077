(** * Specification: what clients may do *)
From Verif Require Export Machine.

(** ** Code that takes no mutex *)
(** Operations that lock no signal: everything on variables except what may disconnect a slot;
    making and destroying signals; the functor's own state; giving up a tracked object whose
    destructor does nothing. *)
Definition lockless_var (e : env) (v : vop) : Prop :=
  match v with
  | VDisc _ | VDestroyConn _ | VAssignCopy _ _ | VAssignMove _ _ => False
  | VResetObj x => e_odtor e x = None
  | _ => True
  end.
Definition lockless_op (e : env) (o : op) : Prop :=
  match o with
  | OVar v => lockless_var e v
  | ONewSignal _ | ODestroySignal _ | OMoveAssignSignal _ _ | OSelfGet _ | OSelfSet _ _ => True
  | _ => False
  end.
(** A program that only uses those. *)
Inductive lockless (e : env) : prog -> Prop :=
| LL_ret o : lockless e (Ret o)
| LL_do o k : lockless_op e o -> (forall x, lockless e (k x)) -> lockless e (Do o k).
(** operator== and destructors of functors are such programs.  (Destructors of tracked objects
    need not be.) *)
Definition lockless_env (e : env) : Prop :=
  (forall ty x y, lockless e (e_eq e ty x y)) /\ (forall c p, e_dtor e c = Some p -> lockless e p).

(** ** Waiting *)
(** Thread [t] holds the mutex of [s]. *)
Definition owns (w : world) (t : tid) (s : sid) : Prop := exists r, w_sigs w !! s = Some r /\ sg_lock r = Some t.
(** Thread [t] can take a step, which may also be one into undefined behaviour. *)
Definition can_move (e : env) (w : world) (t : tid) : Prop :=
  forall fail, step e w t fail <> SBlocked /\ step e w t fail <> SDone.
(** Thread [t] has returned from its main program. *)
Definition finished (w : world) (t : tid) : Prop := exists o, w_thr w !! t = Some [FRet o].

(** ** Faults of the client *)
(** The connection, blocker, slot, tracked-object and data variables an operation uses. *)
Definition vop_conns (v : vop) : list cid :=
  match v with
  | VCopyConn c _ | VMoveConn c _ | VDestroyConn c | VValid c | VConnected c | VBlocked c | VBlock c | VUnblock c
  | VDisc c | VRelease c | VBlocker c => [c]
  | VAssignCopy d s | VAssignMove d s | VSwap d s => [d; s]
  | _ => []
  end.
Definition vop_blks (v : vop) : list bid :=
  match v with VBMove b | VBDestroy b => [b] | VBAssign d s | VBSwap d s => [d; s] | _ => [] end.
Definition vop_slots (v : vop) : list uid :=
  match v with
  | VSlotCopy u | VSlotMove u | VSlotDestroy u | VSlotBool u | VSlotConnected u | VSlotBlocked u | VSlotBlock u
  | VSlotUnblock u | VSlotDisc u => [u]
  | VSlotAssignMove d s => [d; s]
  | _ => []
  end.
Definition op_slots (o : op) : list uid :=
  match o with
  | OVar v => vop_slots v
  | OConnect _ (SrcSlot u) _ | OErase _ (SrcSlot u) | OSlotCall u _ => [u]
  | OSlotEq a b => [a; b]
  | _ => []
  end.
Definition op_signal (o : op) : option sid :=
  match o with
  | ODestroySignal s | OMoveSignal s | OConnect s _ _ | OErase s _ | OEmit s _ => Some s
  | _ => None
  end.

(** They have been constructed and not destroyed. *)
Definition conn_lives (w : world) (c : cid) : Prop := exists r, v_conns (w_vars w) !! c = Some r /\ cn_live r = true.
Definition blk_lives (w : world) (b : bid) : Prop := exists r, v_blks (w_vars w) !! b = Some r /\ bk_live r = true.
Definition slot_lives (w : world) (u : uid) : Prop := exists r, v_us (w_vars w) !! u = Some r /\ us_live r = true.
Definition slot_null (w : world) (u : uid) : Prop := exists r, v_us (w_vars w) !! u = Some r /\ us_impl r = None.
Definition signal_lives (w : world) (s : sid) : Prop := exists r, w_sigs w !! s = Some r /\ sg_alive r = true.

(** [misuse w below o u]: calling [o] breaks one of its preconditions, which is undefined
    behaviour of kind [u]; [below] is what the calling code returns to. *)
Inductive misuse (w : world) (below : list frame) : op -> ubkind -> Prop :=
| M_conn v c : c ∈ vop_conns v -> ~ conn_lives w c -> misuse w below (OVar v) UClient
| M_blk v b : b ∈ vop_blks v -> ~ blk_lives w b -> misuse w below (OVar v) UClient
| M_slot o u : u ∈ op_slots o -> ~ slot_lives w u -> misuse w below o UClient
| M_obj x : v_objs (w_vars w) !! x <> Some true -> misuse w below (OVar (VResetObj x)) UClient
| M_load a : v_store (w_vars w) !! a = None -> misuse w below (OVar (VRead a)) UClient
| M_store a z : v_store (w_vars w) !! a = None -> misuse w below (OVar (VWrite a z)) UClient
| M_copy_null u : slot_null w u -> misuse w below (OVar (VSlotCopy u)) UNullSlot
| M_connect_null s u sc : slot_null w u -> misuse w below (OConnect s (SrcSlot u) sc) UNullSlot
| M_signal o s : op_signal o = Some s -> ~ signal_lives w s -> misuse w below o UDangling
| M_locked s t : owns w t s -> misuse w below (ODestroySignal s) ULockedDestroy
| M_assign a b : misuse w below (OMoveAssignSignal a b) UNoReturn
| M_range pos s eid v args st : below = FEmit s eid v args :: st -> length (vec_of w v) <= pos ->
    misuse w below (ODeref pos) UBadIter
| M_nowhere pos : (forall s eid v args st, below <> FEmit s eid v args :: st) -> misuse w below (ODeref pos) UClient
| M_self_slot l o : o = OSelfGet (RSlot l) \/ (exists z, o = OSelfSet (RSlot l) z) -> slot_alive w l = false ->
    misuse w below o UDangling
| M_self_user u o : o = OSelfGet (RUser u) \/ (exists z, o = OSelfSet (RUser u) z) -> ~ slot_lives w u ->
    misuse w below o UDangling
| M_self_null u : slot_null w u -> misuse w below (OSelfGet (RUser u)) UClient.

(** A callable returns something of its declared return type or throws. *)
Definition returns_ok (e : env) (o : out) : Prop :=
  match o with
  | OutExn _ => True
  | OutUnit => e_void e = true
  | OutZ _ => e_void e = false
  | _ => False
  end.
(** operator== returns a bool or throws. *)
Definition eq_returns_ok (o : out) : Prop := match o with OutBool _ | OutExn _ => True | _ => False end.

(** [fault e w fail st u]: a thread with stack [st] is about to do something that is the
    client's fault, or memory is exhausted where the library cannot report it. *)
Inductive fault (e : env) (w : world) (fail : mem) : list frame -> ubkind -> Prop :=
| F_op o k st u : misuse w st o u -> fault e w fail (FProg (Do o k) :: st) u
| F_ret o r args pin eid start st : ~ returns_ok e o -> fault e w fail (FRet o :: FSlot r SRun args pin eid start :: st) UClient
| F_eq o s v tgt i n xs st : ~ eq_returns_ok o -> fault e w fail (FRet o :: FEraseCmp s v tgt i n xs :: st) UClient
| F_dtor x d st : fault e w fail (FRet (OutExn x) :: FDtor d :: st) UTerminate
| F_gone u g args pin eid start st : ~ slot_lives w u -> fault e w fail (FSlot (RUser u) g args pin eid start :: st) UDangling
| F_mem_new c k st : fail = MAbort -> fault e w fail (FProg (Do (ONewSignal c) k) :: st) UTerminate
| F_mem_rem s l st : fail <> MOk -> fault e w fail (FWrite s (KRem l) :: st) UTerminate
| F_mem_detach s k st : fail = MAbort -> fault e w fail (FWrite s k :: st) UTerminate.

(** Undefined behaviour that is not the fault of the code running, but of what the client
    did to the signal: the signal a thread is about to lock was destroyed; it was moved from
    (or its source had been);
    the thread already holds its mutex. *)
Inductive sig_fault (w : world) (t : tid) : list frame -> ubkind -> Prop :=
| S_destroyed s k st : EDestroySig s ∈ w_log w -> sig_fault w t (FLock s k :: st) UDangling
| S_moved s k st s1 s2 : EMoveSig s1 s2 ∈ w_log w -> s1 = s \/ s2 = s -> sig_fault w t (FWrite s k :: st) UNullVec
| S_held s k st : owns w t s -> sig_fault w t (FLock s k :: st) ULockSelf.

(** A client that never destroys or moves a signal and never commits a fault (a destructor
    that throws and exhausted memory, which end in std::terminate, aside). *)
Definition blameless (e : env) (ps : list prog) : Prop :=
  forall w, reachable e ps w ->
    (forall s, EDestroySig s ∉ w_log w) /\ (forall s1 s2, EMoveSig s1 s2 ∉ w_log w) /\
    (forall t fail st u, w_thr w !! t = Some st -> u <> UTerminate -> ~ fault e w fail st u).
