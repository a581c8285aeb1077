(** * Executable model of signal, slot, connection, scoped_connection,
    connection_blocker and of concurrent emission

    One step of the machine is one access to shared state by one thread: taking
    or releasing a mutex, one atomic load or exchange, one detach of the
    copy-on-write vector, one mutation of the vector, one copy of it.  Threads
    interleave arbitrarily (sequential consistency).  Undefined behaviour is an
    explicit outcome ([SUB]), so is an allocation failure (argument [fail]).
    Source citations are to /repo/signals.hpp unless another file is named. *)
From Verif Require Export Base.

(** ** State *)

(** A slot owned by signals: the slot<R(Args...)> object (m_pImpl, m_pSignal,
    lines 1407-1408) and the slot_impl it owns. m_pImpl is never null here. *)
Record slotrec := SlotRec { sl_impl : impl; sl_sig : sid }.

(** A signal object, lines 1864-1866 (m_SlotMutex, m_Slots, m_Blocked).
    [sg_vec = None] is a null m_Slots, left by a move.  [sg_comb] stands for the
    Combiner template argument. *)
Record sigrec := SigRec {
  sg_alive : bool;
  sg_lock : option tid;
  sg_vec : option vid;
  sg_blocked : bool;
  sg_comb : option nat }.

(** A client variable of type connection or scoped_connection, line 1552:
    m_Slot is empty ([None]) or refers to a slot, dead or alive. *)
Record connv := ConnV { cn_live : bool; cn_scoped : bool; cn_slot : option lid }.
(** A client variable of type connection_blocker, line 1469. *)
Record blkv := BlkV { bk_live : bool; bk_slot : option lid }.
(** A client variable of type slot<R(Args...)>.  Its m_pSignal is always null:
    signal derives privately from signal_base (line 1646), so no client
    expression can supply one. *)
Record usv := UsV { us_live : bool; us_impl : option impl }.

(** All client variables. [v_objs]: does the client still hold the tracked object? *)
Record vars := Vars {
  v_conns : list connv;
  v_blks : list blkv;
  v_us : list usv;
  v_objs : list bool;
  v_store : list Z }.

(** What is done under a signal's mutex: add_slot (1798-1805), remove_slot
    (1808-1820), erase (1826-1849), read_slots (1858-1862), the move constructor
    (1670-1675). *)
Inductive crit :=
| KAdd (i : impl)
| KRem (l : lid)
| KErase (tgt : option callable)
| KRead (args : list arg)
| KMove.

(** Program points inside slot::operator() (1381-1389) and the operator() of the
    slot_impl classes (795-798, 873-876, 965-980, 1026-1040). *)
Inductive stage :=
| SBlk        (* about to read m_Blocked, line 1383 *)
| SExp        (* about to evaluate m_Ptr.expired() of connected(), 946 *)
| SConn       (* about to read m_Connected, 722/946 *)
| SDisp       (* about to enter the virtual operator(); a tracked slot locks m_Ptr, 967 *)
| SDead       (* m_Ptr.lock() failed: about to disconnect(), 970 *)
| SPin        (* m_Ptr.lock() succeeded: about to test connected(), 974 *)
| SCall       (* about to call the callable *)
| SRun.       (* the callable is running, in the frames above *)

(** Activation records, top of the stack first.  [FRet o] delivers [o] to the
    frame below it. *)
Inductive frame :=
| FRet (o : out)
| FProg (p : prog)
| FWait (k : out -> prog)                      (* client code waiting for an API call *)
| FDeref (k : out -> prog) (pos : nat) (l : lid)   (* a combiner waiting for *iterator *)
| FDtor (x : lid + oid)                          (* the destructor of the functor in a slot, or of a tracked object, runs above *)
| FMkConn (scoped : bool)                      (* rest of connect, 1692-1694 *)
| FAssign (d : cid) (m : option lid) (l : lid) (* rest of d = ..., line 1595, taking m; d had l *)
| FAssignMv (d s : cid) (l : lid)              (* rest of d = std::move(s), line 1595; d had l *)
| FUnit (l : lid)                              (* rest of the destructor of a scoped_connection *)
| FDisc (l : lid)                              (* slot::disconnect, before the exchange, 1354 *)
| FRemRet (l : lid)                            (* slot::disconnect, in remove_slot, 1356 *)
| FTmp (l : lid)                               (* end of a query: the temporary shared_ptr to l goes *)
| FLock (s : sid) (k : crit)                   (* about to lock m_SlotMutex *)
| FWrite (s : sid) (k : crit)                  (* locked, about to detach / copy / move m_Slots *)
| FBody (s : sid) (v : vid) (k : crit)         (* locked and detached *)
| FUnlock (s : sid) (o : out)                  (* about to unlock and return o *)
| FErase (s : sid) (v : vid) (tgt : option callable) (i n : nat) (xs0 : list lid)
                                               (* loop head of erase, 1833; xs0 is a ghost *)
| FEraseCmp (s : sid) (v : vid) (tgt : option callable) (i n : nat) (xs0 : list lid)
                                               (* waiting for s == slot, 1836 *)
| FEmit (s : sid) (eid : nat) (v : vid) (args : list arg)
                                               (* combiner running, 1791; holds slots_copy and t *)
| FSlot (r : slotref) (g : stage) (args : list arg) (pin : option oid)
    (eid : option nat) (start : nat)           (* inside slot::operator() *)
| FCallRet.                                    (* client code called its own slot *)

Record world := World {
  w_sigs : list sigrec;
  w_vecs : list (list lid);
  w_slots : list slotrec;
  w_vars : vars;
  w_neid : nat;
  w_log : list event;
  w_thr : list (list frame) }.

(** Undefined behaviour and other abnormal ends. *)
Inductive ubkind :=
| UNullVec         (* null m_Slots dereferenced: the signal was moved from *)
| UDangling        (* a destroyed signal or slot is used *)
| ULockSelf        (* a thread locks a std::mutex it already holds *)
| ULockedDestroy   (* a locked mutex is destroyed *)
| UNullSlot        (* null m_pImpl dereferenced, line 1285 *)
| UBadIter         (* the end iterator (or beyond) is dereferenced *)
| UNoReturn        (* control flows off the end of signal::operator=(signal&&), 1678-1686 *)
| UTerminate       (* an exception leaves a noexcept function: std::terminate *)
| UClient.         (* the client used a variable that does not exist, or ill-typed code *)

(** What happens to the allocations of a step: they succeed, one fails with an
    exception, or the one inside cow_ptr(T* ) noexcept (521-523, the control block of
    the shared_ptr) fails, which ends the program.  Steps that do not construct a
    cow_ptr treat the last two alike. *)
Inductive mem := MOk | MThrow | MAbort.
Definition fails (m : mem) : bool := match m with MOk => false | _ => true end.

(** ** Setters *)
Definition set_conns (x : vars) (l : list connv) := Vars l (v_blks x) (v_us x) (v_objs x) (v_store x).
Definition set_blks (x : vars) (l : list blkv) := Vars (v_conns x) l (v_us x) (v_objs x) (v_store x).
Definition set_us (x : vars) (l : list usv) := Vars (v_conns x) (v_blks x) l (v_objs x) (v_store x).
Definition set_objs (x : vars) (l : list bool) := Vars (v_conns x) (v_blks x) (v_us x) l (v_store x).
Definition set_store (x : vars) (l : list Z) := Vars (v_conns x) (v_blks x) (v_us x) (v_objs x) l.

Definition im_set_conn (b : bool) (i : impl) := Impl (im_c i) (im_idx i) b (im_blk i) (im_st i).
Definition im_set_blk (b : bool) (i : impl) := Impl (im_c i) (im_idx i) (im_conn i) b (im_st i).
Definition im_set_idx (n : nat) (i : impl) := Impl (im_c i) n (im_conn i) (im_blk i) (im_st i).
Definition im_set_st (z : Z) (i : impl) := Impl (im_c i) (im_idx i) (im_conn i) (im_blk i) z.
Definition on_impl (f : impl -> impl) (r : slotrec) := SlotRec (f (sl_impl r)) (sl_sig r).

Definition sg_set_alive (b : bool) (r : sigrec) := SigRec b (sg_lock r) (sg_vec r) (sg_blocked r) (sg_comb r).
Definition sg_set_lock (o : option tid) (r : sigrec) := SigRec (sg_alive r) o (sg_vec r) (sg_blocked r) (sg_comb r).
Definition sg_set_vec (o : option vid) (r : sigrec) := SigRec (sg_alive r) (sg_lock r) o (sg_blocked r) (sg_comb r).

Definition w_set_sigs (w : world) x := World x (w_vecs w) (w_slots w) (w_vars w) (w_neid w) (w_log w) (w_thr w).
Definition w_set_vecs (w : world) x := World (w_sigs w) x (w_slots w) (w_vars w) (w_neid w) (w_log w) (w_thr w).
Definition w_set_slots (w : world) x := World (w_sigs w) (w_vecs w) x (w_vars w) (w_neid w) (w_log w) (w_thr w).
Definition w_set_vars (w : world) x := World (w_sigs w) (w_vecs w) (w_slots w) x (w_neid w) (w_log w) (w_thr w).
Definition w_set_neid (w : world) x := World (w_sigs w) (w_vecs w) (w_slots w) (w_vars w) x (w_log w) (w_thr w).
Definition w_set_thr (w : world) x := World (w_sigs w) (w_vecs w) (w_slots w) (w_vars w) (w_neid w) (w_log w) x.
Definition w_add_log (w : world) (e : event) := World (w_sigs w) (w_vecs w) (w_slots w) (w_vars w) (w_neid w) (e :: w_log w) (w_thr w).
Definition w_alter_sig (w : world) (s : sid) (f : sigrec -> sigrec) := w_set_sigs w (alter f s (w_sigs w)).
Definition w_alter_slot (w : world) (l : lid) (f : impl -> impl) := w_set_slots w (alter (on_impl f) l (w_slots w)).
Definition w_set_vec (w : world) (v : vid) (xs : list lid) := w_set_vecs w (<[v := xs]> (w_vecs w)).

(** ** Ownership *)

Definition vec_of (w : world) (v : vid) : list lid := default [] (w_vecs w !! v).

(** The shared_ptrs to the vector: the m_Slots of living signals (1865) and the
    slots_copy of emissions in progress (1787). *)
Definition sig_owns (v : vid) (r : sigrec) : bool :=
  sg_alive r && bool_decide (sg_vec r = Some v).
Definition frame_owns (v : vid) (f : frame) : bool :=
  match f with FEmit _ _ v' _ => bool_decide (v' = v) | _ => false end.
Definition owned (w : world) (v : vid) : bool :=
  existsb (sig_owns v) (w_sigs w) || existsb (existsb (frame_owns v)) (w_thr w).

(** m_Ptr.use_count(), line 649. *)
Definition use_count (w : world) (v : vid) : nat :=
  length (filter (fun r => sig_owns v r) (w_sigs w)) +
  sum_list_with (fun st => length (filter (fun f => frame_owns v f) st)) (w_thr w).

(** A slot object lives while a living vector contains it (1651) or a call of
    connection::disconnect has locked it (1506), or one of the other members of
    connection and connection_blocker that lock it (1500, 1512, 1518, 1526, 1455, 1463). *)
Definition frame_pins (l : lid) (f : frame) : bool :=
  match f with
  | FDisc l' | FRemRet l' | FTmp l' => bool_decide (l' = l)
  | _ => false
  end.
Definition sig_keeps (w : world) (l : lid) (r : sigrec) : bool :=
  sg_alive r && match sg_vec r with Some v => bool_decide (l ∈ vec_of w v) | None => false end.
Definition frame_keeps (w : world) (l : lid) (f : frame) : bool :=
  match f with
  | FEmit _ _ v _ => bool_decide (l ∈ vec_of w v)
  | _ => frame_pins l f
  end.
Definition slot_alive (w : world) (l : lid) : bool :=
  existsb (sig_keeps w l) (w_sigs w) || existsb (existsb (frame_keeps w l)) (w_thr w).

(** A tracked object lives while the client holds it or a call on a tracked slot
    holds the shared_ptr [sp] (967). *)
Definition frame_pins_obj (o : oid) (f : frame) : bool :=
  match f with FSlot _ _ _ (Some o') _ _ => bool_decide (o' = o) | _ => false end.
Definition obj_alive (w : world) (o : oid) : bool :=
  default false (v_objs (w_vars w) !! o) || existsb (existsb (frame_pins_obj o)) (w_thr w).

(** weak_ptr::expired() on the m_Ptr of a tracked slot; other slots track nothing. *)
Definition expired (w : world) (c : callable) : bool :=
  match c_kind c with KTracked => negb (obj_alive w (c_pv c)) | _ => false end.

(** slot::connected() (1347-1350) through slot_state::connected (720-723) or
    slot_pmf_tracked::connected (944-947, 1005-1008).  Simplification: as a query
    through a connection both loads are one step; inside slot::operator() they are
    two ([SExp], [SConn]). *)
Definition impl_connected (w : world) (i : impl) : bool :=
  negb (expired w (im_c i)) && im_conn i.
Definition slot_connected (w : world) (l : lid) : bool :=
  match w_slots w !! l with Some r => impl_connected w (sl_impl r) | None => false end.

(** slot::blocked(), 1363-1366, 706-709. *)
Definition slot_blocked (w : world) (l : lid) : bool :=
  match w_slots w !! l with Some r => im_blk (sl_impl r) | None => false end.

(** ** Client variables *)

Inductive veff :=
| EfNone
| EfBlk (l : lid) (b : bool)        (* slot l: m_Blocked := b *)
| EfLog (ev : event).
Inductive vres :=
| VOk (x : vars) (o : out) (ef : veff)
| VDo (x : vars) (l : lid) (after : list frame)   (* connection::disconnect of a handle of l, then [after] *)
| VBad (u : ubkind).

(** m_Slot.lock() on a weak pointer: the living slot it refers to. *)
Definition wlock (w : world) (m : option lid) : option lid :=
  match m with Some l => if slot_alive w l then Some l else None | None => None end.

Definition get_conn (x : vars) (c : cid) : option connv :=
  match v_conns x !! c with Some r => if cn_live r then Some r else None | None => None end.
Definition get_blk (x : vars) (b : bid) : option blkv :=
  match v_blks x !! b with Some r => if bk_live r then Some r else None | None => None end.
Definition get_us (x : vars) (u : uid) : option usv :=
  match v_us x !! u with Some r => if us_live r then Some r else None | None => None end.
Definition put_conn (x : vars) (c : cid) (m : option lid) : vars :=
  set_conns x (alter (fun r => ConnV (cn_live r) (cn_scoped r) m) c (v_conns x)).
Definition put_blk (x : vars) (b : bid) (m : option lid) : vars :=
  set_blks x (alter (fun r => BlkV (bk_live r) m) b (v_blks x)).
Definition put_us (x : vars) (u : uid) (i : option impl) : vars :=
  set_us x (alter (fun r => UsV (us_live r) i) u (v_us x)).
Definition kill_conn (x : vars) (c : cid) : vars :=
  set_conns x (alter (fun r => ConnV false (cn_scoped r) None) c (v_conns x)).
Definition kill_blk (x : vars) (b : bid) : vars :=
  set_blks x (alter (fun r => BlkV false None) b (v_blks x)).
Definition kill_us (x : vars) (u : uid) : vars :=
  set_us x (alter (fun r => UsV false None) u (v_us x)).
Definition add_conn (x : vars) (r : connv) : vars := set_conns x (v_conns x ++ [r]).
Definition add_blk (x : vars) (r : blkv) : vars := set_blks x (v_blks x ++ [r]).
Definition add_us (x : vars) (r : usv) : vars := set_us x (v_us x ++ [r]).

(** The temporary shared_ptr of connected(), blocked() (1500, 1512) when m_Slot.lock()
    succeeds; valid() (1495) does not lock.  Simplification: the lock and what is read or
    written through it are one step, the end of the temporary is another; the destructor and
    the move assignment of a blocker change m_Slot in the first. *)
Definition held (w : world) (ev : event) : list frame :=
  match ev with
  | EConnd _ l _ | EBlkd _ l _ => if slot_alive w l then [FTmp l] else []
  | _ => []
  end.

(** connection_blocker::release (1461-1467) and connection::unblock (1524-1530);
    with [b = true] connection::block (1516-1522) and the blocker's constructor
    (1452-1459). *)
Definition blk_eff (w : world) (m : option lid) (b : bool) : veff :=
  match wlock w m with Some l => EfBlk l b | None => EfNone end.

(** connection::disconnect (1504-1508) through a weak pointer [m], [after l] is what
    follows it; an empty weak pointer cannot be locked and nothing happens: [o] is
    the result and [x'] the variables then. *)
Definition disc_res (x : vars) (m : option lid) (after : lid -> list frame) (x' : vars) (o : out) : vres :=
  match m with
  | Some l => VDo x l (after l)
  | None => VOk x' o EfNone
  end.

Definition exec_vop (w : world) (t : tid) (v : vop) : vres :=
  let x := w_vars w in
  match v with
  (* 1485, 1570 *)
  | VNewConn sc => VOk (add_conn x (ConnV true sc None)) (OutId (length (v_conns x))) EfNone
  (* 1488, 1576-1578 *)
  | VCopyConn c sc =>
      match get_conn x c with
      | Some r => VOk (add_conn x (ConnV true sc (cn_slot r))) (OutId (length (v_conns x))) EfNone
      | None => VBad UClient
      end
  (* 1489, 1580-1582, 1586-1588: the moved-from weak_ptr is empty *)
  | VMoveConn c sc =>
      match get_conn x c with
      | Some r => VOk (add_conn (put_conn x c None) (ConnV true sc (cn_slot r)))
                      (OutId (length (v_conns x))) EfNone
      | None => VBad UClient
      end
  (* 1490; a scoped target converts the source to a temporary (1576) and
     move-assigns from that (1592-1597) *)
  | VAssignCopy d s =>
      match get_conn x d, get_conn x s with
      | Some rd, Some rs =>
          if cn_scoped rd
          then disc_res x (cn_slot rd) (fun l => [FAssign d (cn_slot rs) l])
                 (put_conn x d (cn_slot rs)) OutUnit
          else VOk (put_conn x d (cn_slot rs)) OutUnit EfNone
      | _, _ => VBad UClient
      end
  (* 1491; scoped = scoped&&: 1592-1597; scoped = connection&&: 1580 then 1592.
     Self-move of the weak_ptr leaves it unchanged ([util.smartptr.weak.assign]). *)
  | VAssignMove d s =>
      match get_conn x d, get_conn x s with
      | Some rd, Some rs =>
          if cn_scoped rd
          then if cn_scoped rs
               then disc_res x (cn_slot rd) (fun l => [FAssignMv d s l])
                      (if bool_decide (d = s) then x else put_conn (put_conn x s None) d (cn_slot rs)) OutUnit
               else disc_res (put_conn x s None) (cn_slot rd) (fun l => [FAssign d (cn_slot rs) l])
                      (put_conn (put_conn x s None) d (cn_slot rs)) OutUnit
          else VOk (if bool_decide (d = s) then x else put_conn (put_conn x s None) d (cn_slot rs))
                   OutUnit EfNone
      | _, _ => VBad UClient
      end
  (* 1537-1540 *)
  | VSwap c d =>
      match get_conn x c, get_conn x d with
      | Some rc, Some rd => VOk (put_conn (put_conn x c (cn_slot rd)) d (cn_slot rc)) OutUnit EfNone
      | _, _ => VBad UClient
      end
  (* 1486, 1571-1574 *)
  | VDestroyConn c =>
      match get_conn x c with
      | Some r =>
          if cn_scoped r
          then disc_res (kill_conn x c) (cn_slot r) (fun l => [FUnit l]) (kill_conn x c) OutUnit
          else VOk (kill_conn x c) OutUnit EfNone
      | None => VBad UClient
      end
  (* 1493-1496 *)
  | VValid c =>
      match get_conn x c with
      | Some r =>
          match cn_slot r with
          | Some l => VOk x (OutBool (slot_alive w l)) (EfLog (EValid t l (slot_alive w l)))
          | None => VOk x (OutBool false) EfNone
          end
      | None => VBad UClient
      end
  (* 1498-1502 *)
  | VConnected c =>
      match get_conn x c with
      | Some r =>
          match cn_slot r with
          | Some l => let b := slot_alive w l && slot_connected w l in
                      VOk x (OutBool b) (EfLog (EConnd t l b))
          | None => VOk x (OutBool false) EfNone
          end
      | None => VBad UClient
      end
  (* 1510-1514 *)
  | VBlocked c =>
      match get_conn x c with
      | Some r =>
          match cn_slot r with
          | Some l => let b := slot_alive w l && slot_blocked w l in
                      VOk x (OutBool b) (EfLog (EBlkd t l b))
          | None => VOk x (OutBool false) EfNone
          end
      | None => VBad UClient
      end
  | VBlock c =>
      match get_conn x c with
      | Some r => VOk x OutUnit (blk_eff w (cn_slot r) true)
      | None => VBad UClient
      end
  | VUnblock c =>
      match get_conn x c with
      | Some r => VOk x OutUnit (blk_eff w (cn_slot r) false)
      | None => VBad UClient
      end
  (* 1504-1508 *)
  | VDisc c =>
      match get_conn x c with
      | Some r => disc_res x (cn_slot r) (fun _ => []) x (OutBool false)
      | None => VBad UClient
      end
  (* 1599-1602 *)
  | VRelease c =>
      match get_conn x c with
      | Some r => VOk (add_conn (put_conn x c None) (ConnV true false (cn_slot r)))
                      (OutId (length (v_conns x))) EfNone
      | None => VBad UClient
      end
  (* 1532-1535, 1452-1459 *)
  | VBlocker c =>
      match get_conn x c with
      | Some r => VOk (add_blk x (BlkV true (cn_slot r))) (OutId (length (v_blks x)))
                      (blk_eff w (cn_slot r) true)
      | None => VBad UClient
      end
  (* 1425 *)
  | VBNew => VOk (add_blk x (BlkV true None)) (OutId (length (v_blks x))) EfNone
  (* 1432-1434 *)
  | VBMove b =>
      match get_blk x b with
      | Some r => VOk (add_blk (put_blk x b None) (BlkV true (bk_slot r)))
                      (OutId (length (v_blks x))) EfNone
      | None => VBad UClient
      end
  (* 1437-1442 *)
  | VBAssign d s =>
      match get_blk x d, get_blk x s with
      | Some rd, Some rs =>
          VOk (if bool_decide (d = s) then x else put_blk (put_blk x s None) d (bk_slot rs))
              OutUnit (blk_eff w (bk_slot rd) false)
      | _, _ => VBad UClient
      end
  (* 1444-1447 *)
  | VBSwap b c =>
      match get_blk x b, get_blk x c with
      | Some rb, Some rc => VOk (put_blk (put_blk x b (bk_slot rc)) c (bk_slot rb)) OutUnit EfNone
      | _, _ => VBad UClient
      end
  (* 1426-1429 *)
  | VBDestroy b =>
      match get_blk x b with
      | Some r => VOk (kill_blk x b) OutUnit (blk_eff w (bk_slot r) false)
      | None => VBad UClient
      end
  | VNewObj => VOk (set_objs x (v_objs x ++ [true])) (OutId (length (v_objs x)))
                   (EfLog (ENewObj (length (v_objs x))))
  | VResetObj o =>
      match v_objs x !! o with
      | Some true => VOk (set_objs x (<[o := false]> (v_objs x))) OutUnit (EfLog (EReset o))
      | _ => VBad UClient
      end
  | VNewLoc z => VOk (set_store x (v_store x ++ [z])) (OutId (length (v_store x))) EfNone
  | VRead a => match v_store x !! a with Some z => VOk x (OutZ z) EfNone | None => VBad UClient end
  | VWrite a z =>
      match v_store x !! a with
      | Some _ => VOk (set_store x (<[a := z]> (v_store x))) OutUnit EfNone
      | None => VBad UClient
      end
  (* 1262-1281 *)
  | VSlotNew c => VOk (add_us x (UsV true (Some (new_impl c)))) (OutId (length (v_us x))) EfNone
  (* 1256-1259 *)
  | VSlotEmpty => VOk (add_us x (UsV true None)) (OutId (length (v_us x))) EfNone
  (* 1284-1287 with signal = nullptr; a null m_pImpl is dereferenced: undefined *)
  | VSlotCopy u =>
      match get_us x u with
      | Some (UsV _ (Some i)) => VOk (add_us x (UsV true (Some i))) (OutId (length (v_us x))) EfNone
      | Some (UsV _ None) => VBad UNullSlot
      | None => VBad UClient
      end
  (* 1296-1301 *)
  | VSlotMove u =>
      match get_us x u with
      | Some r => VOk (add_us (put_us x u None) (UsV true (us_impl r))) (OutId (length (v_us x))) EfNone
      | None => VBad UClient
      end
  (* 1315-1322 *)
  | VSlotAssignMove d s =>
      match get_us x d, get_us x s with
      | Some _, Some rs =>
          VOk (if bool_decide (d = s) then x else put_us (put_us x s None) d (us_impl rs)) OutUnit EfNone
      | _, _ => VBad UClient
      end
  | VSlotDestroy u =>
      match get_us x u with Some _ => VOk (kill_us x u) OutUnit EfNone | None => VBad UClient end
  (* 1325-1328 *)
  | VSlotBool u =>
      match get_us x u with
      | Some r => VOk x (OutBool (match us_impl r with Some _ => true | None => false end)) EfNone
      | None => VBad UClient
      end
  (* 1347-1350 *)
  | VSlotConnected u =>
      match get_us x u with
      | Some r => VOk x (OutBool (match us_impl r with Some i => impl_connected w i | None => false end)) EfNone
      | None => VBad UClient
      end
  (* 1363-1366 *)
  | VSlotBlocked u =>
      match get_us x u with
      | Some r => VOk x (OutBool (match us_impl r with Some i => im_blk i | None => false end)) EfNone
      | None => VBad UClient
      end
  (* 1368-1378 *)
  | VSlotBlock u =>
      match get_us x u with
      | Some r => VOk (put_us x u (im_set_blk true <$> us_impl r)) OutUnit EfNone
      | None => VBad UClient
      end
  | VSlotUnblock u =>
      match get_us x u with
      | Some r => VOk (put_us x u (im_set_blk false <$> us_impl r)) OutUnit EfNone
      | None => VBad UClient
      end
  (* 1352-1361 with a null m_pSignal *)
  | VSlotDisc u =>
      match get_us x u with Some _ => VOk x (OutBool false) EfNone | None => VBad UClient end
  end.

(** ** Slot comparison *)

Fixpoint bindp (p : prog) (f : out -> prog) : prog :=
  match p with
  | Ret o => f o
  | Do o k => Do o (fun r => bindp (k r) f)
  end.

Definition vcat_eqb (a b : vcat) : bool :=
  match a, b with CatR, CatR | CatL, CatL | CatCL, CatCL => true | _, _ => false end.
Definition ftype_eqb (a b : ftype) : bool :=
  Nat.eqb (ft_base a) (ft_base b) && vcat_eqb (ft_cat a) (ft_cat b).
Definition ckind_eqb (a b : ckind) : bool :=
  match a, b with KFunc, KFunc | KPmf, KPmf | KTracked, KTracked => true | _, _ => false end.

(** The dynamic_cast of equals (787, 864, 956): same class template, same Func,
    same Ptr, value categories included.  For a tracked slot the Ptr argument is
    the prvalue type of to_weak(ptr) (1279), so its category plays no part. *)
Definition same_dyn_type (a b : callable) : bool :=
  ckind_eqb (c_kind a) (c_kind b) && ftype_eqb (c_fty a) (c_fty b) &&
  match c_kind a with
  | KFunc => true
  | KPmf => ftype_eqb (c_pty a) (c_pty b)
  | KTracked => Nat.eqb (ft_base (c_pty a)) (ft_base (c_pty b))
  end.

(** try_equals, lines 415-438. *)
Definition try_equals (e : env) (base v1 v2 : nat) : prog :=
  if e_cmp e base then e_eq e base v1 v2 else Ret (OutExn NotComparable).

(** slot_impl::equals, lines 785-793, 862-871, 954-963: pointers first, then functions. *)
Definition impl_eq (e : env) (a b : callable) : prog :=
  if same_dyn_type a b then
    match c_kind a with
    | KFunc => try_equals e (ft_base (c_fty a)) (c_fv a) (c_fv b)
    | _ => bindp (try_equals e (ft_base (c_pty a)) (c_pv a) (c_pv b)) (fun o =>
             match o with
             | OutBool true => try_equals e (ft_base (c_fty a)) (c_fv a) (c_fv b)
             | o => Ret o
             end)
    end
  else Ret (OutBool false).

(** operator==(slot, slot), lines 1331-1339. *)
Definition slot_eq (e : env) (a b : option callable) : prog :=
  match a, b with
  | Some a, Some b => impl_eq e a b
  | None, None => Ret (OutBool true)
  | _, _ => Ret (OutBool false)
  end.

(** ** Combiners *)

(** optional_last_value::operator(), lines 1624-1637: [rem] positions left,
    the next is [pos], [acc] is [result]. *)
Fixpoint olv (rem pos : nat) (acc : option Z) : prog :=
  match rem with
  | O => Ret (OutOpt acc)
  | S rem => Do (ODeref pos) (fun o =>
      match o with
      | OutOpt (Some z) => olv rem (S pos) (Some z)
      | OutOpt None => olv rem (S pos) acc
      | o => Ret o
      end)
  end.

(** Combiner()(begin, end), line 1791. *)
Definition combiner (e : env) (c : option nat) (n : nat) : prog :=
  match c with None => olv n 0 None | Some k => e_comb e k n end.

(** ** Argument passing *)

(** What is left in the tuple after a callable was given
    std::forward<Args>(std::get<Is>(m_Args))... (lines 1142, 1206): an element of
    non-reference type is an rvalue there, and a callable that takes it by value
    moves from it. *)
Definition consume (e : env) (c : callable) (args : list arg) : list arg :=
  imap (fun i a => match a with
                   | AVal z => if e_consumes e c i then AVal (e_moved e z) else a
                   | ARef _ => a
                   end) args.

(** ** One step of a thread *)

(** [LOk w st]: the new world except for the stack of the running thread, and
    that stack. *)
Inductive lres :=
| LOk (w : world) (st : list frame)
| LBlocked
| LDone
| LUB (u : ubkind).

Definition get_sig (w : world) (s : sid) : option sigrec :=
  match w_sigs w !! s with Some r => if sg_alive r then Some r else None | None => None end.

(** swap(slots[i], slots.back()); slots[i]->index() = i; slots.pop_back():
    lines 1816-1818 and 1838-1840.  When i is the last position the element whose
    index is rewritten is the removed one itself. *)
Definition swap_pop (xs : list lid) (i : nat) : list lid :=
  match last xs with
  | Some y => take (length xs - 1) (<[i := y]> xs)
  | None => xs
  end.
Definition do_swap_pop (w : world) (v : vid) (i : nat) : world :=
  let xs := vec_of w v in
  match last xs with
  | Some y => w_alter_slot (w_set_vec w v (swap_pop xs i)) y (im_set_idx i)
  | None => w
  end.

Definition get_ref (w : world) (r : slotref) : option impl :=
  match r with
  | RSlot l => sl_impl <$> w_slots w !! l
  | RUser u => match get_us (w_vars w) u with Some x => us_impl x | None => None end
  end.
Definition alter_ref (w : world) (r : slotref) (f : impl -> impl) : world :=
  match r with
  | RSlot l => w_alter_slot w l f
  | RUser u => w_set_vars w (set_us (w_vars w)
                 (alter (fun x => UsV (us_live x) (f <$> us_impl x)) u (v_us (w_vars w))))
  end.
Definition ref_ok (w : world) (r : slotref) : bool :=
  match r with
  | RSlot l => slot_alive w l
  | RUser u => match get_us (w_vars w) u with Some _ => true | None => false end
  end.

(** exchange(false) on m_Connected, line 727; an event when it was true. *)
Definition clear_conn (w : world) (r : slotref) : world :=
  let w' := alter_ref w r (im_set_conn false) in
  match r, get_ref w r with
  | RSlot l, Some i => if im_conn i then w_add_log w' (EFlag l) else w'
  | _, _ => w'
  end.

(** The exception of a failed allocation, as a result. *)
Definition oom := OutExn BadAlloc.

(** Starting an API operation from client code: [k] is what the client does with
    the result, [st] the stack below. *)
Definition start_op (e : env) (w : world) (t : tid) (fail : mem)
    (o : op) (k : out -> prog) (st : list frame) : lres :=
  match o with
  | OVar v =>
      match exec_vop w t v with
      | VOk x o EfNone => LOk (w_set_vars w x) (FRet o :: FWait k :: st)
      | VOk x o (EfBlk l b) =>
          LOk (w_add_log (w_alter_slot (w_set_vars w x) l (im_set_blk b)) (EBlk l b))
              (FRet o :: FTmp l :: FWait k :: st)
      | VOk x o (EfLog ev) => LOk (w_add_log (w_set_vars w x) ev) (FRet o :: held w ev ++ FWait k :: st)
      (* m_Slot.lock() succeeds and slot::disconnect is called, or it fails: 1506-1507 *)
      | VDo x l after =>
          if slot_alive w l then LOk (w_set_vars w x) (FDisc l :: after ++ FWait k :: st)
          else LOk (w_add_log (w_set_vars w x) (EDisc t l false))
                   (FRet (OutBool false) :: after ++ FWait k :: st)
      | VBad u => LUB u
      end
  (* 1658-1661 *)
  | ONewSignal c =>
      match fail with
      | MOk => LOk (w_add_log
                      (w_set_sigs (w_set_vecs w (w_vecs w ++ [[]]))
                         (w_sigs w ++ [SigRec true None (Some (length (w_vecs w))) false c]))
                      (ENewSig (length (w_sigs w)) c))
                   (FRet (OutId (length (w_sigs w))) :: FWait k :: st)
      | MThrow => LOk w (FRet oom :: FWait k :: st)
      | MAbort => LUB UTerminate
      end
  (* 1662 *)
  | ODestroySignal s =>
      match get_sig w s with
      | Some r =>
          match sg_lock r with
          | Some _ => LUB ULockedDestroy
          | None => LOk (w_add_log (w_alter_sig w s (sg_set_alive false)) (EDestroySig s))
                        (FRet OutUnit :: FWait k :: st)
          end
      | None => LUB UDangling
      end
  (* 1670-1675 *)
  | OMoveSignal s =>
      match get_sig w s with
      | Some _ => LOk w (FLock s KMove :: FWait k :: st)
      | None => LUB UDangling
      end
  (* 1678-1686: no return statement *)
  | OMoveAssignSignal _ _ => LUB UNoReturn
  (* 1689-1748; the slot object exists before the lock is taken *)
  | OConnect s src sc =>
      match get_sig w s with
      | Some _ =>
          if fails fail then LOk w (FRet oom :: FWait k :: st) else
          match src with
          | SrcFn c => LOk w (FLock s (KAdd (new_impl c)) :: FMkConn sc :: FWait k :: st)
          | SrcSlot u =>
              match get_us (w_vars w) u with
              | Some (UsV _ (Some i)) => LOk w (FLock s (KAdd i) :: FMkConn sc :: FWait k :: st)
              | Some (UsV _ None) => LUB UNullSlot
              | None => LUB UClient
              end
          end
      | None => LUB UDangling
      end
  (* 1751-1778 *)
  | OErase s src =>
      match get_sig w s with
      | Some _ =>
          match src with
          | SrcFn c =>
              if fails fail then LOk w (FRet oom :: FWait k :: st)
              else LOk w (FLock s (KErase (Some c)) :: FWait k :: st)
          | SrcSlot u =>
              match get_us (w_vars w) u with
              | Some x => LOk w (FLock s (KErase (im_c <$> us_impl x)) :: FWait k :: st)
              | None => LUB UClient
              end
          end
      | None => LUB UDangling
      end
  (* 1780-1792 *)
  | OEmit s args =>
      match get_sig w s with
      | Some r =>
          if sg_blocked r then LOk w (FRet (OutOpt None) :: FWait k :: st)
          else LOk w (FLock s (KRead args) :: FWait k :: st)
      | None => LUB UDangling
      end
  (* 1381-1389 *)
  | OSlotCall u args =>
      match get_us (w_vars w) u with
      | Some _ => LOk w (FSlot (RUser u) SBlk args None None (length (w_log w)) :: FCallRet :: FWait k :: st)
      | None => LUB UClient
      end
  (* 1331-1339 *)
  | OSlotEq a b =>
      match get_us (w_vars w) a, get_us (w_vars w) b with
      | Some x, Some y => LOk w (FProg (slot_eq e (im_c <$> us_impl x) (im_c <$> us_impl y)) :: FWait k :: st)
      | _, _ => LUB UClient
      end
  | OSelfGet r =>
      if ref_ok w r then
        match get_ref w r with
        | Some i => LOk (w_add_log w (EGet t r (im_st i))) (FRet (OutZ (im_st i)) :: FWait k :: st)
        | None => LUB UClient
        end
      else LUB UDangling
  | OSelfSet r z =>
      if ref_ok w r then LOk (w_add_log (alter_ref w r (im_set_st z)) (ESet t r z)) (FRet OutUnit :: FWait k :: st)
      else LUB UDangling
  (* slot_iterator::operator*, lines 1132-1143, 1196-1208 *)
  | ODeref pos =>
      match st with
      | FEmit s eid v args :: _ =>
          match vec_of w v !! pos with
          | Some l => LOk w (FSlot (RSlot l) SBlk args None (Some eid) (length (w_log w))
                             :: FDeref k pos l :: st)
          | None => LUB UBadIter
          end
      | _ => LUB UClient
      end
  end.

(** A slot call ends without having called the callable: [return {}]. *)
Definition skip (w : world) (t : tid) (r : slotref) (eid : option nat) (start : nat)
    (args : list arg) (st : list frame) : lres :=
  LOk (w_add_log w (ESkip t r eid start)) (FRet (OutCall (OutOpt None) args) :: st).

(** Inside slot::operator() and slot_impl::operator(). *)
Definition step_slot (e : env) (w : world) (t : tid) (r : slotref) (g : stage)
    (args : list arg) (pin : option oid) (eid : option nat) (start : nat)
    (st : list frame) : lres :=
  if ref_ok w r then
    match get_ref w r with
    (* a null m_pImpl: blocked() and connected() are false, 1349, 1365 *)
    | None => skip w t r eid start args st
    | Some i =>
        let c := im_c i in
        match g with
        | SBlk => if im_blk i then skip w t r eid start args st
                  else LOk w (FSlot r SExp args pin eid start :: st)
        | SExp => if expired w c then skip w t r eid start args st
                  else LOk w (FSlot r SConn args pin eid start :: st)
        | SConn => if im_conn i then LOk w (FSlot r SDisp args pin eid start :: st)
                   else skip w t r eid start args st
        | SDisp => match c_kind c with
                   | KTracked =>
                       if obj_alive w (c_pv c)
                       then LOk w (FSlot r SPin args (Some (c_pv c)) eid start :: st)
                       else LOk w (FSlot r SDead args pin eid start :: st)
                   | _ => LOk w (FSlot r SCall args pin eid start :: st)
                   end
        (* the void version goes on to test connected(), which is false: expired *)
        | SDead => skip (clear_conn w r) t r eid start args st
        | SPin => if im_conn i then LOk w (FSlot r SCall args pin eid start :: st)
                  else skip w t r eid start args st
        | SCall =>
            LOk (w_add_log w (ECall t r eid c args start))
                (FProg (e_body e r c args) :: FSlot r SRun (consume e c args) pin eid start :: st)
        | SRun => LUB UClient
        end
    end
  else LUB UDangling.

(** The result of calling a callable, wrapped by slot_func / slot_pmf (797, 834,
    875, 918): R -> optional<R>, void -> disengaged. *)
Definition wrap (e : env) (o : out) : option out :=
  match o with
  | OutExn x => Some (OutExn x)
  | OutUnit => if e_void e then Some (OutOpt None) else None
  | OutZ z => if e_void e then None else Some (OutOpt (Some z))
  | _ => None
  end.

(** With the mutex held: m_Slots.write() or the copy in read_slots or the move. *)
Definition step_write (e : env) (w : world) (t : tid) (fail : mem) (s : sid) (k : crit)
    (st : list frame) : lres :=
  match w_sigs w !! s with
  | None => LUB UClient
  | Some r =>
      match k with
      (* 1673-1674 and 1671 *)
      | KMove =>
          LOk (w_add_log
                 (w_set_sigs w (alter (sg_set_vec None) s (w_sigs w)
                                ++ [SigRec true None (sg_vec r) (sg_blocked r) (sg_comb r)]))
                 (EMoveSig s (length (w_sigs w))))
              (FUnlock s (OutId (length (w_sigs w))) :: st)
      (* 1860-1861, then 1788-1791 *)
      | KRead args =>
          match sg_vec r with
          | None => LUB UNullVec
          | Some v =>
              LOk (w_add_log
                     (w_set_neid (w_alter_sig w s (sg_set_lock None)) (S (w_neid w)))
                     (EEmit t (w_neid w) s args (vec_of w v)))
                  (FProg (combiner e (sg_comb r) (length (vec_of w v)))
                   :: FEmit s (w_neid w) v args :: st)
          end
      (* cow_ptr::write / detach, 621-625, 647-655 *)
      | _ =>
          match sg_vec r with
          | None => LUB UNullVec
          | Some v =>
              if Nat.ltb 1 (use_count w v) then
                match fail with
                | MOk => LOk (w_alter_sig (w_set_vecs w (w_vecs w ++ [vec_of w v])) s
                                (sg_set_vec (Some (length (w_vecs w)))))
                             (FBody s (length (w_vecs w)) k :: st)
                | MThrow =>
                    match k with
                    | KRem _ => LUB UTerminate
                    | _ => LOk w (FUnlock s oom :: st)
                    end
                | MAbort => LUB UTerminate
                end
              else LOk w (FBody s v k :: st)
          end
      end
  end.

(** With the mutex held and the vector unshared. *)
Definition step_body (w : world) (t : tid) (fail : mem) (s : sid) (v : vid) (k : crit)
    (st : list frame) : lres :=
  match k with
  (* 1803-1804; push_back may have to reallocate *)
  | KAdd i =>
      if fails fail then LOk w (FUnlock s oom :: st)
      else
        let l := length (w_slots w) in
        let i := im_set_idx (length (vec_of w v)) i in
        LOk (w_add_log
               (w_set_slots (w_set_vec w v (vec_of w v ++ [l])) (w_slots w ++ [SlotRec i s]))
               (EConn t s l i))
            (FUnlock s (OutId l) :: st)
  (* 1811-1819 *)
  | KRem l =>
      match w_slots w !! l with
      | None => LUB UClient
      | Some r =>
          let i := im_idx (sl_impl r) in
          match vec_of w v !! i with
          | Some l' => LOk (w_add_log (do_swap_pop w v i) (ERem t s l l')) (FUnlock s OutUnit :: st)
          | None => LOk (w_add_log w (ERemMiss t s l)) (FUnlock s OutUnit :: st)
          end
      end
  | KErase tgt => LOk w (FErase s v tgt 0 0 (vec_of w v) :: st)
  | _ => LUB UClient
  end.

(** Delivering a result to the waiting frame [f]. *)
Definition deliver (e : env) (w : world) (t : tid) (o : out) (f : frame) (st : list frame) : lres :=
  match f with
  | FWait k => LOk w (FProg (k o) :: st)
  | FDeref k pos l =>
      match o, st with
      | OutCall r args', FEmit s eid v _ :: st' =>
          LOk (w_add_log w (EDeref t eid pos l r)) (FProg (k r) :: FEmit s eid v args' :: st')
      | _, _ => LUB UClient
      end
  | FDtor _ => match o with OutExn _ => LUB UTerminate | _ => LOk w st end
  | FMkConn sc =>
      match o with
      | OutId l => LOk (w_add_log (w_set_vars w (add_conn (w_vars w) (ConnV true sc (Some l))))
                                  (EHandle t l (length (v_conns (w_vars w)))))
                       (FRet (OutId (length (v_conns (w_vars w)))) :: st)
      | o => LOk w (FRet o :: st)
      end
  | FAssign d m l => LOk (w_add_log (w_set_vars w (put_conn (w_vars w) d m)) (EScoped t l)) (FRet OutUnit :: st)
  | FAssignMv d s l =>
      if bool_decide (d = s) then LOk (w_add_log w (EScoped t l)) (FRet OutUnit :: st)
      else
        match v_conns (w_vars w) !! s with
        | Some r => LOk (w_add_log (w_set_vars w (put_conn (put_conn (w_vars w) s None) d (cn_slot r))) (EScoped t l))
                        (FRet OutUnit :: st)
        | None => LUB UClient
        end
  | FUnit l => LOk (w_add_log w (EScoped t l)) (FRet OutUnit :: st)
  | FTmp l => LOk w (FRet o :: st)
  (* 1357 *)
  | FRemRet l => LOk (w_add_log w (EDisc t l true)) (FRet (OutBool true) :: st)
  (* 1836-1846 *)
  | FEraseCmp s v tgt i n xs0 =>
      match o with
      | OutBool true =>
          match vec_of w v !! i with
          | Some l => LOk (w_add_log (do_swap_pop w v i) (EErased t s l))
                          (FErase s v tgt i (S n) xs0 :: st)
          | None => LUB UClient
          end
      | OutBool false => LOk w (FErase s v tgt (S i) n xs0 :: st)
      | OutExn x => LOk (w_add_log w (EEraseExn t s tgt xs0 (vec_of w v) x))
                        (FUnlock s (OutExn x) :: st)
      | _ => LUB UClient
      end
  | FEmit s eid v _ => LOk (w_add_log w (EEmitRet t eid o)) (FRet o :: st)
  | FSlot r SRun args pin eid start =>
      match wrap e o with
      | Some o' => LOk (w_add_log w (ERet t r eid o')) (FRet (OutCall o' args) :: st)
      | None => LUB UClient
      end
  | FCallRet => match o with OutCall r _ => LOk w (FRet r :: st) | _ => LUB UClient end
  | _ => LUB UClient
  end.

Definition lstep (e : env) (w : world) (t : tid) (fail : mem) (st : list frame) : lres :=
  match st with
  | [] => LDone
  | f :: st =>
      match f with
      | FRet o => match st with [] => LDone | f :: st => deliver e w t o f st end
      | FProg (Ret o) => LOk w (FRet o :: st)
      | FProg (Do o k) => start_op e w t fail o k st
      (* slot::disconnect, 1352-1361 *)
      | FDisc l =>
          match w_slots w !! l with
          | None => LUB UClient
          | Some r =>
              if im_conn (sl_impl r)
              then LOk (clear_conn w (RSlot l)) (FLock (sl_sig r) (KRem l) :: FRemRet l :: st)
              else LOk (w_add_log w (EDisc t l false)) (FRet (OutBool false) :: st)
          end
      (* std::unique_lock(m_SlotMutex) *)
      | FLock s k =>
          match get_sig w s with
          | None => LUB UDangling
          | Some r =>
              match sg_lock r with
              | None => LOk (w_alter_sig w s (sg_set_lock (Some t))) (FWrite s k :: st)
              | Some t' => if Nat.eqb t t' then LUB ULockSelf else LBlocked
              end
          end
      | FWrite s k => step_write e w t fail s k st
      | FBody s v k => step_body w t fail s v k st
      | FUnlock s o => LOk (w_alter_sig w s (sg_set_lock None)) (FRet o :: st)
      (* 1833-1836 and 1848 *)
      | FErase s v tgt i n xs0 =>
          match vec_of w v !! i with
          | None => LOk (w_add_log w (EErase t s tgt xs0 (vec_of w v) n)) (FUnlock s (OutNat n) :: st)
          | Some l =>
              match w_slots w !! l with
              | Some r => LOk w (FProg (slot_eq e (Some (im_c (sl_impl r))) tgt)
                                 :: FEraseCmp s v tgt i n xs0 :: st)
              | None => LUB UClient
              end
          end
      | FSlot r g args pin eid start => step_slot e w t r g args pin eid start st
      | _ => LUB UClient
      end
  end.

(** ** Destruction of slots and tracked objects *)

(** The slot objects and tracked objects that are owned before the step and not
    after it; they are destroyed by the stepping thread, and the destructors of
    the functors inside the slots (line 801 and the like) and those of the tracked
    objects (where the last shared_ptr goes: a variable of the client, or [sp] at the
    end of a tracked call, 965-980 and 1026-1040) run at once, on top of everything
    else the thread is doing.  Copies of functors other than the one stored in a
    connected slot have no destructor program here.  Those that the library destroys, the
    temporary slot of signal::disconnect(f) (1764, 1776) and the slot of a connect that
    throws (1691, 1703, 1716), go after the mutex is released and after everything else the call does:
    a client whose program runs the destructor's code next after the call has the same runs. *)
Definition dead_slots (w w' : world) : list lid :=
  filter (fun l => slot_alive w l && negb (slot_alive w' l)) (seq 0 (length (w_slots w))).
Definition dead_objs (w w' : world) : list oid :=
  filter (fun o => obj_alive w o && negb (obj_alive w' o)) (seq 0 (length (v_objs (w_vars w)))).
Definition dead (w w' : world) : list (lid + oid) := map inr (dead_objs w w') ++ map inl (dead_slots w w').
Definition dtor_prog (e : env) (w : world) (x : lid + oid) : option prog :=
  match x with
  | inl l => match w_slots w !! l with
             | Some r => e_dtor e (im_c (sl_impl r))
             | None => None
             end
  | inr o => e_odtor e o
  end.
Definition dtor_frames (e : env) (w : world) (x : lid + oid) : list frame :=
  match dtor_prog e w x with Some p => [FProg p; FDtor x] | None => [] end.

Definition w_set_stack (w : world) (t : tid) (st : list frame) : world :=
  w_set_thr w (<[t := st]> (w_thr w)).
Definition w_add_events (w : world) (es : list event) : world :=
  World (w_sigs w) (w_vecs w) (w_slots w) (w_vars w) (w_neid w) (es ++ w_log w) (w_thr w).

Definition reap (e : env) (w w' : world) (t : tid) (st : list frame) : world :=
  let w1 := w_set_stack w' t st in
  let ds := dead_slots w w1 in
  let os := dead_objs w w1 in
  w_add_events (w_set_stack w' t (flat_map (dtor_frames e w1) (dead w w1) ++ st))
               (map EObjDead os ++ map ESlotDead ds).

(** ** The machine *)

Inductive sres :=
| SOk (w : world)
| SBlocked
| SDone
| SUB (u : ubkind).

Definition step (e : env) (w : world) (t : tid) (fail : mem) : sres :=
  match w_thr w !! t with
  | None => SDone
  | Some st =>
      match lstep e w t fail st with
      | LOk w' st' => SOk (reap e w w' t st')
      | LBlocked => SBlocked
      | LDone => SDone
      | LUB u => SUB u
      end
  end.

(** Threads start with their main programs, nothing else exists. *)
Definition init (ps : list prog) : world :=
  World [] [] [] (Vars [] [] [] [] []) 0 [] (map (fun p => [FProg p]) ps).

(** A schedule names, for each step, the thread and what happens to the allocations
    it makes, if any.  A step of a blocked or finished thread changes nothing. *)
Definition sched := list (nat * mem).
Fixpoint run (e : env) (w : world) (sc : sched) : world + ubkind :=
  match sc with
  | [] => inl w
  | (t, f) :: sc =>
      match step e w t f with
      | SOk w' => run e w' sc
      | SBlocked | SDone => run e w sc
      | SUB u => inr u
      end
  end.

(** [reachable e ps w]: some interleaving of the programs [ps] leads to [w]. *)
Definition reachable (e : env) (ps : list prog) (w : world) : Prop :=
  exists sc, run e (init ps) sc = inl w.
(** [goes_ub e ps u]: some interleaving runs into undefined behaviour [u]. *)
Definition goes_ub (e : env) (ps : list prog) (u : ubkind) : Prop :=
  exists sc, run e (init ps) sc = inr u.
