(** * Vocabulary of the signal/slot/connection model

    Identifiers, values, user callables, the API operations a client program can
    perform, client programs, and the events an execution leaves behind.
    Source citations are to /repo/signals.hpp unless another file is named. *)
From stdpp Require Export base list numbers list_numbers sets.
From Coq Require Export ZArith.

Global Set Default Goal Selector "!".

(** Object identities.  All heaps are append-only lists, an identity is a
    position.  Deallocation is not reuse of an identity: liveness is computed
    from the owners (see [slot_alive] in Machine.v). *)
Notation sid := nat (only parsing).    (* a sig::signal object *)
Notation lid := nat (only parsing).    (* a sig::slot object owned by a signal's vector *)
Notation vid := nat (only parsing).    (* a std::vector<shared_ptr<slot>> inside a cow_ptr *)
Notation oid := nat (only parsing).    (* an object tracked through a weak_ptr *)
Notation tid := nat (only parsing).    (* a thread *)
Notation cid := nat (only parsing).    (* a client variable of type connection / scoped_connection *)
Notation bid := nat (only parsing).    (* a client variable of type connection_blocker *)
Notation uid := nat (only parsing).    (* a client variable of type slot<R(Args...)> *)

(** Exceptions.  [NotComparable] is sig::not_comparable_exception (lines 33-36),
    [BadAlloc] is std::bad_alloc out of an allocation, [UserExn] anything thrown
    by a user callable, operator== or combiner. *)
Inductive exn := NotComparable | BadAlloc | UserExn (n : nat).

(** One argument of an emission.  Lines 1780-1784 store the arguments in a
    std::tuple<Args...>: an argument whose type is not a reference is a value
    inside the tuple ([AVal]), an lvalue-reference argument is an alias of a
    client location ([ARef]). Simplification: every value is an integer. *)
Inductive arg := AVal (z : Z) | ARef (loc : nat).

(** Results of API calls and of user code. *)
Inductive out :=
| OutUnit
| OutBool (b : bool)
| OutNat (n : nat)                     (* size_t results: signal::disconnect *)
| OutId (n : nat)                      (* a new client variable *)
| OutZ (z : Z)                         (* the plain value a callable returns *)
| OutOpt (o : option Z)                (* opt::optional<R> *)
| OutList (l : list Z)                 (* result of the aggregate_values combiner *)
| OutExn (e : exn)                     (* the call threw *)
| OutCall (r : out) (args : list arg). (* result of a slot call, and what is left in the
                                          argument tuple after it *)

(** A template argument [Func] or [Ptr] as deduced by a forwarding reference
    (lines 1262-1281, 1701, 1714): the decayed type plus the value category that
    reference collapsing keeps in it.  slot_func<R, F, ...>, slot_func<R, F&, ...>
    and slot_func<R, const F&, ...> are three different classes. *)
Inductive vcat := CatR | CatL | CatCL.
Record ftype := FType { ft_base : nat; ft_cat : vcat }.

(** Which slot_impl subclass holds the callable: slot_func (lines 767-839),
    slot_pmf (841-925) or slot_pmf_tracked (927-1045).  The last is chosen when
    the second argument is convertible to a weak pointer (1268-1281). *)
Inductive ckind := KFunc | KPmf | KTracked.

(** The callable inside a slot: its function type and value (m_Func), and for
    pmf slots the pointer type and value (m_Ptr).  For a tracked slot the pointer
    value is the identity of the tracked object.  Simplification: what operator==
    looks at ([c_fv], [c_pv]) is not changed by calling the callable; state that
    a call does change is kept apart, in [im_st] below. *)
Record callable := Callable {
  c_kind : ckind;
  c_fty : ftype;
  c_fv : nat;
  c_pty : ftype;
  c_pv : nat }.

(** slot_state (lines 677-754) together with the callable of the derived
    slot_impl class: m_Index, m_Connected, m_Blocked.  [im_st] is the mutable
    state of the stored copy of the functor (e.g. tests/signal_tests.cpp
    make_increasing_int). *)
Record impl := Impl {
  im_c : callable;
  im_idx : nat;
  im_conn : bool;
  im_blk : bool;
  im_st : Z }.

(** A freshly constructed slot_impl: lines 680-684. *)
Definition new_impl (c : callable) : impl := Impl c 0 true false 0.

(** The slot object an invocation runs on: one owned by a signal, or a client's
    own slot<R(Args...)> variable. *)
Inductive slotref := RSlot (l : lid) | RUser (u : uid).

(** What signal::connect is given: a callable (lines 1697-1720) or an existing
    slot variable (1688-1695). *)
Inductive csrc := SrcFn (c : callable) | SrcSlot (u : uid).

(** Operations on client-side variables: connections, scoped connections,
    blockers, slot variables, tracked objects, integer locations.  Apart from a
    disconnect they complete in one step. *)
Inductive vop :=
(* class connection, lines 1480-1558; class scoped_connection, 1564-1613 *)
| VNewConn (scoped : bool)                 (* default constructor *)
| VCopyConn (c : cid) (scoped : bool)      (* construct from a const connection& *)
| VMoveConn (c : cid) (scoped : bool)      (* construct from an rvalue *)
| VAssignCopy (d s : cid)                  (* d = s *)
| VAssignMove (d s : cid)                  (* d = std::move(s) *)
| VSwap (c d : cid)
| VDestroyConn (c : cid)                   (* destructor *)
| VValid (c : cid)
| VConnected (c : cid)
| VBlocked (c : cid)
| VBlock (c : cid)
| VUnblock (c : cid)
| VDisc (c : cid)                          (* connection::disconnect *)
| VRelease (c : cid)                       (* scoped_connection::release *)
(* class connection_blocker, lines 1420-1475 *)
| VBlocker (c : cid)                       (* connection::blocker *)
| VBNew
| VBMove (b : bid)
| VBAssign (d s : bid)
| VBSwap (b b' : bid)
| VBDestroy (b : bid)
(* objects whose lifetime slots can track *)
| VNewObj                                  (* make_shared *)
| VResetObj (o : oid)                      (* the client drops its last shared_ptr *)
(* client integers passed by reference *)
| VNewLoc (z : Z)
| VRead (a : nat)
| VWrite (a : nat) (z : Z)
(* class slot, lines 1249-1409, as a client variable *)
| VSlotNew (c : callable)
| VSlotEmpty
| VSlotCopy (u : uid)                      (* from a const slot& *)
| VSlotMove (u : uid)
| VSlotAssignMove (d s : uid)
| VSlotDestroy (u : uid)
| VSlotBool (u : uid)
| VSlotConnected (u : uid)
| VSlotBlocked (u : uid)
| VSlotBlock (u : uid)
| VSlotUnblock (u : uid)
| VSlotDisc (u : uid).

(** All API operations. *)
Inductive op :=
| OVar (v : vop)
| ONewSignal (comb : option nat)           (* signal(); None = optional_last_value *)
| ODestroySignal (s : sid)                 (* ~signal() *)
| OMoveSignal (s : sid)                    (* signal(signal&&) *)
| OMoveAssignSignal (d s : sid)            (* operator=(signal&&) *)
| OConnect (s : sid) (src : csrc) (scoped : bool)   (* connect / connect_scoped *)
| OErase (s : sid) (src : csrc)            (* signal::disconnect(f) / (f, p) / (slot) *)
| OEmit (s : sid) (args : list arg)        (* signal::operator() *)
| OSlotCall (u : uid) (args : list arg)    (* slot::operator() on a client slot *)
| OSlotEq (u1 u2 : uid)                    (* operator==(slot, slot) *)
| OSelfGet (r : slotref)                   (* a functor reads its own state *)
| OSelfSet (r : slotref) (z : Z)           (* a functor changes its own state *)
| ODeref (pos : nat).                      (* a combiner dereferences the slot_iterator
                                              that is [pos] increments past begin() *)

(** Client code: the main program of a thread, the body of a callable, a user
    operator==, a destructor, a combiner.  A program is a tree: after each API
    call it continues in any way that depends on what the call returned,
    exceptions included.  All theorems quantify over all programs. *)
Inductive prog :=
| Ret (o : out)
| Do (o : op) (k : out -> prog).

(** Everything about the client that is not a thread's main program. *)
Record env := EnvOf {
  e_void : bool;                                 (* is R void? *)
  e_cmp : nat -> bool;                           (* is_equality_comparable<decayed type>, 121-142 *)
  e_eq : nat -> nat -> nat -> prog;              (* operator== of a decayed type *)
  e_body : slotref -> callable -> list arg -> prog;  (* calling a callable *)
  e_consumes : callable -> nat -> bool;          (* does it move from its i-th (rvalue) argument? *)
  e_moved : Z -> Z;                              (* what a moved-from argument holds *)
  e_dtor : callable -> option prog;              (* non-trivial destructor of the functor *)
  e_comb : nat -> nat -> prog;                   (* user combiners, given the number of slots *)
  e_odtor : nat -> option prog                   (* destructor of a tracked object, if it does anything *)
}.
(** A client whose tracked objects have trivial destructors. *)
Notation Env v c q b cs m d k := (EnvOf v c q b cs m d k (fun _ => None)).

(** What an execution leaves behind; newest first in the log. [t] is the thread. *)
Inductive event :=
| ENewSig (s : sid) (c : option nat)       (* signal s, with combiner c *)
| EMoveSig (s s2 : sid)                    (* s2 constructed from std::move(s) *)
| EDestroySig (s : sid)
| EConn (t : tid) (s : sid) (l : lid) (i : impl)
    (* slot l, with state i, was appended to s *)
| EHandle (t : tid) (l : lid) (c : cid)    (* connect returned c, a handle of slot l *)
| ERem (t : tid) (s : sid) (l l' : lid)
    (* disconnecting l through a handle took slot l' out of the list of s *)
| ERemMiss (t : tid) (s : sid) (l : lid)   (* ... took nothing out *)
| EErased (t : tid) (s : sid) (l : lid)    (* signal::disconnect took l out of s *)
| EErase (t : tid) (s : sid) (tgt : option callable) (xs0 xs1 : list lid) (n : nat)
    (* signal::disconnect on s found the list xs0, left xs1, returned n *)
| EEraseExn (t : tid) (s : sid) (tgt : option callable) (xs0 xs1 : list lid) (x : exn)
    (* signal::disconnect on s found xs0, left xs1, threw *)
| EFlag (l : lid)                          (* slot l changed from connected to disconnected *)
| EBlk (l : lid) (b : bool)                (* slot l was blocked (true) / unblocked (false) *)
| EDisc (t : tid) (l : lid) (b : bool)     (* disconnect through a handle of l returned b *)
| EConnd (t : tid) (l : lid) (b : bool)    (* connected() on a handle of l returned b *)
| EBlkd (t : tid) (l : lid) (b : bool)     (* blocked() on a handle of l returned b *)
| EValid (t : tid) (l : lid) (b : bool)    (* valid() on a handle of l returned b *)
| EScoped (t : tid) (l : lid)
    (* the destructor of a scoped_connection that referred to l, or a move assignment
       over it, finished *)
| EEmit (t : tid) (eid : nat) (s : sid) (args : list arg) (xs : list lid)
    (* emission eid of s began; xs is the list it copied *)
| EDeref (t : tid) (eid : nat) (pos : nat) (l : lid) (r : out)
    (* its combiner dereferenced position pos: slot l, result r *)
| EEmitRet (t : tid) (eid : nat) (o : out) (* emission eid returned o *)
| ECall (t : tid) (r : slotref) (eid : option nat) (c : callable) (args : list arg) (start : nat)
    (* callable c, the one in slot r, was called with args; [start] is the length of the
       log when slot::operator() was entered *)
| ERet (t : tid) (r : slotref) (eid : option nat) (o : out)
| ESkip (t : tid) (r : slotref) (eid : option nat) (start : nat)
    (* slot::operator() returned a disengaged optional without calling the callable *)
| EGet (t : tid) (r : slotref) (z : Z)     (* the functor in r read its state: z *)
| ESet (t : tid) (r : slotref) (z : Z)     (* the functor in r set its state to z *)
| ENewObj (o : oid)
| EReset (o : oid)                         (* the client dropped its last shared_ptr to o *)
| ESlotDead (l : lid)                      (* the slot object was destroyed *)
| EObjDead (o : oid).                      (* the tracked object was destroyed *)
