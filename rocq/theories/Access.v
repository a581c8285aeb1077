(** * Which memory the steps touch, and how they synchronise

    The machine runs its steps one after another.  Real threads overlap, and the
    C++ memory model calls the program undefined when two threads touch the same
    object, one of them writing, and neither access happens before the other.
    This file says, for every step of the machine, which of the non-atomic
    objects of signals.hpp the step reads and writes, and on which mutexes and
    atomic objects it synchronises.  Nothing of the machine is changed.

    Covered: [m_Slots] of a signal (line 1865, the pointer inside the cow_ptr,
    657), the vector of slots it points at (1651), and [m_Index] of a slot (751).
    Lifetime.v adds the life of the slot objects, ObjLife.v that of tracked objects.
    Not covered: the client's other objects, and the fields that never change after construction. *)
From Verif Require Export Machine.

(** The memory locations. *)
Inductive loc :=
| LPtr (s : sid)   (* m_Slots.m_Ptr of signal s: 657, 1865 *)
| LVec (v : vid)   (* the vector and its elements: 1651 *)
| LIdx (l : lid)   (* m_Index of slot l: 751 *)
| LSlot (l : lid)  (* the object of slot l, with the functor in it: 1407; see Lifetime.v *)
| LObj (o : oid).  (* the tracked object o: 983, 1043; see ObjLife.v *)

(** The objects threads synchronise on. *)
Inductive sobj :=
| YLock (s : sid)   (* m_SlotMutex: 1864 *)
| YCount (v : vid)  (* the reference count of the vector's shared_ptr: 657 *)
| YConn (l : lid)   (* m_Connected of slot l: 752 *)
| YBlk (l : lid)    (* m_Blocked of slot l: 753 *)
| YSig (s : sid)    (* m_Blocked of signal s: 1866 *)
| YSlot (l : lid)   (* the reference count of the slot's shared_ptr: 1651, see Lifetime.v *)
| YHand (l : lid)   (* what the client does to hand a connection to other threads *)
| YObj (o : oid)    (* the reference count of the object's shared_ptr, see ObjLife.v *)
| YGive (o : oid).  (* what the client does to hand the object to other threads *)

(** [Use v] is the load that [use_count()] performs in [detach] (649).  The
    standard says that use_count() does not synchronise, and the common
    implementations make it a relaxed load.  [Pin l] is a successful [lock()] of
    a weak_ptr to slot [l] (1500, 1506, 1512, 1518, 1526, 1455, 1463). *)
Inductive act :=
| Acq (o : sobj)
| Rel (o : sobj)
| Use (v : vid)
| Pin (l : lid)
| Rd (l : loc)
| Wr (l : loc).

(** A shared_ptr to vector [v] is released: the count goes down by an
    acquire-release operation, and the last owner destroys the vector. *)
Definition drop_vec (w : world) (v : vid) : list act :=
  [Acq (YCount v); Rel (YCount v)] ++ (if Nat.leb (use_count w v) 1 then [Wr (LVec v)] else []).

(** slots[i]->index() = i after the swap writes to the slot that was last:
    1817, 1839. *)
Definition moved_slot (w : world) (v : vid) : list act :=
  match last (vec_of w v) with Some l => [Wr (LIdx l)] | None => [] end.

(** With the mutex held: 1671-1674, 1860-1861 and 621-625 with 647-655.  The
    machine starts the combiner in the step that copies m_Slots; the iterators
    are made from the copy after the mutex was released (1788-1789). *)
Definition write_acts (w : world) (s : sid) (k : crit) (w' : world) : list act :=
  match k with
  | KMove => [Wr (LPtr s); Wr (LPtr (length (w_sigs w))); Rel (YLock (length (w_sigs w)))]
  | _ =>
      match w_sigs w !! s with
      | Some r =>
          match sg_vec r with
          | Some v =>
              match k with
              | KRead _ => [Rd (LPtr s); Rel (YLock s); Rd (LVec v)]
              | _ =>
                  [Rd (LPtr s); Use v] ++
                  (if Nat.ltb (length (w_vecs w)) (length (w_vecs w'))
                   then [Rd (LVec v); Wr (LVec (length (w_vecs w))); Wr (LPtr s)] ++ drop_vec w v
                   else if Nat.ltb 1 (use_count w v) then [Rd (LVec v)] else [])
              end
          | None => []
          end
      | None => []
      end
  end.

(** With the mutex held and the vector unshared: 1803-1804 (a push_back that
    fails only reads), 1813-1819, 1829-1842. *)
Definition body_acts (w : world) (v : vid) (k : crit) (w' : world) : list act :=
  match k with
  | KAdd _ => if Nat.ltb (length (w_slots w)) (length (w_slots w'))
              then [Rd (LVec v); Wr (LIdx (length (w_slots w))); Wr (LVec v)] else [Rd (LVec v)]
  | KRem l =>
      [Rd (LIdx l); Rd (LVec v)] ++
      match w_slots w !! l with
      | Some r => match vec_of w v !! im_idx (sl_impl r) with
                  | Some _ => moved_slot w v ++ [Wr (LVec v)]
                  | None => []
                  end
      | None => []
      end
  | KErase _ => [Rd (LVec v)]
  | _ => []
  end.

(** The flags of slots and signals are atomic; reading one acquires, writing one
    releases, exchange does both: 690-691, 722-742, 1782. *)
Definition slot_acts (r : slotref) (g : stage) : list act :=
  match r with
  | RSlot l =>
      match g with
      | SBlk => [Acq (YBlk l)]
      | SConn | SPin => [Acq (YConn l)]
      | SDead => [Acq (YConn l); Rel (YConn l)]
      | _ => []
      end
  | RUser _ => []
  end.
Definition vop_acts (w : world) (t : tid) (v : vop) : list act :=
  match exec_vop w t v with
  | VOk _ _ (EfBlk l _) => [Rel (YBlk l)]
  | VOk _ _ (EfLog (EConnd _ l _)) => [Acq (YConn l)]
  | VOk _ _ (EfLog (EBlkd _ l _)) => [Acq (YBlk l)]
  | _ => []
  end.

(** What thread [t] with stack [st] does in the step from [w] to [w'].

    Two actions stand for what the client must do: who makes a signal and hands
    it to other threads publishes it ([Rel] after the constructor), and who
    destroys a signal waits until the other threads are done with it ([Acq]
    before the destructor). *)
Definition acts (w : world) (t : tid) (st : list frame) (w' : world) : list act :=
  match st with
  | FLock s _ :: _ => [Acq (YLock s)]
  | FUnlock s _ :: _ => [Rel (YLock s)]
  | FWrite s k :: _ => write_acts w s k w'
  | FBody s v k :: _ => body_acts w v k w'
  | FErase s v _ _ _ _ :: _ => [Rd (LVec v)]
  | FRet o :: f :: _ =>
      match f with
      | FEraseCmp s v _ _ _ _ => match o with OutBool true => moved_slot w v ++ [Wr (LVec v)] | _ => [] end
      | FEmit s eid v _ => drop_vec w v
      | _ => []
      end
  | FProg (Do (ODeref _) _) :: f :: _ => match f with FEmit s eid v _ => [Rd (LVec v)] | _ => [] end
  | FProg (Do (ONewSignal _) _) :: _ =>
      if Nat.ltb (length (w_sigs w)) (length (w_sigs w'))
      then [Wr (LVec (length (w_vecs w))); Wr (LPtr (length (w_sigs w))); Rel (YLock (length (w_sigs w)))]
      else []
  | FProg (Do (ODestroySignal s) _) :: _ =>
      match w_sigs w !! s with
      | Some r => [Acq (YLock s); Wr (LPtr s)] ++ match sg_vec r with Some v => drop_vec w v | None => [] end
      | None => []
      end
  | FProg (Do (OEmit s _) _) :: _ => [Acq (YSig s)]
  | FProg (Do (OVar v) _) :: _ => vop_acts w t v
  | FSlot r g _ _ _ _ :: _ => slot_acts r g
  | FDisc l :: _ => [Acq (YConn l); Rel (YConn l)]
  | _ => []
  end.

(** A run together with everything its steps did, oldest first. *)
Inductive traced (e : env) (ps : list prog) : world -> list (tid * act) -> Prop :=
| R_init : traced e ps (init ps) []
| R_step w tr t fail st w' :
    traced e ps w tr -> w_thr w !! t = Some st -> step e w t fail = SOk w' ->
    traced e ps w' (tr ++ ((fun a => (t, a)) <$> acts w t st w')).
