(** * The life of a slot object

    The second part of the actions of a run (the first is in Access.v): when a
    slot object, with the client's functor inside, is made, used and destroyed.
    The shared_ptrs to a slot are the elements of the vectors of slots (1651)
    and the temporaries of connection and connection_blocker (1500, 1506, 1512,
    1518, 1526, 1455, 1463); the connections themselves only hold weak_ptrs
    (1415, 1469, 1552). *)
From Verif Require Export Access.

(** The slot whose weak_ptr this step locks successfully. *)
Definition locked (w : world) (t : tid) (v : vop) : option lid :=
  match exec_vop w t v with
  | VOk _ _ (EfBlk l _) => Some l
  | VOk _ _ (EfLog ev) => match held w ev with [FTmp l] => Some l | _ => None end
  | VDo _ l _ => if slot_alive w l then Some l else None
  | _ => None
  end.

(** The slot that is last in the list is written to when it changes its place: 1817, 1839. *)
Definition last_slot (w : world) (v : vid) : list act :=
  match last (vec_of w v) with Some l => [Rd (LSlot l)] | None => [] end.
Definition nth_slot (w : world) (v : vid) (i : nat) : list act :=
  match vec_of w v !! i with Some l => [Rd (LSlot l)] | None => [] end.

(** What a step does to slot objects.  A call of the slot uses the object from
    the test of its flags until the functor returns (1381-1389);
    slot::disconnect and remove_slot use it (1352-1361, 1811), and so do the
    comparisons of erase (1836) and the members of the handles.  Atomic fields
    are fields all the same: the object must exist.

    Simplification: connect makes the object before it locks the mutex (1691);
    here that is put where the object is added to the vector.  The thread that
    connects may hand the connection to other threads, which is the client's
    synchronisation: [Rel (YHand l)] is what that thread has done before it can
    do so, [Acq (YHand l)] is what a thread has done that uses the connection. *)
Definition slot_uses (w : world) (t : tid) (st : list frame) (w' : world) : list act :=
  match st with
  | FProg (Do (OVar v) _) :: _ =>
      match locked w t v with Some l => [Acq (YHand l); Pin l; Rd (LSlot l)] | None => [] end
  | FSlot (RSlot l) _ _ _ _ _ :: _ => [Rd (LSlot l)]
  | FDisc l :: _ => [Rd (LSlot l)]
  | FBody s v (KAdd _) :: _ =>
      if Nat.ltb (length (w_slots w)) (length (w_slots w'))
      then [Wr (LSlot (length (w_slots w))); Rel (YHand (length (w_slots w)))] else []
  | FBody s v (KRem l) :: _ =>
      Rd (LSlot l) ::
      match w_slots w !! l with
      | Some r => match vec_of w v !! im_idx (sl_impl r) with Some _ => last_slot w v | None => [] end
      | None => []
      end
  | FErase s v _ i _ _ :: _ => nth_slot w v i
  | FRet o :: f :: _ =>
      match f with
      | FSlot (RSlot l) _ _ _ _ _ => [Rd (LSlot l)]
      | FEraseCmp s v _ i _ _ => nth_slot w v i ++ match o with OutBool true => last_slot w v | _ => [] end
      | FMkConn _ => match o with OutId l => [Rel (YHand l)] | _ => [] end
      | _ => []
      end
  | _ => []
  end.

(** The thread gives up a share of slot [l]: one of its temporaries goes, or the
    slot leaves a vector (1818, 1840), or a vector that contains it is destroyed. *)
Definition tmps (l : lid) (st : list frame) : nat := length (filter (fun f => frame_pins l f) st).
Definition in_vec (w : world) (l : lid) (v : vid) : bool := owned w v && bool_decide (l ∈ vec_of w v).
Definition gives_up_slot (w : world) (t : tid) (st : list frame) (w' : world) (l : lid) : bool :=
  Nat.ltb (tmps l (default [] (w_thr w' !! t))) (tmps l st) ||
  existsb (fun v => in_vec w l v && negb (in_vec w' l v)) (seq 0 (length (w_vecs w))).

(** The count goes down by an acquire-release operation; the last owner destroys
    the object. *)
Definition drop_slot (w : world) (t : tid) (st : list frame) (w' : world) (l : lid) : list act :=
  if gives_up_slot w t st w' l
  then [Acq (YSlot l); Rel (YSlot l)] ++ (if slot_alive w' l then [] else [Wr (LSlot l)])
  else [].
Definition slot_drops (w : world) (t : tid) (st : list frame) (w' : world) : list act :=
  flat_map (drop_slot w t st w') (seq 0 (length (w_slots w))).

(** A run with all its actions, those of Access.v and these. *)
Definition all_acts (w : world) (t : tid) (st : list frame) (w' : world) : list act :=
  slot_uses w t st w' ++ acts w t st w' ++ slot_drops w t st w'.
Inductive lived (e : env) (ps : list prog) : world -> list (tid * act) -> Prop :=
| L_init : lived e ps (init ps) []
| L_step w tr t fail st w' :
    lived e ps w tr -> w_thr w !! t = Some st -> step e w t fail = SOk w' ->
    lived e ps w' (tr ++ ((fun a => (t, a)) <$> all_acts w t st w')).
