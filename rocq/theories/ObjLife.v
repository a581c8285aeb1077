(** * The life of a tracked object

    The third part of the actions of a run (the others are in Access.v and
    Lifetime.v): when an object that slots track is made, used by calls of its
    member functions, and destroyed.  The shared_ptrs to the object are the
    client's own one and [sp], which a call of a tracked slot gets from the
    weak_ptr and keeps until it ends (967-980, 1028-1040); the slots themselves
    only hold weak_ptrs (983, 1043). *)
From Verif Require Export Lifetime.

(** The object a slot with this content tracks: the constructor takes a
    weak_ptr to it (939, 1000). *)
Definition tracked (i : impl) : option oid :=
  match c_kind (im_c i) with KTracked => Some (c_pv (im_c i)) | _ => None end.

(** A call of the member function (976, 1036) may use the object from when it is called until it
    has returned: every step the thread does meanwhile counts as a use. *)
Definition frame_uses (f : frame) : list act :=
  match f with
  | FSlot _ SCall _ (Some o) _ _ | FSlot _ SRun _ (Some o) _ _ => [Rd (LObj o)]
  | _ => []
  end.

(** What a step does to tracked objects, but for giving them up.  The thread
    that makes an object may hand it to other threads, which is the client's
    synchronisation: [Rel (YGive o)] is what that thread has done before it can
    do so.  [Acq (YGive o)] is what a thread has done that gets hold of it from
    the client: to reset the shared_ptr, to connect a slot that tracks it
    (the functor it passes contains the weak_ptr), or to call a slot object of the
    client's own.  A thread that finds the object through the list of a
    signal gets no such help.  Simplification: the object is made whole by the
    step in which the client creates the shared_ptr. *)
Definition client_uses (w : world) (st : list frame) (w' : world) : list act :=
  match st with
  | FProg (Do (OVar VNewObj) _) :: _ =>
      let n := length (v_objs (w_vars w)) in
      if Nat.ltb n (length (v_objs (w_vars w'))) then [Wr (LObj n); Rel (YGive n)] else []
  | FProg (Do (OVar (VResetObj o)) _) :: _ => [Acq (YGive o)]
  | FBody _ _ (KAdd i) :: _ => match tracked i with Some o => [Acq (YGive o)] | None => [] end
  | FSlot (RUser u) SDisp _ _ _ _ :: _ =>
      match get_ref w (RUser u) with
      | Some i => match tracked i with Some o => [Acq (YGive o)] | None => [] end
      | None => []
      end
  | _ => []
  end.
Definition obj_uses (w : world) (st : list frame) (w' : world) : list act :=
  client_uses w st w' ++ flat_map frame_uses st.

(** The thread gives up a share of object [o]: one of its calls gives up [sp],
    or the client resets its shared_ptr. *)
Definition pins (o : oid) (st : list frame) : nat := length (filter (fun f => frame_pins_obj o f) st).
Definition client_holds (w : world) (o : oid) : bool := default false (v_objs (w_vars w) !! o).
Definition gives_up_obj (w : world) (t : tid) (st : list frame) (w' : world) (o : oid) : bool :=
  Nat.ltb (pins o (default [] (w_thr w' !! t))) (pins o st) || client_holds w o && negb (client_holds w' o).

(** The count goes down by an acquire-release operation; the last owner destroys
    the object.  Getting [sp] from the weak_ptr (967, 1028) is relaxed and so no action. *)
Definition drop_obj (w : world) (t : tid) (st : list frame) (w' : world) (o : oid) : list act :=
  if gives_up_obj w t st w' o
  then [Acq (YObj o); Rel (YObj o)] ++ (if obj_alive w' o then [] else [Wr (LObj o)])
  else [].
Definition obj_drops (w : world) (t : tid) (st : list frame) (w' : world) : list act :=
  flat_map (drop_obj w t st w') (seq 0 (length (v_objs (w_vars w)))).

(** A run with all its actions, those of Access.v, Lifetime.v and these. *)
Definition full_acts (w : world) (t : tid) (st : list frame) (w' : world) : list act :=
  obj_uses w st w' ++ all_acts w t st w' ++ obj_drops w t st w'.
Inductive tracked_run (e : env) (ps : list prog) : world -> list (tid * act) -> Prop :=
| K_init : tracked_run e ps (init ps) []
| K_step w tr t fail st w' :
    tracked_run e ps w tr -> w_thr w !! t = Some st -> step e w t fail = SOk w' ->
    tracked_run e ps w' (tr ++ ((fun a => (t, a)) <$> full_acts w t st w')).
