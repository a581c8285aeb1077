(** * Happens-before, with the life of tracked objects *)
From Verif Require Export SpecLife ObjLife.

(** As [sw_life], with the counts of the shared_ptrs to tracked objects and what
    the client does when it hands objects to other threads. *)
Inductive sw_obj : act -> act -> Prop :=
| SO_life a b : sw_life a b -> sw_obj a b
| SO_obj o : sw_obj (Rel (YObj o)) (Acq (YObj o))
| SO_give o : sw_obj (Rel (YGive o)) (Acq (YGive o)).

(** No slot that tracks [o] was connected before [o] was made: the client can only
    make such a slot from a pointer to the object. *)
Definition made_before_connected (log : list event) (o : oid) : Prop :=
  log_all (fun ev pre => match ev with
    | EConn _ _ _ i => c_kind (im_c i) = KTracked -> c_pv (im_c i) = o -> ENewObj o ∈ pre
    | _ => True
    end) log.

(** The life of object [o]: action [m] makes it before anything else is done with
    it; when it is gone, action [d] destroyed it after everything else. *)
Definition one_object_life (log : list event) (tr : list (tid * act)) (o : oid) : Prop :=
  exists m, accesses tr m (LObj o) true /\ (forall i b, accesses tr i (LObj o) b -> m <= i) /\
    if spec_obj log o then forall i, accesses tr i (LObj o) true -> i = m
    else exists d, m < d /\ accesses tr d (LObj o) true /\ (forall i b, accesses tr i (LObj o) b -> i <= d) /\
           forall i, accesses tr i (LObj o) true -> i = m \/ i = d.
