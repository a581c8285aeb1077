(** * Happens-before, with the life of slot objects *)
From Verif Require Export SpecRace Lifetime Spec.

(** As [sw_lib], with the counts of the shared_ptrs to slots and what the client
    does when it hands connections to other threads. *)
Inductive sw_life : act -> act -> Prop :=
| SL_lib a b : sw_lib a b -> sw_life a b
| SL_slot l : sw_life (Rel (YSlot l)) (Acq (YSlot l))
| SL_hand l : sw_life (Rel (YHand l)) (Acq (YHand l)).

(** The same if use_count() were an acquire operation. *)
Inductive sw_life_use : act -> act -> Prop :=
| LU_life a b : sw_life a b -> sw_life_use a b
| LU_use v : sw_life_use (Rel (YCount v)) (Use v).

(** At most this much synchronisation is there in the code: all of [sw_all], and
    locking a weak_ptr as a full read-modify-write of the count. *)
Inductive sw_life_all : act -> act -> Prop :=
| LA_all a b : sw_all a b -> sw_life_all a b
| LA_in l : sw_life_all (Rel (YSlot l)) (Pin l)
| LA_out l : sw_life_all (Pin l) (Acq (YSlot l))
| LA_pin l : sw_life_all (Pin l) (Pin l).

(** Slot [l] was taken out of a list: by slot::disconnect or by erase. *)
Definition taken_out (log : list event) (l : lid) : Prop :=
  (exists t s l0, ERem t s l0 l ∈ log) \/ (exists t s, EErased t s l ∈ log).

(** The life of slot [l]: action [m] makes the object before anything else is done
    with it; when the slot is gone, action [d] destroyed it after everything else. *)
Definition one_life (log : list event) (tr : list (tid * act)) (l : lid) : Prop :=
  exists m, accesses tr m (LSlot l) true /\ (forall i b, accesses tr i (LSlot l) b -> m <= i) /\
    if spec_alive log l then forall i, accesses tr i (LSlot l) true -> i = m
    else exists d, m < d /\ accesses tr d (LSlot l) true /\ (forall i b, accesses tr i (LSlot l) b -> i <= d) /\
           forall i, accesses tr i (LSlot l) true -> i = m \/ i = d.
