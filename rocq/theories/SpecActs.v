(** * The actions that go with the events of the log *)
From Verif Require Export SpecObjLife.

(** What must be among the actions of the step that logs an event, when [log] is the log
    before the step.  On slot objects: a call of a slot uses the object when it tests the
    flags, when it calls the functor and when the functor returns; so do disconnect and
    remove_slot, comparisons that lead to the removal of the slot, and the members of
    connections that find the slot alive. *)
Definition slot_acts (log : list event) (ev : event) : list act :=
  match ev with
  | ECall _ (RSlot l) _ _ _ _ | ERet _ (RSlot l) _ _ | ESkip _ (RSlot l) _ _ => [Rd (LSlot l)]
  | EBlk l _ | EFlag l | ERem _ _ l _ | ERemMiss _ _ l | EErased _ _ l => [Rd (LSlot l)]
  | EConnd _ l _ | EBlkd _ l _ => if spec_alive log l then [Rd (LSlot l)] else []
  | EConn _ _ l _ | ESlotDead l => [Wr (LSlot l)]
  | _ => []
  end.

(** On tracked objects: calls use the object when the member function is called and when
    it returns. *)
Definition object_acts (log : list event) (ev : event) : list act :=
  match ev with
  | ENewObj o | EObjDead o => [Wr (LObj o)]
  | ECall _ (RSlot l) _ _ _ _ | ERet _ (RSlot l) _ _ =>
      match spec_tracks log l with Some o => [Rd (LObj o)] | None => [] end
  | _ => []
  end.
