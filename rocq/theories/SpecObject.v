(** * Specification: destructors of tracked objects *)
From Verif Require Export SpecState SpecUse SpecDeath.

(** The step the stack [st] is about to take gives up an owner of object [o]: reset() of the
    client's shared_ptr, or the end of a slot call that locked its weak_ptr (965-980, 1026-1040):
    the call returns or throws, or is left before the functor is called. *)
Definition gives_up (o : oid) (st : list frame) : Prop :=
  (exists k r, st = FProg (Do (OVar (VResetObj o)) k) :: r) \/
  (exists x g a eid n r, st = FSlot x g a (Some o) eid n :: r) \/
  (exists v x g a eid n r, st = FRet v :: FSlot x g a (Some o) eid n :: r).

(** The events of the death of [o], and its destructors in progress. *)
Definition is_odead (o : oid) (ev : event) : bool := match ev with EObjDead o' => bool_decide (o' = o) | _ => false end.
Definition is_odtor (o : oid) (f : frame) : bool := match f with FDtor (inr o') => bool_decide (o' = o) | _ => false end.
Definition destructors_of (o : oid) (w : world) : nat :=
  list_sum (map (fun st => length (List.filter (is_odtor o) st)) (w_thr w)).
