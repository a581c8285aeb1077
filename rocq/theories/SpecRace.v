(** * Happens-before

    The order the C++ memory model gives to the actions of a run, and what it
    means for two accesses to race. *)
From Verif Require Export Access.

Section order.
  (** [sw a b]: an action [a] synchronises with a later action [b]. *)
  Context (sw : act -> act -> Prop).

  Inductive hb (tr : list (tid * act)) : nat -> nat -> Prop :=
  | HB_thread i j t a b :
      i < j -> tr !! i = Some (t, a) -> tr !! j = Some (t, b) -> hb tr i j
  | HB_sync i j t u a b :
      i < j -> tr !! i = Some (t, a) -> tr !! j = Some (u, b) -> sw a b -> hb tr i j
  | HB_trans i j k : hb tr i j -> hb tr j k -> hb tr i k.
End order.

(** Mutexes, and the counts of shared pointers, which only ever change by
    read-modify-write operations: whoever acquires is ordered after everybody
    who released before. *)
Inductive sw_lib : act -> act -> Prop :=
| SW_lock s : sw_lib (Rel (YLock s)) (Acq (YLock s))
| SW_count v : sw_lib (Rel (YCount v)) (Acq (YCount v)).

(** The same if use_count() were an acquire operation. *)
Inductive sw_use : act -> act -> Prop :=
| SU_lib a b : sw_lib a b -> sw_use a b
| SU_use v : sw_use (Rel (YCount v)) (Use v).

(** At most this much synchronisation is there in the code: mutexes, counts and
    all the atomic flags, the latter as if every load read from all the stores
    before it. *)
Inductive sw_all : act -> act -> Prop :=
| SA_all o : sw_all (Rel o) (Acq o).

(** Action [i] of the run reads ([b = false]) or writes ([b = true]) [l]. *)
Definition accesses (tr : list (tid * act)) (i : nat) (l : loc) (b : bool) : Prop :=
  exists t, tr !! i = Some (t, if b then Wr l else Rd l).

(** A data race: two threads access a location, at least one writes, and the
    accesses are not ordered. *)
Definition race (sw : act -> act -> Prop) (tr : list (tid * act)) (i j : nat) : Prop :=
  exists t u l a b, t <> u /\ tr !! i = Some (t, if a : bool then Wr l else Rd l) /\
    tr !! j = Some (u, if b : bool then Wr l else Rd l) /\ (a = true \/ b = true) /\
    ~ hb sw tr i j /\ ~ hb sw tr j i.
