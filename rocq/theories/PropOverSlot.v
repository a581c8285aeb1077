(** * C78: which constructor of slot is chosen, and what copying a slot does *)
From stdpp Require Import prelude list.
From Verif Require Import OverSlotProof.

(** C78.  What connect and disconnect construct.  Given something to be called and a signal_base*
    (1703), the constructor for function objects is chosen, not the one for pointers to members whose
    second parameter matches as well; given a pointer to a member and an object (1776), the one that
    tracks the object exactly if it converts to a weak_ptr, also if a pointer to the object would convert to
    signal_base* (the object is itself a signal). *)
Theorem C78_of_two_arguments n k r p : slot2 (SArg (SCall n) k r) p = Chosen (match p with PSig => KFunc | PWeak => KTracked | _ => KPmf end).
Proof. exact (two_callable n k r p). Qed.
Print Assumptions C78_of_two_arguments.

(** connect(slot) (1691) copies the slot, its parameter being const. *)
Theorem C78_connecting_a_slot : slot2 (SArg SSlot true false) PSig = Chosen KCopySlot.
Proof. exact two_slot. Qed.
Print Assumptions C78_connecting_a_slot.

(** disconnect(f) (1764) makes a slot that calls [f]. *)
Theorem C78_of_a_callable n k r : slot1 (SArg (SCall n) k r) = Chosen KFunc.
Proof. exact (slot_of_callable n k r). Qed.
Print Assumptions C78_of_a_callable.

(** A slot made of a slot: only a const lvalue is copied and only a non-const rvalue is moved.  The
    template for function objects takes the others. *)
Theorem C78_of_a_slot k r : slot1 (SArg SSlot k r) = Chosen (if r then if k then KFunc else KMoveSlot else if k then KCopySlot else KFunc).
Proof. exact (slot_of_slot k r). Qed.
Print Assumptions C78_of_a_slot.

(** Claim: a slot made of a slot is a copy of it or has its contents.  False: *)
Theorem C78_copies_refuted : ~ (forall k r, exists fuel, make fuel (SArg SSlot k r) = MCopy \/ make fuel (SArg SSlot k r) = MMoved).
Proof. exact copies_refuted. Qed.
Print Assumptions C78_copies_refuted.

(** A slot made of a slot that is a non-const lvalue, as in slot b(a), or a const rvalue needs a
    slot made of the same argument first, and never comes to an end. *)
Theorem C78_copying_recurses fuel b : make fuel (SArg SSlot b b) = MOutOfFuel.
Proof. exact (make_recurses fuel b). Qed.
Print Assumptions C78_copying_recurses.

Theorem C78_copying_ends k r : (exists fuel, make fuel (SArg SSlot k r) <> MOutOfFuel) <-> k <> r.
Proof. exact (copies_end k r). Qed.
Print Assumptions C78_copying_ends.

(** Other slots are made at once. *)
Theorem C78_others_end fuel n k r : make (S fuel) (SArg (SCall n) k r) = MCalls /\ make (S fuel) (SArg SSlot true false) = MCopy /\ make (S fuel) (SArg SSlot false true) = MMoved.
Proof. exact (make_end fuel n k r). Qed.
Print Assumptions C78_others_end.

Example C78_example : slot2 (SArg (SCall 0) false true) PSig = Chosen KFunc /\ slot2 (SArg (SCall 0) false true) PSigDerived = Chosen KPmf /\ slot2 (SArg (SCall 0) false false) PWeak = Chosen KTracked /\
  slot2 (SArg SSlot false false) PSig = Chosen KFunc /\ slot1 (SArg SImpl false true) = Chosen KUnique /\ make 5 (SArg SSlot true false) = MCopy /\ make 5 (SArg SSlot false false) = MOutOfFuel.
Proof. exact ex_C78. Qed.
