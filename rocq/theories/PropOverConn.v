(** * C79: which overloads of connect and disconnect are chosen, and the slots that come of it *)
From stdpp Require Import prelude list.
From Verif Require Import OverConnProof.

(** C79.  A slot, of whatever constness and value category, is taken by the overload on slots. *)
Theorem C79_slots inv k r : choose inv (SArg SSlot k r) = Chosen OSlot.
Proof. exact (choose_slot inv k r). Qed.
Print Assumptions C79_slots.

(** Anything else is taken by the template if it passes its condition, and otherwise converted to a
    slot: the constructor of slot has no condition. *)
Theorem C79_callables inv n k r : choose inv (SArg (SCall n) k r) = Chosen (if inv then OFunc else OSlot).
Proof. exact (choose_callable inv n k r). Qed.
Print Assumptions C79_callables.

(** Connecting a slot copies it with the copy constructor also where copying it in the client would
    not end (C78); connecting a callable makes a slot of the argument as it was given. *)
Theorem C79_connecting_a_slot inv k r : connected_as inv (SArg SSlot k r) = (Chosen KCopySlot, SArg SSlot true false).
Proof. exact (connected_slot inv k r). Qed.
Print Assumptions C79_connecting_a_slot.

Theorem C79_connecting_a_callable n k r : connected_as true (SArg (SCall n) k r) = (Chosen KFunc, SArg (SCall n) k r).
Proof. exact (connected_callable n k r). Qed.
Print Assumptions C79_connecting_a_callable.

(** disconnect compares the slots with a slot made of the argument as it was given, whether or not it
    passes the condition of the template: that disconnect and connect test different types (1699,
    1759) makes no difference. *)
Theorem C79_disconnecting_a_callable inv n k r : compared inv (SArg (SCall n) k r) = Some (Chosen KFunc, SArg (SCall n) k r).
Proof. exact (compared_callable inv n k r). Qed.
Print Assumptions C79_disconnecting_a_callable.

(** And with the argument itself if that is a slot: none is made. *)
Theorem C79_disconnecting_a_slot inv k r : compared inv (SArg SSlot k r) = None.
Proof. exact (compared_slot inv k r). Qed.
Print Assumptions C79_disconnecting_a_slot.

Example C79_example : choose true (SArg SSlot false false) = Chosen OSlot /\ choose true (SArg (SCall 0) true false) = Chosen OFunc /\ choose false (SArg (SCall 0) true false) = Chosen OSlot /\
  compared false (SArg (SCall 0) true false) = compared true (SArg (SCall 0) true false) /\ slot1 (SArg SSlot false false) = Chosen KFunc /\ connected_as true (SArg SSlot false false) = (Chosen KCopySlot, SArg SSlot true false).
Proof. exact ex_C79. Qed.
