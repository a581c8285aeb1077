(** * C80: what becomes of a connection or scoped_connection given to another *)
From stdpp Require Import prelude list.
From Verif Require Import OverHandProof.

(** C80.  A connection made of, or assigned, a connection or scoped_connection takes the slot from
    non-const rvalues and shares it with others. *)
Theorem C80_connections a : fate_of (to_connection a) = expect_fate false a.
Proof. exact (hand_connection a). Qed.
Print Assumptions C80_connections.

(** So does a scoped_connection that is made of one, or assigned one, but it cannot share the slot
    of another scoped_connection: that does not compile. *)
Theorem C80_new_scoped_connections a : fate_of (new_scoped a) = expect_fate true a.
Proof. exact (hand_new_scoped a). Qed.
Print Assumptions C80_new_scoped_connections.

Theorem C80_assigned_scoped_connections a : fate_of (to_scoped a) = expect_fate true a.
Proof. exact (hand_to_scoped a). Qed.
Print Assumptions C80_assigned_scoped_connections.

(** The constructor from connections does not let scoped_connections be copied through their base. *)
Theorem C80_scoped_not_copied k r : fate_of (new_scoped (HArg true k r)) <> Some Shared /\ fate_of (to_scoped (HArg true k r)) <> Some Shared.
Proof. exact (hand_no_copy k r). Qed.
Print Assumptions C80_scoped_not_copied.

(** A connection empties a scoped_connection exactly if that is a non-const rvalue, as the result of
    connect_scoped is: connection c = s.connect_scoped(f) compiles, and [f] stays connected. *)
Theorem C80_scoped_to_connection k r : fate_of (to_connection (HArg true k r)) = Some Taken <-> k = false /\ r = true.
Proof. exact (hand_lost k r). Qed.
Print Assumptions C80_scoped_to_connection.

(** It is never ambiguous. *)
Theorem C80_never_ambiguous a : to_connection a <> Ambiguous /\ new_scoped a <> Ambiguous /\ to_scoped a <> Ambiguous.
Proof. exact (hand_unambiguous a). Qed.
Print Assumptions C80_never_ambiguous.

Example C80_example : to_connection (HArg true false true) = Chosen HMove /\ to_connection (HArg true false false) = Chosen HCopy /\ new_scoped (HArg true false false) = Chosen HDeleted /\ new_scoped (HArg true true true) = Chosen HDeleted /\
  new_scoped (HArg false false true) = Chosen HMove /\ to_scoped (HArg false true false) = Chosen HCopy /\ to_scoped (HArg true false true) = Chosen HMove.
Proof. exact ex_C80. Qed.
