(** * Overload resolution for connection and scoped_connection *)
From stdpp Require Import prelude list.
From Verif Require Export OverHandSpec.

Lemma hand_connection a : fate_of (to_connection a) = expect_fate false a.
Proof. destruct a as [[] [] []]; vm_compute; reflexivity. Qed.
Lemma hand_new_scoped a : fate_of (new_scoped a) = expect_fate true a.
Proof. destruct a as [[] [] []]; vm_compute; reflexivity. Qed.
Lemma hand_to_scoped a : fate_of (to_scoped a) = expect_fate true a.
Proof. destruct a as [[] [] []]; vm_compute; reflexivity. Qed.
Lemma hand_unambiguous a : to_connection a <> Ambiguous /\ new_scoped a <> Ambiguous /\ to_scoped a <> Ambiguous.
Proof. destruct a as [[] [] []]; vm_compute; repeat split; discriminate. Qed.
Lemma hand_no_copy k r : fate_of (new_scoped (HArg true k r)) <> Some Shared /\ fate_of (to_scoped (HArg true k r)) <> Some Shared.
Proof. destruct k, r; vm_compute; split; discriminate. Qed.
Lemma hand_lost k r : fate_of (to_connection (HArg true k r)) = Some Taken <-> k = false /\ r = true.
Proof. destruct k, r; vm_compute; split; try (intros [H1 H2]); try discriminate; auto. Qed.
Lemma ex_C80 : to_connection (HArg true false true) = Chosen HMove /\ to_connection (HArg true false false) = Chosen HCopy /\ new_scoped (HArg true false false) = Chosen HDeleted /\ new_scoped (HArg true true true) = Chosen HDeleted /\
  new_scoped (HArg false false true) = Chosen HMove /\ to_scoped (HArg false true false) = Chosen HCopy /\ to_scoped (HArg true false true) = Chosen HMove.
Proof. vm_compute. repeat split. Qed.
