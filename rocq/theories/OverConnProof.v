(** * Overload resolution for connect and disconnect *)
From stdpp Require Import prelude list.
From Verif Require Export OverSlotProof OverConnModel.

Lemma choose_slot inv k r : choose inv (SArg SSlot k r) = Chosen OSlot.
Proof. unfold choose. destruct inv, k, r; sev; reflexivity. Qed.
Lemma choose_callable inv n k r : choose inv (SArg (SCall n) k r) = Chosen (if inv then OFunc else OSlot).
Proof. unfold choose. destruct inv, k, r; sev; reflexivity. Qed.
Lemma param_callable n k r : param (SArg (SCall n) k r) = Some (Chosen KFunc, SArg (SCall n) k r).
Proof. unfold param. destruct k, r; sev; reflexivity. Qed.
Lemma compared_callable inv n k r : compared inv (SArg (SCall n) k r) = Some (Chosen KFunc, SArg (SCall n) k r).
Proof. unfold compared. rewrite choose_callable. destruct inv; [rewrite slot_of_callable; reflexivity|apply param_callable]. Qed.
Lemma compared_slot inv k r : compared inv (SArg SSlot k r) = None.
Proof. unfold compared. rewrite choose_slot. reflexivity. Qed.
Lemma connected_callable n k r : connected_as true (SArg (SCall n) k r) = (Chosen KFunc, SArg (SCall n) k r).
Proof. unfold connected_as. rewrite choose_callable, two_callable. reflexivity. Qed.
Lemma connected_slot inv k r : connected_as inv (SArg SSlot k r) = (Chosen KCopySlot, SArg SSlot true false).
Proof. unfold connected_as. rewrite choose_slot, two_slot. reflexivity. Qed.
Lemma ex_C79 : choose true (SArg SSlot false false) = Chosen OSlot /\ choose true (SArg (SCall 0) true false) = Chosen OFunc /\ choose false (SArg (SCall 0) true false) = Chosen OSlot /\
  compared false (SArg (SCall 0) true false) = compared true (SArg (SCall 0) true false) /\ slot1 (SArg SSlot false false) = Chosen KFunc /\ connected_as true (SArg SSlot false false) = (Chosen KCopySlot, SArg SSlot true false).
Proof. vm_compute. repeat split. Qed.
