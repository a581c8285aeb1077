(** * Overload resolution for slot *)
From stdpp Require Import prelude list.
From Verif Require Export OverModel OverSlotModel.

Ltac sev := cbn; unfold better, better2, ics; cbn; repeat (match goal with |- context [bool_decide (?x = ?y)] => first [rewrite (bool_decide_true (x = y)) by reflexivity | rewrite (bool_decide_false (x = y)) by congruence] end; cbn; unfold better, better2, ics; cbn).
Lemma slot_of_callable n k r : slot1 (SArg (SCall n) k r) = Chosen KFunc.
Proof. unfold slot1. destruct k, r; sev; reflexivity. Qed.
Lemma slot_of_slot k r : slot1 (SArg SSlot k r) = Chosen (if r then if k then KFunc else KMoveSlot else if k then KCopySlot else KFunc).
Proof. unfold slot1. destruct k, r; sev; reflexivity. Qed.
Lemma slot_of_impl k r : slot1 (SArg SImpl k r) = Chosen KUnique.
Proof. unfold slot1. destruct k, r; sev; reflexivity. Qed.
Lemma two_callable n k r p : slot2 (SArg (SCall n) k r) p = Chosen (match p with PSig => KFunc | PWeak => KTracked | _ => KPmf end).
Proof. unfold slot2. destruct k, r, p; sev; reflexivity. Qed.
Lemma two_slot : slot2 (SArg SSlot true false) PSig = Chosen KCopySlot.
Proof. vm_compute. reflexivity. Qed.

(** Copies. *)
Lemma make_end fuel n k r : make (S fuel) (SArg (SCall n) k r) = MCalls /\ make (S fuel) (SArg SSlot true false) = MCopy /\ make (S fuel) (SArg SSlot false true) = MMoved.
Proof. cbn [make]. rewrite slot_of_callable, !slot_of_slot. repeat split; reflexivity. Qed.
Lemma make_recurses fuel b : make fuel (SArg SSlot b b) = MOutOfFuel.
Proof. induction fuel as [|fuel IH]; [reflexivity|]. cbn [make]. rewrite slot_of_slot. destruct b; cbn [s_ty]; rewrite IH; reflexivity. Qed.
Lemma copies_refuted : ~ (forall k r, exists fuel, make fuel (SArg SSlot k r) = MCopy \/ make fuel (SArg SSlot k r) = MMoved).
Proof. intros H. destruct (H false false) as [fuel [Hf|Hf]]; rewrite make_recurses in Hf; discriminate Hf. Qed.
Lemma copies_end k r : (exists fuel, make fuel (SArg SSlot k r) <> MOutOfFuel) <-> k <> r.
Proof.
  split.
  - intros [fuel H] ->. apply H. apply make_recurses.
  - intros H. exists 1. destruct k, r; try congruence; vm_compute; discriminate.
Qed.
Lemma ex_C78 : slot2 (SArg (SCall 0) false true) PSig = Chosen KFunc /\ slot2 (SArg (SCall 0) false true) PSigDerived = Chosen KPmf /\ slot2 (SArg (SCall 0) false false) PWeak = Chosen KTracked /\
  slot2 (SArg SSlot false false) PSig = Chosen KFunc /\ slot1 (SArg SImpl false true) = Chosen KUnique /\ make 5 (SArg SSlot true false) = MCopy /\ make 5 (SArg SSlot false false) = MOutOfFuel.
Proof. vm_compute. repeat split. Qed.
