(** * Examples for optional<T&> *)
From stdpp Require Import prelude list.
From Verif Require Export OverRefProof.

(** Types: 0 int, 1 double, 2 a class, 3 a class derived from 2, 4 a class that converts to 2. *)
Definition orv : renv := REnv
  (fun a n => match r_ty a, n with RBase 0, 1 | RBase 1, 0 => CStd | RBase 4, 2 => CUser | RNull, 4 => CUser | _, _ => CNone end)
  (fun m n => bool_decide (m = 3) && bool_decide (n = 2)).
Definition rlv (n : nat) : rarg := RArg (RBase n) false false.
Definition rclv (n : nat) : rarg := RArg (RBase n) true false.
Definition rrv (n : nat) : rarg := RArg (RBase n) false true.
Definition rd (n : nat) (c : bool) (a : rarg) := rctor_effect orv n a (rdirect orv n c a).
Lemma ex_C76_constructed : rd 0 false (rlv 0) = Some ToArgument /\ rd 2 false (rlv 3) = Some ToArgument /\ rd 2 true (rclv 3) = Some ToArgument /\
  rd 0 false (rclv 0) = None /\ rd 0 true (rrv 0) = None /\ rd 0 true (rlv 1) = None /\ rd 2 true (rlv 4) = None /\
  rd 4 true (RArg RNull true false) = Some ToNone /\ rd 0 true (RArg (ROpt 0 true) true true) = Some ToItsReferent /\ rd 0 true (RArg (ROpt 0 false) false false) = None.
Proof. vm_compute. repeat split. Qed.
(** What would be without the deleted overload. *)
Lemma ex_C76_temporary : rdirect orv 0 true (rrv 0) = Chosen QDel /\ rctor_effect orv 0 (rrv 0) (pick (by_lref orv QRef (rrv 0) 0 true)) = Some ToTemporary /\
  rdirect orv 0 true (rlv 1) = Chosen QDel /\ rctor_effect orv 0 (rlv 1) (pick (by_lref orv QRef (rlv 1) 0 true)) = Some ToTemporary.
Proof. vm_compute. repeat split. Qed.
Lemma ex_C76_emplaced : rctor_effect orv 2 (rlv 3) (remplace orv 2 false (rlv 3)) = Some ToArgument /\ remplace orv 2 false (rrv 3) = Chosen QDel /\ remplace orv 2 false (rclv 3) = NoMatch.
Proof. vm_compute. repeat split. Qed.
Lemma ex_C76_assigned : rassign orv 0 false (RArg RNull true false) = Chosen ANull /\ rassign orv 0 false (RArg (ROpt 0 false) false false) = Chosen ASame /\
  rassign orv 0 false (RArg (ROpt 0 false) true false) = Chosen ACopy /\ rassign orv 0 true (RArg (ROpt 0 false) false false) = Chosen ADel.
Proof. vm_compute. repeat split. Qed.
Lemma ex_C76_objects : rassign orv 0 false (rlv 0) = Chosen ADel /\ rdirect orv 0 false (rlv 0) = Chosen QRef.
Proof. vm_compute. repeat split. Qed.
Lemma ex_C76_lvalues : rdirect orv 2 false (rlv 3) = Chosen QRef /\ rdirect orv 2 true (rclv 2) = Chosen QRef /\ rimplicit orv 0 true (rclv 0) = Chosen QRef.
Proof. vm_compute. repeat split. Qed.
Lemma ex_C76_ambiguous : rdirect orv 2 true (rlv 4) = Chosen QDel /\ pick (by_lref orv QRef (rlv 2) 2 true ++ by_lref orv QDel (rlv 2) 2 true) = Ambiguous.
Proof. vm_compute. repeat split. Qed.
