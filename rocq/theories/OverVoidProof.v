(** * Overload resolution for optional<void> *)
From stdpp Require Import prelude list.
From Verif Require Export OverVoidSpec.

Ltac vev := cbn; unfold better, ics; cbn; repeat (match goal with |- context [bool_decide (?x = ?y)] => first [rewrite (bool_decide_true (x = y)) by reflexivity | rewrite (bool_decide_false (x = y)) by congruence] end; cbn; unfold better, ics; cbn).
Lemma void_constructed a : compiles (vconstruct a) <-> v_ty a = VVoid \/ v_ty a = VNull.
Proof.
  destruct a as [[| |n] k r]; unfold vconstruct; destruct k, r; vev; unfold compiles;
    (split; [intros [f Hf]; first [discriminate Hf | auto] | intros [H|H]; first [discriminate H | eexists; reflexivity]]).
Qed.
Lemma void_assigned a : compiles (vassign a).
Proof. destruct a as [[| |n] k r]; unfold vassign; destruct k, r; vev; eexists; reflexivity. Qed.
Lemma void_emplaced a : compiles (vemplace a).
Proof. destruct a as [[| |n] k r]; unfold vemplace; destruct k, r; vev; eexists; reflexivity. Qed.
Lemma void_which n k r : vassign (VArg (VOther n) k r) = Chosen VAAny /\ vconstruct (VArg (VOther n) k r) = NoMatch /\
  vemplace (VArg (VOther n) k r) = Chosen (if r then VEAny else VELvalue).
Proof. unfold vassign, vconstruct, vemplace. destruct k, r; vev; repeat split; reflexivity. Qed.
Lemma ex_C77 : vconstruct (VArg VNull true false) = Chosen VCNull /\ vconstruct (VArg VVoid false true) = Chosen VCCopy /\ vconstruct (VArg (VOther 0) false true) = NoMatch /\
  vassign (VArg (VOther 0) false true) = Chosen VAAny /\ vassign (VArg VNull true false) = Chosen VANull /\ vassign (VArg VVoid true false) = Chosen VACopy /\ vassign (VArg VVoid false false) = Chosen VAAny /\
  vemplace (VArg (VOther 1) true true) = Chosen VEAny /\ vemplace (VArg (VOther 1) true false) = Chosen VELvalue.
Proof. vm_compute. repeat split. Qed.
