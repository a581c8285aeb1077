(** * Concrete cases *)
From stdpp Require Import prelude list.
From Verif Require Export OverProof.

(** Types: 0 int, 1 long, 2 std::string, 3 char const*, 4 a class that everything converts to. *)
Definition ov : tenv := TEnv
  (fun a n => match n, a_ty a with
     | 0, TBase 1 | 1, TBase 0 => CStd
     | 2, TBase 3 => CUser
     | 4, _ => CUser
     | _, _ => CNone end)
  (fun a n => match n, a_ty a with
     | 0, TBase 1 | 1, TBase 0 | 2, TBase 3 | 4, _ => true
     | _, _ => false end).
Definition lv (t : ty) := Arg t false false.
Definition clv (t : ty) := Arg t true false.
Definition rv (t : ty) := Arg t false true.
Definition dir T a := chosen (ctor_effect T a) (direct ov T a).
Definition imp T a := chosen (ctor_effect T a) (implicit ov T a).
Definition asn T a := chosen (done_effect T a) (assign ov T a).
Lemma ex_C75_direct : dir (TBase 2) (rv (TBase 2)) = Some (Value true) /\ dir (TBase 2) (lv (TBase 2)) = Some (Value false) /\ dir (TBase 2) (lv (TBase 3)) = Some Converted /\
  dir (TBase 1) (rv (TOpt (TBase 0))) = Some (Inside true) /\ dir (TBase 4) (clv (TOpt (TBase 0))) = Some (Inside false) /\ dir (TOpt (TBase 0)) (lv TNull) = Some Empty /\
  dir (TBase 0) (rv (TOpt (TBase 2))) = None /\ dir (TOpt (TOpt (TBase 0))) (lv (TOpt (TBase 0))) = Some (Inside false).
Proof. vm_compute. auto 10. Qed.
Lemma ex_C75_implicit : imp (TBase 1) (rv (TBase 0)) = Some Converted /\ imp (TBase 2) (lv (TBase 3)) = None /\ imp (TBase 1) (rv (TOpt (TBase 0))) = None /\ imp (TBase 1) (rv (TOpt (TBase 1))) = Some (Same true).
Proof. vm_compute. auto 10. Qed.
Lemma ex_C75_assign : asn (TBase 1) (rv (TBase 0)) = Some Converted /\ asn (TBase 2) (lv (TBase 3)) = None /\ asn (TBase 1) (rv (TOpt (TBase 0))) = Some (Inside true) /\
  asn (TOpt (TBase 0)) (clv (TOpt (TBase 0))) = Some (Value false) /\ asn (TBase 2) (lv TNull) = Some Empty.
Proof. vm_compute. auto 10. Qed.
Lemma ex_C75_user : std ov (lv (TBase 3)) (TBase 2) = false /\ te_conv ov (lv (TBase 3)) 2 = CUser.
Proof. vm_compute. auto. Qed.
Lemma ex_C75_between : implicit ov (TBase 1) (lv (TOpt (TBase 0))) = NoMatch /\ dir (TBase 1) (lv (TOpt (TBase 0))) = Some (Inside false).
Proof. vm_compute. auto. Qed.
(** The resolution does report ambiguity: two functions with the same parameter. *)
Lemma ex_C75_ambiguous : pick (by_cref ov KValC (lv (TBase 0)) (TBase 0) 0 false ++ by_cref ov KCopy (lv (TBase 0)) (TBase 0) 0 false) = Ambiguous /\ allowed (TOpt (TBase 0)) /\ direct ov (TOpt (TBase 0)) (rv (TOpt (TBase 0))) = Chosen KValR.
Proof. split; [vm_compute; reflexivity|]. split; [split; discriminate|vm_compute; reflexivity]. Qed.
Lemma ex_C75_moved : dir (TBase 2) (rv (TBase 2)) = Some (Value true) /\ dir (TBase 2) (Arg (TBase 2) true true) = Some (Value false) /\ asn (TBase 2) (rv (TOpt (TBase 2))) = Some (Same true).
Proof. vm_compute. auto. Qed.
Lemma ex_C75_nested : asn (TOpt (TBase 0)) (rv (TOpt (TBase 0))) = Some (Value true) /\ dir (TOpt (TBase 0)) (lv (TOpt (TBase 0))) = Some (Value false).
Proof. vm_compute. auto. Qed.
Lemma ex_C75_same : u_of (rv (TBase 0)) = None /\ asn (TBase 1) (rv (TBase 0)) = Some Converted /\ imp (TBase 1) (rv (TBase 0)) = Some Converted /\ dir (TBase 1) (rv (TBase 0)) = Some Converted.
Proof. vm_compute. auto. Qed.
