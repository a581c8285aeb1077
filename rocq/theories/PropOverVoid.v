(** * C77: what can be given to an optional<void> *)
From stdpp Require Import prelude list.
From Verif Require Import OverVoidProof.

(** C77.  An optional<void> can be made of nullopt and of an optional<void>, and of nothing else. *)
Theorem C77_constructed a : compiles (vconstruct a) <-> v_ty a = VVoid \/ v_ty a = VNull.
Proof. exact (void_constructed a). Qed.
Print Assumptions C77_constructed.

(** Everything can be assigned to it, and emplaced in it: neither is ever ambiguous. *)
Theorem C77_assigned a : compiles (vassign a).
Proof. exact (void_assigned a). Qed.
Print Assumptions C77_assigned.

Theorem C77_emplaced a : compiles (vemplace a).
Proof. exact (void_emplaced a). Qed.
Print Assumptions C77_emplaced.

(** So an object that cannot initialise it can be assigned to it (x = 5 compiles and does nothing,
    optional<void> x = 5 does not compile); emplace takes lvalues by U&, const ones too, and rvalues by U&&. *)
Theorem C77_objects n k r : vassign (VArg (VOther n) k r) = Chosen VAAny /\ vconstruct (VArg (VOther n) k r) = NoMatch /\
  vemplace (VArg (VOther n) k r) = Chosen (if r then VEAny else VELvalue).
Proof. exact (void_which n k r). Qed.
Print Assumptions C77_objects.

Example C77_example : vconstruct (VArg VNull true false) = Chosen VCNull /\ vconstruct (VArg VVoid false true) = Chosen VCCopy /\ vconstruct (VArg (VOther 0) false true) = NoMatch /\
  vassign (VArg (VOther 0) false true) = Chosen VAAny /\ vassign (VArg VNull true false) = Chosen VANull /\ vassign (VArg VVoid true false) = Chosen VACopy /\ vassign (VArg VVoid false false) = Chosen VAAny /\
  vemplace (VArg (VOther 1) true true) = Chosen VEAny /\ vemplace (VArg (VOther 1) true false) = Chosen VELvalue.
Proof. exact ex_C77. Qed.
