(** * C76: what an optional<T&> can be made to refer to *)
From stdpp Require Import prelude list.
From Verif Require Import OverRefExamples.

(** C76.  optional<T&> x(a) and optional<T&> x = a: made of nullopt it refers to nothing, made of an
    optional<T&> to the same object; of an lvalue that is a T, or derived from T, and is not more
    const, to that lvalue; nothing else compiles.  ([c]: T is const.) *)
Theorem C76_constructed E n c a : rctor_effect E n a (rdirect E n c a) = expect_ref E n c a /\ rctor_effect E n a (rimplicit E n c a) = expect_ref E n c a.
Proof. exact (ref_constructed E n c a). Qed.
Print Assumptions C76_constructed.

Example C76_constructed_example : rd 0 false (rlv 0) = Some ToArgument /\ rd 2 false (rlv 3) = Some ToArgument /\ rd 2 true (rclv 3) = Some ToArgument /\
  rd 0 false (rclv 0) = None /\ rd 0 true (rrv 0) = None /\ rd 0 true (rlv 1) = None /\ rd 2 true (rlv 4) = None /\
  rd 4 true (RArg RNull true false) = Some ToNone /\ rd 0 true (RArg (ROpt 0 true) true true) = Some ToItsReferent /\ rd 0 true (RArg (ROpt 0 false) false false) = None.
Proof. exact ex_C76_constructed. Qed.

(** emplace(a), and construction from (in_place, a). *)
Theorem C76_emplaced E n c a : rctor_effect E n a (remplace E n c a) = expect_lvalue E n c a.
Proof. exact (ref_emplaced E n c a). Qed.
Print Assumptions C76_emplaced.

Example C76_emplaced_example : rctor_effect orv 2 (rlv 3) (remplace orv 2 false (rlv 3)) = Some ToArgument /\ remplace orv 2 false (rrv 3) = Chosen QDel /\ remplace orv 2 false (rclv 3) = NoMatch.
Proof. exact ex_C76_emplaced. Qed.

(** x = a: only nullopt and optionals of the same type. *)
Theorem C76_assigned E n c a : rasgn_effect (rassign E n c a) = expect_assigned n c a.
Proof. exact (ref_assigned E n c a). Qed.
Print Assumptions C76_assigned.

Example C76_assigned_example : rassign orv 0 false (RArg RNull true false) = Chosen ANull /\ rassign orv 0 false (RArg (ROpt 0 false) false false) = Chosen ASame /\
  rassign orv 0 false (RArg (ROpt 0 false) true false) = Chosen ACopy /\ rassign orv 0 true (RArg (ROpt 0 false) false false) = Chosen ADel.
Proof. exact ex_C76_assigned. Qed.

(** It never refers to a temporary, whatever conversions the program defines. *)
Theorem C76_never_a_temporary E n c a : rctor_effect E n a (rdirect E n c a) <> Some ToTemporary /\ rctor_effect E n a (rimplicit E n c a) <> Some ToTemporary /\
  rctor_effect E n a (remplace E n c a) <> Some ToTemporary /\ rasgn_effect (rassign E n c a) <> Some ToTemporary.
Proof. exact (ref_temporary E n c a). Qed.
Print Assumptions C76_never_a_temporary.

Example C76_temporary_example : rdirect orv 0 true (rrv 0) = Chosen QDel /\ rctor_effect orv 0 (rrv 0) (pick (by_lref orv QRef (rrv 0) 0 true)) = Some ToTemporary /\
  rdirect orv 0 true (rlv 1) = Chosen QDel /\ rctor_effect orv 0 (rlv 1) (pick (by_lref orv QRef (rlv 1) 0 true)) = Some ToTemporary.
Proof. exact ex_C76_temporary. Qed.

(** Where the constructor or emplace that takes a T& is chosen, the argument is an lvalue, is a T or
    derived from T, and is const only if T is. *)
Theorem C76_lvalues_only E n c a : rdirect E n c a = Chosen QRef \/ rimplicit E n c a = Chosen QRef \/ remplace E n c a = Chosen QRef ->
  is_a E a n = true /\ r_rv a = false /\ (r_const a = true -> c = true).
Proof. exact (ref_lvalues E n c a). Qed.
Print Assumptions C76_lvalues_only.

Example C76_lvalues_example : rdirect orv 2 false (rlv 3) = Chosen QRef /\ rdirect orv 2 true (rclv 2) = Chosen QRef /\ rimplicit orv 0 true (rclv 0) = Chosen QRef.
Proof. exact ex_C76_lvalues. Qed.

(** Assigning an object, of whatever type, does not compile: x = y can be taken neither for an
    assignment to what x refers to nor for making x refer to y. *)
Theorem C76_objects_not_assigned E n c m k r : rasgn_effect (rassign E n c (RArg (RBase m) k r)) = None.
Proof. exact (ref_objects E n c m k r). Qed.
Print Assumptions C76_objects_not_assigned.

Example C76_objects_example : rassign orv 0 false (rlv 0) = Chosen ADel /\ rdirect orv 0 false (rlv 0) = Chosen QRef.
Proof. exact ex_C76_objects. Qed.

(** It is never ambiguous. *)
Theorem C76_never_ambiguous E n c a : rdirect E n c a <> Ambiguous /\ rimplicit E n c a <> Ambiguous /\ remplace E n c a <> Ambiguous /\ rassign E n c a <> Ambiguous.
Proof. exact (ref_ambiguous E n c a). Qed.
Print Assumptions C76_never_ambiguous.

Example C76_ambiguous_example : rdirect orv 2 true (rlv 4) = Chosen QDel /\ pick (by_lref orv QRef (rlv 2) 2 true ++ by_lref orv QDel (rlv 2) 2 true) = Ambiguous.
Proof. exact ex_C76_ambiguous. Qed.
