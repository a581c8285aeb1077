(** * C75: what initialising or assigning an optional with an argument means *)
From stdpp Require Import prelude list.
From Verif Require Import OverExamples.

(** C75.  optional<T> x(a): the constructor overload resolution chooses does what is to be expected
    of the type of [a], and none is chosen if there is none to be expected. *)
Theorem C75_direct E T a : allowed T -> chosen (ctor_effect T a) (direct E T a) = expect_direct E T a.
Proof. exact (direct_expected E T a). Qed.
Print Assumptions C75_direct.

Example C75_direct_example : dir (TBase 2) (rv (TBase 2)) = Some (Value true) /\ dir (TBase 2) (lv (TBase 2)) = Some (Value false) /\ dir (TBase 2) (lv (TBase 3)) = Some Converted /\
  dir (TBase 1) (rv (TOpt (TBase 0))) = Some (Inside true) /\ dir (TBase 4) (clv (TOpt (TBase 0))) = Some (Inside false) /\ dir (TOpt (TBase 0)) (lv TNull) = Some Empty /\
  dir (TBase 0) (rv (TOpt (TBase 2))) = None /\ dir (TOpt (TOpt (TBase 0))) (lv (TOpt (TBase 0))) = Some (Inside false).
Proof. exact ex_C75_direct. Qed.

(** optional<T> x = a, and passing or returning [a] as an optional<T>. *)
Theorem C75_implicit E T a : allowed T -> chosen (ctor_effect T a) (implicit E T a) = expect_implicit E T a.
Proof. exact (implicit_expected E T a). Qed.
Print Assumptions C75_implicit.

Example C75_implicit_example : imp (TBase 1) (rv (TBase 0)) = Some Converted /\ imp (TBase 2) (lv (TBase 3)) = None /\ imp (TBase 1) (rv (TOpt (TBase 0))) = None /\ imp (TBase 1) (rv (TOpt (TBase 1))) = Some (Same true).
Proof. exact ex_C75_implicit. Qed.

(** x = a, through the operator and the member assign() that it calls. *)
Theorem C75_assign E T a : allowed T -> chosen (done_effect T a) (assign E T a) = expect_assign E T a.
Proof. exact (assign_expected E T a). Qed.
Print Assumptions C75_assign.

Example C75_assign_example : asn (TBase 1) (rv (TBase 0)) = Some Converted /\ asn (TBase 2) (lv (TBase 3)) = None /\ asn (TBase 1) (rv (TOpt (TBase 0))) = Some (Inside true) /\
  asn (TOpt (TBase 0)) (clv (TOpt (TBase 0))) = Some (Value false) /\ asn (TBase 2) (lv TNull) = Some Empty.
Proof. exact ex_C75_assign. Qed.

(** It is never ambiguous. *)
Theorem C75_never_ambiguous E T a : allowed T -> direct E T a <> Ambiguous /\ implicit E T a <> Ambiguous /\ assign E T a <> Ambiguous.
Proof. exact (never_ambiguous E T a). Qed.
Print Assumptions C75_never_ambiguous.

Example C75_ambiguous_example : pick (by_cref ov KValC (lv (TBase 0)) (TBase 0) 0 false ++ by_cref ov KCopy (lv (TBase 0)) (TBase 0) 0 false) = Ambiguous /\ allowed (TOpt (TBase 0)) /\ direct ov (TOpt (TBase 0)) (rv (TOpt (TBase 0))) = Chosen KValR.
Proof. exact ex_C75_ambiguous. Qed.

(** The argument is moved from only if it is an rvalue and not const. *)
Theorem C75_only_rvalues_are_moved E T a f : allowed T -> chosen (ctor_effect T a) (direct E T a) = Some f \/ chosen (done_effect T a) (assign E T a) = Some f ->
  moves f = true -> a_const a = false /\ a_rv a = true.
Proof. exact (only_movable E T a f). Qed.
Print Assumptions C75_only_rvalues_are_moved.

Example C75_moved_example : dir (TBase 2) (rv (TBase 2)) = Some (Value true) /\ dir (TBase 2) (Arg (TBase 2) true true) = Some (Value false) /\ asn (TBase 2) (rv (TOpt (TBase 2))) = Some (Same true).
Proof. exact ex_C75_moved. Qed.

(** An optional<U> given to an optional<optional<U>> is its value, engaged or not, however it is
    given. *)
Theorem C75_nested E u k r : let a := Arg (TOpt u) k r in
  chosen (ctor_effect (TOpt u) a) (direct E (TOpt u) a) = Some (Value (movable a)) /\ chosen (done_effect (TOpt u) a) (assign E (TOpt u) a) = Some (Value (movable a)).
Proof. exact (nested E u k r). Qed.
Print Assumptions C75_nested.

Example C75_nested_example : asn (TOpt (TBase 0)) (rv (TOpt (TBase 0))) = Some (Value true) /\ dir (TOpt (TBase 0)) (lv (TOpt (TBase 0))) = Some (Value false).
Proof. exact ex_C75_nested. Qed.

(** Implicit initialisation means the same as direct initialisation. *)
Theorem C75_implicit_is_direct E T a f : allowed T -> chosen (ctor_effect T a) (implicit E T a) = Some f -> chosen (ctor_effect T a) (direct E T a) = Some f.
Proof. exact (implicit_direct E T a f). Qed.
Print Assumptions C75_implicit_is_direct.

Example C75_implicit_direct_example : u_of (rv (TBase 0)) = None /\ asn (TBase 1) (rv (TBase 0)) = Some Converted /\ imp (TBase 1) (rv (TBase 0)) = Some Converted /\ dir (TBase 1) (rv (TBase 0)) = Some Converted.
Proof. exact ex_C75_same. Qed.

(** An argument that is not an optional can be assigned exactly if it can be converted implicitly,
    and to the same effect. *)
Theorem C75_assign_is_implicit E T a : allowed T -> u_of a = None -> chosen (done_effect T a) (assign E T a) = chosen (ctor_effect T a) (implicit E T a).
Proof. exact (assign_implicit E T a). Qed.
Print Assumptions C75_assign_is_implicit.

Example C75_assign_implicit_example : u_of (rv (TBase 0)) = None /\ asn (TBase 1) (rv (TBase 0)) = Some Converted /\ imp (TBase 1) (rv (TBase 0)) = Some Converted /\ dir (TBase 1) (rv (TBase 0)) = Some Converted.
Proof. exact ex_C75_same. Qed.

(** An argument that needs a user-defined conversion to T can only initialise directly. *)
Theorem C75_user_conversions E n a :
  std E a (TBase n) = false -> te_conv E a n = CUser -> a_ty a <> TBase n -> (forall t, a_ty a <> TOpt t) -> a_ty a <> TNull -> a_ty a <> TInPlace ->
  chosen (ctor_effect (TBase n) a) (direct E (TBase n) a) = Some Converted /\ implicit E (TBase n) a = NoMatch /\ assign E (TBase n) a = NoMatch.
Proof. exact (user_conversions E n a). Qed.
Print Assumptions C75_user_conversions.

Example C75_user_example : std ov (lv (TBase 3)) (TBase 2) = false /\ te_conv ov (lv (TBase 3)) 2 = CUser.
Proof. exact ex_C75_user. Qed.

(** Optionals of different types do not convert implicitly. *)
Theorem C75_no_implicit_conversion E T u k r : allowed T -> T <> u -> T <> TOpt u -> implicit E T (Arg (TOpt u) k r) = NoMatch.
Proof. exact (no_implicit_between E T u k r). Qed.
Print Assumptions C75_no_implicit_conversion.

Example C75_between_example : implicit ov (TBase 1) (lv (TOpt (TBase 0))) = NoMatch /\ dir (TBase 1) (lv (TOpt (TBase 0))) = Some (Inside false).
Proof. exact ex_C75_between. Qed.
