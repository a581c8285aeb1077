(** * C59: which callables connect and disconnect accept *)
From stdpp Require Import prelude list.
From Verif Require Import TyExamples.

(** The trait is_invocable_r agrees with the standard's INVOKE for pointers to members. *)
Theorem C59_is_invocable E R m e args :
  is_invocable_r E R (invoke_result E m e args) = true <-> invokes_r E R m e args.
Proof. exact (is_invocable_iff E R m e args). Qed.
Print Assumptions C59_is_invocable.
Example C59_is_invocable_case :
  invokes_r tx (Some 2) pmf (ptr 1) [int_] /\ invokes_r tx (Some 2) pmf_const (cptr 1) [int_] /\
  invokes_r tx None pmf_opaque (ref 0) [int_] /\ invokes_r tx (Some 0) pmd (sptr 0) [] /\ invokes_r tx (Some 0) pmf_rv (rv 1) [int_] /\
  ~ invokes_r tx (Some 2) pmf (cptr 1) [int_] /\ ~ invokes_r tx (Some 2) pmf_opaque (ref 0) [int_] /\
  ~ invokes_r tx (Some 2) pmf (ptr 2) [int_] /\ ~ invokes_r tx (Some 0) pmd (sptr 0) [int_] /\ ~ invokes_r tx (Some 0) pmf (lv 0) [] /\
  ~ invokes_r tx (Some 0) pmf_rv (lv 0) [int_] /\ ~ invokes_r tx (Some 0) pmf (wptr 0) [int_].
Proof. exact ex_is_invocable. Qed.

(** invoke_helper::call performs INVOKE and has its type, except for temporaries, for which
    the call is chosen and does not compile. *)
Theorem C59_invoke_helper E m e args :
  (forall v, helper_call E m e args = TOk v <-> invokes E m e args v /\ ~ temporary e) /\
  (helper_call E m e args = THard <-> temporary e /\ exists v, invokes E m e args v).
Proof. exact (conj (helper_iff E m e args) (helper_hard E m e args)). Qed.
Print Assumptions C59_invoke_helper.
Example C59_invoke_helper_case :
  helper_call tx pmf (lv 1) [int_] = TOk int_ /\ helper_call tx pmd (Ex (OClass 1) true LV) [] = TOk (VT 5 true LV) /\
  helper_call tx pmf (rv 0) [int_] = THard /\ helper_call tx pmf_const (rv 1) [int_] = THard /\ helper_call tx pmf (wptr 0) [int_] = TNone.
Proof. exact ex_helper. Qed.

Theorem C59_invoke_helper_temporary_refuted :
  ~ (forall E m e args v, invokes E m e args v -> helper_call E m e args = TOk v).
Proof. exact helper_invokes_not. Qed.
Print Assumptions C59_invoke_helper_temporary_refuted.

(** connect(m, p) and disconnect(m, p): accepted if m can be invoked on p as it is passed
    and what the slot keeps of p can be copied and invoked, with a result from which the
    slot's optional<R> can be made. *)
Theorem C59_connect_member E R m e args :
  (connect_pm E R m e args = Accepted <-> invokes_r E R m e args /\ can_copy E e /\ invokes_o E R m (kept e) args) /\
  (connect_pm E R m e args = HardError <-> invokes_r E R m e args /\ ~ (can_copy E e /\ invokes_o E R m (kept e) args)) /\
  (connect_pm E R m e args = Rejected <-> ~ invokes_r E R m e args).
Proof. exact (connect_pm_verdict E R m e args). Qed.
Print Assumptions C59_connect_member.
Example C59_connect_member_case :
  connect_pm tx (Some 0) pmf (lv 1) [int_] = Accepted /\ connect_pm tx (Some 0) pmf (rv 1) [int_] = Accepted /\
  connect_pm tx (Some 0) pmf3 (lv 3) [int_] = HardError /\ connect_pm tx (Some 0) pmf3 (uptr 3) [int_] = HardError /\
  connect_pm tx (Some 0) pmf_rv (rv 0) [int_] = HardError /\
  connect_pm tx (Some 0) pmf (clv 0) [int_] = Rejected /\ connect_pm tx (Some 0) pmf (lv 2) [int_] = Rejected.
Proof. exact ex_connect. Qed.

(** Copyable pointers, reference_wrapper, shared_ptr, and non-const lvalues of a copyable
    class fail later only because of the result. *)
Theorem C59_connect_pointer E R m e args :
  handle e -> can_copy E e ->
  (connect_pm E R m e args = Accepted <-> invokes_o E R m e args) /\ (connect_pm E R m e args = HardError <-> invokes_r E R m e args /\ ~ invokes_o E R m e args).
Proof. exact (handles_fine E R m e args). Qed.
Print Assumptions C59_connect_pointer.
Theorem C59_connect_object E R m c args :
  te_copies E c = true ->
  (connect_pm E R m (Ex (OClass c) false LV) args = Accepted <-> invokes_o E R m (Ex (OClass c) false LV) args) /\
  (connect_pm E R m (Ex (OClass c) false LV) args = HardError <-> invokes_r E R m (Ex (OClass c) false LV) args /\ ~ invokes_o E R m (Ex (OClass c) false LV) args).
Proof. exact (lvalues_fine E R m c args). Qed.
Print Assumptions C59_connect_object.
Example C59_connect_pointer_case :
  handle (ptr 3) /\ can_copy tx (ptr 3) /\ connect_pm tx (Some 0) pmf3 (ptr 3) [int_] = Accepted /\
  handle (sptr 3) /\ can_copy tx (sptr 3) /\ connect_pm tx (Some 0) pmf3 (sptr 3) [int_] = Accepted /\
  handle (ref 3) /\ can_copy tx (ref 3) /\ connect_pm tx (Some 0) pmf3 (ref 3) [int_] = Accepted /\
  handle (cptr 0) /\ can_copy tx (cptr 0) /\ connect_pm tx (Some 0) pmf (cptr 0) [int_] = Rejected /\
  te_copies tx 1 = true /\ connect_pm tx (Some 0) pmf (lv 1) [int_] = Accepted.
Proof. exact ex_handles. Qed.

(** A weak_ptr is never accepted, although the slot would work. *)
Theorem C59_weak_ptr_rejected E R m k c k' x args :
  connect_pm E R m (Ex (OWeak k c) k' x) args = Rejected.
Proof. exact (weak_rejected E R m k c k' x args). Qed.
Print Assumptions C59_weak_ptr_rejected.
Example C59_weak_ptr_case :
  connect_pm tx (Some 0) pmf (wptr 0) [int_] = Rejected /\ invokes_o tx (Some 0) pmf (kept (wptr 0)) [int_].
Proof. exact ex_weak. Qed.

Theorem C59_invocable_is_accepted_refuted :
  ~ (forall E R m e args, invokes_r E R m e args -> connect_pm E R m e args = Accepted).
Proof. exact accepted_compiles_not. Qed.
Print Assumptions C59_invocable_is_accepted_refuted.
Theorem C59_usable_is_accepted_refuted :
  ~ (forall E R m e args, can_copy E e -> invokes_o E R m (kept e) args -> connect_pm E R m e args = Accepted).
Proof. exact slot_works_accepted_not. Qed.
Print Assumptions C59_usable_is_accepted_refuted.

(** connect(m), where the object is the first argument of the signature. *)
Theorem C59_connect_first_argument E R m e args :
  (connect_first E R m e args = Accepted <-> invokes_o E R m e args /\ ~ temporary e) /\
  (connect_first E R m e args = HardError <-> invokes_r E R m e args /\ ~ (invokes_o E R m e args /\ ~ temporary e)) /\
  (connect_first E R m e args = Rejected <-> ~ invokes_r E R m e args).
Proof. exact (connect_first_verdict E R m e args). Qed.
Print Assumptions C59_connect_first_argument.
Example C59_connect_first_argument_case :
  connect_first tx (Some 0) pmf (lv 1) [int_] = Accepted /\ connect_first tx (Some 0) pmf (ptr 1) [int_] = Accepted /\
  connect_first tx (Some 0) pmf_const (clv 3) [int_] = Rejected /\ connect_first tx (Some 0) pmf3 (lv 3) [int_] = Accepted /\
  connect_first tx (Some 0) pmf (rv 1) [int_] = HardError.
Proof. exact ex_first. Qed.

(** connect(f) and disconnect(f) with a function object. *)
Theorem C59_connect_function E R f args :
  (connect_fn E R f args = Accepted <-> calls_r E R f RV false args /\ f_copy f = true /\ calls_o E R f LV false args) /\
  (connect_fn E R f args = HardError <-> calls_r E R f RV false args /\ ~ (f_copy f = true /\ calls_o E R f LV false args)) /\
  (connect_fn E R f args = Rejected <-> ~ calls_r E R f RV false args).
Proof. exact (connect_fn_verdict E R f args). Qed.
Print Assumptions C59_connect_function.
Example C59_connect_function_case :
  connect_fn tx (Some 0) f_plain [int_] = Accepted /\ connect_fn tx (Some 0) f_mutable [int_] = Accepted /\
  connect_fn tx (Some 0) f_moveonly [int_] = HardError /\ connect_fn tx (Some 0) f_lvalue [int_] = Rejected /\
  connect_fn tx (Some 0) f_rvalue [int_] = HardError /\ connect_fn tx (Some 9) f_plain [int_] = Rejected.
Proof. exact ex_functions. Qed.

Theorem C59_disconnect_function E R f x k args :
  (disconnect_fn E R f x k args = Accepted <-> calls_r E R f x k args /\ f_copy f = true /\ calls_o E R f LV false args) /\
  (disconnect_fn E R f x k args = HardError <-> calls_r E R f x k args /\ ~ (f_copy f = true /\ calls_o E R f LV false args)) /\
  (disconnect_fn E R f x k args = Rejected <-> ~ calls_r E R f x k args).
Proof. exact (disconnect_fn_verdict E R f x k args). Qed.
Print Assumptions C59_disconnect_function.
Example C59_disconnect_function_case :
  disconnect_fn tx (Some 0) f_mutable LV false [int_] = Accepted /\ disconnect_fn tx (Some 0) f_mutable LV true [int_] = Rejected /\
  disconnect_fn tx (Some 0) f_lvalue LV false [int_] = Accepted /\ disconnect_fn tx (Some 0) f_moveonly RV false [int_] = HardError.
Proof. exact ex_disconnect. Qed.

(** The two agree when the function object can be called alike as it is passed and as a
    temporary, and need not otherwise, in either direction. *)
Theorem C59_connect_disconnect_agree E R f x k args :
  (calls_r E R f x k args <-> calls_r E R f RV false args) -> connect_fn E R f args = disconnect_fn E R f x k args.
Proof. exact (connect_disconnect E R f x k args). Qed.
Print Assumptions C59_connect_disconnect_agree.
Example C59_connect_disconnect_agree_case :
  (calls_r tx (Some 0) f_plain LV true [int_] <-> calls_r tx (Some 0) f_plain RV false [int_]) /\
  connect_fn tx (Some 0) f_plain [int_] = Accepted.
Proof. exact ex_agree. Qed.
Theorem C59_connected_can_be_disconnected_refuted :
  ~ (forall E R f x k args, connect_fn E R f args = Accepted -> disconnect_fn E R f x k args = Accepted).
Proof. exact connect_then_disconnect_not. Qed.
Print Assumptions C59_connected_can_be_disconnected_refuted.
Theorem C59_disconnected_can_be_connected_refuted :
  ~ (forall E R f x k args, disconnect_fn E R f x k args = Accepted -> connect_fn E R f args = Accepted).
Proof. exact disconnect_then_connect_not. Qed.
Print Assumptions C59_disconnected_can_be_connected_refuted.

(** The constraints ask whether the result converts to R; the slot makes an optional<R> of it,
    which has no constructor for results that need a conversion of their own.  With such a
    result (const char* for std::string) connect passes the constraints and does not compile. *)
Theorem C59_converted_results_refuted :
  ~ (forall E R f args, f_copy f = true -> (forall x k, calls_r E R f x k args) -> connect_fn E R f args = Accepted).
Proof. exact converted_not. Qed.
Print Assumptions C59_converted_results_refuted.
Example C59_converted_results_case :
  invokes_r tx (Some 8) pmf (ptr 1) [int_] /\ can_copy tx (ptr 1) /\ connect_pm tx (Some 8) pmf (ptr 1) [int_] = HardError /\
  calls_r tx (Some 8) f_plain RV false [int_] /\ connect_fn tx (Some 8) f_plain [int_] = HardError /\
  connect_first tx (Some 8) pmf (ptr 1) [int_] = HardError /\ connect_pm tx None pmf (ptr 1) [int_] = Accepted.
Proof. exact ex_converted. Qed.
(** For void signals, and result types to which no user-defined conversions lead, the two agree. *)
Theorem C59_plain_results E R : (forall t v, R = Some t -> te_conv E v t <> CUser) ->
  (forall m e args, invokes_o E R m e args <-> invokes_r E R m e args) /\ (forall f x k args, calls_o E R f x k args <-> calls_r E R f x k args).
Proof. exact (plain_results E R). Qed.
Print Assumptions C59_plain_results.
Example C59_plain_results_case : forall t v, Some 0 = Some t -> te_conv tx v t <> CUser.
Proof. exact ex_plain. Qed.
