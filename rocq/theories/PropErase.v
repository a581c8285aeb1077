(** * Properties: signal::disconnect(f), slot comparison *)
From Verif Require Import OpExamples.

(** C15: a call of disconnect(f) that returned or threw, whatever operator== did: either memory
    ran out before it did anything, or there was a part of the call in which only this thread
    changed the list, by taking out slots that had compared equal; what remained then together with
    what it took out is what was there. If it returned a number, that is how many were taken out and
    all that remained had compared unequal; if it threw, a slot that is still in the list had thrown
    the exception. Before and after that part the thread did not change the list. The mutex is not
    kept. *)
Theorem C15_what_disconnect_f_does e ps t s src k st w0 w o : reachable e ps w0 -> in_call e t (OErase s src) k st w0 w -> returned t k st w o ->
  exists new, since w0 w new /\
    ((o = OutExn BadAlloc /\ mine t new = []) \/
     exists a before during, given w0 src a /\ erase_call e t s a (w_log w0) new before during o).
Proof. exact (erase_calls e ps t s src k st w0 w o). Qed.
Print Assumptions C15_what_disconnect_f_does.

(** The same seen from outside, when no other thread changed the list during the call. *)
Theorem C15_from_outside e ps t s src k st w0 w o new a : reachable e ps w0 -> in_call e t (OErase s src) k st w0 w -> returned t k st w o ->
  since w0 w new -> undisturbed t s new -> given w0 src a ->
  exists gone, slots_of w0 s ≡ₚ slots_of w s ++ gone /\ (forall n, o = OutNat n -> n = length gone) /\
    (forall l c, l ∈ gone -> spec_callee (w_log w0) l = Some c -> compares_opt e (Some c) a (OutBool true)) /\
    (forall l c n, l ∈ slots_of w s -> spec_callee (w_log w0) l = Some c -> o = OutNat n -> compares_opt e (Some c) a (OutBool false)).
Proof. exact (erase_any_outside e ps t s src k st w0 w o new a). Qed.
Print Assumptions C15_from_outside.

Theorem C15_list_is_what_the_log_says e ps w s : reachable e ps w -> slots_of w s = spec_list (w_log w) s /\ NoDup (spec_list (w_log w) s).
Proof. exact (list_spec e ps w s). Qed.
Print Assumptions C15_list_is_what_the_log_says.

Theorem C15_mutex_is_released e ps t k st w o s r : reachable e ps w -> returned t k st w o -> w_sigs w !! s = Some r ->
  (forall f, f ∈ st -> ~ in_section s f) -> sg_lock r <> Some t.
Proof. exact (returned_unlocked e ps t k st w o s r). Qed.
Print Assumptions C15_mutex_is_released.

Example C15_example : exists k st w0 w r new, reachable y3_env [y3_prog] w0 /\
  in_call y3_env 0 (OErase 0 (SrcFn (fn 1))) k st w0 w /\ returned 0 k st w r /\ since w0 w new /\ undisturbed 0 0 new /\ lists_are 0 [0; 1; 2] [2; 1] (OutExn (UserExn 4)) w0 w r = true.
Proof. exact ex_C15. Qed.

(** Not the strong guarantee: matches found before the exception stay removed. *)
Theorem C15_strong_guarantee_refuted :
  ~ (forall e p t s src k st w0 w x, reachable e [p] w0 -> in_call e t (OErase s src) k st w0 w -> returned t k st w (OutExn x) ->
       slots_of w s = slots_of w0 s).
Proof. exact erase_not_strong. Qed.
Print Assumptions C15_strong_guarantee_refuted.

(** C13: with an operator== that is a function, when all slots can be compared with the argument and
    no other thread changed the list during the call: memory ran out and nothing changed, or exactly the unequal
    slots remain and the number of equal ones is returned. *)
Theorem C13_disconnect_f_from_outside e eqb ps t s src k st w0 w o new a : pure_eq e eqb ->
  reachable e ps w0 -> in_call e t (OErase s src) k st w0 w -> returned t k st w o ->
  since w0 w new -> undisturbed t s new -> given w0 src a ->
  (forall l, l ∈ slots_of w0 s -> exists c, spec_callee (w_log w0) l = Some c /\ can_compare e eqb a c) ->
  (o = OutExn BadAlloc /\ slots_of w s = slots_of w0 s) \/
  (o = OutNat (length (such (w_log w0) (is_eq e eqb a) (slots_of w0 s))) /\
   slots_of w s ≡ₚ such (w_log w0) (is_ne e eqb a) (slots_of w0 s)).
Proof. exact (erase_exact e eqb ps t s src k st w0 w o new a). Qed.
Print Assumptions C13_disconnect_f_from_outside.

(** With other threads, for the part of the call that C15 gives: exactly the equal slots are taken out,
    exactly the unequal ones are left and the number of equal ones is returned. *)
Theorem C13_exactly_the_equal_slots e eqb t s a pre0 during o : pure_eq e eqb -> erases_from e t s a pre0 during o ->
  let log := during ++ pre0 in
  (forall l, l ∈ spec_list pre0 s -> exists c, spec_callee log l = Some c /\ can_compare e eqb a c) ->
  erased_of s during ≡ₚ such log (is_eq e eqb a) (spec_list pre0 s) /\
  spec_list log s ≡ₚ such log (is_ne e eqb a) (spec_list pre0 s) /\
  o = OutNat (length (such log (is_eq e eqb a) (spec_list pre0 s))).
Proof. exact (erase_pure e eqb t s a pre0 during o). Qed.
Print Assumptions C13_exactly_the_equal_slots.

Example C13_example : exists k st w0 w r new, reachable x2_env [y1_prog] w0 /\
  in_call x2_env 0 (OErase 0 (SrcFn (fn 1))) k st w0 w /\ returned 0 k st w r /\ since w0 w new /\ undisturbed 0 0 new /\ lists_are 0 [0; 1; 2; 3; 4] [3; 1] (OutNat 3) w0 w r = true.
Proof. exact ex_C13. Qed.
Example C13_example_pure : pure_eq x2_env eqn.
Proof. exact x2_pure. Qed.

(** C14: not_comparable_exception leaves the list as it was. *)
Theorem C14_from_outside e ps t s src k st w0 w new : eq_total e ->
  reachable e ps w0 -> in_call e t (OErase s src) k st w0 w -> returned t k st w (OutExn NotComparable) ->
  since w0 w new -> undisturbed t s new -> slots_of w s = slots_of w0 s.
Proof. exact (erase_nc_outside e ps t s src k st w0 w new). Qed.
Print Assumptions C14_from_outside.

Theorem C14_not_comparable_changes_nothing e t s a pre0 during : eq_total e -> erases_from e t s a pre0 during (OutExn NotComparable) ->
  erased_of s during = [] /\ spec_list (during ++ pre0) s = spec_list pre0 s.
Proof. exact (erase_not_comparable e t s a pre0 during). Qed.
Print Assumptions C14_not_comparable_changes_nothing.

Example C14_example : exists k st w0 w r new, reachable y2_env [y2_prog] w0 /\
  in_call y2_env 0 (OErase 0 (SrcFn (fn5 2))) k st w0 w /\ returned 0 k st w r /\ since w0 w new /\ undisturbed 0 0 new /\ lists_are 0 [0; 1; 2] [0; 1; 2] (OutExn NotComparable) w0 w r = true.
Proof. exact ex_C14. Qed.
Example C14_example_total : eq_total y2_env.
Proof. exact y2_total. Qed.

(** C16: a slot of another type or value category than the argument stays. *)
Theorem C16_from_outside e ps t s src k st w0 w o new b l c : reachable e ps w0 -> in_call e t (OErase s src) k st w0 w -> returned t k st w o ->
  since w0 w new -> undisturbed t s new -> given w0 src (Some b) ->
  l ∈ slots_of w0 s -> spec_callee (w_log w0) l = Some c -> ~ same_type c b -> l ∈ slots_of w s.
Proof. exact (erase_other_outside e ps t s src k st w0 w o new b l c). Qed.
Print Assumptions C16_from_outside.

Theorem C16_other_types_stay e t s a b pre0 during o l c : erases_from e t s a pre0 during o -> a = Some b ->
  l ∈ spec_list pre0 s -> spec_callee (during ++ pre0) l = Some c -> ~ same_type c b -> l ∈ spec_list (during ++ pre0) s.
Proof. exact (erase_other_type e t s a b pre0 during o l c). Qed.
Print Assumptions C16_other_types_stay.

Theorem C16_only_the_same_type e t s a pre0 during o l : erases_from e t s a pre0 during o -> l ∈ erased_of s during ->
  exists c b, spec_callee (during ++ pre0) l = Some c /\ a = Some b /\ same_type c b.
Proof. exact (erase_same_type e t s a pre0 during o l). Qed.
Print Assumptions C16_only_the_same_type.

Example C16_example : exists k st w0 w r new, reachable x2_env [y4_prog] w0 /\
  in_call x2_env 0 (OErase 0 (SrcFn (fn 1))) k st w0 w /\ returned 0 k st w r /\ since w0 w new /\ undisturbed 0 0 new /\ lists_are 0 [0; 1] [0] (OutNat 1) w0 w r = true.
Proof. exact ex_C16. Qed.

(** So after disconnect(f) returned, a slot with an equal functor of the same type may remain. *)
Theorem C16_equal_functors_are_gone_refuted :
  ~ (forall e p t s b k st w0 w n l c, pure_eq e eqn -> reachable e [p] w0 -> in_call e t (OErase s (SrcFn b)) k st w0 w -> returned t k st w (OutNat n) ->
       l ∈ spec_list (w_log w) s -> spec_callee (w_log w) l = Some c -> c_kind c = c_kind b -> ft_base (c_fty c) = ft_base (c_fty b) -> c_fv c <> c_fv b).
Proof. exact equal_value_stays. Qed.
Print Assumptions C16_equal_functors_are_gone_refuted.

(** C17: the type of the pointer of a tracked slot has no operator==. *)
Theorem C17_from_outside e ps t s src k st w0 w o new b l c : reachable e ps w0 -> in_call e t (OErase s src) k st w0 w -> returned t k st w o ->
  since w0 w new -> undisturbed t s new -> given w0 src (Some b) -> c_kind b = KTracked -> e_cmp e (ft_base (c_pty b)) = false ->
  l ∈ slots_of w0 s -> spec_callee (w_log w0) l = Some c -> same_type c b ->
  (o = OutExn NotComparable \/ o = OutExn BadAlloc) /\ slots_of w s = slots_of w0 s.
Proof. exact (erase_tracked_outside e ps t s src k st w0 w o new b l c). Qed.
Print Assumptions C17_from_outside.

Theorem C17_tracked_slots_are_not_comparable e t s b pre0 during o l c : erases_from e t s (Some b) pre0 during o -> c_kind b = KTracked ->
  e_cmp e (ft_base (c_pty b)) = false -> l ∈ spec_list pre0 s -> spec_callee (during ++ pre0) l = Some c -> same_type c b ->
  o = OutExn NotComparable /\ spec_list (during ++ pre0) s = spec_list pre0 s.
Proof. exact (erase_tracked e t s b pre0 during o l c). Qed.
Print Assumptions C17_tracked_slots_are_not_comparable.

Example C17_example : exists k st w0 w r new, reachable y2_env [y5_prog] w0 /\
  in_call y2_env 0 (OErase 0 (SrcFn (trk8 1 0))) k st w0 w /\ returned 0 k st w r /\ since w0 w new /\ undisturbed 0 0 new /\ lists_are 0 [0; 1] [0; 1] (OutExn NotComparable) w0 w r = true.
Proof. exact ex_C17. Qed.

(** C36: what operator== of two slot objects returns, whatever the client's operator== do; when
    those are equivalences that do nothing else, so is it; when it throws. *)
Theorem C36_what_equality_returns e ps t u1 u2 k st w0 w o : reachable e ps w0 -> in_call e t (OSlotEq u1 u2) k st w0 w -> returned t k st w o ->
  exists i1 i2, v_us (w_vars w0) !! u1 = Some (UsV true i1) /\ v_us (w_vars w0) !! u2 = Some (UsV true i2) /\
    compares_opt e (im_c <$> i1) (im_c <$> i2) o.
Proof. exact (sloteq_returns e ps t u1 u2 k st w0 w o). Qed.
Print Assumptions C36_what_equality_returns.

Theorem C36_as_a_function e eqb a b o : pure_eq e eqb ->
  compares_opt e a b o <-> o = match slot_same e eqb a b with Some b => OutBool b | None => OutExn NotComparable end.
Proof. exact (pure_gives e eqb a b o). Qed.
Print Assumptions C36_as_a_function.

Theorem C36_reflexive e eqb a : eqb_equivalence eqb -> slot_same e eqb a a <> Some false.
Proof. exact (slot_same_refl e eqb a). Qed.
Print Assumptions C36_reflexive.

Theorem C36_symmetric e eqb a b : eqb_equivalence eqb -> slot_same e eqb a b = slot_same e eqb b a.
Proof. exact (slot_same_sym e eqb a b). Qed.
Print Assumptions C36_symmetric.

Theorem C36_transitive e eqb a b c : eqb_equivalence eqb -> slot_same e eqb a b = Some true -> slot_same e eqb b c = Some true ->
  slot_same e eqb a c = Some true.
Proof. exact (slot_same_trans e eqb a b c). Qed.
Print Assumptions C36_transitive.

Theorem C36_when_it_throws e eqb a b : slot_same e eqb a b = None <-> exists x y, a = Some x /\ b = Some y /\ same_type x y /\
  match c_kind x with
  | KFunc => e_cmp e (ft_base (c_fty x)) = false
  | _ => e_cmp e (ft_base (c_pty x)) = false \/
         (e_cmp e (ft_base (c_pty x)) = true /\ eqb (ft_base (c_pty x)) (c_pv x) (c_pv y) = true /\ e_cmp e (ft_base (c_fty x)) = false)
  end.
Proof. exact (slot_same_none e eqb a b). Qed.
Print Assumptions C36_when_it_throws.

Example C36_example a b (r : out) : In (a, b, r) [(0, 1, OutBool true); (0, 2, OutBool false); (3, 3, OutBool true); (0, 3, OutBool false); (4, 4, OutExn NotComparable)] ->
  exists k st w0 w o, reachable y2_env [y8_prog] w0 /\ in_call y2_env 0 (OSlotEq a b) k st w0 w /\ returned 0 k st w o /\ bool_decide (o = r) = true.
Proof. exact (ex_C36 a b r). Qed.
Example C36_example_equivalence : eqb_equivalence eqn.
Proof. exact eqn_equiv. Qed.
