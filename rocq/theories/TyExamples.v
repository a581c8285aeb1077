(** * Cases for the statements about what connect accepts *)
From stdpp Require Import prelude list.
From Verif Require Export TyProof.

(** Class 1 is derived from class 0; class 2 is unrelated; class 3 cannot be copied.  Types
    below 8 convert into each other; type 8 has a constructor from type 0 and from itself. *)
Definition tx : tenv :=
  TEnv (fun c d => (c =? d) || ((c =? 0) && (d =? 1)))%nat
       (fun c => negb (c =? 3)%nat)
       (fun v t => if ((v_ty v <? 8) && (t <? 8)) || ((v_ty v =? 8) && (t =? 8)) then CStd else if (v_ty v =? 0) && (t =? 8) then CUser else CNone)%nat.
Definition int_ : vty := VT 0 false RV.
Definition opaque_ : vty := VT 9 false RV.

(** Member functions of class 0 from int to int: plain, const, qualified &&, and one that
    returns what does not convert; a data member of type 5; a member function of class 3. *)
Definition pmf : member := MFun 0 false QNone [1%nat] int_.
Definition pmf_const : member := MFun 0 true QNone [1%nat] int_.
Definition pmf_rv : member := MFun 0 false QR [1%nat] int_.
Definition pmf_opaque : member := MFun 0 false QNone [1%nat] opaque_.
Definition pmd : member := MData 0 5.
Definition pmf3 : member := MFun 3 false QNone [1%nat] int_.

Definition lv (c : nat) : expr := Ex (OClass c) false LV.
Definition clv (c : nat) : expr := Ex (OClass c) true LV.
Definition rv (c : nat) : expr := Ex (OClass c) false RV.
Definition ptr (c : nat) : expr := Ex (OPtr true false c) false RV.
Definition cptr (c : nat) : expr := Ex (OPtr true true c) false RV.
Definition uptr (c : nat) : expr := Ex (OPtr false false c) false RV.
Definition sptr (c : nat) : expr := Ex (OShared false c) false LV.
Definition wptr (c : nat) : expr := Ex (OWeak false c) false LV.
Definition ref (c : nat) : expr := Ex (ORefW false c) false RV.

Lemma yes R m e args : is_invocable_r tx R (invoke_result tx m e args) = true -> invokes_r tx R m e args.
Proof. apply is_invocable_iff. Qed.
Lemma no R m e args : is_invocable_r tx R (invoke_result tx m e args) = false -> ~ invokes_r tx R m e args.
Proof. apply not_true, is_invocable_iff. Qed.

Lemma ex_is_invocable :
  invokes_r tx (Some 2) pmf (ptr 1) [int_] /\ invokes_r tx (Some 2) pmf_const (cptr 1) [int_] /\
  invokes_r tx None pmf_opaque (ref 0) [int_] /\ invokes_r tx (Some 0) pmd (sptr 0) [] /\ invokes_r tx (Some 0) pmf_rv (rv 1) [int_] /\
  ~ invokes_r tx (Some 2) pmf (cptr 1) [int_] /\ ~ invokes_r tx (Some 2) pmf_opaque (ref 0) [int_] /\
  ~ invokes_r tx (Some 2) pmf (ptr 2) [int_] /\ ~ invokes_r tx (Some 0) pmd (sptr 0) [int_] /\ ~ invokes_r tx (Some 0) pmf (lv 0) [] /\
  ~ invokes_r tx (Some 0) pmf_rv (lv 0) [int_] /\ ~ invokes_r tx (Some 0) pmf (wptr 0) [int_].
Proof. repeat split; (apply yes || apply no); reflexivity. Qed.
Lemma ex_helper :
  helper_call tx pmf (lv 1) [int_] = TOk int_ /\ helper_call tx pmd (Ex (OClass 1) true LV) [] = TOk (VT 5 true LV) /\
  helper_call tx pmf (rv 0) [int_] = THard /\ helper_call tx pmf_const (rv 1) [int_] = THard /\ helper_call tx pmf (wptr 0) [int_] = TNone.
Proof. repeat split; reflexivity. Qed.
Lemma ex_connect :
  connect_pm tx (Some 0) pmf (lv 1) [int_] = Accepted /\ connect_pm tx (Some 0) pmf (rv 1) [int_] = Accepted /\
  connect_pm tx (Some 0) pmf3 (lv 3) [int_] = HardError /\ connect_pm tx (Some 0) pmf3 (uptr 3) [int_] = HardError /\
  connect_pm tx (Some 0) pmf_rv (rv 0) [int_] = HardError /\
  connect_pm tx (Some 0) pmf (clv 0) [int_] = Rejected /\ connect_pm tx (Some 0) pmf (lv 2) [int_] = Rejected.
Proof. repeat split; reflexivity. Qed.
Lemma ex_handles :
  handle (ptr 3) /\ can_copy tx (ptr 3) /\ connect_pm tx (Some 0) pmf3 (ptr 3) [int_] = Accepted /\
  handle (sptr 3) /\ can_copy tx (sptr 3) /\ connect_pm tx (Some 0) pmf3 (sptr 3) [int_] = Accepted /\
  handle (ref 3) /\ can_copy tx (ref 3) /\ connect_pm tx (Some 0) pmf3 (ref 3) [int_] = Accepted /\
  handle (cptr 0) /\ can_copy tx (cptr 0) /\ connect_pm tx (Some 0) pmf (cptr 0) [int_] = Rejected /\
  te_copies tx 1 = true /\ connect_pm tx (Some 0) pmf (lv 1) [int_] = Accepted.
Proof. repeat split; reflexivity. Qed.
Lemma yes_o R m e args : body_ok tx R (helper_call tx m e args) = true -> invokes_o tx R m e args.
Proof. intros H. apply body_iff in H. tauto. Qed.
Lemma ex_weak : connect_pm tx (Some 0) pmf (wptr 0) [int_] = Rejected /\ invokes_o tx (Some 0) pmf (kept (wptr 0)) [int_].
Proof. split; [reflexivity|]. apply yes_o. reflexivity. Qed.
Lemma ex_first :
  connect_first tx (Some 0) pmf (lv 1) [int_] = Accepted /\ connect_first tx (Some 0) pmf (ptr 1) [int_] = Accepted /\
  connect_first tx (Some 0) pmf_const (clv 3) [int_] = Rejected /\ connect_first tx (Some 0) pmf3 (lv 3) [int_] = Accepted /\
  connect_first tx (Some 0) pmf (rv 1) [int_] = HardError.
Proof. repeat split; reflexivity. Qed.

(** A copyable function object with a const operator(), one with a non-const one, a move-only
    one, and one whose operator() is qualified &. *)
Definition f_plain : fty := Fn true (fun _ _ _ => Some int_).
Definition f_mutable : fty := Fn true (fun _ k _ => if k then None else Some int_).
Definition f_moveonly : fty := Fn false (fun _ _ _ => Some int_).
Definition f_lvalue : fty := Fn true (fun x _ _ => match x with LV => Some int_ | RV => None end).
Definition f_rvalue : fty := Fn true (fun x _ _ => match x with RV => Some int_ | LV => None end).

Lemma ex_functions :
  connect_fn tx (Some 0) f_plain [int_] = Accepted /\ connect_fn tx (Some 0) f_mutable [int_] = Accepted /\
  connect_fn tx (Some 0) f_moveonly [int_] = HardError /\ connect_fn tx (Some 0) f_lvalue [int_] = Rejected /\
  connect_fn tx (Some 0) f_rvalue [int_] = HardError /\ connect_fn tx (Some 9) f_plain [int_] = Rejected.
Proof. repeat split; reflexivity. Qed.
Lemma ex_disconnect :
  disconnect_fn tx (Some 0) f_mutable LV false [int_] = Accepted /\ disconnect_fn tx (Some 0) f_mutable LV true [int_] = Rejected /\
  disconnect_fn tx (Some 0) f_lvalue LV false [int_] = Accepted /\ disconnect_fn tx (Some 0) f_moveonly RV false [int_] = HardError.
Proof. repeat split; reflexivity. Qed.
Lemma ex_agree : (calls_r tx (Some 0) f_plain LV true [int_] <-> calls_r tx (Some 0) f_plain RV false [int_]) /\ connect_fn tx (Some 0) f_plain [int_] = Accepted.
Proof. split; [|reflexivity]. rewrite <- !calls_iff. vm_compute. tauto. Qed.

(** What passes the constraints need not compile, and what they refuse might. *)
Lemma accepted_compiles_not : ~ (forall E R m e args, invokes_r E R m e args -> connect_pm E R m e args = Accepted).
Proof. intros H. specialize (H tx (Some 0) pmf3 (lv 3) [int_] ltac:(apply yes; reflexivity)). discriminate. Qed.
Lemma slot_works_accepted_not :
  ~ (forall E R m e args, can_copy E e -> invokes_o E R m (kept e) args -> connect_pm E R m e args = Accepted).
Proof. intros H. specialize (H tx (Some 0) pmf (wptr 0) [int_] I (proj2 ex_weak)). discriminate. Qed.
Lemma helper_invokes_not : ~ (forall E m e args v, invokes E m e args v -> helper_call E m e args = TOk v).
Proof. intros H. specialize (H tx pmf (rv 0) [int_] int_ ltac:(apply invoke_result_iff; reflexivity)). discriminate. Qed.
Lemma connect_then_disconnect_not :
  ~ (forall E R f x k args, connect_fn E R f args = Accepted -> disconnect_fn E R f x k args = Accepted).
Proof. intros H. specialize (H tx (Some 0) f_mutable LV true [int_] eq_refl). discriminate. Qed.
Lemma disconnect_then_connect_not :
  ~ (forall E R f x k args, disconnect_fn E R f x k args = Accepted -> connect_fn E R f args = Accepted).
Proof. intros H. specialize (H tx (Some 0) f_lvalue LV false [int_] eq_refl). discriminate. Qed.

(** A member function that returns an int (a const char pointer, say) for a signal whose result
    type has a constructor from it (std::string): the trait says yes, the return statement of
    the slot does not compile. *)
Lemma ex_converted :
  invokes_r tx (Some 8) pmf (ptr 1) [int_] /\ can_copy tx (ptr 1) /\ connect_pm tx (Some 8) pmf (ptr 1) [int_] = HardError /\
  calls_r tx (Some 8) f_plain RV false [int_] /\ connect_fn tx (Some 8) f_plain [int_] = HardError /\
  connect_first tx (Some 8) pmf (ptr 1) [int_] = HardError /\ connect_pm tx None pmf (ptr 1) [int_] = Accepted.
Proof. repeat split; try reflexivity; [apply yes; reflexivity|]. exists int_. split; [reflexivity|]. intros t [= <-]. discriminate. Qed.
Lemma converted_not :
  ~ (forall E R f args, f_copy f = true -> (forall x k, calls_r E R f x k args) -> connect_fn E R f args = Accepted).
Proof.
  intros H. specialize (H tx (Some 8) f_plain [int_] eq_refl). assert (Hc : forall x k, calls_r tx (Some 8) f_plain x k [int_]).
  { intros x k. exists int_. split; [reflexivity|]. intros t [= <-]. discriminate. }
  specialize (H Hc). discriminate.
Qed.
(** Where the result type has no converting constructors the two notions agree. *)
Lemma plain_results E R : (forall t v, R = Some t -> te_conv E v t <> CUser) ->
  (forall m e args, invokes_o E R m e args <-> invokes_r E R m e args) /\ (forall f x k args, calls_o E R f x k args <-> calls_r E R f x k args).
Proof.
  intros H. assert (Hg : forall v, returns E R v <-> gives E R v).
  { intros v. split; [apply returns_gives|]. intros Hg t Ht. specialize (Hg t Ht). specialize (H t v Ht). destruct (te_conv E v t); congruence. }
  split; intros; unfold invokes_o, invokes_r, calls_o, calls_r; split; intros (v & Hv & Hr); exists v; (split; [exact Hv|]); apply Hg; exact Hr.
Qed.
Lemma ex_plain : forall t v, Some 0%nat = Some t -> te_conv tx v t <> CUser.
Proof.
  intros t v [= <-]. destruct v as [n k x]. unfold tx. cbn [te_conv v_ty]. change (0 =? 8)%nat with false. rewrite !andb_false_r.
  destruct (_ || _); discriminate.
Qed.
