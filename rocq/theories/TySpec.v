(** * INVOKE, as the C++ standard defines it

    [func.require] and [expr.mptr.oper], written without the functions of the model. *)
From stdpp Require Import prelude list.
From Verif Require Export TyModel.

Section spec.
  Context (E : tenv).

  (** (o.*m)(args...) or o.*m is well formed and has type v. *)
  Inductive applies : member -> obj -> list vty -> vty -> Prop :=
  | AP_fun c k q ps res o args :
      te_derives E c (o_cls o) = true ->
      (o_const o = true -> k = true) ->
      (q = QL -> o_cat o = LV) -> (q = QR -> o_cat o = RV) ->
      Forall2 (fun a p => te_conv E a p <> CNone) args ps ->
      applies (MFun c k q ps res) o args res
  | AP_data c t o :
      te_derives E c (o_cls o) = true ->
      applies (MData c t) o [] (VT t (o_const o) (o_cat o)).

  (** INVOKE(m, e, args...) is well formed and has type v. *)
  Inductive invokes (m : member) : expr -> list vty -> vty -> Prop :=
  (* (t1.*f)(t2, ..., tN) when t1 is an object of the class or of a derived one *)
  | IN_object d k x args v :
      te_derives E (m_cls m) d = true -> applies m (Ob d k x) args v -> invokes m (Ex (OClass d) k x) args v
  (* (t1.get().*f)(t2, ..., tN) when t1 is a reference_wrapper *)
  | IN_wrapper k c k' x args v : applies m (Ob c k LV) args v -> invokes m (Ex (ORefW k c) k' x) args v
  (* (( *t1).*f)(t2, ..., tN) otherwise *)
  | IN_pointer cp k c k' x args v : applies m (Ob c k LV) args v -> invokes m (Ex (OPtr cp k c) k' x) args v
  | IN_shared k c k' x args v : applies m (Ob c k LV) args v -> invokes m (Ex (OShared k c) k' x) args v.

  (** INVOKE<R>: the value can be converted to R, if R is not void. *)
  Definition gives (R : option nat) (v : vty) : Prop := forall t, R = Some t -> te_conv E v t <> CNone.
  Definition invokes_r (R : option nat) (m : member) (e : expr) (args : list vty) : Prop :=
    exists v, invokes m e args v /\ gives R v.

  (** The value can be returned from a function with result type optional<R>: one
      user-defined conversion is used up by the constructor of optional. *)
  Definition returns (R : option nat) (v : vty) : Prop := forall t, R = Some t -> te_conv E v t = CStd.
  Definition invokes_o (R : option nat) (m : member) (e : expr) (args : list vty) : Prop :=
    exists v, invokes m e args v /\ returns R v.

  (** What a slot keeps of the object argument, and how it is an argument when the slot is
      called: an lvalue copy without const; for a tracked slot a shared_ptr. *)
  Definition kept (e : expr) : expr :=
    match e_ty e with OWeak k c => Ex (OShared k c) false LV | t => Ex t false LV end.
  Definition can_copy (e : expr) : Prop :=
    match e_ty e with OClass c => te_copies E c = true | OPtr cp _ _ => cp = true | _ => True end.

  (** An object passed itself, as an rvalue. *)
  Definition temporary (e : expr) : Prop := exists c, e_ty e = OClass c /\ e_cat e = RV.

  (** A function object called as an expression of category x, const if k. *)
  Definition calls_r (R : option nat) (f : fty) (x : cat) (k : bool) (args : list vty) : Prop :=
    exists v, f_call f x k args = Some v /\ gives R v.
  Definition calls_o (R : option nat) (f : fty) (x : cat) (k : bool) (args : list vty) : Prop :=
    exists v, f_call f x k args = Some v /\ returns R v.
End spec.
