(** * What connect accepts: the traits of signals.hpp 54-413 and invoke_helper 440-500

    A model of the part of C++ that decides whether a call of connect or disconnect
    compiles: overload sets become functions, types become data.  There are three
    outcomes: the call is accepted, it is rejected because the constraints of the
    function template are not met (no matching function, or another overload), or it
    is accepted by the constraints and then some function that has to be instantiated
    does not compile. *)
From stdpp Require Import prelude list.

(** Value category of an expression. *)
Inductive cat := LV | RV.

(** The types of a call's object argument.  Classes are numbers.  Simplifications: no
    volatile; a class type has no operator*; pointer-like types give an lvalue. *)
Inductive oty :=
| OClass (c : nat)                      (* a class type *)
| ORefW (k : bool) (c : nat)            (* std::reference_wrapper of class c, const if k *)
| OPtr (cp : bool) (k : bool) (c : nat) (* a pointer or a pointer-like class to c, const c if k; copyable if cp *)
| OShared (k : bool) (c : nat)          (* std::shared_ptr *)
| OWeak (k : bool) (c : nat).           (* std::weak_ptr *)

(** An expression of such a type: const or not, and its category.  As a deduced
    template parameter: T& for an lvalue, T for an rvalue. *)
Record expr := Ex { e_ty : oty; e_const : bool; e_cat : cat }.
(** An expression of class type. *)
Record obj := Ob { o_cls : nat; o_const : bool; o_cat : cat }.
(** An expression of any other type; also the type of a parameter of the signature: a
    parameter by value is forwarded as an rvalue. *)
Record vty := VT { v_ty : nat; v_const : bool; v_cat : cat }.

(** Ref-qualifiers. *)
Inductive refq := QNone | QL | QR.

(** Pointers to members of class c: a function with its const- and ref-qualifier, its
    parameter types and its result, or data of type t. *)
Inductive member :=
| MFun (c : nat) (k : bool) (q : refq) (params : list nat) (res : vty)
| MData (c : nat) (t : nat).
Definition m_cls (m : member) : nat := match m with MFun c _ _ _ _ => c | MData c _ => c end.

(** Function objects: whether they can be copied, and what calling one gives, by the
    category and constness of the object expression and the arguments. *)
Record fty := Fn { f_copy : bool; f_call : cat -> bool -> list vty -> option vty }.

(** How an expression of one type becomes a value of another without a cast: not at all, by a
    standard conversion sequence (the same type included), or with the help of a converting
    constructor or a conversion function, of which one sequence has at most one. *)
Inductive conversion := CNone | CStd | CUser.

(** What else the program says about its types. *)
Record tenv := TEnv {
  te_derives : nat -> nat -> bool;   (* std::is_base_of<first, second> *)
  te_copies : nat -> bool;           (* the class has a copy constructor *)
  te_conv : vty -> nat -> conversion }.    (* implicit conversion *)

Section model.
  Context (E : tenv).

  Definition converts (v : vty) (t : nat) : bool :=
    match te_conv E v t with CNone => false | _ => true end.

  (** Overload resolution for the arguments of one function. *)
  Fixpoint args_ok (args : list vty) (params : list nat) : bool :=
    match args, params with
    | [], [] => true
    | a :: args, p :: params => converts a p && args_ok args params
    | _, _ => false
    end.

  Definition refq_ok (q : refq) (x : cat) : bool :=
    match q, x with QNone, _ | QL, LV | QR, RV => true | _, _ => false end.

  (** (o.*m)(args...) or o.*m: lines 228, 272.  C++11: an rvalue cannot be the object of a
      member function qualified &, const or not. *)
  Definition dot_star (m : member) (o : obj) (args : list vty) : option vty :=
    match m with
    | MFun c k q ps res =>
        if te_derives E c (o_cls o) && implb (o_const o) k && refq_ok q (o_cat o) && args_ok args ps
        then Some res else None
    | MData c t =>
        match args with
        | [] => if te_derives E c (o_cls o) then Some (VT t (o_const o) (o_cat o)) else None
        | _ => None
        end
    end.

  (** Unary operator*. *)
  Definition star (e : expr) : option obj :=
    match e_ty e with
    | OPtr _ k c | OShared k c => Some (Ob c k LV)
    | _ => None
    end.

  (** ** invoke_result and is_invocable_r *)

  (** inv_unwrap, 177-187: reference_wrapper<U> becomes U&. *)
  Definition unwrap (e : expr) : expr :=
    match e_ty e with ORefW k c => Ex (OClass c) k LV | _ => e end.

  (** std::is_base_of<Class, ArgVal>, 317, 333 *)
  Definition base_of (c : nat) (t : oty) : bool :=
    match t with OClass d => te_derives E c d | _ => false end.

  (** result_of_memfun_ref, result_of_memobj_ref: 225-243, 269-287 *)
  Definition result_ref (m : member) (e : expr) (args : list vty) : option vty :=
    match e_ty e with OClass d => dot_star m (Ob d (e_const e) (e_cat e)) args | _ => None end.

  (** result_of_memfun_deref, result_of_memobj_deref: 247-265, 290-307 *)
  Definition result_deref (m : member) (e : expr) (args : list vty) : option vty :=
    match star e with Some o => dot_star m o args | None => None end.

  (** result_of_memobj, result_of_memfun, result_of_impl for pointers to members: 309-354.
      A pointer to data with further arguments matches the primary template. *)
  Definition invoke_result (m : member) (e : expr) (args : list vty) : option vty :=
    let e := unwrap e in
    if base_of (m_cls m) (e_ty e) then result_ref m e args else result_deref m e args.

  (** is_invocable_impl, 375-405; R = void is None. *)
  Definition conv_r (R : option nat) (v : vty) : bool :=
    match R with None => true | Some t => converts v t end.
  Definition is_invocable_r (R : option nat) (r : option vty) : bool :=
    match r with Some v => conv_r R v | None => false end.

  (** ** invoke_helper *)

  (** An overload set that has no viable function, a function that is viable and whose body
      does not compile, or the type of the result. *)
  Inductive tres (A : Type) := TNone | THard | TOk (a : A).
  Arguments TNone {A}. Arguments THard {A}. Arguments TOk {A} a.

  (** invoke_helper::get.  The first overload (460-465) is declared to return T&& and returns
      the name t, an lvalue (before C++23, which makes it an xvalue): that compiles only when T
      is an lvalue reference.  The second is
      for reference_wrapper (468-473), the third for the rest (476-482).  The declared type is
      known even when the body does not compile. *)
  Definition get (m : member) (e : expr) : option (obj * bool) :=
    match e_ty e with
    | OClass d => if te_derives E (m_cls m) d
                  then Some (Ob d (e_const e) (e_cat e), match e_cat e with LV => true | RV => false end)
                  else None
    | ORefW k c => Some (Ob c k LV, true)
    | _ => match star e with Some o => Some (o, true) | None => None end
    end.

  (** invoke_helper::call, 484-498 *)
  Definition helper_call (m : member) (e : expr) (args : list vty) : tres vty :=
    match get m e with
    | Some (o, compiles) =>
        match dot_star m o args with
        | Some v => if compiles then TOk v else THard
        | None => TNone
        end
    | None => TNone
    end.

  (** ** The slot classes *)

  (** The copy constructor of m_Ptr (844-857, 883-900). *)
  Definition copyable (t : oty) : bool :=
    match t with OClass c => te_copies E c | OPtr cp _ _ => cp | _ => true end.

  (** return v; in a function that returns optional<R> (797, 875, 976).  The constructors of
      optional<R> that are not explicit take R const& and R&& (optional.hpp 790-799), and the
      constructor is itself the one user-defined conversion of the sequence, so v has to
      become an R by a standard conversion.  When R is void the value is dropped (834, 918,
      1036).  Simplifications: no conversion functions to optional<R>, no operator comma. *)
  Definition return_ok (R : option nat) (v : vty) : bool :=
    match R with None => true | Some t => match te_conv E v t with CStd => true | _ => false end end.
  (** The call inside a slot class: it has to compile, and so has the return statement. *)
  Definition body_ok (R : option nat) (r : tres vty) : bool :=
    match r with TOk v => return_ok R v | _ => false end.

  (** is_weak_ptr_convertable (145-165 with to_weak, 42-52) chooses the class.
      slot_pmf_tracked (923-1045): the object of the call is [sp], an lvalue shared_ptr.
      slot_pmf (838-920): it is m_Ptr, an lvalue of the decayed type; clone (857, 900) needs
      its copy constructor and is virtual, so it is always instantiated. *)
  Definition slot_pm_ok (R : option nat) (m : member) (e : expr) (args : list vty) : bool :=
    match e_ty e with
    | OShared k c | OWeak k c => body_ok R (helper_call m (Ex (OShared k c) false LV) args)
    | t => copyable t && body_ok R (helper_call m (Ex t false LV) args)
    end.

  (** Results of compiling a call of connect or disconnect. *)
  Inductive verdict := Accepted | Rejected | HardError.
  Definition decide_call (constraint body : bool) : verdict :=
    if constraint then (if body then Accepted else HardError) else Rejected.

  (** connect(Func&&, Ptr&&), 1711-1720, and connect_scoped, 1742-1748; disconnect, 1770-1778. *)
  Definition connect_pm (R : option nat) (m : member) (e : expr) (args : list vty) : verdict :=
    decide_call (is_invocable_r R (invoke_result m e args)) (slot_pm_ok R m e args).

  (** connect(Func&&) with a pointer to a member, 1698-1707: the object is the first argument
      of the signature.  slot_func (770-836) calls with std::forward<Args>(args)..., and the
      pointer to member itself can always be copied. *)
  Definition connect_first (R : option nat) (m : member) (e : expr) (args : list vty) : verdict :=
    decide_call (is_invocable_r R (invoke_result m e args)) (body_ok R (helper_call m e args)).

  (** slot_func: m_Func is an lvalue of the decayed type (797, 834), and clone needs the copy
      constructor (780, 817). *)
  Definition slot_fn_ok (R : option nat) (f : fty) (args : list vty) : bool :=
    f_copy f && match f_call f LV false args with Some v => return_ok R v | None => false end.
  (** connect(Func&&), 1698-1707: the constraint is about remove_cvref_t<Func>, that is, a
      non-const rvalue, whatever is passed. *)
  Definition connect_fn (R : option nat) (f : fty) (args : list vty) : verdict :=
    decide_call (is_invocable_r R (f_call f RV false args)) (slot_fn_ok R f args).
  (** disconnect(Func&&), 1758-1766: the constraint is about Func as it is passed. *)
  Definition disconnect_fn (R : option nat) (f : fty) (x : cat) (k : bool) (args : list vty) : verdict :=
    decide_call (is_invocable_r R (f_call f x k args)) (slot_fn_ok R f args).
End model.
Arguments TNone {A}. Arguments THard {A}. Arguments TOk {A} a.
