(** * Which constructor or assignment of optional an argument selects

    optional.hpp 754-914 and 247-335.  Overload resolution as the C++ standard has it, for the
    overload sets of opt::optional<T>: the constructors that can be called with one argument,
    the assignment operators, and the members assign() of optional_base.

    Simplifications: no volatile, no braced lists, no classes derived from optional, no
    conversion functions to optional or to references, no conversions of classes to their bases.
    T is an object type: optional<T&> and optional<void> are other templates.  That tc_optional_base
    (used for scalars) lacks assign(T&&) makes no difference: assign(T const&) copies a scalar. *)
From stdpp Require Import prelude list.

(** Types: of the client; optional<t>; nullopt_t (52); in_place_t (67). *)
Inductive ty := TBase (n : nat) | TOpt (t : ty) | TNull | TInPlace.
Global Instance ty_eq : EqDecision ty.
Proof. solve_decision. Defined.
(** An argument: its type, whether it is const, and whether it is an rvalue. *)
Record arg := Arg { a_ty : ty; a_const : bool; a_rv : bool }.

(** What the program says about its own types: the implicit conversions of an argument to a type
    of the client, standard ones between its types or user-defined ones; and what direct
    initialisation allows (std::is_constructible). *)
Inductive conversion := CNone | CStd | CUser.
Record tenv := TEnv { te_conv : arg -> nat -> conversion; te_con : arg -> nat -> bool }.

(** Implicit conversion sequences by rank, [over.ics.rank]. *)
Inductive rank := RExact | RStd | RUser.
Definition rank_nat (r : rank) : nat := match r with RExact => 0 | RStd => 1 | RUser => 2 end.

Section model.
  Context (E : tenv).

  (** A standard conversion sequence that makes a new object: no class is such a target. *)
  Definition std (a : arg) (t : ty) : bool :=
    match a_ty a, t with
    | TBase _, TBase n => match te_conv E a n with CStd => true | _ => false end
    | _, _ => false
    end.
  (** [conv a t]: the rank of the implicit conversion of [a] to [t].  To optional<t'> there are
      the converting constructors 784, 790 and 796; a user-defined conversion sequence has only
      one user-defined conversion.  The others (810, 821, 900-915) are explicit. *)
  Definition conv (a : arg) (t : ty) : option rank :=
    if bool_decide (a_ty a = t) then Some RExact
    else match t with
         | TBase n => if std a t then Some RStd else match te_conv E a n with CUser => Some RUser | _ => None end
         | TOpt t' => if bool_decide (a_ty a = TNull) || bool_decide (a_ty a = t') || std a t' then Some RUser else None
         | _ => None
         end.

  (** How a reference parameter binds: an rvalue reference to an rvalue is better than an lvalue
      reference, then a reference to non-const better than one to const.  Smaller is better. *)
  Definition cref (rv : bool) : nat := if rv then 3 else 1.

  (** A candidate: the function, the rank of the conversion of the argument and the type it is
      converted to, the binding if the parameter is a reference; 0 for a function, 1 for a template
      on optional<U>, 2 for one on U; whether it is explicit. *)
  Record cand (F : Type) := Cand { c_fn : F; c_rank : rank; c_to : ty; c_bind : option nat; c_tmpl : nat; c_expl : bool }.
  Global Arguments Cand {F} _ _ _ _ _ _.
  Global Arguments c_fn {F} _.
  Global Arguments c_rank {F} _.
  Global Arguments c_to {F} _.
  Global Arguments c_bind {F} _.
  Global Arguments c_tmpl {F} _.
  Global Arguments c_expl {F} _.

  (** A parameter [t const &], and a parameter [t &&]: viable for non-const rvalues of type [t], and
      for temporaries made by a conversion. *)
  Definition by_cref {F} (f : F) (a : arg) (t : ty) (tmpl : nat) (ex : bool) : list (cand F) :=
    match conv a t with
    | Some RExact => [Cand f RExact t (Some (cref (a_rv a))) tmpl ex]
    | Some r => [Cand f r t (Some (cref true)) tmpl ex]
    | None => []
    end.
  Definition by_rref {F} (f : F) (a : arg) (t : ty) (tmpl : nat) (ex : bool) : list (cand F) :=
    match conv a t with
    | Some RExact => if a_rv a && negb (a_const a) then [Cand f RExact t (Some 0) tmpl ex] else []
    | Some r => [Cand f r t (Some 0) tmpl ex]
    | None => []
    end.
  (** A parameter of a type no conversion leads to, by value: nullopt_t, in_place_t. *)
  Definition by_val {F} (f : F) (a : arg) (t : ty) (tmpl : nat) (ex : bool) : list (cand F) :=
    if bool_decide (a_ty a = t) then [Cand f RExact t None tmpl ex] else [].
  Definition u_of (a : arg) : option ty := match a_ty a with TOpt u => Some u | _ => None end.

  (** [over.match.best]: the conversion of the argument is better, or it is not worse and the
      function is not a template or a more specialised one. *)
  Definition ics {F} (c d : cand F) : comparison :=
    match Nat.compare (rank_nat (c_rank c)) (rank_nat (c_rank d)) with
    | Eq => if bool_decide (c_to c = c_to d)
            then match c_bind c, c_bind d with Some x, Some y => Nat.compare x y | _, _ => Eq end
            else Eq
    | o => o
    end.
  Definition better {F} (c d : cand F) : bool :=
    match ics c d with Lt => true | Eq => Nat.ltb (c_tmpl c) (c_tmpl d) | Gt => false end.
  Inductive verdict (F : Type) := Chosen (f : F) | NoMatch | Ambiguous.
  Global Arguments Chosen {F} _.
  Global Arguments NoMatch {F}.
  Global Arguments Ambiguous {F}.
  (** The candidate that is better than every other one.  [pick seen cs]: [seen] are those before. *)
  Fixpoint pick_from {F} (seen cs : list (cand F)) : list F :=
    match cs with
    | [] => []
    | c :: cs => (if forallb (better c) (seen ++ cs) then [c_fn c] else []) ++ pick_from (c :: seen) cs
    end.
  Definition pick {F} (cs : list (cand F)) : verdict F :=
    match cs with [] => NoMatch | _ => match pick_from [] cs with f :: _ => Chosen f | [] => Ambiguous end end.

  (** The constructors of optional<T>: 784, 790, 796, 810, 821, 830, 834, 900
      (with no further argument). *)
  Inductive ctor := KNull | KValC | KValR | KOptC | KOptR | KCopy | KMove | KInPlace.
  Definition ctors (con : arg -> bool) (T : ty) (a : arg) : list (cand ctor) :=
    by_val KNull a TNull 0 false ++ by_cref KValC a T 0 false ++ by_rref KValR a T 0 false ++
    match u_of a with
    | Some u =>
        (if con (Arg u true false) then by_cref KOptC a (TOpt u) 1 true else []) ++
        (if con (Arg u false true) then by_rref KOptR a (TOpt u) 1 true else [])
    | None => []
    end ++
    by_cref KCopy a (TOpt T) 0 false ++ by_rref KMove a (TOpt T) 0 false ++ by_val KInPlace a TInPlace 1 true.
  (** std::is_constructible<T, argument>. *)
  Fixpoint con (T : ty) (a : arg) : bool :=
    match T with
    | TBase n => bool_decide (a_ty a = TBase n) || te_con E a n
    | TOpt t => match pick (ctors (con t) t a) with Chosen _ => true | _ => false end
    | t => bool_decide (a_ty a = t)
    end.
  (** optional<T> x(a). *)
  Definition direct (T : ty) (a : arg) : verdict ctor := pick (ctors (con T) T a).
  (** optional<T> x = a, return a, or passing a: explicit constructors are not candidates, and
      unless [a] is itself an optional<T> no second user-defined conversion is allowed
      ([over.best.ics]). *)
  Definition implicit (T : ty) (a : arg) : verdict ctor :=
    pick (List.filter (fun c => negb (c_expl c) && (bool_decide (a_ty a = TOpt T) || Nat.ltb (rank_nat (c_rank c)) 2)) (ctors (con T) T a)).

  (** The assignment operators: 843, 853, 862, 865, 870, 879. *)
  Inductive asgn := SOptC | SOptR | SCopy | SMove | SVal | SNull.
  Definition asgns (T : ty) (a : arg) : list (cand asgn) :=
    match u_of a with Some u => by_cref SOptC a (TOpt u) 1 false ++ by_rref SOptR a (TOpt u) 1 false | None => [] end ++
    by_cref SCopy a (TOpt T) 0 false ++ by_rref SMove a (TOpt T) 0 false ++
    (if bool_decide (a_ty a = T) then [Cand SVal RExact T (Some (if a_const a then 1 else 0)) 2 false] else []) ++
    by_val SNull a TNull 0 false.
  (** The members assign() of optional_base<T>: 250, 267, 285, 303, 321, 330, 340.  Those for
      optional_base<T> take an optional<T> by a conversion to a base class (that they also take
      nullopt by a conversion, 154, is left out: 340 is better). *)
  Inductive asg := GBaseC | GBaseR | GOptC | GOptR | GValC | GValR | GNull.
  Definition asgs (T : ty) (a : arg) : list (cand asg) :=
    (if bool_decide (a_ty a = TOpt T) then Cand GBaseC RStd (TOpt T) (Some (cref (a_rv a))) 0 false ::
       (if a_rv a && negb (a_const a) then [Cand GBaseR RStd (TOpt T) (Some 0) 0 false] else []) else []) ++
    match u_of a with Some u => by_cref GOptC a (TOpt u) 1 false ++ by_rref GOptR a (TOpt u) 1 false | None => [] end ++
    by_cref GValC a T 0 false ++ by_rref GValR a T 0 false ++ by_val GNull a TNull 0 false.
  (** x = a: the operator, and the assign() it calls, whose argument is the parameter (845,
      855: std::move, 872: std::forward, 881). *)
  Inductive done := DWhole (move : bool) | DBy (g : asg).
  Definition assign (T : ty) (a : arg) : verdict done :=
    let call b := match pick (asgs T b) with Chosen g => Chosen (DBy g) | NoMatch => NoMatch | Ambiguous => Ambiguous end in
    match pick (asgns T a) with
    | Chosen SOptC => call (Arg (a_ty a) true false)
    | Chosen SOptR => call (Arg (a_ty a) false true)
    | Chosen SVal => call a
    | Chosen SNull => call (Arg TNull false false)
    | Chosen SCopy => Chosen (DWhole false)
    | Chosen SMove => Chosen (DWhole true)
    | NoMatch => NoMatch
    | Ambiguous => Ambiguous
    end.
End model.
