(** * Which constructor or assignment of optional<T&> an argument selects

    optional.hpp 1040-1093: the overloads of opt::optional<T&>, deleted ones included, by the
    overload resolution of OverModel.v.

    Simplifications: those of OverModel.v, but conversions of classes to their bases are there.
    T is an object type, const or not. *)
From stdpp Require Import prelude list.
From Verif Require Import OverModel.

(** Types of arguments: of the client; optional<t &> or optional<t const &>; nullopt_t (52);
    in_place_t (67).  An optional<t> is a type of the client here. *)
Inductive rty := RBase (n : nat) | ROpt (n : nat) (c : bool) | RNull | RInPlace.
Global Instance rty_eq : EqDecision rty.
Proof. solve_decision. Defined.
(** An argument: its type, whether it is const, and whether it is an rvalue. *)
Record rarg := RArg { r_ty : rty; r_const : bool; r_rv : bool }.
(** What the program says of its types: the conversions of an argument to a type, which make a
    new object, and which classes are derived from which. *)
Record renv := REnv { re_conv : rarg -> nat -> conversion; re_derived : nat -> nat -> bool }.

Section model.
  Context (E : renv).

  (** [dcl.init.ref]: the types are the same, or that of the argument is derived from [n]; the
      rank of the conversion if the reference binds to the argument itself. *)
  Definition related (a : rarg) (n : nat) : option rank :=
    match r_ty a with
    | RBase m => if bool_decide (m = n) then Some RExact else if re_derived E m n then Some RStd else None
    | _ => None
    end.
  (** A conversion that makes a temporary: standard ones are between types of the client. *)
  Definition makes (a : rarg) (n : nat) : option rank :=
    match re_conv E a n, r_ty a with
    | CNone, _ => None
    | CStd, RBase _ => Some RStd
    | CStd, _ => None
    | CUser, _ => Some RUser
    end.
  (** A parameter [T &] with T = [n], const if [c]: binds to lvalues that are not more const; if
      [c] also to rvalues and temporaries.  (As in OverModel.v, smaller bindings are better.) *)
  Definition by_lref {F} (f : F) (a : rarg) (n : nat) (c : bool) : list (cand F) :=
    match related a n with
    | Some r => if c then [Cand f r (TBase n) (Some (cref (r_rv a))) 0 false]
                else if r_const a || r_rv a then [] else [Cand f r (TBase n) (Some 0) 0 false]
    | None => match makes a n with
              | Some r => if c then [Cand f r (TBase n) (Some (cref true)) 0 false] else []
              | None => []
              end
    end.
  (** A parameter [T &&]: binds to rvalues that are not more const, and to temporaries. *)
  Definition by_mref {F} (f : F) (a : rarg) (n : nat) (c : bool) : list (cand F) :=
    match related a n with
    | Some r => if r_rv a && (c || negb (r_const a)) then [Cand f r (TBase n) (Some 0) 0 false] else []
    | None => match makes a n with Some r => [Cand f r (TBase n) (Some 0) 0 false] | None => [] end
    end.
  (** A parameter nullopt_t. *)
  Definition by_null {F} (f : F) (a : rarg) : list (cand F) :=
    if bool_decide (r_ty a = RNull) then [Cand f RExact TNull None 0 false] else [].

  (** The constructors: 1058 (nullopt_t), 1059 (T&), 1060 (copies), 1063 (T&&, deleted). *)
  Inductive rctor := QNull | QRef | QCopy | QDel.
  Definition values (a : rarg) (n : nat) (c : bool) : list (cand rctor) := by_lref QRef a n c ++ by_mref QDel a n c.
  (** A parameter [optional<T&> const &]: an argument of another type is converted by 1058, 1059 or
      1063 (deleted ones are candidates too), after a standard conversion at most. *)
  Definition by_copy {F} (f : F) (a : rarg) (n : nat) (c : bool) : list (cand F) :=
    if bool_decide (r_ty a = ROpt n c) then [Cand f RExact (TOpt (TBase n)) (Some (cref (r_rv a))) 0 false]
    else if bool_decide (r_ty a = RNull) || existsb (fun d => Nat.ltb (rank_nat (c_rank d)) 2) (values a n c)
    then [Cand f RUser (TOpt (TBase n)) (Some (cref true)) 0 false] else [].
  Definition rctors (n : nat) (c : bool) (a : rarg) : list (cand rctor) :=
    by_null QNull a ++ values a n c ++ by_copy QCopy a n c.
  (** optional<T&> x(a), and optional<T&> x = a (as in OverModel.v; no constructor with one
      parameter is explicit). *)
  Definition rdirect (n : nat) (c : bool) (a : rarg) : verdict rctor := pick (rctors n c a).
  Definition rimplicit (n : nat) (c : bool) (a : rarg) : verdict rctor :=
    pick (List.filter (fun d => negb (c_expl d) && (bool_decide (r_ty a = ROpt n c) || Nat.ltb (rank_nat (c_rank d)) 2)) (rctors n c a)).
  (** optional<T&> x(in_place, a): 1061, 1064; x.emplace(a): 1086, 1091. *)
  Definition remplace (n : nat) (c : bool) (a : rarg) : verdict rctor := pick (values a n c).

  (** The assignments: 1068 (nullopt_t), 1073-1079 and 1081-1084 (templates on U&&, one for
      optional<T&>, the other deleted), and the one the compiler declares. *)
  Inductive rasgn := ANull | ASame | ADel | ACopy.
  Definition rasgns (n : nat) (c : bool) (a : rarg) : list (cand rasgn) :=
    let whole := match r_ty a with ROpt m d => if bool_decide (m = n) && Bool.eqb d c then Some (TOpt (TBase n)) else None | _ => None end in
    by_null ANull a ++
    match whole with
    | Some t => [Cand ASame RExact t (Some (if r_rv a then 0 else if r_const a then 1 else 0)) 2 false]
    | None => [Cand ADel RExact (TOpt TNull) (Some 0) 2 false]
    end ++ by_copy ACopy a n c.
  Definition rassign (n : nat) (c : bool) (a : rarg) : verdict rasgn := pick (rasgns n c a).
End model.
