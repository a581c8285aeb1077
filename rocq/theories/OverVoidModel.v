(** * Which members of optional<void> an argument selects

    optional.hpp 1134-1203, by the overload resolution of OverModel.v.  Simplifications: those of
    OverModel.v, and no class of the client converts to optional<void> or nullopt_t. *)
From stdpp Require Import prelude list.
From Verif Require Import OverModel.

(** Arguments: an optional<void>, a nullopt_t (52), or of a type of the client; constness and value
    category. *)
Inductive vty := VVoid | VNull | VOther (n : nat).
Record varg := VArg { v_ty : vty; v_const : bool; v_rv : bool }.

(** A parameter nullopt_t; a parameter [optional<void> const &] (nullopt converts by 1146); a
    parameter [U &&], which binds to every argument as it is; a parameter [U &], which binds to
    lvalues, and to const rvalues (U is deduced const).  [U &] is more specialised. *)
Definition v_null {F} (f : F) (a : varg) : list (cand F) :=
  match v_ty a with VNull => [Cand f RExact TNull None 0 false] | _ => [] end.
Definition v_target (a : varg) : ty := match v_ty a with VVoid => TOpt (TBase 0) | VNull => TNull | VOther n => TBase n end.
Definition v_copy {F} (f : F) (a : varg) : list (cand F) :=
  match v_ty a with
  | VVoid => [Cand f RExact (v_target a) (Some (cref (v_rv a))) 0 false]
  | VNull => [Cand f RUser (TOpt (TBase 0)) (Some (cref true)) 0 false]
  | VOther _ => []
  end.
Definition v_fwd {F} (f : F) (a : varg) : list (cand F) :=
  [Cand f RExact (v_target a) (Some (if v_rv a then 0 else if v_const a then 1 else 0)) 2 false].
Definition v_lref {F} (f : F) (a : varg) : list (cand F) :=
  if v_rv a then (if v_const a then [Cand f RExact (v_target a) (Some 3) 1 false] else [])
  else [Cand f RExact (v_target a) (Some (if v_const a then 1 else 0)) 1 false].

(** The constructors 1146, 1147; the assignments 1151, 1155 and the one the compiler declares;
    emplace 1161, 1165. *)
Inductive vctor := VCNull | VCCopy.
Definition vconstruct (a : varg) : verdict vctor := pick (v_null VCNull a ++ v_copy VCCopy a).
Inductive vasgn := VANull | VAAny | VACopy.
Definition vassign (a : varg) : verdict vasgn := pick (v_null VANull a ++ v_fwd VAAny a ++ v_copy VACopy a).
Inductive vempl := VELvalue | VEAny.
Definition vemplace (a : varg) : verdict vempl := pick (v_lref VELvalue a ++ v_fwd VEAny a).
