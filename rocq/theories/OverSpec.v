(** * Specification: what initialising or assigning an optional with an argument should mean *)
From stdpp Require Import prelude list.
From Verif Require Export OverModel.

(** The new optional is disengaged; holds a copy of the argument, or the argument moved; holds
    what the argument converts to; holds a T made of nothing; is engaged if the argument is, with
    a T made of its value, copied or moved; is a copy of the argument, or the argument moved. *)
Inductive effect := Empty | Value (move : bool) | Converted | Default | Inside (move : bool) | Same (move : bool).
(** Only arguments that are not const and are rvalues may be moved from. *)
Definition movable (a : arg) : bool := a_rv a && negb (a_const a).
Definition moves (f : effect) : bool := match f with Value m | Inside m | Same m => m | _ => false end.
(** Reading the constructors: the bodies of 784-903. *)
Definition ctor_effect (T : ty) (a : arg) (k : ctor) : effect :=
  match k with
  | KNull => Empty
  | KValC => if bool_decide (a_ty a = T) then Value false else Converted
  | KValR => if bool_decide (a_ty a = T) then Value true else Converted
  | KOptC => Inside false | KOptR => Inside true
  | KCopy => Same false | KMove => Same true
  | KInPlace => Default
  end.
(** Reading the assignments: the bodies of 250-343.  [Converted]: a temporary optional<T> is moved. *)
Definition done_effect (T : ty) (a : arg) (d : done) : effect :=
  match d with
  | DWhole m => if bool_decide (a_ty a = TOpt T) then Same m else Converted
  | DBy GBaseC => Same false | DBy GBaseR => Same true
  | DBy GOptC => Inside false | DBy GOptR => Inside true
  | DBy GValC => Value false | DBy GValR => Value true
  | DBy GNull => Empty
  end.
Definition chosen {F} (f : F -> effect) (v : verdict F) : option effect :=
  match v with Chosen x => Some (f x) | _ => None end.

(** The types T for which optional<T> may be formed: 757-760. *)
Definition allowed (T : ty) : Prop := T <> TNull /\ T <> TInPlace.

(** What a client may expect, by the type of the argument. *)
Definition expect_direct (E : tenv) (T : ty) (a : arg) : option effect :=
  if bool_decide (a_ty a = TNull) then Some Empty
  else if bool_decide (a_ty a = TInPlace) then Some Default
  else if bool_decide (a_ty a = T) then Some (Value (movable a))
  else if bool_decide (a_ty a = TOpt T) then Some (Same (movable a))
  else
    let via := match conv E a T with Some _ => Some Converted | None => None end in
    match a_ty a with
    | TOpt u => if movable a && con E T (Arg u false true) then Some (Inside true)
                else if con E T (Arg u true false) then Some (Inside false) else via
    | _ => via
    end.
Definition expect_implicit (E : tenv) (T : ty) (a : arg) : option effect :=
  if bool_decide (a_ty a = TNull) then Some Empty
  else if bool_decide (a_ty a = T) then Some (Value (movable a))
  else if bool_decide (a_ty a = TOpt T) then Some (Same (movable a))
  else if std E a T then Some Converted else None.
Definition expect_assign (E : tenv) (T : ty) (a : arg) : option effect :=
  if bool_decide (a_ty a = TNull) then Some Empty
  else if bool_decide (a_ty a = T) then Some (Value (movable a))
  else if bool_decide (a_ty a = TOpt T) then Some (Same (movable a))
  else match a_ty a with
       | TOpt _ => Some (Inside (movable a))
       | _ => if std E a T then Some Converted else None
       end.
