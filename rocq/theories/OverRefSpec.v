(** * Specification: what an optional<T&> may be made to refer to *)
From stdpp Require Import prelude list.
From Verif Require Export OverModel OverRefModel.

(** The optional refers to nothing; to the object the argument denotes (or its base); to an object
    that is gone at the end of the expression; or to what the argument refers to. *)
Inductive reffect := ToNone | ToArgument | ToTemporary | ToItsReferent.
(** The argument denotes an object that is a [n], or derived from [n]. *)
Definition is_a (E : renv) (a : rarg) (n : nat) : bool :=
  match r_ty a with RBase m => bool_decide (m = n) || re_derived E m n | _ => false end.
(** Reading the constructors: 1058-1064.  Choosing a deleted one is an error, [None]. *)
Definition rctor_effect (E : renv) (n : nat) (a : rarg) (v : verdict rctor) : option reffect :=
  match v with
  | Chosen QNull => Some ToNone
  | Chosen QRef => Some (if is_a E a n && negb (r_rv a) then ToArgument else ToTemporary)
  | Chosen QCopy => Some ToItsReferent
  | _ => None
  end.
(** Reading the assignments: 1068-1084. *)
Definition rasgn_effect (v : verdict rasgn) : option reffect :=
  match v with
  | Chosen ANull => Some ToNone
  | Chosen ASame | Chosen ACopy => Some ToItsReferent
  | _ => None
  end.

(** What a client may expect: an lvalue of a suitable type that is not more const than T. *)
Definition expect_lvalue (E : renv) (n : nat) (c : bool) (a : rarg) : option reffect :=
  if is_a E a n && negb (r_rv a) && (c || negb (r_const a)) then Some ToArgument else None.
Definition expect_assigned (n : nat) (c : bool) (a : rarg) : option reffect :=
  if bool_decide (r_ty a = RNull) then Some ToNone
  else if bool_decide (r_ty a = ROpt n c) then Some ToItsReferent
  else None.
Definition expect_ref (E : renv) (n : nat) (c : bool) (a : rarg) : option reffect :=
  match expect_assigned n c a with Some f => Some f | None => expect_lvalue E n c a end.
