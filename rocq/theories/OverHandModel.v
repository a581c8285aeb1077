(** * Which constructor or assignment of connection and scoped_connection a handle selects

    signals.hpp 1488-1491 and 1576-1597, by the overload resolution of OverModel.v; deleted functions
    are candidates.  Simplifications: those of OverModel.v, but scoped_connection is derived from
    connection; no further classes are derived from them; the constructors from slot pointers
    (1548, 1605), which are not public, are left out. *)
From stdpp Require Import prelude list.
From Verif Require Import OverModel.

(** A handle: a scoped_connection or a connection; constness and value category. *)
Record harg := HArg { h_scoped : bool; h_const : bool; h_rv : bool }.
Definition h_ty (scoped : bool) : ty := TBase (if scoped then 1 else 0).
(** The conversion of a handle to a reference to connection or scoped_connection: itself; to the
    base; by a constructor (1576, 1580), which makes a temporary.  Result: its rank, and whether it
    binds to the handle itself. *)
Definition h_conv (a : harg) (scoped : bool) : rank * bool :=
  match h_scoped a, scoped with
  | true, true | false, false => (RExact, true)
  | true, false => (RStd, true)
  | false, true => (RUser, false)
  end.
(** Parameters [const H &] and [H &&]. *)
Definition h_cref {F} (f : F) (a : harg) (scoped : bool) : list (cand F) :=
  let '(r, itself) := h_conv a scoped in [Cand f r (h_ty scoped) (Some (cref (if itself then h_rv a else true))) 0 false].
Definition h_rref {F} (f : F) (a : harg) (scoped : bool) : list (cand F) :=
  let '(r, itself) := h_conv a scoped in
  if itself && negb (h_rv a && negb (h_const a)) then [] else [Cand f r (h_ty scoped) (Some 0) 0 false].

(** The functions, by their parameter and what they do with it: copy its slot pointer, move it, or
    they are deleted. *)
Inductive hact := HCopy | HMove | HDeleted.
(** Constructors of connection (1488, 1489) and its assignments (1490, 1491): the candidates are the
    same.  An argument that is a connection or scoped_connection needs no user-defined conversion. *)
Definition to_connection (a : harg) : verdict hact := pick (h_cref HCopy a false ++ h_rref HMove a false).
(** Constructors of scoped_connection: 1576, 1580, 1584, 1586. *)
Definition new_scoped (a : harg) : verdict hact :=
  pick (h_cref HCopy a false ++ h_rref HMove a false ++ h_cref HDeleted a true ++ h_rref HMove a true).
(** Its assignments: 1590, 1592; the parameter is the handle itself, or a temporary made of it. *)
Definition to_scoped (a : harg) : verdict hact :=
  match pick (h_cref HDeleted a true ++ h_rref HMove a true) with
  | Chosen HMove => if (h_conv a true).2 then Chosen HMove else new_scoped a
  | v => v
  end.
