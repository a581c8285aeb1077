(** * Specification: what becomes of a handle given to another *)
From stdpp Require Import prelude list.
From Verif Require Export OverModel OverHandModel.

(** Both handles refer to the slot afterwards; only the new one does, the old one is empty. *)
Inductive fate := Shared | Taken.
Definition fate_of (v : verdict hact) : option fate :=
  match v with Chosen HCopy => Some Shared | Chosen HMove => Some Taken | _ => None end.
(** Non-const rvalues are taken from; otherwise the slot is shared, but two scoped_connections may not
    share one by copying. *)
Definition expect_fate (to_scoped : bool) (a : harg) : option fate :=
  if h_rv a && negb (h_const a) then Some Taken
  else if to_scoped && h_scoped a then None
  else Some Shared.
