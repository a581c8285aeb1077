(** * Which overload of connect and disconnect an argument selects

    signals.hpp 1689-1707, 1751-1766: connect and disconnect with one argument, given a slot or
    something to be called; the slot that comes of it.  Simplifications: those of OverSlotModel.v. *)
From stdpp Require Import prelude list.
From Verif Require Import OverModel OverSlotModel.

(** The overloads: on [const slot_type &], and on [Func &&].  [inv]: the condition is_invocable_r of
    the template (1699 tests remove_cvref_t<Func>, 1759 tests Func, so it may differ); the other
    condition (1700, 1760) is that the argument is no slot. *)
Inductive over := OSlot | OFunc.
Definition is_slot (a : sarg) : bool := match s_ty a with SSlot => true | _ => false end.
Definition choose (inv : bool) (a : sarg) : verdict over :=
  pick (s_cref OSlot a ++ (if inv && negb (is_slot a) then s_fwd OFunc 2 a else [])).

(** The slot a parameter [const slot_type &] is bound to: the argument itself, if it is a slot;
    otherwise a temporary, made by a constructor that is not explicit.  Result: the constructor
    and its argument, or nothing for the argument itself. *)
Definition param (a : sarg) : option (verdict sctor * sarg) :=
  if is_slot a then None
  else Some (pick (List.filter (fun c => negb (c_expl c) && Nat.ltb (rank_nat (c_rank c)) 2)
                     (s_fwd KFunc 2 a ++ s_cref KCopySlot a ++ s_impl KUnique a ++ s_rref KMoveSlot a)), a).
(** What disconnect compares the slots with: 1753 the parameter, 1764 a slot made of the argument. *)
Definition compared (inv : bool) (a : sarg) : option (verdict sctor * sarg) :=
  match choose inv a with
  | Chosen OFunc => Some (slot1 a, a)
  | _ => param a
  end.
(** The constructor by which connect makes the slot of the list, and its first argument: 1691 the
    parameter, which is a const lvalue; 1703 the argument, forwarded. *)
Definition connected_as (inv : bool) (a : sarg) : verdict sctor * sarg :=
  match choose inv a with
  | Chosen OFunc => (slot2 a PSig, a)
  | _ => (slot2 (SArg SSlot true false) PSig, SArg SSlot true false)
  end.
