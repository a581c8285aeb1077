(** * Which constructor of slot its arguments select

    signals.hpp 1254-1301, by the overload resolution of OverModel.v, extended to two arguments.

    Simplifications: those of OverModel.v; classes derived from slot are left out, and so are
    clients' conversions to slot, to unique_ptr<impl> and to signal_base*. *)
From stdpp Require Import prelude list.
From Verif Require Import OverModel.

(** The first argument: a slot of the same type, a unique_ptr<impl>, or something to be called (any
    other type); constness and value category. *)
Inductive sty := SSlot | SImpl | SCall (n : nat).
Record sarg := SArg { s_ty : sty; s_const : bool; s_rv : bool }.
Definition s_to (a : sarg) : ty := match s_ty a with SSlot => TBase 0 | SImpl => TBase 1 | SCall n => TBase (S (S n)) end.

(** Parameters: [Func &&], binds to every argument as it is; [const slot &] and [slot &&], to which
    everything else converts by the template 1262, which is not constrained; unique_ptr<impl>. *)
Definition s_fwd {F} (f : F) (tmpl : nat) (a : sarg) : list (cand F) :=
  [Cand f RExact (s_to a) (Some (if s_rv a then 0 else if s_const a then 1 else 0)) tmpl false].
Definition s_cref {F} (f : F) (a : sarg) : list (cand F) :=
  match s_ty a with
  | SSlot => [Cand f RExact (s_to a) (Some (cref (s_rv a))) 0 false]
  | _ => [Cand f RUser (TBase 0) (Some (cref true)) 0 false]
  end.
Definition s_rref {F} (f : F) (a : sarg) : list (cand F) :=
  match s_ty a with
  | SSlot => if s_rv a && negb (s_const a) then [Cand f RExact (s_to a) (Some 0) 0 false] else []
  | _ => [Cand f RUser (TBase 0) (Some 0) 0 false]
  end.
Definition s_impl {F} (f : F) (a : sarg) : list (cand F) :=
  match s_ty a with SImpl => [Cand f RExact (s_to a) None 0 true] | _ => [] end.

(** The constructors: 1262 (a function object), 1269 and 1276 (pointers to members, 1276 tracks),
    1284, 1290, 1296. *)
Inductive sctor := KFunc | KPmf | KTracked | KCopySlot | KUnique | KMoveSlot.
Definition slot1 (a : sarg) : verdict sctor :=
  pick (s_fwd KFunc 2 a ++ s_cref KCopySlot a ++ s_impl KUnique a ++ s_rref KMoveSlot a).

(** The second argument: a signal_base*, another pointer that converts to it, something
    convertible to a weak_ptr (is_weak_ptr_convertable), or anything else.  A parameter
    signal_base*, and a parameter [Ptr &&] ([TNull] stands for the type of the argument). *)
Inductive parg := PSig | PSigDerived | PWeak | POther.
Definition p_sig {F} (f : F) (p : parg) : list (cand F) :=
  match p with
  | PSig => [Cand f RExact TNull None 0 false]
  | PSigDerived => [Cand f RStd TInPlace None 0 false]
  | _ => []
  end.
Definition p_fwd {F} (f : F) (p : parg) : list (cand F) := [Cand f RExact TNull (Some 0) 0 false].
Definition weak_convertible (p : parg) : bool := match p with PWeak => true | _ => false end.
(** A function is better if its conversion of no argument is worse and of one is better, or none is
    and it is not a template or a more specialised one (a function: 0; 1262, whose second
    parameter is signal_base*: 1; 1269 and 1276: 2). *)
Definition pairs {F} (xs ys : list (cand F)) : list (cand F * cand F) := list_prod xs ys.
Definition better2 {F} (c d : cand F * cand F) : bool :=
  match ics c.1 d.1, ics c.2 d.2 with
  | Gt, _ | _, Gt => false
  | Eq, Eq => Nat.ltb (c_tmpl c.1) (c_tmpl d.1)
  | _, _ => true
  end.
Fixpoint best2 {F} (seen cs : list (cand F * cand F)) : list F :=
  match cs with
  | [] => []
  | c :: cs => (if forallb (better2 c) (seen ++ cs) then [c_fn c.1] else []) ++ best2 (c :: seen) cs
  end.
Definition pick2 {F} (cs : list (cand F * cand F)) : verdict F :=
  match cs with [] => NoMatch | _ => match best2 [] cs with f :: _ => Chosen f | [] => Ambiguous end end.
Definition slot2 (a : sarg) (p : parg) : verdict sctor :=
  pick2 (pairs (s_fwd KFunc 1 a) (p_sig KFunc p) ++
         (if weak_convertible p then pairs (s_fwd KTracked 2 a) (p_fwd KTracked p) else pairs (s_fwd KPmf 2 a) (p_fwd KPmf p)) ++
         pairs (s_cref KCopySlot a) (p_sig KCopySlot p)).

(** Running the constructors with one argument.  1264 makes a slot_func whose member, of type
    decay_t<Func>, is initialised with the argument (772-778): if that is a slot, by a constructor of
    slot.  1284 and 1296 make no further slots.  1290 does not compile: m_pImpl{ pImpl } copies a
    unique_ptr. *)
Inductive made := MCalls | MCopy | MMoved | MIllFormed | MOutOfFuel.
Fixpoint make (fuel : nat) (a : sarg) : made :=
  match fuel with
  | 0 => MOutOfFuel
  | S k => match slot1 a with
           | Chosen KFunc => match s_ty a with
                             | SSlot => match make k a with MOutOfFuel => MOutOfFuel | MIllFormed => MIllFormed | _ => MCalls end
                             | _ => MCalls
                             end
           | Chosen KCopySlot => MCopy
           | Chosen KMoveSlot => MMoved
           | _ => MIllFormed
           end
  end.
