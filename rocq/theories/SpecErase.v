(** * Specification: comparing slots and signal::disconnect(f) *)
From Verif Require Export Spec.

(** ** Comparison *)
(** [may_ret p o]: the program [p] can return [o] (or throw), whatever the operations it
    calls give it. *)
Inductive may_ret : prog -> out -> Prop :=
| MR_ret o : may_ret (Ret o) o
| MR_do op k x o : may_ret (k x) o -> may_ret (Do op k) o.

(** Two callables are stored in slots of the same type: same kind, same function type and
    same pointer type, value categories included; the pointer of a tracked slot is stored as
    a weak pointer, for which the category it was given with is lost. *)
Definition same_type (a b : callable) : Prop :=
  c_kind a = c_kind b /\ c_fty a = c_fty b /\
  match c_kind a with
  | KFunc => True
  | KPmf => c_pty a = c_pty b
  | KTracked => ft_base (c_pty a) = ft_base (c_pty b)
  end.
(** What comparing two members of type [ty] can give: what operator== gives, or
    not_comparable_exception if there is none. *)
Definition member (e : env) (ty x y : nat) (o : out) : Prop :=
  if e_cmp e ty then may_ret (e_eq e ty x y) o else o = OutExn NotComparable.
(** The pointers of two slots, then their functions. *)
Definition compares (e : env) (a b : callable) (o : out) : Prop :=
  (~ same_type a b /\ o = OutBool false) \/
  (same_type a b /\
   match c_kind a with
   | KFunc => member e (ft_base (c_fty a)) (c_fv a) (c_fv b) o
   | _ => exists o1, member e (ft_base (c_pty a)) (c_pv a) (c_pv b) o1 /\
            ((o1 = OutBool true /\ member e (ft_base (c_fty a)) (c_fv a) (c_fv b) o) \/ (o1 <> OutBool true /\ o = o1))
   end).
(** With a slot object that may be empty. *)
Definition compares_opt (e : env) (a b : option callable) (o : out) : Prop :=
  match a, b with
  | Some a, Some b => compares e a b o
  | None, None => o = OutBool true
  | _, _ => o = OutBool false
  end.

(** The same as a function, when operator== is a function [eqb] that does nothing else:
    [None] is not_comparable_exception. *)
Definition pure_eq (e : env) (eqb : nat -> nat -> nat -> bool) : Prop :=
  forall ty x y, e_eq e ty x y = Ret (OutBool (eqb ty x y)).
Local Instance vcat_dec : EqDecision vcat. Proof. solve_decision. Defined.
Local Instance ftype_dec : EqDecision ftype. Proof. solve_decision. Defined.
Local Instance ckind_dec : EqDecision ckind. Proof. solve_decision. Defined.
Global Instance same_type_dec a b : Decision (same_type a b).
Proof. unfold same_type. destruct (c_kind a); solve_decision. Defined.
Definition member_eq (e : env) (eqb : nat -> nat -> nat -> bool) (ty x y : nat) : option bool :=
  if e_cmp e ty then Some (eqb ty x y) else None.
Definition callable_eq (e : env) (eqb : nat -> nat -> nat -> bool) (a b : callable) : option bool :=
  if decide (same_type a b) then
    match c_kind a with
    | KFunc => member_eq e eqb (ft_base (c_fty a)) (c_fv a) (c_fv b)
    | _ => match member_eq e eqb (ft_base (c_pty a)) (c_pv a) (c_pv b) with
           | Some true => member_eq e eqb (ft_base (c_fty a)) (c_fv a) (c_fv b)
           | x => x
           end
    end
  else Some false.
Definition slot_same (e : env) (eqb : nat -> nat -> nat -> bool) (a b : option callable) : option bool :=
  match a, b with
  | Some a, Some b => callable_eq e eqb a b
  | None, None => Some true
  | _, _ => Some false
  end.

(** ** disconnect(f) *)
(** The callable slot [l] was connected with. *)
Definition spec_callee (log : list event) (l : lid) : option callable := im_c <$> spec_conn0 log l.
(** Events that change the list of [s]. *)
Definition touches (s : sid) (ev : event) : Prop :=
  match ev with
  | EConn _ s' _ _ | ERem _ s' _ _ | EErased _ s' _ => s' = s
  | EMoveSig s1 s2 => s1 = s \/ s2 = s
  | _ => False
  end.
(** The slots that signal::disconnect took out of [s], newest first. *)
Fixpoint erased_of (s : sid) (log : list event) : list lid :=
  match log with
  | [] => []
  | EErased _ s' l :: log => if decide (s' = s) then l :: erased_of s log else erased_of s log
  | _ :: log => erased_of s log
  end.
(** From a moment when the list of [s] was [xs0] until now, after [pre], the list was only
    changed by signal::disconnect in thread [t], which took out [ys] and left [xs1]. *)
Definition erasing (t : tid) (s : sid) (xs0 ys xs1 : list lid) (pre : list event) : Prop :=
  exists during before, pre = during ++ before /\ spec_list before s = xs0 /\ spec_list pre s = xs1 /\
    ys = erased_of s during /\ (forall ev, ev ∈ during -> touches s ev -> exists l, ev = EErased t s l) /\
    xs0 ≡ₚ xs1 ++ ys.
(** Comparing slot [l] with the argument can give [o]. *)
Definition slot_gives (e : env) (log : list event) (tgt : option callable) (l : lid) (o : out) : Prop :=
  exists c, spec_callee log l = Some c /\ compares_opt e (Some c) tgt o.

(** A whole call of signal::disconnect(f) in thread [t] with argument [a], which gave [o]:
    when it locked the mutex the log was [pre0], [during] is what followed until it had
    finished with the list. *)
Definition erases_from (e : env) (t : tid) (s : sid) (a : option callable) (pre0 during : list event) (o : out) : Prop :=
  let xs0 := spec_list pre0 s in
  let xs1 := spec_list (during ++ pre0) s in
  let ys := erased_of s during in
  (forall ev, ev ∈ during -> touches s ev -> exists l, ev = EErased t s l) /\
  xs0 ≡ₚ xs1 ++ ys /\
  (forall l, l ∈ ys -> slot_gives e (during ++ pre0) a l (OutBool true)) /\
  ((o = OutNat (length ys) /\ forall l, l ∈ xs1 -> slot_gives e (during ++ pre0) a l (OutBool false)) \/
   (exists x l, o = OutExn x /\ l ∈ xs1 /\ slot_gives e (during ++ pre0) a l (OutExn x))).

(** The client's operator== do not throw. *)
Definition eq_total (e : env) : Prop := forall ty x y o, may_ret (e_eq e ty x y) o -> forall z, o <> OutExn z.
(** The slots of [xs] for which [p] holds of the callable. *)
Definition such (log : list event) (p : callable -> bool) (xs : list lid) : list lid :=
  filter (fun l => default false (p <$> spec_callee log l) = true) xs.
(** Equal, not equal, not comparable to the argument [a]. *)
Definition is_eq (e : env) (eqb : nat -> nat -> nat -> bool) (a : option callable) (c : callable) : bool :=
  match slot_same e eqb (Some c) a with Some b => b | None => false end.
Definition is_ne (e : env) (eqb : nat -> nat -> nat -> bool) (a : option callable) (c : callable) : bool :=
  match slot_same e eqb (Some c) a with Some b => negb b | None => false end.
Definition can_compare (e : env) (eqb : nat -> nat -> nat -> bool) (a : option callable) (c : callable) : Prop :=
  slot_same e eqb (Some c) a <> None.
(** A call of disconnect(f) from [w0] until now, in which [new] was logged: it ran out of
    memory before it did anything, or it worked on the list from after [before] to after [during]. *)
Definition erase_call (e : env) (t : tid) (s : sid) (a : option callable) (log0 new : list event)
    (before during : list event) (o : out) : Prop :=
  exists after ev, new = after ++ ev :: during ++ before /\ ~ touches s ev /\
    (forall ev, ev ∈ after \/ ev ∈ before -> touches s ev -> match ev with EConn t' _ _ _ | ERem t' _ _ _ | EErased t' _ _ => t' <> t | _ => True end) /\
    erases_from e t s a (before ++ log0) during o.
