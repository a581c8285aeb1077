(** * Specification: recursion that ends *)
From Verif Require Export SpecUse.

(** [mu] measures the arguments of a call.  Code that emits and calls slots only with arguments
    smaller than [b]. *)
Definition op_below (mu : list arg -> nat) (b : nat) (o : op) : Prop :=
  match o with OEmit _ args | OSlotCall _ args => mu args < b | _ => True end.
Inductive calls_below (mu : list arg -> nat) (b : nat) : prog -> Prop :=
| CB_ret o : calls_below mu b (Ret o)
| CB_do o k : op_below mu b o -> (forall x, calls_below mu b (k x)) -> calls_below mu b (Do o k).

(** Code that makes no tracked objects. *)
Inductive makes_none : prog -> Prop :=
| MN_ret o : makes_none (Ret o)
| MN_do o k : o <> OVar VNewObj -> (forall x, makes_none (k x)) -> makes_none (Do o k).

(** A callable that is called with [args] emits and calls slots only with smaller arguments, so
    recursion through signals ends.  Combiners do not emit at all.  Being moved from does not
    change the measure.  If any tracked object has a destructor, destructors of objects do not
    emit and make no new objects, and neither do operator== and the destructors of functors. *)
Definition ends_env (mu : list arg -> nat) (e : env) : Prop :=
  (forall r c args, calls_below mu (mu args) (e_body e r c args)) /\
  (forall k n, calls_below mu 0 (e_comb e k n)) /\
  (forall c args, mu (consume e c args) = mu args) /\
  (forall o p, e_odtor e o = Some p -> calls_below mu 0 p /\ makes_none p /\
     (forall ty x y, makes_none (e_eq e ty x y)) /\ (forall c q, e_dtor e c = Some q -> makes_none q)).

(** An endless schedule in which each of [n] threads gets its turn again and again, and its
    first [i] entries. *)
Definition fair (n : nat) (f : nat -> nat * mem) : Prop := forall t, t < n -> forall i, exists j, i <= j /\ fst (f j) = t.
Definition first (f : nat -> nat * mem) (i : nat) : sched := map f (seq 0 i).

(** All threads have returned from their main programs. *)
Definition all_finished (w : world) : Prop := forall t st, w_thr w !! t = Some st -> finished w t.
