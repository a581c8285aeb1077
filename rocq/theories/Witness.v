(** * Concrete executions

    Helpers to write down small programs and to say that an execution reaches a
    log in which given events occur in a given order.  Used by the examples beside
    the theorems and by the refutations. *)
From Verif Require Export Machine Spec.

Global Instance exn_eq_dec : EqDecision exn. Proof. solve_decision. Defined.
Global Instance arg_eq_dec : EqDecision arg. Proof. solve_decision. Defined.
Global Instance out_eq_dec : EqDecision out. Proof. solve_decision. Defined.
Global Instance vcat_eq_dec : EqDecision vcat. Proof. solve_decision. Defined.
Global Instance ftype_eq_dec : EqDecision ftype. Proof. solve_decision. Defined.
Global Instance ckind_eq_dec : EqDecision ckind. Proof. solve_decision. Defined.
Global Instance callable_eq_dec : EqDecision callable. Proof. solve_decision. Defined.
Global Instance impl_eq_dec : EqDecision impl. Proof. solve_decision. Defined.
Global Instance event_eq_dec : EqDecision event. Proof. solve_decision. Defined.
Global Instance connv_eq_dec : EqDecision connv. Proof. solve_decision. Defined.
Global Instance ubkind_eq_dec : EqDecision ubkind. Proof. solve_decision. Defined.

(** The events [xs] occur in [ys], in this order. *)
Fixpoint occurs (xs ys : list event) : bool :=
  match xs, ys with
  | [], _ => true
  | _, [] => false
  | x :: xs', y :: ys' => if decide (x = y) then occurs xs' ys' else occurs xs ys'
  end.

(** The program that performs the operations [os] and ignores what they return. *)
Fixpoint seqp (os : list op) (o : out) : prog :=
  match os with [] => Ret o | x :: os => Do x (fun _ => seqp os o) end.

(** A function object, a member function on an object, one with a tracked object. *)
Definition fn (v : nat) : callable := Callable KFunc (FType 0 CatR) v (FType 0 CatR) 0.
Definition trk (v o : nat) : callable := Callable KTracked (FType 0 CatR) v (FType 0 CatR) o.

(** A client whose callable number [v] runs [body v] and then returns [v]; operator==
    compares the numbers; functors with number >= 100 have the destructor [dtor]. *)
Definition wenv (body : nat -> list op) : env :=
  Env false (fun _ => true) (fun _ a b => Ret (OutBool (Nat.eqb a b)))
    (fun r c args => seqp (body (c_fv c)) (OutZ (Z.of_nat (c_fv c))))
    (fun _ _ => false) (fun _ => 0%Z) (fun _ => None)
    (fun k n => Ret (OutOpt None)).

(** One thread runs for [n] steps. *)
Definition one (n : nat) : sched := repeat (0, MOk) n.

Lemma run_log e ps sc (P : list event -> bool) :
  match run e (init ps) sc with inl w => P (rev (w_log w)) | inr _ => false end = true ->
  exists w, reachable e ps w /\ P (rev (w_log w)) = true.
Proof.
  intros H. destruct (run e (init ps) sc) as [w|u] eqn:Hr; [|discriminate].
  exists w. split; [exists sc; exact Hr|exact H].
Qed.

Lemma run_occurs e ps sc evs :
  match run e (init ps) sc with inl w => occurs evs (rev (w_log w)) | inr _ => false end = true ->
  exists w, reachable e ps w /\ occurs evs (rev (w_log w)) = true.
Proof. apply (run_log e ps sc (occurs evs)). Qed.

Definition logof (e : env) (ps : list prog) (sc : sched) : list event + ubkind :=
  match run e (init ps) sc with inl w => inl (rev (w_log w)) | inr u => inr u end.

(** Thread [t] runs [n] steps, for each [(t, n)] in turn. *)
Definition sch (xs : list (nat * nat)) : sched := flat_map (fun '(t, n) => repeat (t, MOk) n) xs.

Lemma occurs_one x log : occurs [x] (rev log) = true -> x ∈ log.
Proof.
  intros H. apply elem_of_list_In, in_rev, elem_of_list_In.
  induction (rev log) as [|y ys IH]; cbn in H; [discriminate|].
  case_decide; subst; [apply elem_of_list_here|apply elem_of_list_further; auto].
Qed.

Lemma occurs_cons x xs ys : occurs (x :: xs) ys = true -> exists a b, ys = a ++ x :: b /\ occurs xs b = true.
Proof.
  induction ys as [|y ys IH]; cbn; [discriminate|]. case_decide.
  - subst. intros H. exists [], ys. auto.
  - intros H'. destruct (IH H') as (a & b & -> & Hb). exists (y :: a), b. auto.
Qed.

(** [a], then later [b], in chronological order. *)
Lemma occurs_two a b log : occurs [a; b] (rev log) = true ->
  exists post mid pre, log = post ++ b :: mid ++ a :: pre.
Proof.
  intros H. apply occurs_cons in H as (p & q & Hq & H). apply occurs_cons in H as (r & s & -> & _).
  exists (rev s), (rev r), (rev p). rewrite <- (rev_involutive log), Hq.
  rewrite !rev_app_distr. cbn. rewrite !rev_app_distr. cbn. rewrite <- !app_assoc. reflexivity.
Qed.

(** Some event of the log is in relation [f] to what happened before it. *)
Fixpoint log_any (f : event -> list event -> bool) (log : list event) : bool :=
  match log with [] => false | ev :: log => f ev log || log_any f log end.
Lemma log_any_spec f log : log_any f log = true -> exists post ev pre, log = post ++ ev :: pre /\ f ev pre = true.
Proof.
  induction log as [|ev log IH]; cbn; [discriminate|]. intros H. apply orb_true_iff in H as [H|H].
  - exists [], ev, log. auto.
  - destruct (IH H) as (post & ev' & pre & -> & Hf). exists (ev :: post), ev', pre. auto.
Qed.
Lemma run_any e ps sc f :
  match run e (init ps) sc with inl w => log_any f (w_log w) | inr _ => false end = true ->
  exists w post ev pre, reachable e ps w /\ w_log w = post ++ ev :: pre /\ f ev pre = true.
Proof.
  intros H. destruct (run e (init ps) sc) as [w|u] eqn:Hr; [|discriminate].
  apply log_any_spec in H as (post & ev & pre & H & Hf). exists w, post, ev, pre. split; [exists sc; exact Hr|auto].
Qed.

(** ** Scenarios *)

(** One thread; the first slot disconnects the second one while both are emitted to,
    twice. *)
Definition x1_env := wenv (fun v => if Nat.eqb v 1 then [OVar (VDisc 1)] else []).
Definition x1_prog := seqp [ONewSignal None; OConnect 0 (SrcFn (fn 1)) false; OConnect 0 (SrcFn (fn 2)) false;
                            OEmit 0 []; OVar (VConnected 1); OEmit 0 []; OVar (VConnected 0)] OutUnit.

(** Two threads: the first emits, the second disconnects the slot between the test of
    its connected flag and the call (after 17 steps of the first thread). *)
Definition x2_env := wenv (fun v => []).
Definition x2_prog := seqp [ONewSignal None; OConnect 0 (SrcFn (fn 1)) false; OEmit 0 []; OEmit 0 []] OutUnit.
Definition x2_other := seqp [OVar (VDisc 0)] OutUnit.
Definition x2_sched := sch [(0, 17); (1, 20); (0, 30)].

(** One thread; a slot tracking object 0 drops the object while it is called; two
    emissions. *)
Definition x3_env := wenv (fun v => if Nat.eqb v 7 then [OVar (VResetObj 0)] else []).
Definition x3_prog := seqp [ONewSignal None; OVar VNewObj; OConnect 0 (SrcFn (trk 7 0)) false; OEmit 0 [];
                            OVar (VConnected 0); OEmit 0 []; OVar (VConnected 0); OVar (VDisc 0)] OutUnit.

(** One thread; two blockers of one slot. *)
Definition x4_prog := seqp [ONewSignal None; OConnect 0 (SrcFn (fn 1)) false; OVar (VBlocker 0); OVar (VBlocker 0);
                            OVar (VBlocked 0); OEmit 0 []; OVar (VBDestroy 0); OVar (VBlocked 0); OEmit 0 []] OutUnit.

(** One thread; callable 1 counts its calls in its own state; it is connected twice. *)
Definition x5_env : env :=
  Env false (fun _ => true) (fun _ a b => Ret (OutBool (Nat.eqb a b)))
    (fun r c args => Do (OSelfGet r) (fun o => match o with
       | OutZ z => Do (OSelfSet r (z + 1)%Z) (fun _ => Ret (OutZ z)) | _ => Ret (OutZ 0) end))
    (fun _ _ => false) (fun _ => 0%Z) (fun _ => None) (fun k n => Ret (OutOpt None)).
Definition x5_prog := seqp [ONewSignal None; OConnect 0 (SrcFn (fn 1)) false; OConnect 0 (SrcFn (fn 1)) false;
                            OEmit 0 []; OVar (VDisc 0); OEmit 0 []] OutUnit.

(** One thread; the combiner dereferences position 1 twice and never position 0. *)
Definition x6_env : env :=
  Env false (fun _ => true) (fun _ a b => Ret (OutBool (Nat.eqb a b)))
    (fun r c args => Ret (OutZ (Z.of_nat (c_fv c)))) (fun _ _ => false) (fun _ => 0%Z) (fun _ => None)
    (fun k n => Do (ODeref 1) (fun _ => Do (ODeref 1) (fun o => Ret o))).
Definition x6_prog := seqp [ONewSignal (Some 3); OConnect 0 (SrcFn (fn 1)) false; OConnect 0 (SrcFn (fn 2)) false;
                            OEmit 0 []] OutUnit.

(** One thread; callable 2 of 1, 2, 3 throws. *)
Definition x7_env : env :=
  Env false (fun _ => true) (fun _ a b => Ret (OutBool (Nat.eqb a b)))
    (fun r c args => if Nat.eqb (c_fv c) 2 then Ret (OutExn (UserExn 5)) else Ret (OutZ (Z.of_nat (c_fv c))))
    (fun _ _ => false) (fun _ => 0%Z) (fun _ => None) (fun k n => Ret (OutOpt None)).
Definition x7_prog := seqp [ONewSignal None; OConnect 0 (SrcFn (fn 1)) false; OConnect 0 (SrcFn (fn 2)) false;
                            OConnect 0 (SrcFn (fn 3)) false; OEmit 0 []] OutUnit.

(** One thread; callable 1 moves from its first argument; a value and a reference are
    passed to two slots. *)
Definition x8_env : env :=
  Env false (fun _ => true) (fun _ a b => Ret (OutBool (Nat.eqb a b)))
    (fun r c args => Ret (OutZ (Z.of_nat (c_fv c)))) (fun c i => Nat.eqb (c_fv c) 1 && Nat.eqb i 0) (fun _ => 0%Z) (fun _ => None)
    (fun k n => Ret (OutOpt None)).
Definition x8_prog := seqp [ONewSignal None; OConnect 0 (SrcFn (fn 1)) false; OConnect 0 (SrcFn (fn 2)) false;
                            OVar (VNewLoc 4); OEmit 0 [AVal 9; ARef 0]] OutUnit.

(** One thread; the first slot, while it is called, lets the signal disconnect the
    callable of the second slot, then disconnects that slot through its handle. *)
Definition x9_env := wenv (fun v => if Nat.eqb v 1 then [OErase 0 (SrcFn (fn 2)); OVar (VDisc 1)] else []).
Definition x9_prog := seqp [ONewSignal None; OConnect 0 (SrcFn (fn 1)) false; OConnect 0 (SrcFn (fn 2)) false;
                            OConnect 0 (SrcFn (fn 3)) false; OEmit 0 []; OEmit 0 []] OutUnit.

(** One thread; a signal is destroyed by a callback of its own emission, which also
    tries its handles. *)
Definition x10_env := wenv (fun v => if Nat.eqb v 1 then [ODestroySignal 0; OVar (VConnected 1)] else []).
Definition x10_prog := seqp [ONewSignal None; OConnect 0 (SrcFn (fn 1)) false; OConnect 0 (SrcFn (fn 2)) false;
                             OEmit 0 []; OVar (VConnected 0); OVar (VDisc 0); OVar (VValid 1)] OutUnit.

(** The same, but the callback disconnects a handle after the destruction. *)
Definition x11_env := wenv (fun v => if Nat.eqb v 1 then [ODestroySignal 0; OVar (VDisc 1)] else []).

(** One thread; a signal is moved; the old and the new one are used. *)
Definition x12_prog := seqp [ONewSignal None; OConnect 0 (SrcFn (fn 1)) false; OConnect 0 (SrcFn (fn 2)) false;
                             OMoveSignal 0; OEmit 1 []] OutUnit.
Definition x12_prog' (o : op) := seqp [ONewSignal None; OConnect 0 (SrcFn (fn 1)) false; OConnect 0 (SrcFn (fn 2)) false;
                             OMoveSignal 0; o] OutUnit.

(** One thread; connections plain and scoped. *)
Definition x13_prog := seqp [ONewSignal None; OConnect 0 (SrcFn (fn 1)) true; OVar (VCopyConn 0 false);
                             OVar (VNewConn false); OVar (VSwap 1 2); OEmit 0 []; OVar (VDestroyConn 0);
                             OVar (VDestroyConn 2); OEmit 0 []] OutUnit.

Lemma run_world e ps sc (P : world -> bool) :
  match run e (init ps) sc with inl w => P w | inr _ => false end = true -> exists w, reachable e ps w /\ P w = true.
Proof.
  intros H. destruct (run e (init ps) sc) as [w|u] eqn:Hr; [|discriminate].
  exists w. split; [exists sc; exact Hr|exact H].
Qed.
Lemma run_ub e ps sc u : run e (init ps) sc = inr u -> goes_ub e ps u.
Proof. intros H. exists sc. exact H. Qed.

(** Does the stack of thread [t] pass the test; can the thread take a step? *)
Definition stack_is (w : world) (t : tid) (p : list frame -> bool) : bool :=
  match w_thr w !! t with Some st => p st | None => false end.
Definition goes (e : env) (w : world) (t : tid) : bool := match step e w t MOk with SOk _ => true | _ => false end.
Definition ub_is (e : env) (w : world) (t : tid) (u : ubkind) : bool :=
  match step e w t MOk with SUB u' => bool_decide (u' = u) | _ => false end.
Definition locked_by (w : world) (s : sid) (t : tid) : bool :=
  match w_sigs w !! s with Some r => bool_decide (sg_lock r = Some t) | None => false end.
Definition step_is (e : env) (w : world) (t : tid) (p : world -> bool) : bool :=
  match step e w t MOk with SOk w' => p w' | _ => false end.

(** Two signals; a slot of the first is disconnected. *)
Definition x14_prog := seqp [ONewSignal None; ONewSignal None; OConnect 0 (SrcFn (fn 1)) false; OConnect 1 (SrcFn (fn 2)) false;
                             OVar (VDisc 0); OEmit 0 []; OEmit 1 []] OutUnit.
