(** * The executions behind the examples and refutations about clients *)
From Verif Require Export InvFault OpExamples.

Lemma seqp_lockless e os o : Forall (lockless_op e) os -> lockless e (seqp os o).
Proof. induction 1; cbn; constructor; auto. Qed.
Lemma wenv_lockless body : lockless_env (wenv body).
Proof. split; cbn; [intros; constructor|discriminate]. Qed.

(** Perform [os], stop at the first exception. *)
Fixpoint seqc (os : list op) (o : out) : prog :=
  match os with [] => Ret o | x :: os => Do x (fun r => match r with OutExn _ => Ret r | _ => seqc os o end) end.

(** operator== emits signal 0. *)
Definition u1_env : env :=
  Env false (fun _ => true) (fun _ a b => Do (OEmit 0 []) (fun _ => Ret (OutBool (Nat.eqb a b))))
    (fun r c args => Ret (OutZ 0)) (fun _ _ => false) (fun _ => 0%Z) (fun _ => None) (fun k n => Ret (OutOpt None)).
Definition u1_prog := seqp [ONewSignal None; OConnect 0 (SrcFn (fn 1)) false; OErase 0 (SrcFn (fn 1))] OutUnit.
(** The destructor of the functor connects to signal 0. *)
Definition u2_env : env :=
  Env false (fun _ => true) (fun _ a b => Ret (OutBool (Nat.eqb a b)))
    (fun r c args => Ret (OutZ 0)) (fun _ _ => false) (fun _ => 0%Z)
    (fun c => if Nat.eqb (c_fv c) 1 then Some (seqp [OConnect 0 (SrcFn (fn 2)) false] OutUnit) else None) (fun k n => Ret (OutOpt None)).
(** operator== on a functor with number 0 emits signal 1 and vice versa; two threads erase from
    the two signals. *)
Definition u3_env : env :=
  Env false (fun _ => true) (fun _ a b => Do (OEmit (1 - a) []) (fun _ => Ret (OutBool (Nat.eqb a b))))
    (fun r c args => Ret (OutZ 0)) (fun _ _ => false) (fun _ => 0%Z) (fun _ => None) (fun k n => Ret (OutOpt None)).
Definition u3_prog := seqp [ONewSignal None; ONewSignal None; OConnect 0 (SrcFn (fn 0)) false; OConnect 1 (SrcFn (fn 1)) false;
                            OErase 0 (SrcFn (fn 0))] OutUnit.
Definition u3_other := seqp [OErase 1 (SrcFn (fn 1))] OutUnit.

Lemma ex_C28_self_eq : goes_ub u1_env [u1_prog] ULockSelf.
Proof. exists (one 40). vm_compute. reflexivity. Qed.
Lemma ex_C28_self_dtor : goes_ub u2_env [u1_prog] ULockSelf.
Proof. exists (one 40). vm_compute. reflexivity. Qed.

Definition is_blocked (e : env) (w : world) (t : tid) : bool := match step e w t MOk with SBlocked => true | _ => false end.
Lemma blocked_any e w t fail : is_blocked e w t = true -> step e w t fail = SBlocked.
Proof.
  unfold is_blocked. destruct (step e w t MOk) eqn:H; try discriminate. intros _.
  destruct (blocked_on _ _ _ _ H) as (s & k & st & r & t' & Ht & Hs & Hl & Hn).
  destruct (mems_ok e w t fail _ Ht) as (f & [<-|[]] & ->). exact H.
Qed.
Lemma ex_C28_deadlock : exists w, reachable u3_env [u3_prog; u3_other] w /\ length (w_thr w) = 2 /\
  forall t, t < 2 -> forall fail, step u3_env w t fail = SBlocked.
Proof.
  pose (sc := sch [(0, 22); (1, 6); (0, 10); (1, 10)]).
  assert (Hb : match run u3_env (init [u3_prog; u3_other]) sc with
               | inl w => is_blocked u3_env w 0 && is_blocked u3_env w 1 && Nat.eqb (length (w_thr w)) 2 | inr _ => false end = true)
    by (vm_compute; reflexivity).
  destruct (run u3_env (init [u3_prog; u3_other]) sc) as [w|] eqn:Hrun; [|discriminate Hb].
  apply andb_true_iff in Hb as [Hb Hn]. apply andb_true_iff in Hb as [H0 H1]. apply Nat.eqb_eq in Hn.
  exists w. split; [exists sc; exact Hrun|]. split; [auto|]. intros t Ht fail. apply blocked_any.
  destruct t as [|[|]]; [auto|auto|lia].
Qed.

(** Two threads, one waits for the mutex the other holds. *)
Lemma ex_C28 : lockless_env x2_env /\ exists w, reachable x2_env [x2_prog; x2_other] w /\
  step x2_env w 1 MOk = SBlocked /\ owns w 0 0.
Proof.
  split; [apply wenv_lockless|].
  pose (sc := sch [(0, 26); (1, 5)]).
  assert (Hb : match run x2_env (init [x2_prog; x2_other]) sc with
               | inl w => is_blocked x2_env w 1 && match w_sigs w with [r] => bool_decide (sg_lock r = Some 0) | _ => false end | inr _ => false end = true)
    by (vm_compute; reflexivity).
  destruct (run x2_env (init [x2_prog; x2_other]) sc) as [w|] eqn:Hrun; [|discriminate Hb].
  apply andb_true_iff in Hb as [H0 H1]. exists w. split; [exists sc; exact Hrun|]. split; [apply blocked_any; auto|].
  clear Hrun. destruct (w_sigs w) as [|r [|]] eqn:Hs; try discriminate H1. apply bool_decide_eq_true in H1. exists r. rewrite Hs. auto.
Qed.

(** ** Clients without faults *)
(** Slot 1 disconnects slot 2 while called, slot 3 connects another one; then a disconnect(f),
    scoped connections and blockers, memory may run out at any time. *)
Definition u4_env := wenv (fun v => if Nat.eqb v 1 then [OVar (VDisc 1)] else if Nat.eqb v 3 then [OConnect 0 (SrcFn (fn 4)) false] else []).
Definition u4_prog := seqc [ONewSignal None; OConnect 0 (SrcFn (fn 1)) false; OConnect 0 (SrcFn (fn 2)) true; OConnect 0 (SrcFn (fn 3)) false;
                            OEmit 0 []; OVar (VBlocker 0); OErase 0 (SrcFn (fn 3)); OEmit 0 [AVal 3%Z]; OVar (VDestroyConn 1)] OutUnit.
Lemma ex_C30 : lockless_env u4_env /\ blameless u4_env [u4_prog] /\ exists w, reachable u4_env [u4_prog] w /\ finished w 0.
Proof.
  split; [apply wenv_lockless|]. split; [apply (explore_sound _ _ 300); vm_compute; reflexivity|].
  assert (Hb : match run u4_env (init [u4_prog]) (one 250) with inl w => match w_thr w !! 0 with Some [FRet OutUnit] => true | _ => false end | inr _ => false end = true)
    by (vm_compute; reflexivity).
  destruct (run u4_env (init [u4_prog]) (one 250)) as [w|] eqn:Hrun; [|discriminate Hb].
  exists w. split; [exists (one 250); exact Hrun|]. clear Hrun. destruct (w_thr w !! 0) as [[|[[]| | | | | | | | | | | | | | | | | | | |] []]|] eqn:Ht; try discriminate Hb.
  exists OutUnit. exact Ht.
Qed.
(** Each kind of fault occurs: here an iterator past the end. *)
Definition u5_env : env :=
  Env false (fun _ => true) (fun _ a b => Ret (OutBool (Nat.eqb a b)))
    (fun r c args => Ret (OutZ 0)) (fun _ _ => false) (fun _ => 0%Z) (fun _ => None) (fun k n => Do (ODeref n) (fun o => Ret o)).
Definition u5_prog := seqp [ONewSignal (Some 0); OConnect 0 (SrcFn (fn 1)) false; OEmit 0 []] OutUnit.
Lemma ex_C30_fault : lockless_env u5_env /\ goes_ub u5_env [u5_prog] UBadIter.
Proof. split; [split; cbn; [intros; constructor|discriminate]|]. exists (one 40). vm_compute. reflexivity. Qed.
(** Signals destroyed or moved from: the library runs into undefined behaviour of its own. *)
Definition u6_prog := seqp [ONewSignal None; OConnect 0 (SrcFn (fn 1)) false; OMoveSignal 0; OEmit 0 []] OutUnit.
Lemma ex_C30_moved : goes_ub x2_env [u6_prog] UNullVec.
Proof. exists (one 40). vm_compute. reflexivity. Qed.
