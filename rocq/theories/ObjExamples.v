(** * Destructors of tracked objects: the executions behind the examples *)
From Verif Require Export ObjProof UseExamples EndExamples.

(** Object 0 has a member function connected to signal 0 with tracking, and its destructor
    disconnects the connection and emits the signal.  Its last owner goes while the slot runs:
    the callable drops the client's shared_ptr. *)
Definition q_env : env :=
  EnvOf false (fun _ => true) (fun _ a b => Ret (OutBool (Nat.eqb a b)))
    (fun r c args => if Nat.eqb (c_fv c) 7 then seqc [OVar (VResetObj 0)] (OutZ 1) else Ret (OutZ 2)) (fun _ _ => false) (fun _ => 0%Z) (fun _ => None)
    (fun k n => Ret (OutOpt None))
    (fun o => Some (seqp [OVar (VDisc 0); OEmit 0 []] OutUnit)).
Definition q_prog := seqp [ONewSignal None; OVar VNewObj; OConnect 0 (SrcFn (trk 7 0)) false; OConnect 0 (SrcFn (fn 1)) false; OEmit 0 []] OutUnit.
Lemma q_lockless : lockless_env q_env.
Proof. split; cbn; [intros; constructor|discriminate]. Qed.
(** The destructor runs once the call has returned: its emission calls only the other slot, and
    then the first emission goes on. *)
Lemma ex_C68 : lockless_env q_env /\ exists w, reachable q_env [q_prog] w /\ finished w 0 /\
  occurs [ECall 0 (RSlot 0) (Some 0) (trk 7 0) [] 7; EReset 0; ERet 0 (RSlot 0) (Some 0) (OutOpt (Some 1%Z)); EObjDead 0;
          EDisc 0 0 true; EEmit 0 1 0 [] [1]; ECall 0 (RSlot 1) (Some 1) (fn 1) [] 15; EEmitRet 0 1 (OutOpt (Some 2%Z));
          ECall 0 (RSlot 1) (Some 0) (fn 1) [] 20; EEmitRet 0 0 (OutOpt (Some 2%Z)); ESlotDead 0] (rev (w_log w)) = true.
Proof.
  split; [exact q_lockless|].
  destruct (run_world q_env [q_prog] (one 200) (fun w => occurs [ECall 0 (RSlot 0) (Some 0) (trk 7 0) [] 7; EReset 0; ERet 0 (RSlot 0) (Some 0) (OutOpt (Some 1%Z)); EObjDead 0;
          EDisc 0 0 true; EEmit 0 1 0 [] [1]; ECall 0 (RSlot 1) (Some 1) (fn 1) [] 15; EEmitRet 0 1 (OutOpt (Some 2%Z));
          ECall 0 (RSlot 1) (Some 0) (fn 1) [] 20; EEmitRet 0 0 (OutOpt (Some 2%Z)); ESlotDead 0] (rev (w_log w)) &&
     stack_is w 0 (fun st => match st with [FRet _] => true | _ => false end))) as (w & Hr & HP); [vm_compute; reflexivity|].
  apply andb_true_iff in HP as [H1 H2]. exists w. split; [exact Hr|]. split; [|exact H1]. unfold stack_is in H2. unfold finished.
  destruct (w_thr w !! 0) as [[|[] []]|]; try discriminate H2. eauto.
Qed.
(** In between: the destructor of object 0 runs, on the way back from the slot. *)
Lemma ex_C68_inside : exists w p st, reachable q_env [q_prog] w /\ w_thr w !! 0 = Some (FProg p :: FDtor (inr 0) :: st) /\
  EObjDead 0 ∈ w_log w /\ ecount (is_odead 0) (w_log w) = 1 /\ destructors_of 0 w = 1.
Proof.
  destruct (run_world q_env [q_prog] (one 32) (fun w => match w_log w with EObjDead 0 :: _ => true | _ => false end && (ecount (is_odead 0) (w_log w) =? 1) && (destructors_of 0 w =? 1) &&
     stack_is w 0 (fun st => match st with FProg _ :: FDtor (inr 0) :: _ => true | _ => false end))) as (w & Hr & HP); [vm_compute; reflexivity|].
  apply andb_true_iff in HP as [HP H4]. apply andb_true_iff in HP as [HP H3]. apply andb_true_iff in HP as [H1 H2]. apply Nat.eqb_eq in H2, H3.
  unfold stack_is in H4. destruct (w_thr w !! 0) as [[|[] [|[] st]]|] eqn:E; try discriminate H4. destruct x as [|[|]]; try discriminate H4.
  exists w, p, st. split; [exact Hr|]. split; [exact E|]. split; [|auto]. destruct (w_log w) as [|[] log]; try discriminate H1. destruct o; [left|discriminate H1].
Qed.

(** A functor that owns object 0 is erased; the destructor of the object disconnects another slot
    of the same signal. *)
Definition h_env : env :=
  EnvOf false (fun _ => true) (fun _ a b => Ret (OutBool (Nat.eqb a b)))
    (fun r c args => Ret (OutZ 0)) (fun _ _ => false) (fun _ => 0%Z)
    (fun c => if Nat.eqb (c_fv c) 1 then Some (seqp [OVar (VResetObj 0)] OutUnit) else None) (fun k n => Ret (OutOpt None))
    (fun o => Some (seqp [OVar (VDestroyConn 0)] OutUnit)).
Definition h_prog := seqp [ONewSignal None; OVar VNewObj; OConnect 0 (SrcFn (fn 2)) true; OConnect 0 (SrcFn (fn 1)) false; OErase 0 (SrcFn (fn 1))] OutUnit.
Lemma ex_C68_erase : goes_ub h_env [h_prog] ULockSelf.
Proof. exists (one 60). vm_compute. reflexivity. Qed.
(** Disconnected through its handle instead, the functor goes after the mutex has been released. *)
Definition h_safe := seqp [ONewSignal None; OVar VNewObj; OConnect 0 (SrcFn (fn 2)) true; OConnect 0 (SrcFn (fn 1)) false; OVar (VDisc 1)] OutUnit.
Lemma ex_C68_handle : exists w, reachable h_env [h_safe] w /\
  occurs [ERem 0 0 1 1; EDisc 0 1 true; ESlotDead 1; EReset 0; EObjDead 0; EDisc 0 0 true; ESlotDead 0] (rev (w_log w)) = true.
Proof.
  destruct (run_world h_env [h_safe] (one 200) (fun w => occurs [ERem 0 0 1 1; EDisc 0 1 true; ESlotDead 1; EReset 0; EObjDead 0; EDisc 0 0 true; ESlotDead 0] (rev (w_log w)))) as (w & Hr & HP); [vm_compute; reflexivity|].
  eauto.
Qed.

(** ** Recursion through destructors ends *)
(** The same as [q_env] with a destructor that only disconnects. *)
Definition q2_env : env :=
  EnvOf false (fun _ => true) (fun _ a b => Ret (OutBool (Nat.eqb a b)))
    (fun r c args => if Nat.eqb (c_fv c) 7 then seqc [OVar (VResetObj 0)] (OutZ 1) else Ret (OutZ 2)) (fun _ _ => false) (fun _ => 0%Z) (fun _ => None)
    (fun k n => Ret (OutOpt None))
    (fun o => Some (seqp [OVar (VDisc 0)] OutUnit)).
Lemma q2_ends : ends_env (fun _ => 0) q2_env.
Proof.
  split; [|split; [intros; constructor|split; [reflexivity|]]].
  - intros r c args. cbn. destruct (_ =? _); [|constructor]. constructor; [exact I|]. intros []; constructor.
  - intros o p [= <-]. split; [constructor; [exact I|constructor]|]. split; [constructor; [discriminate|constructor]|]. split; [constructor|discriminate].
Qed.
Lemma ex_C65_objects : lockless_env q2_env /\ ends_env (fun _ => 0) q2_env /\ (exists o p, e_odtor q2_env o = Some p) /\ fair 1 (in_turn 1) /\
  match run q2_env (init [q_prog]) (first (in_turn 1) 100) with
  | inl w => finished w 0 /\ destructors_of 0 w = 0 /\ ecount (is_odead 0) (w_log w) = 1
  | inr _ => False
  end.
Proof.
  split; [split; cbn; [intros; constructor|discriminate]|]. split; [exact q2_ends|]. split; [exists 0; eexists; reflexivity|]. split; [apply in_turn_fair|].
  vm_compute. split; [eexists; reflexivity|split; reflexivity].
Qed.
