(** * Everything comes to an end: clients *)
From Verif Require Import Reach InvUse Witness TidyCase TidySafe AloneProof AloneTest TidyExamples.
From Verif Require Export EndProof.

(** Tidy clients (SpecTidy.v) with enough memory finish. *)
Lemma tidy_ends mu e G caps ps own w0 f : tidy_env e G caps -> lockless_env e -> ends_env mu e -> settled e G caps ps own w0 ->
  fair (length (w_thr w0)) f -> (forall i, snd (f i) = MOk) -> exists i w, run e w0 (first f i) = inl w /\ all_finished w.
Proof.
  intros Ht He Hm H0 Hf Hok. destruct (fair_ends mu e ps He Hm f w0 (se_reach _ _ _ _ _ _ H0) Hf) as [i Hi].
  destruct (tidy_with_memory e G caps ps Ht own w0 (first f i) He H0) as (w & Hw & _).
  - intros t m Hin. unfold first in Hin. apply elem_of_list_fmap in Hin as (j & Hj & _). specialize (Hok j). rewrite <- Hj in Hok. exact Hok.
  - exists i, w. rewrite Hw in Hi. auto.
Qed.

(** ** ThreadedConnect (tests/signal_tests.cpp, 264-302) *)
Lemma add_ends : ends_env (fun _ => 0) add_env.
Proof. split; [intros; constructor|]. split; [intros; constructor|]. split; [reflexivity|discriminate]. Qed.
Lemma connect_ends ps w0 f : reachable add_env ps w0 -> (forall s1 s2, EMoveSig s1 s2 ∉ w_log w0) -> signal_lives w0 0 -> is_Some (v_store (w_vars w0) !! 0) ->
  (forall t st, w_thr w0 !! t = Some st -> (exists o, st = [FRet o]) \/ exists n m, st = [FProg (connect_invoke n m)]) ->
  fair (length (w_thr w0)) f -> (forall i, snd (f i) = MOk) -> exists i w, run add_env w0 (first f i) = inl w /\ all_finished w.
Proof.
  intros Hr Hm Hs Hl Ht Hf Hok. eapply tidy_ends; eauto using add_tidy, add_lockless, add_ends, connect_settled.
Qed.

(** ** Counting down *)
(** A callable that is called with [n] emits the signal with [n - 1] until zero is reached; it is connected
    twice, so there are [2 ^ n] calls with 0. *)
Definition down_env : env :=
  Env true (fun _ => true) (fun _ a b => Ret (OutBool (Nat.eqb a b)))
    (fun r c args => match args with
       | [AVal z] => if (0 <? z)%Z then Do (OEmit 0 [AVal (z - 1)]) (fun _ => Ret OutUnit) else Ret OutUnit
       | _ => Ret OutUnit end)
    (fun _ _ => false) (fun z => z) (fun _ => None) (fun _ _ => Ret OutUnit).
Definition down_mu (args : list arg) : nat := match args with [AVal z] => Z.to_nat z | _ => 0 end.
Definition down_prog (z : Z) : prog :=
  seqp [ONewSignal None; OConnect 0 (SrcFn (fn 1)) false; OConnect 0 (SrcFn (fn 2)) false; OEmit 0 [AVal z]] OutUnit.
Lemma down_lockless : lockless_env down_env.
Proof. split; [constructor|discriminate]. Qed.
Lemma down_ends : ends_env down_mu down_env.
Proof.
  split; [|split; [intros; constructor|split; [|discriminate]]].
  - intros r c args. cbn. destruct args as [|[z|a] [|? ?]]; try constructor. destruct (Z.ltb_spec 0 z); constructor; [cbn; lia|constructor].
  - intros c args. unfold consume. replace (imap _ args) with args; [reflexivity|]. symmetry.
    apply list_eq. intros i. rewrite list_lookup_imap. destruct (args !! i) as [[z|a]|]; reflexivity.
Qed.
(** Turns are taken one by one. *)
Definition in_turn (n : nat) : nat -> nat * mem := fun i => (i mod n, MOk).
Lemma in_turn_fair n : fair n (in_turn n).
Proof.
  intros t Ht i. exists (i * n + t). split; [nia|]. cbn. rewrite Nat.add_comm, Nat.mod_add by lia. apply Nat.mod_small. exact Ht.
Qed.
Lemma ex_down : lockless_env down_env /\ ends_env down_mu down_env /\ fair 1 (in_turn 1) /\
  match run down_env (init [down_prog 2]) (first (in_turn 1) 300) with
  | inl w => finished w 0 /\ slots_called (w_log w) = [0; 0; 0; 1; 1; 0; 1; 1; 0; 0; 1; 1; 0; 1]
  | inr _ => False
  end.
Proof. split; [exact down_lockless|]. split; [exact down_ends|]. split; [apply in_turn_fair|]. vm_compute. split; [eexists; reflexivity|reflexivity]. Qed.

(** ** Recursion without end *)
Definition loop_env : env :=
  Env true (fun _ => true) (fun _ a b => Ret (OutBool (Nat.eqb a b))) (fun r c args => Do (OEmit 0 []) (fun _ => Ret OutUnit))
    (fun _ _ => false) (fun z => z) (fun _ => None) (fun _ _ => Ret OutUnit).
Definition loop_prog : prog := seqp [ONewSignal None; OConnect 0 (SrcFn (fn 1)) false; OEmit 0 []] OutUnit.
Definition looping (w : world) : Prop := exists i vars neid log st,
  im_blk i = false /\ im_conn i = true /\ im_c i = fn 1 /\ v_objs vars = [] /\
  w = World [SigRec true None (Some 0) false None] [[0]] [SlotRec i 0] vars neid log [FProg (Do (OEmit 0 []) (fun _ => Ret OutUnit)) :: st].
Lemma loop_cycle w : looping w -> exists w', run loop_env w (one 9) = inl w' /\ looping w'.
Proof.
  intros ([c idx cn bl z] & vars & neid & log & st & H1 & H2 & H3 & H4 & ->). cbn in H1, H2, H3. subst. destruct vars as [a b c d l]. cbn in H4. subst d.
  eexists. split; [vm_compute; reflexivity|]. eexists _, _, _, _, _. split; [|split; [|split; [|split; [|reflexivity]]]]; reflexivity.
Qed.
Lemma loop_starts : exists w, run loop_env (init [loop_prog]) (one 18) = inl w /\ looping w.
Proof. eexists. split; [vm_compute; reflexivity|]. eexists _, _, _, _, _. split; [|split; [|split; [|split; [|reflexivity]]]]; reflexivity. Qed.
Lemma loop_on n : exists w, run loop_env (init [loop_prog]) (one (18 + 9 * n)) = inl w /\ looping w.
Proof.
  induction n as [|n (w & Hw & Hl)]; [exact loop_starts|]. destruct (loop_cycle w Hl) as (w' & Hw' & Hl'). exists w'. split; [|exact Hl'].
  replace (18 + 9 * S n) with ((18 + 9 * n) + 9) by lia. unfold one in *. rewrite repeat_app, run_app, Hw. exact Hw'.
Qed.
Lemma looping_unfinished w : looping w -> ~ finished w 0.
Proof. intros (i & vars & neid & log & st & _ & _ & _ & _ & ->) [o H]. discriminate H. Qed.
Lemma loop_endless n : exists w, run loop_env (init [loop_prog]) (one n) = inl w /\ ~ finished w 0.
Proof.
  destruct (loop_on n) as (w & Hw & Hl). replace (18 + 9 * n) with (n + (18 + 8 * n)) in Hw by lia. unfold one in *. rewrite repeat_app, run_app in Hw.
  destruct (run loop_env (init [loop_prog]) (repeat (0, MOk) n)) as [w1|u]; [|discriminate]. exists w1. split; [reflexivity|].
  intros [o Ho]. apply (looping_unfinished w Hl).
  assert (Hst : step loop_env w1 0 MOk = SDone) by (unfold step; rewrite Ho; reflexivity).
  assert (w = w1) as ->; [|exists o; exact Ho]. revert Hw. generalize (18 + 8 * n). clear Ho Hl. induction n0 as [|m IH]; cbn; [congruence|]. rewrite Hst. exact IH.
Qed.
(** No measure shows that it ends. *)
Lemma loop_not_ends mu : ~ ends_env mu loop_env.
Proof. intros (H & _). specialize (H (RSlot 0) (fn 1) []). inversion H as [|? ? Ho _]; subst. cbn in Ho. lia. Qed.
Lemma ex_loop : lockless_env loop_env /\ (forall mu, ~ ends_env mu loop_env) /\
  forall n, exists w, run loop_env (init [loop_prog]) (one n) = inl w /\ ~ finished w 0.
Proof. split; [split; [constructor|discriminate]|]. split; [exact loop_not_ends|exact loop_endless]. Qed.

(** ThreadedCrossed: an even argument is passed on plus one. *)
Definition cross_mu (args : list arg) : nat := match args with [AVal z] => if Z.odd z then 0 else 1 | _ => 0 end.
Lemma cross_ends : ends_env cross_mu cross_env.
Proof.
  split; [|split; [intros; constructor|split; [|discriminate]]].
  - intros r c args. cbn. destruct args as [|[z|a] [|? ?]]; try constructor. destruct (Z.odd z) eqn:E; constructor; [|constructor].
    cbn. rewrite Z.odd_add, E. cbn. lia.
  - intros c args. unfold consume. replace (imap _ args) with args; [reflexivity|]. symmetry.
    apply list_eq. intros i. rewrite list_lookup_imap. destruct (args !! i) as [[z|a]|]; reflexivity.
Qed.
Lemma cross_lockless : lockless_env cross_env.
Proof. split; [constructor|discriminate]. Qed.
Lemma ex_cross_ends : lockless_env cross_env /\ ends_env cross_mu cross_env /\ reachable cross_env cross_threads cross_start /\ fair 3 (in_turn 3) /\
  match run cross_env cross_start (first (in_turn 3) 250) with inl w => all_finished w | inr _ => False end.
Proof.
  split; [exact cross_lockless|]. split; [exact cross_ends|]. split; [exact (proj1 ex_crossed)|]. split; [apply in_turn_fair|].
  destruct (run cross_env cross_start (first (in_turn 3) 250)) as [w|u] eqn:E; [|vm_compute in E; discriminate].
  assert (Ht : match run cross_env cross_start (first (in_turn 3) 250) with inl w => w_thr w | inr _ => [] end = [[FRet OutUnit]; [FRet OutUnit]; [FRet OutUnit]]) by (vm_compute; reflexivity).
  rewrite E in Ht. clear E. intros t st Hst. exists OutUnit. rewrite Ht in *. destruct t as [|[|[|t]]]; try discriminate; reflexivity.
Qed.
Lemma ex_no_endless : lockless_env down_env /\ ends_env down_mu down_env /\ reachable down_env [down_prog 2] (init [down_prog 2]) /\
  exists w, step down_env (init [down_prog 2]) 0 MOk = SOk w.
Proof. split; [exact down_lockless|]. split; [exact down_ends|]. split; [exists []; reflexivity|]. eexists. vm_compute. reflexivity. Qed.
Lemma ex_tidy_ends n m : exists w0, reachable add_env (connect_threads n m) w0 /\ settled add_env shared no_caps (connect_threads n m) (fun _ => []) w0 /\
  length (w_thr w0) = 11 /\ tidy_env add_env shared no_caps /\ lockless_env add_env /\ ends_env (fun _ => 0) add_env /\ fair 11 (in_turn 11) /\ forall i, snd (in_turn 11 i) = MOk.
Proof.
  destruct (connect_runs (connect_invoke n m)) as (w0 & E & _ & Hthr).
  destruct (connect_begins n m) as (w1 & E1 & _ & _ & _ & H1 & H2 & H3 & H4). unfold connect_threads in E1. rewrite E in E1. injection E1 as <-.
  exists w0. assert (Hr : reachable add_env (connect_threads n m) w0) by (eexists; exact E). split; [exact Hr|]. split; [apply connect_settled; auto|].
  split; [rewrite Hthr; reflexivity|]. split; [exact add_tidy|]. split; [exact add_lockless|]. split; [exact add_ends|]. split; [apply in_turn_fair|reflexivity].
Qed.
