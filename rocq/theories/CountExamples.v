(** * Connecting and emitting in a loop: the test of the repository *)
From Verif Require Import Reach InvSeq Witness TidyExamples EndExamples QuietExamples AloneTest.
From Verif Require Export CountMain.

Lemma connect_calls ps w0 sc w new t n m o : Forall functions ps -> reachable add_env ps w0 -> about_to_connect w0 ->
  run add_env w0 sc = inl w -> w_log w = new ++ w_log w0 ->
  w_thr w0 !! t = Some [FProg (connect_invoke n m)] -> finished_with w t o -> o <> oom \/ (forall t m, (t, m) ∈ sc -> m = MOk) ->
  n * m <= length (slots_called (mine t new)) <= n * m * working w0.
Proof. intros Hps Hr (H1 & H2 & H3 & H4 & H5 & H6) Hrun Hlog Ht Hf Ho. exact (thread_calls ps w0 Hps Hr H1 H2 H3 H4 H5 H6 sc w new Hrun Hlog t n m o Ht Hf Ho). Qed.
Lemma connect_alone ps w0 sc w new t n m o : Forall functions ps -> reachable add_env ps w0 -> about_to_connect w0 -> working w0 = 1 ->
  run add_env w0 sc = inl w -> w_log w = new ++ w_log w0 ->
  w_thr w0 !! t = Some [FProg (connect_invoke n m)] -> finished_with w t o -> o <> oom \/ (forall t m, (t, m) ∈ sc -> m = MOk) ->
  length (slots_called (mine t new)) = n * m.
Proof. intros Hps Hr Ha Hw Hrun Hl Ht Hf Ho. destruct (connect_calls ps w0 sc w new t n m o Hps Hr Ha Hrun Hl Ht Hf Ho) as [H1 H2]. rewrite Hw in H2. lia. Qed.
Lemma first_ok f i : (forall i, snd (f i) = MOk) -> forall t m, (t, m) ∈ first f i -> m = MOk.
Proof. intros Hok t m Hin. unfold first in Hin. apply elem_of_list_fmap in Hin as (j & Hj & _). rewrite <- (Hok j), <- Hj. reflexivity. Qed.
Lemma connect_total ps w0 f n m N o : Forall functions ps -> reachable add_env ps w0 -> about_to_connect w0 -> is_Some (v_store (w_vars w0) !! 0) ->
  0 < N -> w_thr w0 = [FRet o] :: replicate N [FProg (connect_invoke n m)] -> fair (length (w_thr w0)) f -> (forall i, snd (f i) = MOk) ->
  exists i w new, run add_env w0 (first f i) = inl w /\ all_finished w /\ w_log w = new ++ w_log w0 /\
    N * (n * m) <= length (slots_called new) <= N * (n * m * N).
Proof.
  intros Hps Hr (H1 & H2 & H3 & H4 & H5 & H6) Hl HN Hthr Hf Hok. destruct (connect_ends _ w0 f Hr H2 H3 Hl H6 Hf Hok) as (i & w & Hrun & Hfin).
  destruct (inv_run ps w0 Hps Hr H1 H2 H3 H4 H5 H6 1 n m (first f i) w) as (W & M & K & new & g & k & _ & _ & _ & HI & _); [rewrite Hthr; destruct N; [lia|reflexivity]|exact Hrun|].
  exists i, w, new. split; [exact Hrun|]. split; [exact Hfin|]. pose proof (i_log _ _ _ _ _ _ _ _ _ HI) as Hlog. split; [exact Hlog|].
  eapply (all_calls ps w0 Hps Hr H1 H2 H3 H4 H5 H6 (first f i) w new Hrun Hlog n m N o HN Hthr).
  intros t Ht. destruct (w_thr w !! S t) as [st|] eqn:E.
  - destruct (Hfin _ _ E) as [o' Ho']. exists o'. split; [exact Ho'|]. right. apply first_ok. exact Hok.
  - exfalso. apply lookup_ge_None in E. rewrite (thr_len _ _ _ (i_reach _ _ _ _ _ _ _ _ _ HI)), <- (thr_len _ _ _ Hr), Hthr in E. cbn in E. rewrite replicate_length in E. lia.
Qed.

(** ** The test ThreadedConnect (tests/signal_tests.cpp, 264-302) *)
(** The main thread makes the signal and the integer; the others run connect_invoke.  The test has
    [n = m = 100] and first one, then ten threads. *)
Definition count_main : prog := Do (ONewSignal None) (fun _ => Do (OVar (VNewLoc 0)) (fun _ => Ret OutUnit)).
Definition count_threads (N n m : nat) : list prog := count_main :: replicate N (connect_invoke n m).
Lemma count_functions N n m : Forall functions (count_threads N n m).
Proof. constructor; [repeat constructor|]. apply Forall_replicate, fun_invoke. Qed.
Lemma count_runs N p : exists w0, run add_env (init (count_main :: replicate N p)) (repeat (0, MOk) 20) = inl w0 /\
  w_log w0 = [ENewSig 0 None] /\ slots_of w0 0 = [] /\ sg_alive <$> w_sigs w0 = [true] /\ v_store (w_vars w0) = [0%Z] /\ w_thr w0 = [FRet OutUnit] :: replicate N [FProg p].
Proof.
  unfold init. cbn [map]. replace (map (fun p => [FProg p]) (replicate N p)) with (replicate N [FProg p]) by (induction N; cbn; congruence).
  generalize (replicate N [FProg p]). intros thr. destruct (run add_env _ _) as [w0|u] eqn:E; [|vm_compute in E; discriminate].
  exists w0. split; [reflexivity|]. vm_compute in E. injection E as <-. repeat (split; [vm_compute; reflexivity|]). vm_compute. reflexivity.
Qed.
Lemma working_all N p o w0 : stopped [FProg p] = false -> w_thr w0 = [FRet o] :: replicate N [FProg p] -> working w0 = N.
Proof.
  intros _ Hw. unfold working. rewrite Hw. rewrite filter_cons, decide_False by discriminate. clear. induction N as [|N IH]; [reflexivity|].
  cbn [replicate]. rewrite filter_cons, decide_True by reflexivity. cbn [length]. rewrite IH. reflexivity.
Qed.
Lemma ex_begins N n m : exists w0, run add_env (init (count_threads N n m)) (repeat (0, MOk) 20) = inl w0 /\ Forall functions (count_threads N n m) /\ about_to_connect w0 /\
  is_Some (v_store (w_vars w0) !! 0) /\ w_thr w0 = [FRet OutUnit] :: replicate N [FProg (connect_invoke n m)] /\ working w0 = N /\ slots_called (w_log w0) = [].
Proof.
  destruct (count_runs N (connect_invoke n m)) as (w0 & E & Hl & Hs & Hg & Hv & Ht). exists w0. split; [exact E|]. clear E. split; [apply count_functions|]. split; [|split; [|split; [exact Ht|]]].
  - split; [intros t s l Hin; rewrite Hl in Hin; apply elem_of_list_singleton in Hin; discriminate|].
    split; [intros s1 s2 Hin; rewrite Hl in Hin; apply elem_of_list_singleton in Hin; discriminate|].
    split; [destruct (w_sigs w0) as [|r [|]] eqn:Es; try discriminate; exists r; rewrite Es; split; [reflexivity|injection Hg as Hg; exact Hg]|].
    split; [rewrite Hl; reflexivity|]. split; [exact Hs|]. intros t st. rewrite Ht. destruct t as [|t]; [intros [= <-]; left; eauto|]. intros H. change (replicate N [FProg (connect_invoke n m)] !! t = Some st) in H.
    apply lookup_replicate in H as [-> _]. right. eauto.
  - rewrite Hv. eexists. reflexivity.
  - split; [eapply working_all; [reflexivity|exact Ht]|]. rewrite Hl. reflexivity.
Qed.
(** One thread: EXPECT_EQ(i, 10000); the integer counts the calls. *)
Lemma test_alone f : fair 2 f -> (forall i, snd (f i) = MOk) ->
  exists i w, run add_env (init (count_threads 1 100 100)) (repeat (0, MOk) 20 ++ first f i) = inl w /\ all_finished w /\ length (slots_called (w_log w)) = 100 * 100.
Proof.
  intros Hf Hok. destruct (ex_begins 1 100 100) as (w0 & E & Hps & Ha & Hv & Ht & _ & Hc). assert (Hr : reachable add_env (count_threads 1 100 100) w0) by (eexists; exact E).
  destruct (connect_total _ w0 f 100 100 1 OutUnit Hps Hr Ha Hv ltac:(lia) Ht) as (i & w & new & Hrun & Hfin & Hl & Hn); [rewrite Ht; exact Hf|exact Hok|].
  exists i, w. split; [rewrite run_app, E; exact Hrun|]. split; [exact Hfin|]. rewrite Hl, calls_app, Hc. cbn [app]. lia.
Qed.
Lemma test_threads f : fair 11 f -> (forall i, snd (f i) = MOk) ->
  exists i w, run add_env (init (count_threads 10 100 100)) (repeat (0, MOk) 20 ++ first f i) = inl w /\ all_finished w /\ 10 * (100 * 100) <= length (slots_called (w_log w)) <= 100 * (100 * 100).
Proof.
  intros Hf Hok. destruct (ex_begins 10 100 100) as (w0 & E & Hps & Ha & Hv & Ht & _ & Hc). assert (Hr : reachable add_env (count_threads 10 100 100) w0) by (eexists; exact E).
  destruct (connect_total _ w0 f 100 100 10 OutUnit Hps Hr Ha Hv ltac:(lia) Ht) as (i & w & new & Hrun & Hfin & Hl & Hn); [rewrite Ht; exact Hf|exact Hok|].
  exists i, w. split; [rewrite run_app, E; exact Hrun|]. split; [exact Hfin|]. rewrite Hl, calls_app, Hc. cbn [app]. lia.
Qed.
Lemma ex_fair : fair 2 (in_turn 2) /\ fair 11 (in_turn 11) /\ forall n i, snd (in_turn n i) = MOk.
Proof. split; [apply in_turn_fair|]. split; [apply in_turn_fair|reflexivity]. Qed.
(** With two threads both bounds are reached. *)
Definition counted (sc : sched) : option (nat * nat * bool) :=
  match run add_env (init (count_threads 2 2 2)) (repeat (0, MOk) 20 ++ sc) with
  | inl w => Some (length (slots_called (mine 1 (w_log w))), length (slots_called (mine 2 (w_log w))), forallb stopped (w_thr w))
  | inr _ => None
  end.
Lemma ex_bounds : counted (repeat (1, MOk) 400 ++ repeat (2, MOk) 400) = Some (4, 4, true) /\ counted (concat (repeat [(1, MOk); (2, MOk)] 400)) = Some (8, 8, true).
Proof. split; vm_compute; reflexivity. Qed.
(** Without memory for its connection a thread ends at once. *)
Lemma ex_oom : counted (repeat (1, MThrow) 10 ++ repeat (2, MOk) 400) = Some (0, 4, true).
Proof. vm_compute. reflexivity. Qed.
