(** * What is left when nothing is running: clients and examples *)
From Verif Require Import Reach InvUse Witness TidyCase TidySafe AloneProof AloneTest TidyExamples EndExamples.
From Verif Require Export QuietOne.

(** ** ThreadedConnect (tests/signal_tests.cpp, 264-302) *)
Lemma add_neat : neat_env add_env.
Proof. split; [intros; constructor|]. split; [intros; constructor|]. split; [intros; constructor|split; discriminate]. Qed.
Lemma add_functions : functions_env add_env.
Proof. split; [intros; constructor|]. split; [intros; constructor|]. split; [intros; constructor|split; discriminate]. Qed.
Lemma frees_emits m c next : frees c (emit_then m c next).
Proof. induction m as [|m IH]; cbn; [constructor|]. apply Fr_later. intros r. destruct r; try exact IH; constructor. Qed.
Lemma neat_emits m c next : neat next -> neat (emit_then m c next).
Proof.
  intros Hn. induction m as [|m IH]; cbn; (constructor; [reflexivity|discriminate|intros r]); [exact Hn|].
  destruct r; try exact IH; (constructor; [reflexivity|discriminate|intros r]); constructor.
Qed.
Lemma neat_invoke n m : neat (connect_invoke n m).
Proof.
  induction n as [|n IH]; cbn; [constructor|]. constructor; [reflexivity|intros _ c; apply frees_emits|].
  intros r. destruct r; try constructor; apply neat_emits; exact IH.
Qed.
Lemma neat_main n m : neat (connect_main n m).
Proof.
  do 2 (constructor; [reflexivity|discriminate|intros _]). apply neat_bindp; [apply neat_invoke|]. intros _.
  constructor; [reflexivity|discriminate|intros _]. constructor.
Qed.
Lemma fun_emits m c next : functions next -> functions (emit_then m c next).
Proof. intros Hn. induction m as [|m IH]; cbn; (constructor; [exact I|intros r]); [exact Hn|]. destruct r; try exact IH; constructor; [exact I|constructor]. Qed.
Lemma fun_invoke n m : functions (connect_invoke n m).
Proof. induction n as [|n IH]; cbn; constructor; [discriminate|]. intros r. destruct r; try constructor; apply fun_emits; exact IH. Qed.
Lemma fun_main n m : functions (connect_main n m).
Proof.
  do 2 (constructor; [exact I|intros _]). apply fun_bindp; [apply fun_invoke|]. intros _. constructor; [exact I|]. intros _. constructor.
Qed.
Lemma neat_threads n m : Forall neat (connect_threads n m).
Proof. constructor; [apply neat_main|]. apply Forall_replicate, neat_invoke. Qed.
Lemma fun_threads n m : Forall functions (connect_threads n m).
Proof. constructor; [apply fun_main|]. apply Forall_replicate, fun_invoke. Qed.

(** What tidy clients share lives as long as they run. *)
Lemma shared_lives e G caps ps own w0 sc w th : tidy_env e G caps -> settled e G caps ps own w0 -> run e w0 sc = inl w -> th ∈ G -> lives w th.
Proof.
  intros He H0 Hw Hth. pose proof (J_run e G caps ps He sc _ _ (J_start e G caps ps He own w0 H0)) as HJ. rewrite Hw in HJ. destruct HJ as [O HJ].
  destruct (j_G _ _ _ _ (j_world _ _ _ _ _ _ HJ) _ Hth) as [H _]. exact H.
Qed.
Lemma connect_leaves_nothing n m w0 f : reachable add_env (connect_threads n m) w0 -> (forall s1 s2, EMoveSig s1 s2 ∉ w_log w0) -> signal_lives w0 0 -> is_Some (v_store (w_vars w0) !! 0) ->
  (forall t st, w_thr w0 !! t = Some st -> (exists o, st = [FRet o]) \/ exists n m, st = [FProg (connect_invoke n m)]) ->
  fair (length (w_thr w0)) f -> (forall i, snd (f i) = MOk) ->
  exists i w, run add_env w0 (first f i) = inl w /\ all_finished w /\ signal_lives w 0 /\ slots_of w 0 = [].
Proof.
  intros Hr Hm Hs Hl Ht Hf Hok. destruct (connect_ends _ w0 f Hr Hm Hs Hl Ht Hf Hok) as (i & w & Hw & Hfin). exists i, w. split; [exact Hw|]. split; [exact Hfin|].
  assert (Hsl : signal_lives w 0) by (apply (shared_lives add_env shared no_caps _ _ w0 _ w (TSig 0) add_tidy (connect_settled _ _ Hr Hm Hs Hl Ht) Hw); left).
  split; [exact Hsl|]. eapply (neat_empty add_env (connect_threads n m)); eauto using add_neat, add_functions, neat_threads, fun_threads.
  destruct Hr as [sc Hsc]. exists (sc ++ first f i). rewrite run_app, Hsc. exact Hw.
Qed.
Lemma ex_leaves n m : exists w0, reachable add_env (connect_threads n m) w0 /\ (forall s1 s2, EMoveSig s1 s2 ∉ w_log w0) /\ signal_lives w0 0 /\ is_Some (v_store (w_vars w0) !! 0) /\
  (forall t st, w_thr w0 !! t = Some st -> (exists o, st = [FRet o]) \/ exists n m, st = [FProg (connect_invoke n m)]) /\
  length (w_thr w0) = 11 /\ fair 11 (in_turn 11) /\ forall i, snd (in_turn 11 i) = MOk.
Proof.
  destruct (connect_runs (connect_invoke n m)) as (w0 & E & _ & Hthr).
  destruct (connect_begins n m) as (w1 & E1 & _ & _ & _ & H1 & H2 & H3 & H4). unfold connect_threads in E1. rewrite E in E1. injection E1 as <-.
  exists w0. split; [eexists; exact E|]. split; [exact H3|]. split; [exact H1|]. split; [exact H2|]. split; [exact H4|]. split; [rewrite Hthr; reflexivity|]. split; [apply in_turn_fair|reflexivity].
Qed.

(** ** One thread *)
Definition rest_env : env := wenv (fun _ => []).
(** Three functions are connected and the second is disconnected. *)
Definition rest_prog : prog :=
  seqp [ONewSignal None; OConnect 0 (SrcFn (fn 1)) false; OConnect 0 (SrcFn (fn 2)) false; OConnect 0 (SrcFn (fn 3)) false; OVar (VDisc 1)] OutUnit.
Lemma seq_functions os o : Forall function_op os -> functions (seqp os o).
Proof. induction 1; cbn; constructor; auto. Qed.
Lemma rest_functions : functions_env rest_env.
Proof. split; [intros; constructor|]. split; [intros; constructor|]. split; [intros; constructor|split; discriminate]. Qed.
Lemma rest_neat : neat_env rest_env.
Proof. split; [intros; constructor|]. split; [intros; constructor|]. split; [intros; constructor|split; discriminate]. Qed.
Lemma ex_rest : functions_env rest_env /\ functions rest_prog /\
  exists w, run rest_env (init [rest_prog]) (one 60) = inl w /\ all_finished w /\ slots_of w 0 = [0; 2] /\
    (forall t s l, EErased t s l ∉ w_log w) /\ (forall s1 s2, EMoveSig s1 s2 ∉ w_log w) /\
    map (fun l => (spec_flag (w_log w) l, spec_home (w_log w) l)) [0; 1; 2] = [(true, Some 0); (false, Some 0); (true, Some 0)].
Proof.
  split; [exact rest_functions|]. split; [apply seq_functions; repeat constructor; discriminate|].
  destruct (run rest_env (init [rest_prog]) (one 60)) as [w|u] eqn:E; [|vm_compute in E; discriminate]. exists w. split; [reflexivity|]. vm_compute in E. injection E as <-.
  split; [intros [|] st Hst; [eexists; reflexivity|discriminate]|]. split; [reflexivity|].
  split; [|split; [|reflexivity]]; intros; cbn [w_log]; intros Hin; repeat (apply elem_of_cons in Hin as [Hin|Hin]; [discriminate|]); inversion Hin.
Qed.

(** A tracked object dies in the middle of a call of its slot, after the check and before the lock
    (signals.hpp, 1383 and 964-970): the slot stays in the list when the connection is destroyed. *)
Definition expired_prog : prog :=
  Do (ONewSignal None) (fun _ => Do (OVar VNewObj) (fun _ => Do (OConnect 0 (SrcFn (trk 1 0)) true) (fun r =>
    match r with OutId c => Do (OEmit 0 []) (fun _ => Do (OVar (VDestroyConn c)) (fun _ => Ret OutUnit)) | _ => Ret r end))).
Definition reset_prog : prog := Do (OVar (VResetObj 0)) (fun _ => Ret OutUnit).
Definition expired_sched (n : nat) : sched := one n ++ repeat (1, MOk) 3 ++ one 60.
(** The same with a call of a slot object, which is then connected. *)
Definition born_prog : prog :=
  Do (ONewSignal None) (fun _ => Do (OVar VNewObj) (fun _ => Do (OVar (VSlotNew (trk 1 0))) (fun _ => Do (OSlotCall 0 []) (fun _ => Do (OConnect 0 (SrcSlot 0) true) (fun r =>
    match r with OutId c => Do (OVar (VDestroyConn c)) (fun _ => Ret OutUnit) | _ => Ret r end))))).
Lemma neat_then o k : untidy_op o = false -> makes_scoped o = false -> (forall r, neat (k r)) -> neat (Do o k).
Proof. intros. constructor; auto. congruence. Qed.
Lemma expired_neat : neat expired_prog.
Proof.
  do 2 (apply neat_then; [reflexivity|reflexivity|intros _]). constructor; [reflexivity|intros _ c; apply Fr_later; intros _; constructor|].
  intros r. destruct r; try constructor; try reflexivity; try discriminate. intros _. apply neat_then; [reflexivity|reflexivity|]. constructor.
Qed.
Lemma born_neat : neat born_prog.
Proof.
  do 4 (apply neat_then; [reflexivity|reflexivity|intros _]). constructor; [reflexivity|intros _ c; constructor|].
  intros r. destruct r; try constructor; try reflexivity; try discriminate. intros _. constructor.
Qed.
Lemma reset_neat : neat reset_prog.
Proof. apply neat_then; [reflexivity|reflexivity|]. constructor. Qed.
Lemma ex_expired : neat_env rest_env /\ neat expired_prog /\ neat reset_prog /\
  exists w, run rest_env (init [expired_prog; reset_prog]) (expired_sched 17) = inl w /\ all_finished w /\ signal_lives w 0 /\ slots_of w 0 = [0] /\ died_in_call (w_log w) 0.
Proof.
  split; [exact rest_neat|]. split; [exact expired_neat|]. split; [exact reset_neat|].
  destruct (run rest_env (init [expired_prog; reset_prog]) (expired_sched 17)) as [w|u] eqn:E; [|vm_compute in E; discriminate]. exists w. split; [reflexivity|]. vm_compute in E. injection E as <-.
  split; [intros [|[|]] st Hst; try (eexists; reflexivity); discriminate|]. split; [eexists; split; reflexivity|]. split; [reflexivity|].
  eexists [_; _; _; _], 0, _, 5, _. split; [reflexivity|]. split; [exists 5|exists 7]; (split; [cbn; lia|]); exists 0; split; vm_compute; reflexivity.
Qed.
Lemma ex_born : neat_env rest_env /\ neat born_prog /\ neat reset_prog /\
  exists w, run rest_env (init [born_prog; reset_prog]) (expired_sched 10) = inl w /\ all_finished w /\ signal_lives w 0 /\ slots_of w 0 = [0] /\ born_disconnected (w_log w) 0.
Proof.
  split; [exact rest_neat|]. split; [exact born_neat|]. split; [exact reset_neat|].
  destruct (run rest_env (init [born_prog; reset_prog]) (expired_sched 10)) as [w|u] eqn:E; [|vm_compute in E; discriminate]. exists w. split; [reflexivity|]. vm_compute in E. injection E as <-.
  split; [intros [|[|]] st Hst; try (eexists; reflexivity); discriminate|]. split; [eexists; split; reflexivity|]. split; [reflexivity|].
  eexists. split; vm_compute; reflexivity.
Qed.
(** signal::disconnect(f): the slot is gone but its flag is set. *)
Definition erased_prog : prog := seqp [ONewSignal None; OConnect 0 (SrcFn (fn 1)) false; OErase 0 (SrcFn (fn 1))] OutUnit.
Lemma ex_erased : exists w, run rest_env (init [erased_prog]) (one 60) = inl w /\ all_finished w /\ signal_lives w 0 /\ slots_of w 0 = [] /\
  spec_home (w_log w) 0 = Some 0 /\ spec_flag (w_log w) 0 = true.
Proof.
  destruct (run rest_env (init [erased_prog]) (one 60)) as [w|u] eqn:E; [|vm_compute in E; discriminate]. exists w. split; [reflexivity|]. vm_compute in E. injection E as <-.
  split; [intros [|] st Hst; [eexists; reflexivity|discriminate]|]. split; [eexists; split; reflexivity|]. split; [reflexivity|]. split; reflexivity.
Qed.
(** A neat client at its end: two threads, each with a scoped connection. *)
Definition two_threads : list prog := [connect_main 1 1; connect_invoke 1 1].
Lemma ex_two : neat_env add_env /\ functions_env add_env /\ Forall neat two_threads /\ Forall functions two_threads /\
  exists w, run add_env (init two_threads) (repeat (0, MOk) 3 ++ first (in_turn 2) 120) = inl w /\ all_finished w /\ signal_lives w 0 /\
    v_conns (w_vars w) = [ConnV false true None; ConnV false true None].
Proof.
  split; [exact add_neat|]. split; [exact add_functions|]. split; [constructor; [apply neat_main|]; constructor; [apply neat_invoke|constructor]|]. split; [constructor; [apply fun_main|]; constructor; [apply fun_invoke|constructor]|].
  destruct (run add_env (init two_threads) (repeat (0, MOk) 3 ++ first (in_turn 2) 120)) as [w|u] eqn:E; [|vm_compute in E; discriminate]. exists w. split; [reflexivity|]. vm_compute in E. injection E as <-.
  split; [intros [|[|]] st Hst; try (eexists; reflexivity); discriminate|]. split; [eexists; split; reflexivity|]. reflexivity.
Qed.
(** In the middle of connection::disconnect the flag is cleared and the slot is still in the list. *)
Lemma ex_inside : exists w, run rest_env (init [rest_prog]) (one 26) = inl w /\ slots_of w 0 = [0; 1; 2] /\
  none_inside w 0 /\ spec_flag (w_log w) 0 = true /\ ~ none_inside w 1 /\ spec_flag (w_log w) 1 = false /\ ~ born_disconnected (w_log w) 1.
Proof.
  destruct (run rest_env (init [rest_prog]) (one 26)) as [w|u] eqn:E; [|vm_compute in E; discriminate]. exists w. split; [reflexivity|]. vm_compute in E. injection E as <-.
  split; [reflexivity|]. split; [|split; [reflexivity|split; [|split; [reflexivity|]]]].
  - intros [|t] st Hst; [|discriminate]. injection Hst as <-. intros Hin. repeat (apply elem_of_cons in Hin as [Hin|Hin]; [discriminate|]). inversion Hin.
  - intros H. eapply (H 0); [reflexivity|]. right. left.
  - intros (i & Hi & Hc). vm_compute in Hi. injection Hi as <-. discriminate Hc.
Qed.
(** One thread: the object dies in a callback, after that the slot is disconnected. *)
Definition drop_env : env := wenv (fun v => if v =? 1 then [OVar (VResetObj 0)] else []).
Definition drop_prog : prog :=
  seqp [ONewSignal None; OVar VNewObj; OConnect 0 (SrcFn (fn 1)) false; OConnect 0 (SrcFn (trk 2 0)) false; OConnect 0 (SrcFn (trk 3 0)) false; OEmit 0 []; OVar (VDisc 1)] OutUnit.
Lemma ex_one : exists w, run drop_env (init [drop_prog]) (one 100) = inl w /\ all_finished w /\ slots_of w 0 = [0; 2] /\ slots_called (w_log w) = [0] /\
    (forall t s l, EErased t s l ∉ w_log w) /\ (forall s1 s2, EMoveSig s1 s2 ∉ w_log w) /\
    map (fun l => (spec_flag (w_log w) l, spec_home (w_log w) l)) [0; 1; 2] = [(true, Some 0); (false, Some 0); (true, Some 0)].
Proof.
  destruct (run drop_env (init [drop_prog]) (one 100)) as [w|u] eqn:E; [|vm_compute in E; discriminate]. exists w. split; [reflexivity|]. vm_compute in E. injection E as <-.
  split; [intros [|] st Hst; [eexists; reflexivity|discriminate]|]. split; [reflexivity|]. split; [reflexivity|].
  split; [|split; [|reflexivity]]; intros; cbn [w_log]; intros Hin; repeat (apply elem_of_cons in Hin as [Hin|Hin]; [discriminate|]); inversion Hin.
Qed.
