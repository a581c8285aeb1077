(** * Concrete histories *)
From Verif Require Import OpQuery OpExamples Witness RaceExamples.
From Verif Require Export AtomicCalls.

(** Two threads disconnect the same slot at the same time while one of them asks. *)
Definition a1_ps := [seqp [ONewSignal None; OConnect 0 (SrcFn (fn 1)) false; OVar (VConnected 0); OVar (VDisc 0); OVar (VBlocked 0)] OutUnit;
                     seqp [OVar (VBlock 0); OVar (VDisc 0); OVar (VConnected 0); OVar (VValid 0)] OutUnit].
Definition a1_sched := sch [(0, 17); (1, 3); (1, 1); (0, 2); (1, 5); (1, 5); (0, 20); (1, 20)].
Lemma ex_C71 : exists w i, reachable y1_env a1_ps w /\
  history (w_log w) = [ABlocked 0 false; AValid 0 false; AConnected 0 false; AGone 0; ADisconnect 0 false; ABlock 0 true; ADisconnect 0 true; AConnected 0 true; AConnect 0 i].
Proof.
  destruct (run_log y1_env a1_ps a1_sched (fun lg => match history (rev lg) with
    | [ABlocked 0 false; AValid 0 false; AConnected 0 false; AGone 0; ADisconnect 0 false; ABlock 0 true; ADisconnect 0 true; AConnected 0 true; AConnect 0 i] => true | _ => false end)) as (w & Hr & Hw);
    [vm_compute; reflexivity|]. exists w. rewrite rev_involutive in Hw. destruct (history (w_log w)) as [|a h] eqn:Hh; [discriminate|].
  repeat (case_match; try discriminate); subst. eexists. split; [exact Hr|reflexivity].
Qed.
Lemma run_world e ps sc (P : world -> bool) : match run e (init ps) sc with inl w => P w | inr _ => false end = true -> exists w, reachable e ps w /\ P w = true.
Proof. intros H. destruct (run e (init ps) sc) as [w|u] eqn:Hr; [|discriminate]. exists w. split; [exists sc; exact Hr|exact H]. Qed.
Lemma ex_C71_table : exists w r, reachable y1_env a1_ps w /\ w_slots w !! 0 = Some r /\ slot_alive w 0 = true /\ im_conn (sl_impl r) = false.
Proof.
  destruct (run_world y1_env a1_ps (sch [(0, 17); (1, 3); (1, 1); (0, 2)]) (fun w => match w_slots w !! 0 with Some r => slot_alive w 0 && negb (im_conn (sl_impl r)) | None => false end)) as (w & Hr & Hw); [vm_compute; reflexivity|].
  destruct (w_slots w !! 0) as [r|] eqn:Hl; [|discriminate]. apply andb_true_iff in Hw as [H1 H2]. apply negb_true_iff in H2. eauto 10.
Qed.
(** The step in which an emission disconnects a slot whose tracked object is gone. *)
Definition a2_ps := [seqp [OVar VNewObj; ONewSignal None; OConnect 0 (SrcFn (trk 1 0)) false; OEmit 0 []; OVar (VConnected 0)] OutUnit;
                     seqp [OVar (VResetObj 0)] OutUnit].
Lemma step_world e ps sc t new : match run e (init ps) sc with
    | inl w => match step e w t MOk with SOk w' => bool_decide (w_log w' = new ++ w_log w) | _ => false end | inr _ => false end = true ->
  exists w w', reachable e ps w /\ step e w t MOk = SOk w' /\ since w w' new.
Proof.
  intros H. destruct (run e (init ps) sc) as [w|u] eqn:Hr; [|discriminate]. destruct (step e w t MOk) as [w'| | |] eqn:Hs; try discriminate.
  apply bool_decide_eq_true in H. exists w, w'. split; [exists sc; exact Hr|]. auto.
Qed.
Lemma ex_C71_belong : exists w w', reachable y1_env a1_ps w /\ step y1_env w 1 MOk = SOk w' /\ since w w' [ESlotDead 0; EDisc 1 0 false].
Proof. apply (step_world y1_env a1_ps (sch [(0, 17); (1, 4); (0, 2)])). vm_compute. reflexivity. Qed.
Lemma ex_C71_belong_emit : exists w w', reachable y1_env a2_ps w /\ step y1_env w 0 MOk = SOk w' /\ since w w' [ESkip 0 (RSlot 0) (Some 0) 5; EFlag 0].
Proof. apply (step_world y1_env a2_ps (sch [(0, 18); (1, 1); (0, 1)])). vm_compute. reflexivity. Qed.

(** Calls, one after the other. *)
Definition two_test e ps sc0 t1 o1 sc1 sc t2 o2 sc2 (P : world -> world -> bool) : bool :=
  call_test e ps sc0 t1 o1 sc1 (fun w1 w1' _ =>
    match run e w1' sc with
    | inr _ => false
    | inl w2 =>
        match w_thr w2 !! t2, sc2 with
        | Some (FProg (Do o' k) :: st), (_, f) :: sc2 =>
            bool_decide (o' = o2) &&
            match step e w2 t2 f with
            | SOk w3 => match walk e t2 (S (length st)) sc2 w3 with Some w => P w1 w2 | None => false end
            | _ => false
            end
        | _, _ => false
        end
    end).
Lemma two_calls e ps sc0 t1 o1 sc1 sc t2 o2 sc2 P : two_test e ps sc0 t1 o1 sc1 sc t2 o2 sc2 P = true -> (forall pos, o1 <> ODeref pos) -> (forall pos, o2 <> ODeref pos) ->
  exists k1 st1 w1 w1' r1 evs1 k2 st2 w2 w2' evs2, reachable e ps w1 /\ call_log e t1 o1 k1 st1 w1 w1' evs1 /\ returned t1 k1 st1 w1' r1 /\
    run e w1' sc = inl w2 /\ call_log e t2 o2 k2 st2 w2 w2' evs2 /\ P w1 w2 = true.
Proof.
  intros H H1 H2. destruct (log_by_run _ _ _ _ _ _ _ H H1) as (k1 & st1 & w1 & w1' & r1 & evs1 & Hr & Hc & Ho & HP).
  destruct (run e w1' sc) as [w2|] eqn:Hrun; [|discriminate]. destruct (w_thr w2 !! t2) as [[|[] st]|] eqn:Ht; try discriminate. destruct p as [|o' k]; try discriminate.
  destruct sc2 as [|[t' f] sc2]; [discriminate|]. apply andb_true_iff in HP as [He HP]. apply bool_decide_eq_true in He. subst o'.
  destruct (step e w2 t2 f) as [w3| | |] eqn:Hs; try discriminate. destruct (walk e t2 (S (length st)) sc2 w3) as [w|] eqn:Hw; [|discriminate].
  assert (Hr2 : reachable e ps w2).
  { destruct (in_call_reachable _ _ _ _ _ _ _ _ Hr (call_log_in _ _ _ _ _ _ _ _ Hc)) as [sc' Hsc]. exists (sc' ++ sc). rewrite run_app, Hsc. exact Hrun. }
  assert (Hc2 : in_call e t2 o2 k st w2 w) by (eapply walk_in_call; [eapply C_start; eauto|exact Hw]).
  destruct (call_log_ex _ _ _ _ _ _ _ _ Hr2 H2 Hc2) as [evs2 Hl2].
  exists k1, st1, w1, w1', r1, evs1, k, st, w2, w, evs2. split; [auto|]. split; [auto|]. split; [auto|]. split; [auto|]. auto.
Qed.
Lemma ex_C71_real_time : exists k1 st1 w1 w1' r1 evs1 k2 st2 w2 w2' evs2, reachable y1_env a1_ps w1 /\ call_log y1_env 0 (OVar (VDisc 0)) k1 st1 w1 w1' evs1 /\ returned 0 k1 st1 w1' r1 /\
  run y1_env w1' (sch [(1, 4)]) = inl w2 /\ call_log y1_env 1 (OVar (VConnected 0)) k2 st2 w2 w2' evs2 /\
  bool_decide (v_conns (w_vars w1) !! 0 = Some (ConnV true false (Some 0))) && bool_decide (v_conns (w_vars w2) !! 0 = Some (ConnV true false (Some 0))) = true.
Proof.
  apply (two_calls y1_env a1_ps (sch [(0, 12)]) 0 (OVar (VDisc 0)) (sch [(0, 30)]) (sch [(1, 4)]) 1 (OVar (VConnected 0)) (sch [(1, 10)])
    (fun w1 w2 => bool_decide (v_conns (w_vars w1) !! 0 = Some (ConnV true false (Some 0))) && bool_decide (v_conns (w_vars w2) !! 0 = Some (ConnV true false (Some 0)))));
    [vm_compute; reflexivity|discriminate|discriminate].
Qed.
(** Operations about a connection. *)
Lemma ex_C71_disc : exists k st w0 w r evs, reachable x2_env [r1_prog] w0 /\ call_log x2_env 0 (OVar (VDisc 0)) k st w0 w evs /\ returned 0 k st w r /\ disconnects w0 (OVar (VDisc 0)) 0.
Proof.
  destruct ex_C52_disc as (k & st & w0 & w & r & evs & H1 & H2 & H3 & H4). apply andb_true_iff in H4 as [_ H4]. apply bool_decide_eq_true in H4.
  exists k, st, w0, w, r, evs. repeat (split; [assumption|]). cbn. eauto.
Qed.
Lemma ex_C71_query : exists k st w0 w r evs, reachable x2_env [r1_prog] w0 /\ call_log x2_env 0 (OVar (VBlocked 0)) k st w0 w evs /\ returned 0 k st w r /\ looks_at w0 (VBlocked 0) 0.
Proof.
  destruct ex_C52_query as (k & st & w0 & w & r & evs & H1 & H2 & H3 & H4). apply andb_true_iff in H4 as [_ H4]. apply bool_decide_eq_true in H4.
  exists k, st, w0, w, r, evs. repeat (split; [assumption|]). exists 0. eexists. split; [unfold asks; auto|]. eauto.
Qed.
Lemma ex_C71_block : exists k st w0 w r evs, reachable x2_env [r1_prog] w0 /\ call_log x2_env 0 (OVar (VBlock 0)) k st w0 w evs /\ returned 0 k st w r /\ sets_block w0 (VBlock 0) (Some 0) true /\ slot_alive w0 0 = true.
Proof.
  destruct ex_C52_block as (k & st & w0 & w & r & evs & H1 & H2 & H3 & H4). apply andb_true_iff in H4 as [H5 H4]. apply bool_decide_eq_true in H4.
  exists k, st, w0, w, r, evs. repeat (split; [assumption|]). split; [|assumption]. cbn. eauto.
Qed.
Lemma ex_C71_connect : exists k st w0 w c evs, reachable x2_env [r1_prog] w0 /\ call_log x2_env 0 (OConnect 0 (SrcFn (fn 2)) true) k st w0 w evs /\ returned 0 k st w (OutId c).
Proof.
  destruct (log_by_one x2_env r1_prog (OConnect 0 (SrcFn (fn 2)) true) (gets (OutId 1))) as (k & st & w0 & w & r & evs & H1 & H2 & H3 & H4); [intros; discriminate|vm_compute; reflexivity|].
  apply bool_decide_eq_true in H4. subst r. exists k, st, w0, w, 1, evs. auto.
Qed.
Lemma ex_C71_connect_throws : exists k st w0 w x evs, reachable y1_env a1_ps w0 /\ call_log y1_env 0 (OConnect 0 (SrcFn (fn 1)) false) k st w0 w evs /\ returned 0 k st w (OutExn x).
Proof.
  destruct (log_by_run y1_env a1_ps (sch [(0, 2)]) 0 (OConnect 0 (SrcFn (fn 1)) false) (repeat (0, MThrow) 10) (gets oom)) as (k & st & w0 & w & r & evs & H1 & H2 & H3 & H4); [vm_compute; reflexivity|intros; discriminate|].
  apply bool_decide_eq_true in H4. subst r. exists k, st, w0, w, BadAlloc, evs. auto.
Qed.
Lemma ex_C71_one : own_step (fun o => Ret o) [] [FDisc 0; FWait (fun o => Ret o)].
Proof. exists [FDisc 0]. split; [reflexivity|]. intros f Hf. apply elem_of_list_singleton in Hf. subst. reflexivity. Qed.
