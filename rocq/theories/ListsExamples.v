(** * Concrete histories of lists *)
From Verif Require Import OpQuery OpExamples Witness RaceExamples.
From Verif Require Export AtomicExamples ListsCalls.

(** Two threads connect to and disconnect from one signal while one emits, disconnects by
    comparison and moves the signal. *)
Definition b1_ps := [seqp [ONewSignal None; OConnect 0 (SrcFn (fn 1)) false; OConnect 0 (SrcFn (fn 2)) false; OEmit 0 []; OErase 0 (SrcFn (fn 2)); OMoveSignal 0] OutUnit;
                     seqp [OConnect 0 (SrcFn (fn 3)) false; OVar (VDisc 0); OConnect 0 (SrcFn (fn 2)) false] OutUnit].
Lemma ex_C73 : exists w f, reachable x2_env b1_ps w /\
  lhistory (w_log w) = [LMove 0 1; LErase 0 f [2; 1; 3] [2] (OutNat 2); LRead 0 [2; 1; 3]; LAdd 0 3; LTake 0 0 0; LAdd 0 2; LAdd 0 1; LAdd 0 0].
Proof.
  destruct (run_world x2_env b1_ps (sch [(0, 14); (1, 25); (0, 60)]) (fun w => match lhistory (w_log w) with
    | [LMove 0 1; LErase 0 f [2; 1; 3] [2] (OutNat 2); LRead 0 [2; 1; 3]; LAdd 0 3; LTake 0 0 0; LAdd 0 2; LAdd 0 1; LAdd 0 0] => true | _ => false end)) as (w & Hr & Hw);
    [vm_compute; reflexivity|]. exists w. destruct (lhistory (w_log w)) as [|a h] eqn:Hh; [discriminate|].
  repeat (case_match; try discriminate); subst. eexists. split; [exact Hr|reflexivity].
Qed.
Lemma ex_C73_memory : exists w r, reachable x2_env b1_ps w /\ w_sigs w !! 0 = Some r /\ sg_lock r = None /\ slots_of w 0 = [2; 1; 3].
Proof.
  destruct (run_world x2_env b1_ps (sch [(0, 14); (1, 25); (0, 12)]) (fun w => match w_sigs w !! 0 with Some r => bool_decide (sg_lock r = None) && bool_decide (slots_of w 0 = [2; 1; 3]) | None => false end)) as (w & Hr & Hw); [vm_compute; reflexivity|].
  destruct (w_sigs w !! 0) as [r|] eqn:Hl; [|discriminate]. apply andb_true_iff in Hw as [H1 H2]. apply bool_decide_eq_true in H1, H2. eauto 10.
Qed.
Lemma ex_C73_erase : exists k st w0 w r evs, reachable x2_env b1_ps w0 /\ call_log x2_env 0 (OErase 0 (SrcFn (fn 2))) k st w0 w evs /\ returned 0 k st w r /\ r = OutNat 2.
Proof.
  destruct (log_by_run x2_env b1_ps (sch [(0, 14); (1, 25); (0, 35)]) 0 (OErase 0 (SrcFn (fn 2))) (sch [(0, 60)]) (gets (OutNat 2))) as (k & st & w0 & w & r & evs & H1 & H2 & H3 & H4); [vm_compute; reflexivity|intros; discriminate|].
  apply bool_decide_eq_true in H4. exists k, st, w0, w, r, evs. auto.
Qed.
Lemma ex_C73_emit : exists k st w0 w r evs, reachable x2_env b1_ps w0 /\ call_log x2_env 0 (OEmit 0 []) k st w0 w evs /\ returned 0 k st w r /\ slots_of w0 0 = [2; 1; 3].
Proof.
  destruct (log_by_run x2_env b1_ps (sch [(0, 14); (1, 25); (0, 2)]) 0 (OEmit 0 []) (sch [(0, 60)]) (fun w0 _ _ => bool_decide (slots_of w0 0 = [2; 1; 3]))) as (k & st & w0 & w & r & evs & H1 & H2 & H3 & H4); [vm_compute; reflexivity|intros; discriminate|].
  apply bool_decide_eq_true in H4. exists k, st, w0, w, r, evs. auto.
Qed.
Lemma ex_C73_belong : exists w w', reachable x2_env b1_ps w /\ step x2_env w 0 MOk = SOk w' /\ since w w' [EErase 0 0 (Some (fn 2)) [2; 1; 3] [2] 2].
Proof. apply (step_world x2_env b1_ps (sch [(0, 14); (1, 25); (0, 48)])). vm_compute. reflexivity. Qed.
Lemma ex_C73_real_time : exists k1 st1 w1 w1' r1 evs1 k2 st2 w2 w2' evs2, reachable x2_env b1_ps w1 /\ call_log x2_env 1 (OConnect 0 (SrcFn (fn 2)) false) k1 st1 w1 w1' evs1 /\ returned 1 k1 st1 w1' r1 /\
  run x2_env w1' (sch [(0, 2)]) = inl w2 /\ call_log x2_env 0 (OEmit 0 []) k2 st2 w2 w2' evs2 /\
  bool_decide (slots_of w1 0 = [2; 1]) && bool_decide (slots_of w2 0 = [2; 1; 3]) = true.
Proof.
  apply (two_calls x2_env b1_ps (sch [(0, 14); (1, 15)]) 1 (OConnect 0 (SrcFn (fn 2)) false) (sch [(1, 30)]) (sch [(0, 2)]) 0 (OEmit 0 []) (sch [(0, 100)])
    (fun w1 w2 => bool_decide (slots_of w1 0 = [2; 1]) && bool_decide (slots_of w2 0 = [2; 1; 3])));
    [vm_compute; reflexivity|discriminate|discriminate].
Qed.
