(** * The executions behind the examples and refutations *)
From Verif Require Export Witness InvSig.

Ltac by_run e ps sc := apply (run_occurs e ps sc); vm_compute; reflexivity.
Ltac by_state e ps sc := apply (run_world e ps sc); vm_compute; reflexivity.

Lemma ex_C01 : exists w, reachable x2_env [x2_prog; x2_other] w /\
  occurs [EEmit 0 0 0 [] [0]; EDisc 1 0 true; ECall 0 (RSlot 0) (Some 0) (fn 1) [] 4; EEmit 0 1 0 [] []] (rev (w_log w)) = true.
Proof. by_run x2_env [x2_prog; x2_other] x2_sched. Qed.

Lemma ex_C02 : exists w, reachable x1_env [x1_prog] w /\
  occurs [EEmit 0 0 0 [] [0; 1]; ECall 0 (RSlot 0) (Some 0) (fn 1) [] 6; EDisc 0 1 true; ESkip 0 (RSlot 1) (Some 0) 12;
          EEmit 0 1 0 [] [0]; EDisc 0 1 false] (rev (w_log w)) = true.
Proof. by_run x1_env [x1_prog] (one 200). Qed.

Lemma two_threads_call_after_disc :
  ~ (forall e ps w, reachable e ps w ->
       log_all (fun ev pre => match ev with
         | ECall _ (RSlot l) _ _ _ _ => forall t b, EDisc t l b ∉ pre
         | _ => True end) (w_log w)).
Proof.
  intros H.
  assert (exists w, reachable x2_env [x2_prog; x2_other] w /\
    occurs [EDisc 1 0 true; ECall 0 (RSlot 0) (Some 0) (fn 1) [] 4] (rev (w_log w)) = true) as (w & Hr & Ho)
    by (by_run x2_env [x2_prog; x2_other] x2_sched).
  apply occurs_two in Ho as (post & mid & pre & Hl).
  apply (H _ _ _ Hr _ _ _ Hl 1 true). apply elem_of_app. right. apply elem_of_list_here.
Qed.

Lemma ex_C05 : exists w, reachable x3_env [x3_prog] w /\
  occurs [ECall 0 (RSlot 0) (Some 0) (trk 7 0) [] 5; EReset 0; EObjDead 0; EConnd 0 0 false; EConnd 0 0 false] (rev (w_log w)) = true.
Proof. by_run x3_env [x3_prog] (one 200). Qed.

Lemma ex_C05_true : exists w, reachable x1_env [x1_prog] w /\
  occurs [EDisc 0 1 true; EConnd 0 1 false; EConnd 0 0 true] (rev (w_log w)) = true.
Proof. by_run x1_env [x1_prog] (one 200). Qed.

Lemma ex_C18 : exists w, reachable x3_env [x3_prog] w /\
  occurs [ENewObj 0; ECall 0 (RSlot 0) (Some 0) (trk 7 0) [] 5; EReset 0; ERet 0 (RSlot 0) (Some 0) (OutOpt (Some 7%Z)); EObjDead 0;
          ESkip 0 (RSlot 0) (Some 1) 13; ESlotDead 0] (rev (w_log w)) = true.
Proof. by_run x3_env [x3_prog] (one 200). Qed.

Lemma ex_C11 : exists w, reachable x2_env [x4_prog] w /\
  occurs [EBlk 0 true; EBlk 0 true; EBlkd 0 0 true; ESkip 0 (RSlot 0) (Some 0) 7; EBlk 0 false; EBlkd 0 0 false;
          ECall 0 (RSlot 0) (Some 1) (fn 1) [] 13] (rev (w_log w)) = true.
Proof. by_run x2_env [x4_prog] (one 200). Qed.

Lemma ex_C40 : exists w, reachable x5_env [x5_prog] w /\
  occurs [ESet 0 (RSlot 0) 1; EGet 0 (RSlot 1) 0; ESet 0 (RSlot 1) 1; EDisc 0 0 true; EGet 0 (RSlot 1) 1; ESet 0 (RSlot 1) 2] (rev (w_log w)) = true.
Proof. by_run x5_env [x5_prog] (one 200). Qed.

Lemma ex_C06 : exists w, reachable x1_env [x1_prog] w /\
  occurs [EConn 0 0 0 (new_impl (fn 1)); EConn 0 0 1 (im_set_idx 1 (new_impl (fn 2))); EEmit 0 0 0 [] [0; 1];
          ERem 0 0 1 1; EEmit 0 1 0 [] [0]] (rev (w_log w)) = true.
Proof. by_run x1_env [x1_prog] (one 200). Qed.

Lemma blockers_do_not_nest :
  ~ (forall e ps w, reachable e ps w ->
       log_all (fun ev pre => match ev with
         | EBlkd _ l b => spec_alive pre l = true ->
             ecount (is_blk l false) pre < ecount (is_blk l true) pre -> b = true
         | _ => True end) (w_log w)).
Proof.
  intros H.
  destruct (run_any x2_env [x4_prog] (one 200) (fun ev pre => match ev with
    | EBlkd _ l b => spec_alive pre l && Nat.ltb (ecount (is_blk l false) pre) (ecount (is_blk l true) pre) && negb b
    | _ => false end)) as (w & post & ev & pre & Hr & Hl & Hf); [vm_compute; reflexivity|].
  specialize (H _ _ _ Hr _ _ _ Hl). destruct ev; try discriminate.
  apply andb_true_iff in Hf as [Hf Hb]. apply andb_true_iff in Hf as [Ha Hc]. apply Nat.ltb_lt in Hc.
  rewrite (H Ha Hc) in Hb. discriminate.
Qed.

Lemma ex_C07 : exists w, reachable x1_env [x1_prog] w /\
  occurs [EEmit 0 0 0 [] [0; 1]; ERem 0 0 1 1; EDeref 0 0 1 1 (OutOpt None); EEmit 0 1 0 [] [0]] (rev (w_log w)) = true.
Proof. by_run x1_env [x1_prog] (one 200). Qed.

Lemma ex_C08 : exists w, reachable x1_env [x1_prog] w /\
  occurs [EEmit 0 0 0 [] [0; 1]; ERet 0 (RSlot 0) (Some 0) (OutOpt (Some 1%Z)); EDeref 0 0 0 0 (OutOpt (Some 1%Z));
          ESkip 0 (RSlot 1) (Some 0) 12; EDeref 0 0 1 1 (OutOpt None); EEmitRet 0 0 (OutOpt (Some 1%Z))] (rev (w_log w)) = true.
Proof. by_run x1_env [x1_prog] (one 200). Qed.

Lemma ex_C12 : exists w, reachable x7_env [x7_prog] w /\
  occurs [EEmit 0 0 0 [] [0; 1; 2]; ERet 0 (RSlot 0) (Some 0) (OutOpt (Some 1%Z)); EDeref 0 0 0 0 (OutOpt (Some 1%Z));
          ERet 0 (RSlot 1) (Some 0) (OutExn (UserExn 5)); EDeref 0 0 1 1 (OutExn (UserExn 5));
          EEmitRet 0 0 (OutExn (UserExn 5))] (rev (w_log w)) = true.
Proof. by_run x7_env [x7_prog] (one 200). Qed.

Lemma ex_C32 : exists w, reachable x8_env [x8_prog] w /\
  occurs [EEmit 0 0 0 [AVal 9; ARef 0] [0; 1]; ECall 0 (RSlot 0) (Some 0) (fn 1) [AVal 9; ARef 0] 6;
          ECall 0 (RSlot 1) (Some 0) (fn 2) [AVal 0; ARef 0] 9] (rev (w_log w)) = true.
Proof. by_run x8_env [x8_prog] (one 200). Qed.

Lemma later_slots_see_moved_from :
  ~ (forall e ps w, reachable e ps w ->
       log_all (fun ev pre => match ev with
         | ECall _ _ (Some eid) _ args _ => forall post t s a xs pre', pre = post ++ EEmit t eid s a xs :: pre' -> args = a
         | _ => True end) (w_log w)).
Proof.
  intros H. destruct ex_C32 as (w & Hr & Ho). apply occurs_cons in Ho as (p & q & Hq & Ho).
  apply occurs_cons in Ho as (p1 & q1 & -> & Ho). apply occurs_cons in Ho as (p2 & q2 & -> & _).
  assert (Hl : w_log w = rev q2 ++ ECall 0 (RSlot 1) (Some 0) (fn 2) [AVal 0; ARef 0] 9 ::
    (rev p2 ++ ECall 0 (RSlot 0) (Some 0) (fn 1) [AVal 9; ARef 0] 6 :: rev p1) ++ EEmit 0 0 0 [AVal 9; ARef 0] [0; 1] :: rev p).
  { rewrite <- (rev_involutive (w_log w)), Hq. repeat (rewrite rev_app_distr; cbn). rewrite <- !app_assoc. reflexivity. }
  specialize (H _ _ _ Hr _ _ _ Hl). cbn in H. specialize (H _ _ _ _ _ _ eq_refl). discriminate.
Qed.

Lemma ex_C33 : exists w, reachable x6_env [x6_prog] w /\
  occurs [ENewSig 0 (Some 3); EEmit 0 0 0 [] [0; 1]; ECall 0 (RSlot 1) (Some 0) (fn 2) [] 6; EDeref 0 0 1 1 (OutOpt (Some 2%Z));
          ECall 0 (RSlot 1) (Some 0) (fn 2) [] 9; EDeref 0 0 1 1 (OutOpt (Some 2%Z)); EEmitRet 0 0 (OutOpt (Some 2%Z))] (rev (w_log w)) = true.
Proof. by_run x6_env [x6_prog] (one 200). Qed.

Lemma ex_C04 : exists w, reachable x1_env [x1_prog] w /\ occurs [ERem 0 0 1 1; EDisc 0 1 true] (rev (w_log w)) = true.
Proof. by_run x1_env [x1_prog] (one 200). Qed.

Lemma disconnect_takes_another :
  ~ (forall e ps w, reachable e ps w ->
       log_all (fun ev pre => match ev with ERem _ _ l l' => l' = l | _ => True end) (w_log w)).
Proof.
  intros H.
  assert (exists w, reachable x9_env [x9_prog] w /\ occurs [ERem 0 0 1 2] (rev (w_log w)) = true) as (w & Hr & Ho)
    by (by_run x9_env [x9_prog] (one 200)).
  apply occurs_one, elem_of_list_split in Ho as (post & pre & Hl). specialize (H _ _ _ Hr _ _ _ Hl). cbn in H. discriminate H.
Qed.

Lemma ex_C12_end : exists w, reachable x7_env [x7_prog] w /\
  stack_is w 0 (fun st => match st with FRet (OutExn _) :: FEmit 0 _ _ _ :: _ => true | _ => false end) && goes x7_env w 0 = true.
Proof. by_state x7_env [x7_prog] (one 45). Qed.

Lemma ex_C29_held : exists w, reachable x1_env [x1_prog] w /\ locked_by w 0 0 = true.
Proof. by_state x1_env [x1_prog] (one 4). Qed.
Lemma ex_C29_callback : exists w, reachable x1_env [x1_prog] w /\
  stack_is w 0 (fun st => match st with [FProg _; FSlot _ _ _ _ _ _; FDeref _ _ _; FEmit 0 _ _ _; FWait _] => true | _ => false end) = true.
Proof. by_state x1_env [x1_prog] (one 25). Qed.

Lemma ex_C27 : exists w, reachable x1_env [x1_prog] w /\
  stack_is w 0 (existsb (fun f => match f with FEmit 0 _ 0 _ => true | _ => false end)) &&
  step_is x1_env w 0 (fun w' => bool_decide (w_vecs w' !! 1 <> w_vecs w !! 1) && bool_decide (w_vecs w !! 1 = Some [0; 1])) = true.
Proof. by_state x1_env [x1_prog] (one 29). Qed.

Lemma ex_C38 : exists w, reachable x2_env [x14_prog] w /\ bool_decide (slots_of w 1 = [1]) &&
  step_is x2_env w 0 (fun w' => bool_decide (slots_of w' 0 <> slots_of w 0) && bool_decide (0 < length (slots_of w 0))) = true.
Proof. by_state x2_env [x14_prog] (one 22). Qed.

Lemma ex_C39 : exists w, reachable x1_env [x1_prog] w /\
  stack_is w 0 (fun st => match st with FProg (Do (OEmit 0 []) _) :: _ => true | _ => false end) = true.
Proof. by_state x1_env [x1_prog] (one 16). Qed.

Lemma ex_C26 : exists w, reachable x2_env [x12_prog] w /\
  stack_is w 0 (fun st => match st with FWrite 0 KMove :: _ => true | _ => false end) && goes x2_env w 0 &&
  bool_decide (slots_of w 0 = [0; 1]) = true.
Proof. by_state x2_env [x12_prog] (one 18). Qed.
Lemma ex_C26_emit : exists w, reachable x2_env [x12_prog] w /\
  occurs [EMoveSig 0 1; EEmit 0 0 1 [] [0; 1]; EEmitRet 0 0 (OutOpt (Some 2%Z))] (rev (w_log w)) = true.
Proof. by_run x2_env [x12_prog] (one 200). Qed.
Lemma ex_C26_moved_from : exists w, reachable x2_env [x12_prog' (OEmit 0 [])] w /\
  stack_is w 0 (fun st => match st with FWrite 0 (KRead []) :: _ => true | _ => false end) &&
  bool_decide (EMoveSig 0 1 ∈ w_log w) && ub_is x2_env w 0 UNullVec = true.
Proof. by_state x2_env [x12_prog' (OEmit 0 [])] (one 23). Qed.
Lemma use_after_move :
  goes_ub x2_env [x12_prog' (OVar (VDisc 1))] UNullVec /\
  goes_ub x2_env [x12_prog' (OEmit 0 [])] UNullVec /\
  goes_ub x2_env [x12_prog' (OConnect 0 (SrcFn (fn 1)) false)] UNullVec /\
  goes_ub x2_env [x12_prog' (OErase 0 (SrcFn (fn 1)))] UNullVec /\
  goes_ub x2_env [x12_prog' (OMoveAssignSignal 0 1)] UNoReturn.
Proof. repeat split; apply (run_ub _ _ (one 200)); vm_compute; reflexivity. Qed.

Lemma ex_C20 : exists w, reachable x3_env [x3_prog] w /\
  occurs [EConn 0 0 0 (new_impl (trk 7 0)); EObjDead 0; EConnd 0 0 false; EEmit 0 1 0 [] [0]; ESkip 0 (RSlot 0) (Some 1) 13] (rev (w_log w)) = true.
Proof. by_run x3_env [x3_prog] (one 200). Qed.

Lemma ex_C21 : exists w, reachable x2_env [x13_prog] w /\
  occurs [ECall 0 (RSlot 0) (Some 0) (fn 1) [] 4; EDisc 0 0 true; EScoped 0 0; EEmit 0 1 0 [] []] (rev (w_log w)) = true.
Proof. by_run x2_env [x13_prog] (one 200). Qed.
Lemma ex_C21_start : exists w, reachable x2_env [x13_prog] w /\
  stack_is w 0 (fun st => match st with FProg (Do (OVar (VDestroyConn 0)) _) :: _ => true | _ => false end) && goes x2_env w 0 &&
  bool_decide (v_conns (w_vars w) !! 0 = Some (ConnV true true (Some 0))) = true.
Proof. by_state x2_env [x13_prog] (one 30). Qed.

Lemma ex_C23 : exists w, reachable x2_env [x13_prog] w /\
  stack_is w 0 (fun st => match st with FProg (Do (OVar (VSwap 1 2)) _) :: _ => true | _ => false end) && goes x2_env w 0 = true.
Proof. by_state x2_env [x13_prog] (one 13). Qed.

Lemma ex_C24 : exists w, reachable x10_env [x10_prog] w /\
  stack_is w 0 (fun st => match st with [FProg (Do (OVar (VDisc 0)) _)] => true | _ => false end) &&
  bool_decide (EDestroySig 0 ∈ w_log w) && bool_decide (v_conns (w_vars w) !! 0 = Some (ConnV true false (Some 0))) &&
  negb (slot_alive w 0) = true.
Proof. by_state x10_env [x10_prog] (one 47). Qed.
Lemma disc_during_emission_after_destroy : goes_ub x11_env [x10_prog] UDangling.
Proof. apply (run_ub _ _ (one 200)). vm_compute. reflexivity. Qed.

Lemma ex_C25 : exists w, reachable x10_env [x10_prog] w /\
  stack_is w 0 (fun st => match st with FProg (Do (ODeref 1) _) :: FEmit 0 _ _ _ :: _ => true | _ => false end) &&
  bool_decide (EDestroySig 0 ∈ w_log w) = true.
Proof. by_state x10_env [x10_prog] (one 33). Qed.
Lemma ex_C25_end : exists w, reachable x10_env [x10_prog] w /\
  occurs [EEmit 0 0 0 [] [0; 1]; EDestroySig 0; ECall 0 (RSlot 1) (Some 0) (fn 2) [] 11; EEmitRet 0 0 (OutOpt (Some 2%Z))] (rev (w_log w)) = true.
Proof. by_run x10_env [x10_prog] (one 200). Qed.
