(** * Threads that wait and threads that do not, concretely *)
From Verif Require Import UseExamples AtomicExamples.
From Verif Require Export WaitProof.

(** One thread waits for the mutex the other has. *)
Lemma ex_C72 : exists w, reachable x2_env [x2_prog; x2_other] w /\ step x2_env w 1 MOk = SBlocked.
Proof. destruct ex_C28 as (_ & w & Hr & Hb & _). eauto. Qed.

(** A slot function runs; the other thread connects and then asks. *)
Definition q1_env := wenv (fun v => if Nat.eqb v 1 then [OVar (VBlocked 0); OVar (VConnected 0)] else []).
Definition q1_prog := seqp [ONewSignal None; OConnect 0 (SrcFn (fn 1)) false; OEmit 0 []] OutUnit.
Definition q1_other := seqp [OConnect 0 (SrcFn (fn 2)) false; OVar (VConnected 0)] OutUnit.
Definition q2_other := seqp [OVar (VConnected 0)] OutUnit.
Definition calm_frame (f : frame) : bool := match f with FEraseCmp _ _ _ _ _ _ | FDtor (inl _) => false | _ => true end.
Definition top_out (st : list frame) : bool := match st with (FWrite _ _ | FBody _ _ _ | FUnlock _ _ | FErase _ _ _ _ _ _) :: _ => false | _ => true end.
Lemma outside_ok w t st : w_thr w !! t = Some st -> forallb calm_frame st && top_out st = true -> outside w t.
Proof.
  intros Ht H f st' Hf. rewrite Ht in Hf. injection Hf as ->. apply andb_true_iff in H as [H1 H2]. split.
  - intros g Hg. apply elem_of_list_In in Hg. eapply forallb_forall in H1; [|exact Hg]. destruct g; cbn in H1; try discriminate H1; auto. destruct x; [discriminate H1|exact I].
  - intros s Hs. cbn in H1. apply andb_true_iff in H1 as [H1 _]. destruct f; cbn in *; try contradiction; discriminate.
Qed.
Lemma ex_C72_delay : exists w c st st0, reachable q1_env [q1_prog; q1_other] w /\ (forall t', t' <> 1 -> outside w t') /\
  w_thr w !! 1 = Some (FLock 0 (KAdd c) :: st) /\ w_thr w !! 0 = Some st0 /\ exists pin start, FSlot (RSlot 0) SRun [] pin (Some 0) start ∈ st0.
Proof.
  destruct (run_world q1_env [q1_prog; q1_other] (sch [(0, 18); (1, 1)]) (fun w => match w_thr w with
    | [FProg p :: FSlot (RSlot 0) SRun [] pin (Some 0) start :: r; FLock 0 (KAdd _) :: st] => forallb calm_frame (FProg p :: FSlot (RSlot 0) SRun [] pin (Some 0) start :: r) | _ => false end))
    as (w & Hr & Hw); [vm_compute; reflexivity|].
  destruct (w_thr w) as [|st0 [|st1 [|]]] eqn:Ht; try discriminate Hw; repeat (case_match; try discriminate Hw); subst.
  eexists w, _, _, _. split; [exact Hr|]. rewrite Ht. cbn. split; [|split; [reflexivity|split; [reflexivity|]]].
  - intros t' Hn. destruct t' as [|[|t']]; [|congruence|].
    + eapply outside_ok; [rewrite Ht; reflexivity|]. rewrite andb_true_r. exact Hw.
    + intros f st Hf. rewrite Ht in Hf. discriminate Hf.
  - do 2 eexists. apply elem_of_list_further, elem_of_list_here.
Qed.
Lemma ex_C72_others : exists k st w0 w stk, reachable q1_env [q1_prog; q2_other] w0 /\ in_call q1_env 1 (OVar (VConnected 0)) k st w0 w /\
  w_thr w !! 1 = Some stk /\ own_step k st stk /\ owns w 0 0 /\ forall s, ~ locks w0 (OVar (VConnected 0)) s.
Proof.
  destruct (run q1_env (init [q1_prog; q2_other]) (sch [(0, 11)])) as [w0|u] eqn:Hrun; [|exfalso; vm_compute in Hrun; discriminate Hrun].
  assert (Hb : match run q1_env (init [q1_prog; q2_other]) (sch [(0, 11)]) with inl w0 =>
      match w_thr w0 !! 1 with Some [FProg (Do o k)] => bool_decide (o = OVar (VConnected 0)) && match step q1_env w0 1 MOk with SOk w =>
        match w_thr w !! 1, w_sigs w !! 0 with Some [FRet _; FTmp _; FWait _], Some r => bool_decide (sg_lock r = Some 0) | _, _ => false end | _ => false end | _ => false end | _ => false end = true) by (vm_compute; reflexivity).
  rewrite Hrun in Hb. destruct (w_thr w0 !! 1) as [[|[] []]|] eqn:Ht; try discriminate Hb; destruct p as [|o k]; try discriminate Hb.
  apply andb_true_iff in Hb as [Ho Hb]. apply bool_decide_eq_true in Ho. subst o.
  destruct (step q1_env w0 1 MOk) as [w| | |] eqn:Hs; try discriminate Hb.
  assert (Hc : in_call q1_env 1 (OVar (VConnected 0)) k [] w0 w) by (eapply C_start; [exact Ht|exact Hs]).
  assert (Hr : reachable q1_env [q1_prog; q2_other] w0) by (exists (sch [(0, 11)]); exact Hrun). clear Hrun.
  destruct (w_thr w !! 1) as [[|[] [|[] [|[] []]]]|] eqn:Ht1; try discriminate Hb. destruct (w_sigs w !! 0) as [r|] eqn:Hg; try discriminate Hb. apply bool_decide_eq_true in Hb.
  assert (Hnd : forall pos, OVar (VConnected 0) <> ODeref pos) by (intros pos Hp; inversion Hp).
  destruct (in_call_stack _ _ _ _ _ _ _ _ Hr Hnd Hc) as (_ & c & Hne & Hst). rewrite Ht1 in Hst. injection Hst as Hst.
  exists k, [], w0, w. eexists. split; [exact Hr|]. split; [exact Hc|]. split; [exact Ht1|]. split.
  - exists c. split; [rewrite Hst; reflexivity|]. destruct c as [|c1 [|c2 [|c3 c4]]]; try discriminate Hst; try (destruct c4; discriminate Hst).
    injection Hst as <- <- _. intros f Hf. apply elem_of_cons in Hf as [->|Hf]; [reflexivity|]. apply elem_of_list_singleton in Hf as ->. reflexivity.
  - split; [exists r; auto|]. intros s [Hs'|[l0 Hl]]; [discriminate Hs'|exact Hl].
Qed.
Definition q3_prog := seqp [ONewSignal None; OErase 0 (SrcFn (fn 1))] OutUnit.
Definition s_top (w : world) : bool := match w_thr w with [(FWrite 0 _ | FBody 0 _ _ | FUnlock 0 _ | FErase 0 _ _ _ _ _) :: [FWait _]] => true | _ => false end.
Lemma ex_C72_short : exists k st w w', reachable q1_env [q3_prog] w /\ section_run q1_env 0 0 k st 3 w w'.
Proof.
  destruct (run q1_env (init [q3_prog]) (sch [(0, 4)])) as [w0|u] eqn:Hrun; [|exfalso; vm_compute in Hrun; discriminate Hrun].
  assert (Hb : match run q1_env (init [q3_prog]) (sch [(0, 4)]) with inl w0 => s_top w0 && match step q1_env w0 0 MOk with SOk w1 => s_top w1 &&
      match step q1_env w1 0 MOk with SOk w2 => s_top w2 && match step q1_env w2 0 MOk with SOk w3 => s_top w3 | _ => false end | _ => false end | _ => false end | _ => false end = true)
    by (vm_compute; reflexivity).
  rewrite Hrun in Hb. assert (Hr : reachable q1_env [q3_prog] w0) by (exists (sch [(0, 4)]); exact Hrun). clear Hrun.
  apply andb_true_iff in Hb as [H0 Hb]. destruct (step q1_env w0 0 MOk) as [w1| | |] eqn:S1; try discriminate Hb.
  apply andb_true_iff in Hb as [H1 Hb]. destruct (step q1_env w1 0 MOk) as [w2| | |] eqn:S2; try discriminate Hb.
  apply andb_true_iff in Hb as [H2 Hb]. destruct (step q1_env w2 0 MOk) as [w3| | |] eqn:S3; try discriminate Hb.
  assert (Hk : forall w, s_top w = true -> exists f k, w_thr w = [[f; FWait k]] /\ client_frame f = false /\ in_section 0 f).
  { clear. intros w H. unfold s_top in H. repeat (case_match; try discriminate H); subst; do 2 eexists; (split; [reflexivity|split; [reflexivity|reflexivity]]). }
  assert (Hnext : forall w w' f f' k k', step q1_env w 0 MOk = SOk w' -> w_thr w = [[f; FWait k]] -> w_thr w' = [[f'; FWait k']] -> in_section 0 f -> k' = k).
  { clear. intros w w' f f' k k' Hs Ht Ht' Hf. assert (Hl : w_thr w !! 0 = Some [f; FWait k]) by (rewrite Ht; reflexivity).
    destruct (step_inv _ _ _ _ _ _ Hs Hl) as (w3 & st3 & D & L & Htr & _ & HD & _ & _ & _ & _ & _ & _ & Hthr).
    assert (Hl' : w_thr w' !! 0 = Some [f'; FWait k']) by (rewrite Ht'; reflexivity). rewrite Hthr, list_lookup_insert in Hl' by (rewrite Ht; cbn; lia). injection Hl' as Hl'.
    destruct (trans_above _ _ _ [f] (FWait k) [] _ _ Htr ltac:(discriminate)) as [(b' & Hb')|[(o & Hb')|(? & ? & ? & ? & ? & ? & Hb' & _)]]; [|injection Hb' as ->; contradiction|discriminate Hb'].
    rewrite Hb', app_assoc in Hl'. apply (app_inj_tail (D ++ b') [f'] (FWait k) (FWait k')) in Hl' as [_ Hl']. congruence. }
  destruct (Hk _ H0) as (f0 & k & T0 & C0 & I0). destruct (Hk _ H1) as (f1 & k1 & T1 & C1 & I1).
  destruct (Hk _ H2) as (f2 & k2 & T2 & C2 & I2). destruct (Hk _ Hb) as (f3 & k3 & T3 & C3 & I3).
  pose proof (Hnext _ _ _ _ _ _ S1 T0 T1 I0). subst k1. pose proof (Hnext _ _ _ _ _ _ S2 T1 T2 I1). subst k2. pose proof (Hnext _ _ _ _ _ _ S3 T2 T3 I2). subst k3.
  assert (Hh : forall w f, w_thr w = [[f; FWait k]] -> client_frame f = false -> in_section 0 f -> holds_in 0 0 k [] w).
  { intros w f Ht Hc Hi. exists [f]. split; [rewrite Ht; reflexivity|]. split; [intros g Hg; apply elem_of_list_singleton in Hg as ->; exact Hc|].
    exists f. split; [apply elem_of_list_here|exact Hi]. }
  exists k, [], w0, w3. split; [exact Hr|].
  eapply R_own; [eapply R_own; [eapply R_own; [apply R_start|exact S1|]|exact S2|]|exact S3|]; eapply Hh; eauto.
Qed.
