(** * What operations on connections and blockers return and did *)
From Verif Require Export OpEmit OpExamples.

Definition eff_log (ef : veff) : list event :=
  match ef with EfNone => [] | EfBlk l b => [EBlk l b] | EfLog ev => [ev] end.
Lemma vop_not_death w t v x o ev : exec_vop w t v = VOk x o (EfLog ev) -> is_death ev = false.
Proof. intros H. apply vop_ev in H. destruct_or?; destruct_and?; naive_solver. Qed.
Lemma vop_returns e ps t v k st w0 w x o ef r evs : reachable e ps w0 -> exec_vop w0 t v = VOk x o ef ->
  call_log e t (OVar v) k st w0 w evs -> returned t k st w r -> r = o /\ evs = eff_log ef.
Proof.
  intros Hr Hv Hc Ho.
  assert (Hp : [FRet r] = [FRet o] /\ evs = eff_log ef).
  { enough (Hph : ([FRet r] = [FRet o] \/ exists l, [FRet r] = [FRet o; FTmp l]) /\ evs = eff_log ef) by (destruct Hph as [[?|[? ?]] ?]; [auto|discriminate]).
    eapply (own_returned e ps t (OVar v) k st w0 (fun c evs => (c = [FRet o] \/ exists l, c = [FRet o; FTmp l]) /\ evs = eff_log ef) (fun _ _ _ => False)); eauto.
    - intros c evs' f [[->|[l ->]] _] Hf; repeat (apply elem_of_cons in Hf as [->|Hf]; [reflexivity|]); inversion Hf.
    - intros w' st' new _ Htr Hnew. inversion Htr; subst; try congruence; try (match goal with H : can_oom _ |- _ => destruct H end); try (match goal with H : begins _ _ _ _ _ |- _ => inversion H end);
        match goal with H : exec_vop _ _ _ = VOk _ _ _ |- _ => rewrite Hv in H; injection H as -> -> -> end; exists [].
      + exists [FRet o0]. split; [reflexivity|]. apply log_same in Hnew; [|reflexivity]. subst. split; [auto|]. auto.
      + exists [FRet o0; FTmp l]. split; [reflexivity|]. eapply log_one in Hnew; [|reflexivity]. subst. split; [eauto|]. auto.
      + exists [FRet o0]. split; [reflexivity|]. eapply log_one in Hnew; [|reflexivity]. subst. split; [auto|]. split; [auto|]. unfold deeds. rewrite filter_cons_True by (eapply vop_not_death; eauto). reflexivity.
      + exists [FRet o0; FTmp l]. split; [reflexivity|]. eapply log_one in Hnew; [|reflexivity]. subst. split; [eauto|]. split; [auto|]. unfold deeds. rewrite filter_cons_True by (eapply vop_not_death; eauto). reflexivity.
    - intros w1 c evs' w' st' new _ _ [[->|[l ->]] ->] Hn Htr Hnew; [edestruct Hn; reflexivity|]. cbn [app] in Htr. inversion Htr; subst.
      apply log_same in Hnew; [|reflexivity]. subst. exists [], [FRet o]. split; [reflexivity|]. split; [auto|]. auto.
    - contradiction.
    - intros ? ? ? ? ? ? ? ? ? ? [[?|[? ?]] _]; discriminate. }
  destruct Hp as [[= ->] ->]. auto.
Qed.

Lemma disconnect_returns e ps t c k st w0 w r o evs : reachable e ps w0 -> v_conns (w_vars w0) !! c = Some r -> cn_live r = true ->
  call_log e t (OVar (VDisc c)) k st w0 w evs -> returned t k st w o ->
  match cn_slot r with
  | None => o = OutBool false /\ evs = []
  | Some l => exists b, o = OutBool b /\ disc_deed t l b evs
  end.
Proof.
  intros Hr Hc Hl Hcl Ho. pose proof (get_conn_live _ _ _ Hc Hl) as Hg.
  destruct (cn_slot r) as [l|] eqn:Hs.
  - destruct (disc_returns e ps t (VDisc c) k st w0 (w_vars w0) l []) with (w := w) (o := o) (evs := evs) as [(_ & H)|(H & _)]; auto; [|congruence].
    unfold exec_vop, disc_res; cbv zeta. rewrite Hg, Hs. reflexivity.
  - apply (vop_returns e ps t (VDisc c) k st w0 w (w_vars w0) (OutBool false) EfNone o evs); auto. unfold exec_vop, disc_res; cbv zeta. rewrite Hg, Hs. reflexivity.
Qed.
Lemma scoped_returns e ps t v d k st w0 w r o evs : reachable e ps w0 -> v_conns (w_vars w0) !! d = Some r -> cn_live r = true -> cn_scoped r = true ->
  v = VDestroyConn d \/ (exists s, v = VAssignCopy d s) \/ (exists s, v = VAssignMove d s) ->
  call_log e t (OVar v) k st w0 w evs -> returned t k st w o ->
  o = OutUnit /\
  match cn_slot r with
  | None => evs = []
  | Some l => exists b evs', evs = EScoped t l :: evs' /\ disc_deed t l b evs'
  end.
Proof.
  intros Hr Hd Hl Hsc Hv Hcl Ho. pose proof (get_conn_live _ _ _ Hd Hl) as Hg.
  assert (Hst : exists fail w1, w_thr w0 !! t = Some (FProg (Do (OVar v) k) :: st) /\ step e w0 t fail = SOk w1).
  { clear Ho. induction Hcl; eauto. }
  destruct Hst as (fail & w1 & Ht & Hst). destruct (step_inv _ _ _ _ _ _ Hst Ht) as (w2 & st2 & D & L & Htr & _).
  assert (Hs : (exists x l after, cn_slot r = Some l /\ exec_vop w0 t v = VDo x l after /\ exists f, after = [f] /\ scoped_frame l f) \/
               (cn_slot r = None /\ exists x, exec_vop w0 t v = VOk x OutUnit EfNone)).
  { assert (Hnb : forall u, exec_vop w0 t v <> VBad u).
    { intros u Hu. inversion Htr; subst; try congruence; try (match goal with H : can_oom _ |- _ => destruct H end); try (match goal with H : begins _ _ _ _ _ |- _ => inversion H end). }
    destruct Hv as [->|[(s & ->)|(s & ->)]]; unfold exec_vop, disc_res in Hnb |- *; cbv zeta in Hnb |- *; rewrite Hg in Hnb |- *; rewrite ?Hsc in Hnb |- *.
    - destruct (cn_slot r) as [l|]; [left|right; eauto]. eexists _, l, _. split; [auto|]. split; [reflexivity|]. eexists. split; [reflexivity|]. right. right. reflexivity.
    - destruct (get_conn (w_vars w0) s) as [rs|]; [|edestruct Hnb; reflexivity]. destruct (cn_slot r) as [l|]; [left|right; eauto].
      eexists _, l, _. split; [auto|]. split; [reflexivity|]. eexists. split; [reflexivity|]. left. eauto.
    - destruct (get_conn (w_vars w0) s) as [rs|]; [|edestruct Hnb; reflexivity].
      destruct (cn_scoped rs), (cn_slot r) as [l|]; try (right; eauto; fail); left; eexists _, l, _; (split; [auto|]); (split; [reflexivity|]); eexists; (split; [reflexivity|]);
        [right; left|left]; eauto. }
  destruct Hs as [(x & l & after & -> & Hx & Haf)|(-> & x & Hx)].
  - destruct (disc_returns e ps t v k st w0 x l after Hx) with (w := w) (o := o) (evs := evs) as [(Ha & _)|(_ & H1 & H2)]; auto.
    destruct Haf as (f & -> & _). discriminate.
  - apply (vop_returns e ps t v k st w0 w x OutUnit EfNone o evs); auto.
Qed.
Lemma query_returns e ps t v c k st w0 w r o evs : reachable e ps w0 -> v_conns (w_vars w0) !! c = Some r -> cn_live r = true ->
  asks c v -> call_log e t (OVar v) k st w0 w evs -> returned t k st w o ->
  match cn_slot r with
  | None => o = OutBool false /\ evs = []
  | Some l => exists b, o = OutBool b /\ evs = [answer t v l b]
  end.
Proof.
  intros Hr Hc Hl Hv Hcl Ho. pose proof (get_conn_live _ _ _ Hc Hl) as Hg.
  destruct Hv as [->|[->| ->]]; (destruct (cn_slot r) as [l|] eqn:Hs;
    [match goal with |- context [answer _ ?v _ _] =>
       assert (Hx : exists b, exec_vop w0 t v = VOk (w_vars w0) (OutBool b) (EfLog (answer t v l b))) by
         (unfold exec_vop; cbv zeta; rewrite Hg, Hs; cbn; eauto) end; destruct Hx as [b Hx]; exists b
    |match type of Hcl with call_log _ _ (OVar ?v) _ _ _ _ _ =>
       assert (Hx : exec_vop w0 t v = VOk (w_vars w0) (OutBool false) EfNone) by (unfold exec_vop; cbv zeta; rewrite Hg, Hs; reflexivity) end];
    exact (vop_returns _ _ _ _ _ _ _ _ _ _ _ _ _ Hr Hx Hcl Ho)).
Qed.
Lemma blocking_returns e ps t v m b k st w0 w o evs : reachable e ps w0 -> sets_block w0 v m b ->
  call_log e t (OVar v) k st w0 w evs -> returned t k st w o ->
  match m with
  | Some l => (slot_alive w0 l = true /\ evs = [EBlk l b]) \/ (slot_alive w0 l = false /\ evs = [])
  | None => evs = []
  end.
Proof.
  intros Hr Hv Hcl Ho.
  assert (Hx : exists x o, exec_vop w0 t v = VOk x o (blk_eff w0 m b)).
  { destruct v; cbn in Hv; try contradiction; unfold exec_vop; cbv zeta.
    1,2,3: destruct Hv as (r & Hc & Hl & <- & <-); rewrite (get_conn_live _ _ _ Hc Hl); eauto.
    - destruct Hv as (r & r' & H1 & H2 & H3 & H4 & <- & <-). unfold get_blk. rewrite H1, H2, H3, H4. eauto.
    - destruct Hv as (r & H1 & H2 & <- & <-). unfold get_blk. rewrite H1, H2. eauto. }
  destruct Hx as (x & o' & Hx). destruct (vop_returns _ _ _ _ _ _ _ _ _ _ _ _ _ Hr Hx Hcl Ho) as [_ ->].
  unfold blk_eff, wlock. destruct m as [l|]; [|reflexivity]. destruct (slot_alive w0 l) eqn:Ha; cbn; auto.
Qed.

(** ** Concrete calls *)
Lemma log_by_one e p o P : (forall pos, o <> ODeref pos) -> call_test e [p] (upto e p o) 0 o (one 100) P = true ->
  exists k st w0 w r evs, reachable e [p] w0 /\ call_log e 0 o k st w0 w evs /\ returned 0 k st w r /\ P w0 w r = true.
Proof.
  intros Hn H. destruct (call_one _ _ _ _ Hn H) as (k & st & w0 & w & r & Hr & Hc & Ho & HP).
  destruct (call_log_ex _ _ _ _ _ _ _ _ Hr Hn Hc) as [evs Hl]. eauto 10.
Qed.
Ltac by_log := apply log_by_one; [intros; discriminate|vm_compute; reflexivity].
Definition gets (r : out) (w0 w : world) (o : out) : bool := bool_decide (o = r).

(** Two slots; one is disconnected twice, the queries and the blocking operations are used. *)
Definition r1_prog := seqp [ONewSignal None; OConnect 0 (SrcFn (fn 1)) false; OConnect 0 (SrcFn (fn 2)) true; OVar (VConnected 0); OVar (VBlock 0); OVar (VBlocked 0); OVar (VUnblock 0);
                            OEmit 0 []; OVar (VDisc 0); OVar (VValid 0); OVar (VDestroyConn 1); OVar (VSlotNew (fn 3)); OSlotCall 0 []; OMoveSignal 0] OutUnit.
Lemma ex_C52_disc : exists k st w0 w r evs, reachable x2_env [r1_prog] w0 /\ call_log x2_env 0 (OVar (VDisc 0)) k st w0 w evs /\ returned 0 k st w r /\
  gets (OutBool true) w0 w r && bool_decide (v_conns (w_vars w0) !! 0 = Some (ConnV true false (Some 0))) = true.
Proof. apply (log_by_one x2_env r1_prog (OVar (VDisc 0)) (fun w0 w r => gets (OutBool true) w0 w r && bool_decide (v_conns (w_vars w0) !! 0 = Some (ConnV true false (Some 0))))); [intros; discriminate|vm_compute; reflexivity]. Qed.
Lemma ex_C52_scoped : exists k st w0 w r evs, reachable x2_env [r1_prog] w0 /\ call_log x2_env 0 (OVar (VDestroyConn 1)) k st w0 w evs /\ returned 0 k st w r /\
  bool_decide (v_conns (w_vars w0) !! 1 = Some (ConnV true true (Some 1))) = true.
Proof. apply (log_by_one x2_env r1_prog (OVar (VDestroyConn 1)) (fun w0 w r => bool_decide (v_conns (w_vars w0) !! 1 = Some (ConnV true true (Some 1))))); [intros; discriminate|vm_compute; reflexivity]. Qed.
Lemma ex_C52_query : exists k st w0 w r evs, reachable x2_env [r1_prog] w0 /\ call_log x2_env 0 (OVar (VBlocked 0)) k st w0 w evs /\ returned 0 k st w r /\
  gets (OutBool true) w0 w r && bool_decide (v_conns (w_vars w0) !! 0 = Some (ConnV true false (Some 0))) = true.
Proof. apply (log_by_one x2_env r1_prog (OVar (VBlocked 0)) (fun w0 w r => gets (OutBool true) w0 w r && bool_decide (v_conns (w_vars w0) !! 0 = Some (ConnV true false (Some 0))))); [intros; discriminate|vm_compute; reflexivity]. Qed.
Lemma ex_C52_block : exists k st w0 w r evs, reachable x2_env [r1_prog] w0 /\ call_log x2_env 0 (OVar (VBlock 0)) k st w0 w evs /\ returned 0 k st w r /\
  slot_alive w0 0 && bool_decide (v_conns (w_vars w0) !! 0 = Some (ConnV true false (Some 0))) = true.
Proof. apply (log_by_one x2_env r1_prog (OVar (VBlock 0)) (fun w0 w r => slot_alive w0 0 && bool_decide (v_conns (w_vars w0) !! 0 = Some (ConnV true false (Some 0))))); [intros; discriminate|vm_compute; reflexivity]. Qed.
Lemma ex_C52_emit : exists k st w0 w r evs, reachable x2_env [r1_prog] w0 /\ call_log x2_env 0 (OEmit 0 []) k st w0 w evs /\ returned 0 k st w r /\
  gets (OutOpt (Some 2%Z)) w0 w r = true.
Proof. apply (log_by_one x2_env r1_prog (OEmit 0 []) (gets (OutOpt (Some 2%Z)))); [intros; discriminate|vm_compute; reflexivity]. Qed.
Lemma ex_C52_slot_call : exists k st w0 w r evs, reachable x2_env [r1_prog] w0 /\ call_log x2_env 0 (OSlotCall 0 []) k st w0 w evs /\ returned 0 k st w r /\
  gets (OutOpt (Some 3%Z)) w0 w r = true.
Proof. apply (log_by_one x2_env r1_prog (OSlotCall 0 []) (gets (OutOpt (Some 3%Z)))); [intros; discriminate|vm_compute; reflexivity]. Qed.
Lemma ex_C52_signals : exists k st w0 w r evs, reachable x2_env [r1_prog] w0 /\ call_log x2_env 0 (OMoveSignal 0) k st w0 w evs /\ returned 0 k st w r /\
  gets (OutId 1) w0 w r = true.
Proof. apply (log_by_one x2_env r1_prog (OMoveSignal 0) (gets (OutId 1))); [intros; discriminate|vm_compute; reflexivity]. Qed.
(** A functor that reads its own state: the call is made inside the emission. *)
Lemma log_by_run e ps sc0 t o sc P : call_test e ps sc0 t o sc P = true -> (forall pos, o <> ODeref pos) ->
  exists k st w0 w r evs, reachable e ps w0 /\ call_log e t o k st w0 w evs /\ returned t k st w r /\ P w0 w r = true.
Proof.
  intros H Hn. destruct (call_by_run _ _ _ _ _ _ _ H Hn) as (k & st & w0 & w & r & Hr & Hc & Ho & HP).
  destruct (call_log_ex _ _ _ _ _ _ _ _ Hr Hn Hc) as [evs Hl]. eauto 10.
Qed.
Lemma ex_C52_state : exists k st w0 w r evs, reachable x5_env [x5_prog] w0 /\ call_log x5_env 0 (OSelfGet (RSlot 1)) k st w0 w evs /\ returned 0 k st w r /\
  gets (OutZ 1) w0 w r = true.
Proof. apply (log_by_run x5_env [x5_prog] (one 65) 0 (OSelfGet (RSlot 1)) (one 5)); [vm_compute; reflexivity|intros; discriminate]. Qed.
