(** * When a slot is destroyed and who runs its functor's destructor: proofs *)
From Verif Require Export SpecDeath OpBound.

Lemma alive_owned e ps w l : reachable e ps w -> (spec_alive (w_log w) l = true <-> has_owner w l).
Proof.
  intros Hr. unfold has_owner. rewrite <- (proj1 (I_alive_inv _ _ _ Hr)), slot_alive_iff. destruct (I_sig_inv _ _ _ Hr) as (HS & _). split.
  - intros [(s & r & v & Hs & Ha & Hv & Hl)|(t & st & f & Ht & Hf & Hk)]; [left|right].
    + exists s. split; [unfold slots_of; rewrite Hs, Hv; auto|]. destruct (HS _ _ Hs) as (_ & Hde & _). intros H. apply Hde in H. congruence.
    + exists t, st, f. split; [auto|]. split; [auto|]. destruct f; cbn in Hk; try discriminate; apply bool_decide_eq_true in Hk; exact Hk.
  - intros [(s & Hl & Hn)|(t & st & f & Ht & Hf & Hk)]; [left|right].
    + unfold slots_of in Hl. destruct (w_sigs w !! s) as [r|] eqn:Hs; [|inversion Hl]. destruct (sg_vec r) as [v|] eqn:Hv; [|inversion Hl].
      exists s, r, v. split; [auto|]. split; [|auto]. destruct (HS _ _ Hs) as (_ & Hde & _). destruct (sg_alive r) eqn:Ha; [auto|]. destruct Hn. apply Hde. auto.
    + exists t, st, f. split; [auto|]. split; [auto|]. destruct f; cbn in Hk |- *; try contradiction; apply bool_decide_eq_true; auto.
Qed.

Lemma n_dtor_app a b : n_dtor (a ++ b) = n_dtor a + n_dtor b.
Proof. unfold n_dtor. induction a as [|f a IH]; cbn; [reflexivity|]. destruct (is_dtor f); cbn; lia. Qed.
Lemma trans_dtor e w t st w' st' : trans e w t st w' st' -> n_dtor st' <= n_dtor st.
Proof.
  assert (Hn : forall f st, n_dtor (f :: st) = (if is_dtor f then 1 else 0) + n_dtor st) by (intros f s; unfold n_dtor; cbn; destruct (is_dtor f); reflexivity).
  intros H. destruct H; rewrite ?Hn, ?n_dtor_app, ?Hn; cbn [is_dtor]; try lia.
  all: try (match goal with H : begins _ _ _ _ _ |- _ => destruct H end; cbn; lia).
  all: try (match goal with H : exec_vop _ _ _ = VDo _ _ _ |- _ => apply vop_after' in H end; naive_solver lia).
Qed.
Lemma dead_events w w1 : deaths (map EObjDead (dead_objs w w1) ++ map ESlotDead (dead_slots w w1)) = dead w w1.
Proof.
  unfold deaths, dead. rewrite omap_app. f_equal.
  - induction (dead_objs w w1) as [|l ls IH]; cbn; [auto|]. f_equal. exact IH.
  - induction (dead_slots w w1) as [|l ls IH]; cbn; [auto|]. f_equal. exact IH.
Qed.
Lemma trans_deaths e w t st w' st' new : trans e w t st w' st' -> w_log w' = new ++ w_log w -> deaths new = [].
Proof.
  assert (H0 : forall log : list event, log = new ++ log -> deaths new = []) by (intros log H; destruct new; [reflexivity|]; apply (f_equal length) in H; cbn in H; rewrite app_length in H; lia).
  assert (H1 : forall log (ev : event), ev :: log = new ++ log -> deaths [ev] = [] -> deaths new = []).
  { intros log ev H Hd. change (ev :: log) with ([ev] ++ log) in H. apply app_inv_tail in H. subst. exact Hd. }
  assert (H2 : forall log (ev ev' : event), ev :: ev' :: log = new ++ log -> deaths [ev; ev'] = [] -> deaths new = []).
  { intros log ev ev' H Hd. change (ev :: ev' :: log) with ([ev; ev'] ++ log) in H. apply app_inv_tail in H. subst. exact Hd. }
  intros H Hnew. destruct H; wcbn_in Hnew; autorewrite with wsimp in Hnew.
  all: try (apply H0 in Hnew; exact Hnew).
  all: try (eapply H1 in Hnew; [exact Hnew|reflexivity]).
  all: try (eapply H2 in Hnew; [exact Hnew|reflexivity]).
  all: try (eapply H1 in Hnew; [exact Hnew|match goal with H : exec_vop _ _ _ = VOk _ _ (EfLog _) |- _ => apply vop_ev in H as [(? & -> & _)|[(? & -> & _)|[(? & -> & _)|[(? & -> & _)|(? & -> & _)]]]]; reflexivity end]).
  destruct (cc_log w r) as [Hc|(l0 & i0 & _ & _ & _ & Hc)]; rewrite Hc in Hnew; [eapply H1 in Hnew|eapply H2 in Hnew]; first [exact Hnew|reflexivity].
Qed.
Lemma step_destroys e ps w t fail st w' : reachable e ps w -> w_thr w !! t = Some st -> step e w t fail = SOk w' ->
  exists new rest, w_log w' = new ++ w_log w /\
    w_thr w' !! t = Some (running_first e (w_log w') (deaths new) rest) /\ n_dtor rest <= n_dtor st /\
    forall t', t' <> t -> w_thr w' !! t' = w_thr w !! t'.
Proof.
  intros Hr Ht Hst. pose proof (reachable_step _ _ _ _ _ _ Hr Hst) as Hr'.
  destruct (step_trans _ _ _ _ _ Hst) as (st0 & w1 & st1 & Ht0 & Htr & -> & _). rewrite Ht in Ht0. injection Ht0 as <-.
  destruct (reap_spec e w w1 t st1) as (D & L & _ & _ & Hre & HDeq & HLeq). rewrite Hre in Hr' |- *.
  destruct (trans_log_app _ _ _ _ _ _ Htr) as [new Hnew]. exists (L ++ new), st1. wcbn. rewrite Hnew, app_assoc. split; [reflexivity|].
  rewrite (trans_thr _ _ _ _ _ _ Htr). split.
  { rewrite list_lookup_insert by (eapply lookup_lt_Some; eauto). f_equal.
    unfold deaths at 1. rewrite omap_app. fold (deaths L) (deaths new). rewrite (trans_deaths _ _ _ _ _ _ _ Htr Hnew), app_nil_r.
    replace (deaths L) with (dead w (mid w1 t st1)) by (rewrite HLeq; symmetry; apply dead_events). rewrite HDeq.
    pose proof (I_fields_inv _ _ _ Hr') as HF. unfold I_fields in HF. wcbn_in HF. rewrite Hnew, app_assoc in HF.
    assert (Hls : forall l, inl l ∈ dead w (mid w1 t st1) -> l < length (w_slots w1)).
    { intros l Hl. unfold dead in Hl. apply elem_of_app in Hl as [Hl|Hl]; apply elem_of_list_fmap in Hl as (y & E & Hl); [discriminate|]. injection E as <-.
      apply dead_slots_elem in Hl as (_ & _ & Hl). pose proof (trans_slots_len _ _ _ _ _ _ Htr). lia. }
    revert Hls. generalize (dead w (mid w1 t st1)). intros ls Hls.
    induction ls as [|x ls IH]; [reflexivity|]. cbn [flat_map running_first foldr]. rewrite <- app_assoc, IH by (intros l' Hl'; apply Hls, elem_of_list_further; auto).
    unfold dtor_frames. replace (dtor_prog e (mid w1 t st1) x) with (destructor e ((L ++ new) ++ w_log w) x); [destruct (destructor _ _ x); reflexivity|].
    destruct x as [l|o]; [|reflexivity]. cbn [destructor dtor_prog].
    destruct (lookup_lt_is_Some_2 (w_slots w1) l) as [r Hl]; [apply Hls, elem_of_list_here|].
    destruct (HF _ _ Hl) as ((i0 & Hi0 & Hc) & _). wcbn. rewrite Hl, Hi0, <- Hc. reflexivity. }
  split; [eapply trans_dtor; eauto|]. intros t' Hn. apply list_lookup_insert_ne. auto.
Qed.

Lemma query_holds e ps w t fail v l k st : reachable e ps w -> w_thr w !! t = Some (FProg (Do (OVar v) k) :: st) -> locks (w_vars w) v l ->
  spec_alive (w_log w) l = true -> exists w' o, step e w t fail = SOk w' /\ w_thr w' !! t = Some (FRet o :: FTmp l :: FWait k :: st).
Proof.
  intros Hr Ht Hl Ha. rewrite <- (proj1 (I_alive_inv _ _ _ Hr)) in Ha.
  assert (Hx : exists x o ef, exec_vop w t v = VOk x o ef /\ v_objs x = v_objs (w_vars w) /\
            (ef = EfBlk l true \/ ef = EfBlk l false \/ exists ev, ef = EfLog ev /\ held w ev = [FTmp l])).
  { assert (Hq : forall c sc, v_conns (w_vars w) !! c = Some (ConnV true sc (Some l)) -> get_conn (w_vars w) c = Some (ConnV true sc (Some l))) by (intros ? ? Hc; unfold get_conn; rewrite Hc; reflexivity).
    assert (Hw : wlock w (Some l) = Some l) by (unfold wlock; rewrite Ha; reflexivity).
    destruct v; cbn [locks] in Hl; try contradiction.
    1-5: destruct Hl as [sc Hc]; apply Hq in Hc.
    1,2: unfold exec_vop; cbv zeta; rewrite Hc; cbn [cn_slot]; eexists _, _, _; (split; [reflexivity|]); (split; [reflexivity|]); do 2 right; eexists; (split; [reflexivity|]); unfold held; rewrite Ha; reflexivity.
    1-3: unfold exec_vop, blk_eff; cbv zeta; rewrite Hc; cbn [cn_slot]; rewrite Hw; eexists _, _, _; (split; [reflexivity|]); (split; [reflexivity|]); auto.
    - destruct Hl as (Hn & Hd & m & Hs). unfold exec_vop, get_blk, blk_eff; cbv zeta. rewrite Hd, Hs. cbn [bk_live bk_slot]. rewrite bool_decide_eq_false_2 by auto. rewrite Hw. eexists _, _, _. split; [reflexivity|]. split; [reflexivity|]. auto.
    - unfold exec_vop, get_blk, blk_eff; cbv zeta. rewrite Hl. cbn [bk_live bk_slot]. rewrite Hw. eexists _, _, _. split; [reflexivity|]. split; [reflexivity|]. auto. }
  destruct Hx as (x & o & ef & Hx & Ho & Hef).
  destruct (step e w t fail) as [w'| | |] eqn:Hst.
  2-4: unfold step in Hst; rewrite Ht in Hst; cbn [lstep start_op] in Hst; rewrite Hx in Hst; destruct ef; discriminate.
  exists w', o. split; [reflexivity|].
  destruct (step_inv _ _ _ _ _ _ Hst Ht) as (w1 & st1 & D & L & _ & Hl1 & HD & HL & _ & _ & _ & _ & _ & Hthr).
  assert (Hst1 : st1 = FRet o :: FTmp l :: FWait k :: st /\ w_sigs w1 = w_sigs w /\ w_vecs w1 = w_vecs w /\ w_thr w1 = w_thr w /\ v_objs (w_vars w1) = v_objs (w_vars w)).
  { cbn [lstep start_op] in Hl1. rewrite Hx in Hl1. destruct Hef as [->|[->|(ev & -> & Hh)]]; rewrite ?Hh in Hl1; injection Hl1 as <- <-; auto. }
  destruct Hst1 as (-> & Hs1 & Hv1 & Ht1 & Ho1).
  assert (Hk : kills_nothing w w1 t (FRet o :: FTmp l :: FWait k :: st)).
  { eapply kills_log; eauto. intros f Hin. apply elem_of_cons in Hin as [->|Hin]; [right; split; reflexivity|left]. do 3 (apply elem_of_cons; right). exact Hin. }
  destruct (step_trans _ _ _ _ _ Hst) as (st0 & w2 & st2 & Ht0 & _ & Hw' & Hl2). rewrite Ht in Ht0. injection Ht0 as <-. rewrite Hl1 in Hl2. injection Hl2 as <- <-.
  rewrite Hw'. unfold reap. rewrite Hk. wcbn. cbn [flat_map app]. rewrite Ht1. apply list_lookup_insert. eapply lookup_lt_Some; eauto.
Qed.

(** ** Concrete cases *)
(** Functors whose destructor makes a connection (a call into the library that changes nothing else). *)
Definition d1_env : env :=
  Env false (fun _ => true) (fun _ a b => Ret (OutBool (Nat.eqb a b)))
    (fun r c args => Ret (OutZ 0)) (fun _ _ => false) (fun _ => 0%Z) (fun c => Some (Do (OVar (VNewConn false)) (fun o => Ret o))) (fun k n => Ret (OutOpt None)).
Definition d1_prog := seqp [ONewSignal None; OConnect 0 (SrcFn (fn 1)) false; OVar (VCopyConn 0 false); OVar (VDisc 0); OVar (VValid 1)] OutUnit.
Definition d1_query := seqp [OVar (VConnected 1)] OutUnit.
(** The second thread asks connected(); before it returns the first one disconnects the slot. *)
Lemma ex_C60 : exists w, reachable d1_env [d1_prog; d1_query] w /\
  occurs [EConn 0 0 0 (new_impl (fn 1)); EConnd 1 0 true; EDisc 0 0 true; EValid 0 0 true; ESlotDead 0] (rev (w_log w)) = true /\
  stack_is w 0 (fun st => match st with [FRet OutUnit] => true | _ => false end) &&
  stack_is w 1 (fun st => match st with [FProg (Do (OVar (VNewConn false)) _); FDtor _; FRet (OutBool true); FWait _] => true | _ => false end) = true.
Proof.
  destruct (run_world d1_env [d1_prog; d1_query] (one 11 ++ [(1, MOk)] ++ one 40 ++ [(1, MOk)])
    (fun w => occurs [EConn 0 0 0 (new_impl (fn 1)); EConnd 1 0 true; EDisc 0 0 true; EValid 0 0 true; ESlotDead 0] (rev (w_log w)) &&
       (stack_is w 0 (fun st => match st with [FRet OutUnit] => true | _ => false end) &&
        stack_is w 1 (fun st => match st with [FProg (Do (OVar (VNewConn false)) _); FDtor _; FRet (OutBool true); FWait _] => true | _ => false end)))) as (w & Hr & HP); [vm_compute; reflexivity|].
  apply andb_true_iff in HP as [H1 H2]. exists w. auto.
Qed.
Lemma ex_C60_query : exists w k st, reachable d1_env [d1_prog; d1_query] w /\ w_thr w !! 1 = Some (FProg (Do (OVar (VConnected 1)) k) :: st) /\
  locks (w_vars w) (VConnected 1) 0 /\ spec_alive (w_log w) 0 = true.
Proof.
  destruct (run_world d1_env [d1_prog; d1_query] (one 11) (fun w => spec_alive (w_log w) 0 &&
     (match w_thr w !! 1 with Some (FProg (Do (OVar (VConnected 1)) _) :: _) => true | _ => false end &&
      match v_conns (w_vars w) !! 1 with Some (ConnV true _ (Some 0)) => true | _ => false end))) as (w & Hr & HP); [vm_compute; reflexivity|].
  apply andb_true_iff in HP as [Ha HP]. apply andb_true_iff in HP as [Ht Hc]. exists w.
  destruct (w_thr w !! 1) as [[|f st]|] eqn:H1; [discriminate Ht| |discriminate Ht]. exists (match f with FProg (Do _ k) => k | _ => Ret end), st.
  split; [exact Hr|]. split.
  - clear Hc Hr. destruct f; try discriminate Ht. destruct p as [|o k]; [discriminate Ht|]. destruct o; try discriminate Ht. destruct v; try discriminate Ht.
    destruct c as [|[|c]]; try discriminate Ht. reflexivity.
  - split; [|exact Ha]. clear Ht Hr H1. cbn [locks]. destruct (v_conns (w_vars w) !! 1) as [[[] sc m]|]; try discriminate Hc. destruct m as [[|]|]; try discriminate Hc. exists sc. reflexivity.
Qed.
(** The same with a signal that is destroyed: its slot is still there when another handle is
    disconnected. *)
Definition d2_prog := seqp [ONewSignal None; OConnect 0 (SrcFn (fn 1)) false; OVar (VCopyConn 0 false); ODestroySignal 0; OVar (VDisc 0)] OutUnit.
Lemma disc_during_query_after_destroy : goes_ub x2_env [d2_prog; d1_query] UDangling.
Proof. apply (run_ub _ _ (one 11 ++ [(1, MOk)] ++ one 40)). vm_compute. reflexivity. Qed.
