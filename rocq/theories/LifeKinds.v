(** * What a step does to the shares of slots *)
From Verif Require Export SpecLife RaceStep.

Definition owns (v : vid) (st : list frame) : bool := existsb (frame_owns v) st.

Lemma tmps_cons l f st : tmps l (f :: st) = (if frame_pins l f then 1 else 0) + tmps l st.
Proof. unfold tmps. rewrite filter_cons. destruct (frame_pins l f); cbn; reflexivity. Qed.
Lemma tmps_app l a b : tmps l (a ++ b) = tmps l a + tmps l b.
Proof. unfold tmps. rewrite filter_app, app_length. reflexivity. Qed.
Lemma tmps_none l fs : Forall (fun f => frame_pins l f = false) fs -> tmps l fs = 0.
Proof. induction 1 as [|f fs Hf _ IH]; [reflexivity|]. rewrite tmps_cons, Hf. exact IH. Qed.
Lemma tmps_dtor l D : dtorish D -> tmps l D = 0.
Proof. intros HD. apply tmps_none. eapply Forall_impl; [exact HD|]. intros f [[? ->]|[q ->]]; auto. Qed.
Lemma tmps_var l fs : Forall varish fs -> tmps l fs = 0.
Proof. intros HD. apply tmps_none. eapply Forall_impl; [exact HD|]. intros []; cbn; auto; contradiction. Qed.
Lemma tmps_pos l st : 0 < tmps l st <-> exists f, f ∈ st /\ frame_pins l f = true.
Proof.
  unfold tmps. split.
  - destruct (filter (fun f => frame_pins l f) st) as [|f fs] eqn:E; cbn; [lia|]. intros _. exists f.
    assert (Hf : f ∈ filter (fun f => frame_pins l f) st) by (rewrite E; left). apply elem_of_list_filter in Hf as [H1 H2].
    split; [auto|]. destruct (frame_pins l f); auto.
  - intros (f & Hf & Hp). destruct (filter (fun f => frame_pins l f) st) eqn:E; [|cbn; lia].
    exfalso. assert (Hx : f ∈ filter (fun f => frame_pins l f) st) by (apply elem_of_list_filter; rewrite Hp; split; [exact I|auto]).
    rewrite E in Hx. inversion Hx.
Qed.

Definition same_tmps (st st' : list frame) : Prop := forall l, tmps l st' = tmps l st.
Definition same_owns (st st' : list frame) : Prop := forall v, owns v st' = owns v st.

Inductive kind (w : world) (t : tid) (st : list frame) (w' : world) (st' : list frame) : Prop :=
| KD_quiet : w_sigs w' = w_sigs w -> w_vecs w' = w_vecs w -> same_owns st st' -> same_tmps st st' -> kind w t st w' st'
| KD_pin l : w_sigs w' = w_sigs w -> w_vecs w' = w_vecs w -> same_owns st st' ->
    (forall l', tmps l' st' = tmps l' st + if decide (l' = l) then 1 else 0) ->
    slot_uses w t st w' = [Acq (YHand l); Pin l; Rd (LSlot l)] -> slot_alive w l = true -> kind w t st w' st'
| KD_unpin l : w_sigs w' = w_sigs w -> w_vecs w' = w_vecs w -> same_owns st st' ->
    (forall l', tmps l' st = tmps l' st' + if decide (l' = l) then 1 else 0) -> kind w t st w' st'
| KD_lock s r : on w s r -> sg_lock r = None -> w_sigs w' = alter (sg_set_lock (Some t)) s (w_sigs w) -> w_vecs w' = w_vecs w ->
    same_owns st st' -> same_tmps st st' -> acts w t st w' = [Acq (YLock s)] -> kind w t st w' st'
| KD_unlock s r : on w s r -> sg_lock r = Some t -> w_sigs w' = alter (sg_set_lock None) s (w_sigs w) -> w_vecs w' = w_vecs w ->
    same_owns st st' -> same_tmps st st' -> acts w t st w' = [Rel (YLock s)] -> kind w t st w' st'
| KD_new c : w_sigs w' = w_sigs w ++ [SigRec true None (Some (length (w_vecs w))) false c] -> w_vecs w' = w_vecs w ++ [[]] ->
    same_owns st st' -> same_tmps st st' -> kind w t st w' st'
| KD_destroy s r : on w s r -> sg_lock r = None -> w_sigs w' = alter (sg_set_alive false) s (w_sigs w) -> w_vecs w' = w_vecs w ->
    same_owns st st' -> same_tmps st st' ->
    acts w t st w' = [Acq (YLock s); Wr (LPtr s)] ++ match sg_vec r with Some v => drop_vec w v | None => [] end -> kind w t st w' st'
| KD_move s r : on w s r -> sg_lock r = Some t ->
    w_sigs w' = alter (sg_set_vec None) s (w_sigs w) ++ [SigRec true None (sg_vec r) (sg_blocked r) (sg_comb r)] -> w_vecs w' = w_vecs w ->
    same_owns st st' -> same_tmps st st' ->
    acts w t st w' = [Wr (LPtr s); Wr (LPtr (length (w_sigs w))); Rel (YLock (length (w_sigs w)))] -> kind w t st w' st'
| KD_read s r v : on w s r -> sg_lock r = Some t -> sg_vec r = Some v ->
    w_sigs w' = alter (sg_set_lock None) s (w_sigs w) -> w_vecs w' = w_vecs w ->
    (forall v', owns v' st' = bool_decide (v = v') || owns v' st) -> same_tmps st st' ->
    acts w t st w' = [Rd (LPtr s); Rel (YLock s); Rd (LVec v)] -> kind w t st w' st'
| KD_detach s r v as_ : on w s r -> sg_lock r = Some t -> sg_vec r = Some v ->
    w_sigs w' = alter (sg_set_vec (Some (length (w_vecs w)))) s (w_sigs w) -> w_vecs w' = w_vecs w ++ [vec_of w v] ->
    same_owns st st' -> same_tmps st st' -> acts w t st w' = as_ ++ drop_vec w v -> kind w t st w' st'
| KD_add s r v f : on w s r -> sg_lock r = Some t -> sg_vec r = Some v -> f ∈ st -> crit_vec f = Some (s, v) ->
    w_sigs w' = w_sigs w -> w_vecs w' = <[v := vec_of w v ++ [length (w_slots w)]]> (w_vecs w) ->
    same_owns st st' -> same_tmps st st' ->
    slot_uses w t st w' = [Wr (LSlot (length (w_slots w))); Rel (YHand (length (w_slots w)))] ->
    length (w_slots w') = S (length (w_slots w)) -> kind w t st w' st'
| KD_take s r v f i l : on w s r -> sg_lock r = Some t -> sg_vec r = Some v -> f ∈ st -> crit_vec f = Some (s, v) ->
    vec_of w v !! i = Some l ->
    w_sigs w' = w_sigs w -> w_vecs w' = <[v := swap_pop (vec_of w v) i]> (w_vecs w) ->
    same_owns st st' -> same_tmps st st' -> taken_out (w_log w') l -> kind w t st w' st'
| KD_drop v : emitting w t v -> w_sigs w' = w_sigs w -> w_vecs w' = w_vecs w ->
    (forall v', v' <> v -> owns v' st' = owns v' st) -> same_tmps st st' ->
    acts w t st w' = drop_vec w v -> kind w t st w' st'.

Lemma swap_pop_vecs w v i l : vec_of w v !! i = Some l ->
  w_vecs (do_swap_pop w v i) = <[v := swap_pop (vec_of w v) i]> (w_vecs w) /\ w_sigs (do_swap_pop w v i) = w_sigs w.
Proof.
  intros H. unfold do_swap_pop. destruct (last (vec_of w v)) eqn:E; [split; reflexivity|].
  apply last_None in E. rewrite E in H. discriminate.
Qed.

Lemma get_sig_on w s r : get_sig w s = Some r -> on w s r.
Proof. unfold get_sig. destruct (w_sigs w !! s) as [r'|] eqn:E; [|discriminate]. destruct (sg_alive r') eqn:Ea; [|discriminate]. intros ?; simplify_eq. split; auto. Qed.

Lemma kinds e ps w t fail st w' : reachable e ps w -> w_thr w !! t = Some st -> step e w t fail = SOk w' ->
  exists st', w_thr w' = <[t := st']> (w_thr w) /\ kind w t st w' st' /\
    (length (w_slots w') = length (w_slots w) \/
     (slot_uses w t st w' = [Wr (LSlot (length (w_slots w))); Rel (YHand (length (w_slots w)))] /\ length (w_slots w') = S (length (w_slots w)) /\
      exists s r v, on w' s r /\ sg_vec r = Some v /\ length (w_slots w) ∈ vec_of w' v)).
Proof.
  intros Hr Ht Hstep.
  destruct (step_inv _ _ _ _ _ _ Hstep Ht) as (w1 & st1 & D & L & Htr & _ & HD & _ & Esg & Evc & Esl & _ & Elog & Ethr).
  exists (D ++ st1). split; [exact Ethr|].
  assert (Hsec : forall f s, f ∈ st -> in_section s f -> exists r, on w s r /\ sg_lock r = Some t).
  { intros f s Hf Hin. destruct (I_bound_inv _ _ _ Hr) as (_ & _ & Hb3 & Hb4). destruct (proj2 (lock_iff _ _ _ _ _ s Hr Ht)) as (r & Hs & Hl); [eauto|]. exists r. split; [split; eauto|auto]. }
  assert (Hcrit : forall f s v, f ∈ st -> crit_vec f = Some (s, v) -> exists r, on w s r /\ sg_lock r = Some t /\ sg_vec r = Some v).
  { intros f s v Hf Hc. pose proof (I_crit_inv _ _ _ Hr _ _ Ht) as HF. rewrite Forall_forall in HF. specialize (HF _ Hf).
    unfold fr_crit in HF. rewrite Hc in HF. destruct HF as [(r & Hs & Ha & Hv) _].
    destruct (Hsec f s Hf) as (r' & [Hs' _] & Hl); [destruct f; cbn in *; simplify_eq; auto|]. simplify_eq. exists r. repeat split; auto. }
  assert (Hown : forall v, owns v (D ++ st1) = owns v st1).
  { intros v. unfold owns. rewrite existsb_app, (existsb_dtor _ _ HD) by reflexivity. reflexivity. }
  assert (Htmp : forall l, tmps l (D ++ st1) = tmps l st1).
  { intros l. rewrite tmps_app, (tmps_dtor _ _ HD). reflexivity. }
  set (st' := D ++ st1) in *.
  assert (Hso : (forall v, owns v st1 = owns v st) -> same_owns st st') by (intros H v; rewrite Hown; auto).
  assert (Hst : (forall l, tmps l st1 = tmps l st) -> same_tmps st st') by (intros H v; rewrite Htmp; auto).
  clearbody st'.
  destruct Htr; wcbn_in Esg; wcbn_in Evc; wcbn_in Esl; wcbn_in Elog; autorewrite with wsimp in Esg, Evc, Esl, Elog.
  Ltac quiet Hso Hst Esl := split; [apply KD_quiet; [assumption|assumption|apply Hso; intros; reflexivity|apply Hst; intros; rewrite ?tmps_cons; reflexivity]
    |left; rewrite Esl, ?alter_length; reflexivity].
  all: try (quiet Hso Hst Esl; fail).
  all: try (assert (HL : length (w_slots w') = length (w_slots w)) by (rewrite Esl; autorewrite with wsimp; rewrite ?alter_length; reflexivity); split; [|left; exact HL]).
  Ltac kd Hso Hst := try assumption; try (split; assumption); try (apply Hso; intros; reflexivity);
    try (apply Hst; intros; rewrite ?tmps_cons; reflexivity); try reflexivity.
  Ltac one_more Htmp := let l' := fresh "l'" in intros l'; rewrite Htmp, !tmps_cons; cbn; case_decide; [rewrite bool_decide_true by auto|rewrite bool_decide_false by auto]; lia.
  - (* vblk *) apply (KD_pin _ _ _ _ _ l); kd Hso Hst.
    + one_more Htmp.
    + cbn. unfold locked. rewrite H. reflexivity.
    + eapply blk_alive; eauto.
  - (* vheld *) apply (KD_pin _ _ _ _ _ l); kd Hso Hst.
    + one_more Htmp.
    + cbn. unfold locked. rewrite H, H0. reflexivity.
    + eapply tmp_alive; eauto.
  - (* vdo *) pose proof (vop_after _ _ _ _ _ _ H) as HV. apply (KD_pin _ _ _ _ _ l); kd Hso Hst.
    + apply Hso. intros v0. unfold owns. cbn [existsb]. rewrite existsb_app, (existsb_var _ after) by (auto; intros []; cbn; auto; contradiction). reflexivity.
    + intros l'. rewrite Htmp, tmps_cons, tmps_app, (tmps_var _ _ HV), !tmps_cons. cbn. case_decide; [rewrite bool_decide_true by auto|rewrite bool_decide_false by auto]; lia.
    + cbn. unfold locked. rewrite H, H0. reflexivity.
  - (* vdead *) pose proof (vop_after _ _ _ _ _ _ H) as HV. apply KD_quiet; kd Hso Hst.
    + apply Hso. intros v0. unfold owns. cbn [existsb]. rewrite existsb_app, (existsb_var _ after) by (auto; intros []; cbn; auto; contradiction). reflexivity.
    + apply Hst. intros l'. rewrite tmps_cons, tmps_app, (tmps_var _ _ HV), !tmps_cons. reflexivity.
  - (* new *) eapply KD_new; [exact Esg|exact Evc|..]; kd Hso Hst.
  - (* destroy *) pose proof (get_sig_on _ _ _ H) as [Hs Ha]. apply (KD_destroy _ _ _ _ _ s r); kd Hso Hst.
    cbn [acts]. rewrite Hs. reflexivity.
  - (* begin *) apply KD_quiet; kd Hso Hst; [apply Hso|apply Hst]; intros; destruct H; cbn [app]; rewrite ?tmps_cons; reflexivity.
  - (* selfset *) apply KD_quiet; kd Hso Hst.
  - (* dead *) apply KD_quiet; kd Hso Hst.
  - (* disc_false *) apply (KD_unpin _ _ _ _ _ l); kd Hso Hst. one_more Htmp.
  - (* lock *) pose proof (get_sig_on _ _ _ H) as [Hs Ha]. apply (KD_lock _ _ _ _ _ s r); kd Hso Hst.
  - (* move *) destruct (Hsec _ s (elem_of_list_here _ _) ltac:(reflexivity)) as (r0 & [Hs Ha] & Hl). rewrite H in Hs. injection Hs as <-.
    apply (KD_move _ _ _ _ _ s r); kd Hso Hst.
  - (* read *) destruct (Hsec _ s (elem_of_list_here _ _) ltac:(reflexivity)) as (r0 & [Hs Ha] & Hl). rewrite H in Hs. injection Hs as <-.
    apply (KD_read _ _ _ _ _ s r v); kd Hso Hst.
    cbn [acts write_acts]. rewrite H, H0. reflexivity.
  - (* detach *) destruct (Hsec _ s (elem_of_list_here _ _) ltac:(reflexivity)) as (r0 & [Hs Ha] & Hl). rewrite H in Hs. injection Hs as <-.
    apply (KD_detach _ _ _ _ _ s r v ([Rd (LPtr s); Use v] ++ [Rd (LVec v); Wr (LVec (length (w_vecs w))); Wr (LPtr s)])); kd Hso Hst.
    cbn [acts]. unfold write_acts. rewrite H, H0, Evc, app_length, (proj2 (Nat.ltb_lt _ _)) by (cbn; lia).
    destruct k; try contradiction; reflexivity.
  - (* add *) destruct (Hcrit _ s v (elem_of_list_here _ _) eq_refl) as (r0 & Ho & Hl & Hv).
    assert (HU : slot_uses w t (FBody s v (KAdd i) :: st) w' = [Wr (LSlot (length (w_slots w))); Rel (YHand (length (w_slots w)))]).
    { cbn [slot_uses]. rewrite Esl, app_length, (proj2 (Nat.ltb_lt _ _)) by (cbn; lia). reflexivity. }
    assert (Hb : v < length (w_vecs w)) by (destruct Ho as [Hs _]; pose proof (I_bound_inv _ _ _ Hr) as (Hb1 & _); eauto).
    split; [|right; split; [exact HU|]; split; [rewrite Esl, app_length; cbn; lia|]; exists s, r0, v; split; [destruct Ho as [Hs Ha]; split; [congruence|auto]|]; split;
      [auto|unfold vec_of; rewrite Evc, list_lookup_insert by auto; apply elem_of_app; right; left]]. apply (KD_add _ _ _ _ _ s r0 v (FBody s v (KAdd i))); kd Hso Hst; [left|].
    rewrite Esl, app_length. cbn. lia.
  - (* rem *) destruct (Hcrit _ s v (elem_of_list_here _ _) eq_refl) as (r0 & Ho & Hl & Hv). destruct (swap_pop_vecs _ _ _ _ H0) as [E1 E2].
    apply (KD_take _ _ _ _ _ s r0 v (FBody s v (KRem l)) (im_idx (sl_impl r)) l'); kd Hso Hst; [left|congruence|].
    left. exists t, s, l. rewrite Elog. apply elem_of_app. right. left.
  - (* unlock *) destruct (Hsec _ s (elem_of_list_here _ _) ltac:(reflexivity)) as (r0 & Ho & Hl).
    apply (KD_unlock _ _ _ _ _ s r0); kd Hso Hst.
  - (* remret *) apply (KD_unpin _ _ _ _ _ l); kd Hso Hst. one_more Htmp.
  - (* tmp *) apply (KD_unpin _ _ _ _ _ l); kd Hso Hst. one_more Htmp.
  - (* cmp true *) destruct (Hcrit _ s v (elem_of_list_further _ _ _ (elem_of_list_here _ _)) eq_refl) as (r0 & Ho & Hl & Hv). destruct (swap_pop_vecs _ _ _ _ H) as [E1 E2].
    apply (KD_take _ _ _ _ _ s r0 v (FEraseCmp s v tgt i n xs0) i l); kd Hso Hst; [right; left|congruence|].
    right. exists t, s. rewrite Elog. apply elem_of_app. right. left.
  - (* emitret *) apply (KD_drop _ _ _ _ _ v); kd Hso Hst.
    + do 2 eexists. split; [eauto|]. split; [right; left|]. cbn. rewrite bool_decide_true; auto.
    + intros v' Hn. rewrite Hown. unfold owns. cbn. rewrite bool_decide_false by auto. reflexivity.
Qed.
