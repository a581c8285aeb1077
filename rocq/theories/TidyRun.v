(** * Tidy clients never meet undefined behaviour: every step *)
From Verif Require Import Reach InvSlot InvDeath InvRem InvUse InvFault InvSig InvOp.
From Verif Require Export TidyStep.

Section tidy.
Context (e : env) (G : list thing) (caps : callable -> list thing) (ps : list prog).
Notation tidy := (tidy e G caps).
Notation owners := (thing -> option (tid * nat)).
Notation stk := (stk e G caps).
Notation fine := (fine e G caps).
Notation caps_ok := (caps_ok caps).
Notation world_ok := (world_ok G caps).

Lemma nothing_possible keep own o r : gained keep own o r = [] -> gained keep own o r = [] /\ possible keep own o r.
Proof. intros H. split; [exact H|]. unfold possible. destruct r; try exact I. rewrite H. intros th Hth. set_solver. Qed.
Section vcase.
Context (O : owners) (w w1 : world) (t : tid) (st : list frame) (own : list thing) (v : vop) (keep : bool) (x : vars) (a : role) (k : out -> prog) (b : acc).
Hypothesis Hcaps : forall c, Forall (fun th => linear th = false) (caps c).
Hypothesis Hwo : world_ok O w.
Hypothesis HT : sigs_there w.
Hypothesis Hst : stk O w t st b.
Hypothesis Hse : seated w a st b.
Hypothesis Hwf : wf O w t (length st) own.
Hypothesis Hok : vop_ok G caps own v.
Hypothesis Hk : forall r, possible keep own (OVar v) r -> tidy a (gained keep own (OVar v) r ++ left own (OVar v)) (k r).
Hypothesis Hx : vars_after (exec_vop w t v) = Some x.
Hypothesis Hv1 : w_vars w1 = x.
Hypothesis Hs1 : w_sigs w1 = w_sigs w.
Hypothesis Hsl : same_slots w w1.
Hypothesis Hln : length (w_slots w1) = length (w_slots w).
Hypothesis Hvec : vecs_same w w1 st.
Let O' : owners := give O w (Some (t, length st)).
Let K (l : lid) : Prop := slot_of O' w1 (Some (t, length st)) l.

Lemma vc_siglives s : signal_lives w s <-> signal_lives w1 s.
Proof. unfold signal_lives. rewrite Hs1. reflexivity. Qed.
Lemma vc_kept : kept O w w1 t (length st).
Proof.
  intros th Hl Ho. apply lives_iff in Hl as [Hl Hs]. apply lives_iff. rewrite Hv1. split.
  - eapply vop_vlives; [exact Hx|exact Hl|]. intros Hlo. apply Ho. eapply loses_own; eauto.
  - intros s H. apply vc_siglives. auto.
Qed.
Lemma vc_there k0 : there w k0 -> there w1 k0.
Proof. destruct (vop_there _ _ _ _ Hx) as (H1 & H2 & H3 & H4 & H5). destruct k0; cbn; rewrite ?Hs1, ?Hv1; try tauto; lia. Qed.
Lemma vc_stk : stk O' w1 t st b.
Proof. eapply (proj1 (mono e G caps O O' w w1 t t (length st) (give_agree _ _ _) vc_kept Hsl HT vc_there)); eauto. Qed.
Lemma vc_left : wf O' w1 t (length st) (left own (OVar v)).
Proof.
  intros th Hth. destruct (vop_left G caps w t v x own th Hok Hx) as (Hl & th' & Hin & Hkey & Hlin); [intros th' H'; apply (lives_iff w th'); apply Hwf; exact H'|exact Hth|].
  destruct (Hwf _ Hin) as [Hl' Ho']. split.
  - apply lives_iff. rewrite Hv1. split; [exact Hl|]. intros s Hs. apply vc_siglives.
    assert (E : key th' = TOwn s) by (rewrite Hkey; destruct Hs as [->| ->]; reflexivity). destruct th'; cbn in E; try discriminate; injection E as <-; exact Hl'.
  - unfold O'. rewrite (give_agree O w (Some (t, length st)) (key th)); [rewrite <- Hkey, <- Hlin; exact Ho'|]. rewrite <- Hkey. apply lives_there. exact Hl'.
Qed.
Lemma vc_wait : stk O' w1 t (FWait k :: st) (ANew (gained keep own (OVar v)) (possible keep own (OVar v)) (length st)).
Proof. econstructor; [exact vc_stk|eapply seated_mono; [exact Hvec|exact Hse]|exact vc_left|exact Hk]. Qed.
Lemma vc_gained o ef : exec_vop w t v = VOk x o ef -> wf O' w1 t (length st) (gained keep own (OVar v) o).
Proof.
  intros He th Hth. destruct (vop_gained w t v x o ef keep own th He) as [Hl Hn]; [|exact Hth|].
  { intros u Hu. apply (lives_iff w (TFull u)). apply Hwf. exact Hu. }
  assert (Hg : forall s, th <> TSig s /\ th <> TOwn s).
  { intros s. clear - Hth. split; intros ->; unfold gained in Hth; repeat case_match; apply elem_of_list_In in Hth; cbn in Hth; intuition discriminate. }
  split.
  - apply lives_iff. rewrite Hv1. split; [exact Hl|]. intros s [->| ->]; destruct (Hg s); congruence.
  - destruct Hn as [Hn|(u & _ & -> & Hu)].
    + unfold O'. rewrite give_new by exact Hn. destruct th; cbn; try reflexivity. destruct (Hg s) as [[] _]. reflexivity.
    + destruct (Hwf _ Hu) as [Hlu Hou]. cbn in *. unfold O'. rewrite (give_agree O w _ (TSlot u)); [exact Hou|]. exact (lives_there w (TSlot u) Hlu).
Qed.
Lemma vc_possible o ef : exec_vop w t v = VOk x o ef -> possible keep own (OVar v) o.
Proof.
  intros He. unfold possible. destruct o; try exact I. intros th Hth Hli Hk'.
  destruct (vop_gained w t v x _ ef keep own th He) as [_ Hn]; [|exact Hth|].
  { intros u Hu. apply (lives_iff w (TFull u)). apply Hwf. exact Hu. }
  destruct Hn as [Hn|(u & Hb & _)].
  - apply elem_of_list_fmap in Hk' as (th' & E & Hin). apply Hn. rewrite E. apply lives_there. apply Hwf. exact Hin.
  - rewrite Hb in Hth. inversion Hth.
Qed.
Lemma vc_knows c l : knows G own (TConn c) -> slot_of O' w1 (O' (TConn c)) l -> K l.
Proof.
  intros Hkn Hl. destruct (knows_lives _ _ _ _ _ _ _ _ Hwo Hwf Hkn) as [Hlv Ho]. eapply slot_of_less; [exact Hl|].
  unfold O'. rewrite (give_agree O w _ (TConn c)) by exact (lives_there w (TConn c) Hlv). exact Ho.
Qed.
Lemma vc_has th l : has own th -> linear th = true -> key th = th -> slot_of O' w1 (O' th) l <-> K l.
Proof.
  intros Hh Hli Hke. destruct (has_owned _ _ _ _ _ _ Hwf Hh Hli Hke) as [Hlv Ho]. unfold K, O'. rewrite (give_agree O w _ th); [rewrite Ho; reflexivity|].
  rewrite <- Hke. apply lives_there. exact Hlv.
Qed.
Lemma vc_conns c r l : v_conns (w_vars w) !! c = Some r -> cn_slot r = Some l -> slot_of O' w1 (O' (TConn c)) l.
Proof.
  intros Hc Hl. unfold O'. rewrite (give_agree O w _ (TConn c)) by (exact (lookup_lt_Some _ _ _ Hc)).
  eapply slot_of_mono; [apply give_agree|exact Hsl|exact HT|]. eapply (j_conns _ _ _ _ Hwo); eauto.
Qed.
Lemma vc_blks c r l : v_blks (w_vars w) !! c = Some r -> bk_slot r = Some l -> slot_of O' w1 (O' (TBlk c)) l.
Proof.
  intros Hc Hl. unfold O'. rewrite (give_agree O w _ (TBlk c)) by (exact (lookup_lt_Some _ _ _ Hc)).
  eapply slot_of_mono; [apply give_agree|exact Hsl|exact HT|]. eapply (j_blks _ _ _ _ Hwo); eauto.
Qed.
Let PC (c : nat) (l : lid) : Prop := slot_of O' w1 (O' (TConn c)) l.
Let PB (c : nat) (l : lid) : Prop := slot_of O' w1 (O' (TBlk c)) l.
Lemma vc_hasC c l : has own (TConn c) -> K l -> PC c l.
Proof. intros Hh. apply vc_has; auto. Qed.
Lemma vc_hasB c l : has own (TBlk c) -> K l -> PB c l.
Proof. intros Hh. apply vc_has; auto. Qed.
Lemma vc_hasB' c l : has own (TBlk c) -> PB c l -> K l.
Proof. intros Hh. apply vc_has; auto. Qed.
Lemma vc_newC (o : out) l : TConn (length (v_conns (w_vars w))) ∈ gained keep own (OVar v) o -> K l -> PC (length (v_conns (w_vars w))) l.
Proof. intros _ Hl. unfold PC, O'. rewrite give_new; [exact Hl|]. cbn. lia. Qed.
Lemma vc_newB (o : out) l : TBlk (length (v_blks (w_vars w))) ∈ gained keep own (OVar v) o -> K l -> PB (length (v_blks (w_vars w))) l.
Proof. intros _ Hl. unfold PB, O'. rewrite give_new; [exact Hl|]. cbn. lia. Qed.
Lemma vc_world : world_ok O' w1.
Proof.
  eapply (world_mono G caps O O' w w1 t (length st) (give_agree _ _ _) vc_kept Hsl); [exact Hwo| | | |].
  - intros l r Hl Hr. apply lookup_lt_Some in Hr. lia.
  - rewrite Hv1. eapply vop_us_ok; [exact Hx|exact (j_us _ _ _ _ Hwo)|]. intros c ->. cbn in Hok. intros th Hth.
    rewrite Forall_forall in Hok. eapply lends_ok; eauto. specialize (Hcaps c). rewrite Forall_forall in Hcaps. auto.
  - rewrite Hv1. exact (vop_conns_ok G caps w t own v keep PC PB K Hok vc_conns vc_knows vc_hasC vc_newC vc_newB x Hx).
  - rewrite Hv1. exact (vop_blks_ok G caps w t own v keep PC PB K Hok vc_conns vc_blks vc_knows vc_hasB' vc_hasB vc_newC vc_newB x Hx).
Qed.
Lemma vc_K_pinned l : K l -> pinned O' w1 t (S (length st)) l.
Proof. intros H. eapply slot_of_pinned; [exact H|lia]. Qed.
Lemma vc_eff o ef : exec_vop w t v = VOk x o ef ->
  match ef with EfNone => True | EfBlk l _ => K l | EfLog ev => forall l, held w ev = [FTmp l] -> K l end.
Proof.
  exact (vop_eff_ok G caps w t own v keep PC PB K Hok vc_conns vc_blks vc_knows vc_hasB' vc_hasB vc_newC vc_newB x o ef).
Qed.
Lemma vc_after l after : exec_vop w t v = VDo x l after -> pinned O' w1 t (length (after ++ FWait k :: st)) l /\ exists b', stk O' w1 t (after ++ FWait k :: st) b' /\ open b'.
Proof.
  intros He. destruct (vop_do_ok G caps w t own v keep PC PB K Hok vc_conns vc_knows vc_newC vc_newB x l after He) as [Hl Haf].
  assert (Hg : forall r, gained keep own (OVar v) r = [] /\ possible keep own (OVar v) r).
  { intros r. apply nothing_possible. eapply vop_do_gained; eauto. }
  assert (Hlv : forall c, has own (TConn c) -> there w1 (TConn c) /\ O' (TConn c) = Some (t, length st)).
  { intros c Hh. destruct (has_owned _ _ _ _ _ _ Hwf Hh eq_refl eq_refl) as [H1 H2]. pose proof (lives_there w (TConn c) H1) as H3. split; [apply vc_there; exact H3|].
    unfold O'. rewrite (give_agree O w _ (TConn c) H3). exact H2. }
  split; [eapply slot_of_pinned; [exact Hl|]; rewrite app_length; cbn; lia|].
  destruct Haf as [->|(f & -> & Hf)].
  - exists (ANew (gained keep own (OVar v)) (possible keep own (OVar v)) (length st)). split; [exact vc_wait|exact Hg].
  - exists AAll. split; [|exact I]. destruct Hf as [(d & m & -> & Hd & Hdl & Hm)|[(d & s & -> & Hd & Hs & Hdl & Hsl')| ->]]; cbn [app].
    + destruct (Hlv _ Hd). eapply S_assign; [exact vc_wait|exact Hg| | |]; auto.
    + destruct (Hlv _ Hd), (Hlv _ Hs). eapply S_assignmv; [exact vc_wait|exact Hg| | | |]; auto.
    + eapply S_unit; [exact vc_wait|exact Hg].
Qed.
End vcase.
End tidy.
