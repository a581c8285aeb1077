(** * Slots: fields, lifetime *)
From Verif Require Export InvStack.

(** ** The list an emission walks over does not change *)
Lemma trans_vec_emit e ps w t st w' st' v :
  reachable e ps w -> w_thr w !! t = Some st -> trans e w t st w' st' ->
  wt (emits v) (w_thr w) <> 0 -> w_vecs w' !! v = w_vecs w !! v.
Proof.
  intros Hr Ht Htr Hv.
  pose proof (I_crit_inv _ _ _ Hr) as HC. pose proof (I_bound_inv _ _ _ Hr) as (_ & HB & _).
  assert (Hlt : v < length (w_vecs w)).
  { destruct (decide (v < length (w_vecs w))) as [|Hge]; [auto|]. exfalso. apply Hv. apply wt_zero.
    intros t0 x Hx. apply swt_zero. intros f Hf. unfold emits. destruct (frame_owns v f) eqn:Ho; [|reflexivity].
    exfalso. apply Hge. pose proof (HB _ _ Hx) as HF. rewrite Forall_forall in HF. specialize (HF _ Hf).
    destruct f; cbn in Ho; try discriminate. apply bool_decide_eq_true in Ho. subst. exact HF. }
  assert (Hno : forall f s v0, f ∈ st -> crit_vec f = Some (s, v0) -> v0 <> v).
  { intros f s v0 Hf Hc ->. pose proof (HC _ _ Ht) as HF. rewrite Forall_forall in HF. specialize (HF _ Hf).
    unfold fr_crit in HF. rewrite Hc in HF. destruct HF; auto. }
  destruct Htr; wcbn; autorewrite with wsimp; try reflexivity.
  - rewrite lookup_app_l by auto. reflexivity.
  - rewrite lookup_app_l by auto. reflexivity.
  - rewrite list_lookup_insert_ne; [reflexivity|]. eapply Hno; [apply elem_of_list_here|reflexivity].
  - erewrite dsp_vecs by eauto. rewrite list_lookup_insert_ne; [reflexivity|].
    eapply Hno; [apply elem_of_list_here|reflexivity].
  - erewrite dsp_vecs by eauto. rewrite list_lookup_insert_ne; [reflexivity|].
    eapply (Hno (FEraseCmp s v0 tgt i n xs0)); [apply elem_of_list_further, elem_of_list_here|reflexivity].
Qed.

Lemma emit_in w t st s eid v a :
  w_thr w !! t = Some st -> FEmit s eid v a ∈ st -> wt (emits v) (w_thr w) <> 0.
Proof.
  intros Ht Hf. pose proof (wt_ge (emits v) _ _ _ Ht) as H1.
  pose proof (swt_elem (emits v) _ _ Hf) as H2. unfold emits at 1 in H2. cbn in H2.
  rewrite bool_decide_true in H2 by auto. lia.
Qed.

Lemma emit_vec e ps w t st w' st' t0 st0 s eid v a :
  reachable e ps w -> w_thr w !! t = Some st -> trans e w t st w' st' ->
  w_thr w !! t0 = Some st0 -> FEmit s eid v a ∈ st0 -> vec_of w' v = vec_of w v.
Proof.
  intros Hr Ht Htr Ht0 Hf. unfold vec_of.
  rewrite (trans_vec_emit e ps w t st w' st' v); eauto using emit_in.
Qed.

(** ** Lifetime of slots *)
Lemma slot_alive_iff w l :
  slot_alive w l = true <->
  (exists s r v, w_sigs w !! s = Some r /\ sg_alive r = true /\ sg_vec r = Some v /\ l ∈ vec_of w v) \/
  (exists t st f, w_thr w !! t = Some st /\ f ∈ st /\ frame_keeps w l f = true).
Proof.
  unfold slot_alive. rewrite orb_true_iff. f_equiv.
  - rewrite existsb_exists. split.
    + intros (r & Hin & Hk). apply elem_of_list_In in Hin. apply elem_of_list_lookup in Hin as [s Hs].
      unfold sig_keeps in Hk. apply andb_true_iff in Hk as [Ha Hk].
      destruct (sg_vec r) as [v|] eqn:Hv; [|discriminate]. apply bool_decide_eq_true in Hk. eauto 10.
    + intros (s & r & v & Hs & Ha & Hv & Hl). exists r. split.
      * apply elem_of_list_In. eapply elem_of_list_lookup_2; eauto.
      * unfold sig_keeps. rewrite Ha, Hv, bool_decide_true by auto. reflexivity.
  - rewrite existsb_exists. split.
    + intros (st & Hin & Hk). apply elem_of_list_In in Hin. apply elem_of_list_lookup in Hin as [t Ht].
      apply existsb_exists in Hk as (f & Hf & Hk). apply elem_of_list_In in Hf. eauto 10.
    + intros (t & st & f & Ht & Hf & Hk). exists st. split.
      * apply elem_of_list_In. eapply elem_of_list_lookup_2; eauto.
      * apply existsb_exists. exists f. split; [|auto]. apply elem_of_list_In. auto.
Qed.

Lemma alive_reap w t st D L l :
  w_thr w !! t = Some st -> dtorish D ->
  slot_alive (w_add_events (w_set_stack w t (D ++ st)) L) l = slot_alive w l.
Proof.
  intros Ht HD. apply eq_bool_prop_intro. rewrite !Is_true_true, !slot_alive_iff. apply or_iff_compat_l. split.
  - intros (t0 & x & f & Hx & Hf & Hk). wcbn_in Hx.
    destruct (thr_upd _ _ _ _ _ _ Ht Hx) as [[-> ->]|[Hn Hx']]; [|eauto 10].
    apply elem_of_app in Hf as [Hf|Hf]; [|eauto 10].
    unfold dtorish in HD. rewrite Forall_forall in HD. destruct (HD _ Hf) as [[? ->]|[p ->]]; discriminate.
  - intros (t0 & x & f & Hx & Hf & Hk). destruct (decide (t0 = t)) as [->|Hn].
    + exists t, (D ++ st), f. wcbn. rewrite list_lookup_insert by (eapply lookup_lt_Some; eauto).
      simplify_eq. split; [auto|]. split; [apply elem_of_app; auto|]. destruct f; exact Hk.
    + exists t0, x, f. wcbn. rewrite list_lookup_insert_ne by auto. split; [auto|]. split; [auto|].
      destruct f; exact Hk.
Qed.

(** A slot does not come back to life. *)
Lemma trans_alive e ps w t st w' st' l :
  reachable e ps w -> w_thr w !! t = Some st -> trans e w t st w' st' ->
  slot_alive (mid w' t st') l = true ->
  slot_alive w l = true \/
  (l = length (w_slots w) /\ length (w_slots w') = S (length (w_slots w))).
Proof.
  intros Hr Ht Htr.
  pose proof (I_bound_inv _ _ _ Hr) as (Hb1 & Hb2 & Hb3 & Hb4).
  pose proof (I_lock_inv _ _ _ Hr) as HL.
  pose proof (I_crit_inv _ _ _ Hr) as HC.
  assert (Hlk : forall s k st0 r, st = FWrite s k :: st0 -> w_sigs w !! s = Some r -> sg_alive r = true).
  { intros s k st0 r -> Hs. destruct (hold_unique _ _ _ _ s HL Ht) as (_ & _ & r0 & Hr0 & Hl0);
      [cbn; rewrite decide_True by auto; reflexivity|]. simplify_eq. eauto. }
  assert (Hsig : forall s r v, w_sigs w !! s = Some r -> sg_alive r = true -> sg_vec r = Some v ->
      l ∈ vec_of w v -> slot_alive w l = true).
  { intros. apply slot_alive_iff. left; eauto 10. }
  pose proof (trans_thr _ _ _ _ _ _ Htr) as Hthr.
  rewrite slot_alive_iff. intros [(s & r & v & Hs & Ha & Hv & Hl)|(t0 & x & f & Hx & Hf & Hk)].
  - wcbn_in Hs. rewrite (vec_of_ext w') in Hl by reflexivity.
    assert (Hold : forall r0, w_sigs w !! s = Some r0 -> sg_alive r0 = true -> sg_vec r0 = Some v ->
      slot_alive w l = true \/ (l = length (w_slots w) /\ length (w_slots w') = S (length (w_slots w)))).
    { intros r0 Hr0 Ha0 Hv0. apply vec_of_lookup in Hl as (xs & Hxs & _ & Hin).
      destruct (trans_vecs _ _ _ _ _ _ _ _ _ Hr Ht Htr Hxs) as [Ho| -> -> |v0 -> -> |s0 Ho -> Hlen|s0 i x Ho Hi ->].
      - left. eapply Hsig; eauto. unfold vec_of. rewrite Ho. exact Hin.
      - inversion Hin.
      - pose proof (Hb1 _ _ _ Hr0 Hv0). lia.
      - apply elem_of_app in Hin as [Hin|Hin]; [eauto|]. apply elem_of_list_singleton in Hin. auto.
      - left. eapply Hsig; eauto. pose proof (I_list_inv _ _ _ Hr) as (H1 & _).
        assert (Hnd : NoDup (vec_of w v)).
        { unfold vec_of. destruct (w_vecs w !! v) as [ys|] eqn:Hys; cbn; [eapply H1; eauto|constructor]. }
        apply (swap_pop_elem _ _ _ _ Hnd Hi) in Hin as [? _]. auto. }
    destruct (trans_sigs _ _ _ _ _ _ _ _ Htr Hs) as
      [r0 Hr0|r0 k st0 He Hr0 Hl0 Hal|r0 k st0 He Hr0 Hl0 Hal|r0 st0 He Hr0|r0 a st0 He Hr0|r0 o st0 He Hr0
      |r0 k v0 st0 He Hr0 Hk Hv0 Hvec Hsl Hlog|c k st0 He He2 Hvec|s0 r0 st0 He He2 Hr0 Hr0' Hvec]; cbn in Ha, Hv;
      try discriminate; eauto.
    + left. simplify_eq. erewrite (vec_of_snoc_new w w') in Hl by eauto. eauto.
    + simplify_eq. erewrite (vec_of_snoc_new w w') in Hl by eauto. inversion Hl.
    + left. rewrite (vec_of_ext w w') in Hl by auto. eauto.
  - wcbn_in Hx. rewrite Hthr in Hx.
    assert (Hkeep : forall t1 st1 g, w_thr w !! t1 = Some st1 -> g ∈ st1 -> frame_keeps (mid w' t st') l g = true ->
       slot_alive w l = true).
    { intros t1 st1 g Ht1 Hg Hgk. apply slot_alive_iff. right. exists t1, st1, g. split; [auto|]. split; [auto|].
      destruct g; try exact Hgk. cbn in Hgk |- *. rewrite (vec_of_ext w') in Hgk by reflexivity.
      rewrite (emit_vec e ps w t st w' st' t1 st1 _ _ _ _ Hr Ht Htr Ht1 Hg) in Hgk. exact Hgk. }
    destruct (thr_upd _ _ _ _ _ _ Ht Hx) as [[-> ->]|[Hn Hx']]; [|eauto].
    left. clear Hx.
    assert (Hkeep' : f ∈ st -> slot_alive w l = true) by eauto.
    assert (Hpin : forall g, g ∈ st -> frame_pins l g = true -> slot_alive w l = true).
    { intros g Hg Hp. apply slot_alive_iff. right. exists t, st, g. split; [auto|]. split; [auto|]. destruct g; try discriminate; exact Hp. }
    assert (Hem : forall s eid v a a', FEmit s eid v a ∈ st -> frame_keeps (mid w' t st') l (FEmit s eid v a') = true -> slot_alive w l = true).
    { intros s eid v a a' Hin Hkk. apply (Hkeep t st (FEmit s eid v a)); auto. }
    destruct Htr; rewrite ?elem_of_cons, ?elem_of_app, ?elem_of_cons in Hf; destruct_or?; subst;
      cbn in Hk; try discriminate;
      try (apply Hkeep'; rewrite ?elem_of_cons; auto 10; fail).
    + apply bool_decide_eq_true in Hk. subst. eapply blk_alive; eauto.
    + apply bool_decide_eq_true in Hk. subst. eapply tmp_alive; eauto.
    + apply bool_decide_eq_true in Hk. subst. assumption.
    + exfalso. match goal with H : exec_vop _ _ _ = _, Hf : f ∈ _ |- _ => apply vop_after in H; rewrite Forall_forall in H; specialize (H _ Hf); destruct f; contradiction || discriminate end.
    + exfalso. match goal with H : exec_vop _ _ _ = _, Hf : f ∈ _ |- _ => apply vop_after in H; rewrite Forall_forall in H; specialize (H _ Hf); destruct f; contradiction || discriminate end.
    + exfalso. match goal with H : begins _ _ _ _ _, Hf : f ∈ _ |- _ => apply begins_fr in H; rewrite Forall_forall in H; specialize (H _ Hf); destruct f; contradiction || discriminate end.
    + eapply Hpin; [apply elem_of_list_here|exact Hk].
    + apply bool_decide_eq_true in Hk. match goal with H : w_sigs w !! s = Some r, H' : sg_vec r = Some v |- _ => eapply (Hsig s r v); eauto end.
    + eapply (Hem s eid v args args'); [|exact Hk]. apply elem_of_list_further, elem_of_list_further, elem_of_list_here.
Qed.

Lemma trans_spec_alive e w t st w' st' l :
  trans e w t st w' st' ->
  (length (w_slots w') = length (w_slots w) /\ spec_alive (w_log w') l = spec_alive (w_log w) l) \/
  (length (w_slots w') = S (length (w_slots w)) /\
   spec_alive (w_log w') l = if decide (length (w_slots w) = l) then true else spec_alive (w_log w) l).
Proof.
  intros Htr. destruct Htr; wcbn; autorewrite with wsimp; rewrite ?alter_length; try (left; split; reflexivity).
  - left. split; [reflexivity|]. apply vop_ev in H. naive_solver.
  - left. split; [reflexivity|]. apply vop_ev in H. naive_solver.
  - left. split; [reflexivity|]. cbn. destruct (cc_log w r) as [->|(l0 & i0 & _ & _ & _ & ->)]; reflexivity.
  - right. rewrite app_length. cbn. split; [lia|reflexivity].
Qed.

Lemma spec_alive_reap L0 os ds log l :
  L0 = map EObjDead os ++ map ESlotDead ds ->
  spec_alive (L0 ++ log) l = if decide (l ∈ ds) then false else spec_alive log l.
Proof.
  intros ->. rewrite <- app_assoc. induction os as [|o os IH]; cbn; [|exact IH].
  induction ds as [|d ds IH]; cbn.
  - rewrite decide_False; [reflexivity|]. intros H; inversion H.
  - rewrite IH. destruct (decide (d = l)) as [->|Hn].
    + rewrite decide_True by apply elem_of_list_here. reflexivity.
    + destruct (decide (l ∈ ds)) as [Hi|Hi].
      * rewrite decide_True by (apply elem_of_list_further; auto). reflexivity.
      * rewrite decide_False; [reflexivity|]. intros Hx. apply elem_of_cons in Hx as [?|?]; auto.
Qed.

Lemma dead_slots_elem w w' l :
  l ∈ dead_slots w w' <-> slot_alive w l = true /\ slot_alive w' l = false /\ l < length (w_slots w).
Proof.
  unfold dead_slots. rewrite elem_of_list_filter, elem_of_list_In, in_seq, Is_true_true, andb_true_iff, negb_true_iff.
  intuition lia.
Qed.

Lemma reap_set w' t st' D :
  w_set_stack w' t (D ++ st') = w_set_stack (mid w' t st') t (D ++ st').
Proof. unfold w_set_stack, mid, w_set_stack, w_set_thr. cbn. rewrite list_insert_insert. reflexivity. Qed.

Definition I_alive (w : world) : Prop :=
  (forall l, slot_alive w l = spec_alive (w_log w) l) /\
  (forall l, slot_alive w l = true -> l < length (w_slots w)).

Lemma I_alive_inv e ps w : reachable e ps w -> I_alive w.
Proof.
  apply reach_ind.
  - split; intros l; [|intros H]; cbn.
    + apply not_true_is_false. intros H. apply slot_alive_iff in H as [(s & r & v & Hs & _)|(t & st & f & Ht & Hf & Hk)]; [discriminate|].
      cbn in Ht. rewrite list_lookup_fmap in Ht. destruct (ps !! t); cbn in Ht; simplify_eq.
      apply elem_of_list_singleton in Hf as ->. discriminate.
    + exfalso. apply slot_alive_iff in H as [(s & r & v & Hs & _)|(t & st & f & Ht & Hf & Hk)]; [discriminate|].
      cbn in Ht. rewrite list_lookup_fmap in Ht. destruct (ps !! t); cbn in Ht; simplify_eq.
      apply elem_of_list_singleton in Hf as ->. discriminate.
  - clear w. intros w t st w' st' Hr [H1 H2] Ht Htr _.
    destruct (reap_spec e w w' t st') as (D & L & HD & HL & -> & _ & HLe).
    pose proof (trans_thr _ _ _ _ _ _ Htr) as Hthr.
    assert (Hm : w_thr (mid w' t st') !! t = Some st').
    { wcbn. rewrite Hthr. apply list_lookup_insert. eapply lookup_lt_Some; eauto. }
    rewrite reap_set.
    assert (Hal : forall l, slot_alive (w_add_events (w_set_stack (mid w' t st') t (D ++ st')) L) l = slot_alive (mid w' t st') l)
      by (intros; eapply alive_reap; eauto).
    assert (Hlog : forall l, spec_alive (w_log (w_add_events (w_set_stack (mid w' t st') t (D ++ st')) L)) l =
       if decide (l ∈ dead_slots w (mid w' t st')) then false else spec_alive (w_log w') l)
      by (intros; eapply spec_alive_reap; eauto).
    pose proof (trans_alive _ _ _ _ _ _ _ : forall l, reachable e ps w -> w_thr w !! t = Some st -> trans e w t st w' st' -> _) as HT.
    split; intros l.
    + rewrite Hal, Hlog. destruct (decide (l ∈ _)) as [Hd|Hd].
      * apply dead_slots_elem in Hd. tauto.
      * rewrite dead_slots_elem in Hd.
        destruct (trans_spec_alive _ _ _ _ _ _ l Htr) as [[Hlen ->]|[Hlen ->]].
        -- rewrite <- H1. destruct (slot_alive w l) eqn:Hw.
           ++ destruct (slot_alive (mid w' t st') l) eqn:Hw'; [auto|]. exfalso. apply Hd. auto.
           ++ apply not_true_is_false. intros Hw'. destruct (HT l Hr Ht Htr Hw') as [?|[_ ?]]; [congruence|lia].
        -- case_decide as Hl.
           ++ subst l. destruct (trans_cur _ _ _ _ _ _ _ Hr Ht Htr) as
                [_ _ _ Hl|s1 st0 _ _ _ _ Hsl|s1 v1 i st0 -> Ho _ _ Hsl|s1 v1 i l x _ _ _ _ (y & _ & Hsl)];
                [lia|rewrite Hsl in Hlen; lia| |rewrite Hsl, alter_length in Hlen; lia].
              apply slot_alive_iff. left. inversion Htr; subst; [wcbn_in Hlen; lia|].
              destruct Ho as (r & Hs & Ha & Hv). exists s1, r, v1. wcbn. split; [auto|]. split; [auto|]. split; [auto|].
              unfold vec_of. wcbn. rewrite list_lookup_insert.
              ** cbn. apply elem_of_app. right. apply elem_of_list_here.
              ** pose proof (I_bound_inv _ _ _ Hr) as (Hb1 & _). eauto.
           ++ rewrite <- H1. destruct (slot_alive w l) eqn:Hw.
              ** destruct (slot_alive (mid w' t st') l) eqn:Hw'; [auto|]. exfalso. apply Hd. auto.
              ** apply not_true_is_false. intros Hw'. destruct (HT l Hr Ht Htr Hw') as [?|[? _]]; congruence.
    + rewrite Hal. intros Hw'. wcbn.
      destruct (HT l Hr Ht Htr Hw') as [Hw|[-> Hlen]]; [|lia].
      pose proof (trans_slots_len _ _ _ _ _ _ Htr). specialize (H2 _ Hw). lia.
Qed.
