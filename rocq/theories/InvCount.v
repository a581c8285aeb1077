(** * Counting: successful disconnects, calls and returns, deaths *)
From Verif Require Export InvSeq.

Lemma ecount_cons f ev log : ecount f (ev :: log) = (if f ev then 1 else 0) + ecount f log.
Proof. unfold ecount. rewrite filter_cons. destruct (f ev); reflexivity. Qed.
Lemma ecount_app f a b : ecount f (a ++ b) = ecount f a + ecount f b.
Proof. unfold ecount. rewrite filter_app, app_length. reflexivity. Qed.
Lemma ecount_dead f L : deadish L -> (forall l, f (ESlotDead l) = false) -> (forall o, f (EObjDead o) = false) -> ecount f L = 0.
Proof.
  intros HL H1 H2. induction HL as [|ev L [[l ->]|[o ->]] _ IH]; [reflexivity|rewrite ecount_cons, H1; auto|rewrite ecount_cons, H2; auto].
Qed.
Lemma ecount_zero f log : ecount f log = 0 <-> forall ev, ev ∈ log -> f ev = false.
Proof.
  induction log as [|ev log IH].
  - split; [intros _ ev Hev; inversion Hev|reflexivity].
  - rewrite ecount_cons. split.
    + intros H ev' Hev. destruct (f ev) eqn:He; [lia|]. apply elem_of_cons in Hev as [->|Hev]; [auto|]. apply IH; auto.
    + intros H. rewrite (H ev) by apply elem_of_list_here. apply IH. intros. apply H. apply elem_of_list_further. auto.
Qed.

Definition rr (l : lid) (f : frame) : nat :=
  match f with FRemRet l' => if decide (l' = l) then 1 else 0 | _ => 0 end.
Definition b2n (b : bool) : nat := if b then 1 else 0.

Definition I_once (w : world) : Prop :=
  forall l, ecount (is_disc_true l) (w_log w) + wt (rr l) (w_thr w) + b2n (spec_flag (w_log w) l) <= 1.

Lemma rr_varish l f : varish f -> rr l f = 0.
Proof. destruct f; cbn; tauto || reflexivity. Qed.

Lemma fresh_frames e ps w l (f : frame -> nat) : reachable e ps w -> length (w_slots w) <= l ->
  (forall x, l ∉ fr_slots x -> f x = 0) -> wt f (w_thr w) = 0.
Proof.
  intros Hr Hl Hf. apply wt_zero. intros t st Ht. apply swt_zero. intros x Hx. apply Hf.
  destruct (I_hb_inv _ _ _ Hr) as (_ & HA & _). specialize (HA _ _ Ht). rewrite Forall_forall in HA. specialize (HA _ Hx).
  intros Hin. unfold below in HA. rewrite Forall_forall in HA. specialize (HA _ Hin). lia.
Qed.

Lemma flag_dead L log l : deadish L -> spec_flag (L ++ log) l = spec_flag log l.
Proof. intros HL. induction HL as [|ev L [[x ->]|[o ->]] _ IH]; cbn; auto. Qed.

Lemma fresh_flag e ps w l : reachable e ps w -> length (w_slots w) <= l -> spec_flag (w_log w) l = false.
Proof.
  intros Hr Hl. destruct (spec_flag (w_log w) l) eqn:Hf; [|reflexivity]. exfalso.
  assert (Hk : exists ev, ev ∈ w_log w /\ l ∈ ev_slots ev).
  { revert Hf. generalize (w_log w). induction l0 as [|ev log IH]; cbn; [discriminate|]. intros H.
    assert (Hi : spec_flag log l = true -> exists ev', ev' ∈ ev :: log /\ l ∈ ev_slots ev').
    { intros H'. destruct (IH H') as (ev' & Hin & Hl'). exists ev'. split; [apply elem_of_list_further|]; auto. }
    destruct ev; auto; case_decide; auto; subst; try discriminate.
    eexists. split; [apply elem_of_list_here|apply elem_of_list_here]. }
  destruct Hk as (ev & Hin & Hl'). eapply fresh_log; eauto.
Qed.

Lemma I_once_inv e ps w : reachable e ps w -> I_once w.
Proof.
  apply reach_ind2.
  - intros l. cbn [w_log init]. assert (wt (rr l) (w_thr (init ps)) = 0) as ->.
    { apply wt_zero. intros t st Ht. cbn in Ht. rewrite list_lookup_fmap in Ht. destruct (ps !! t); cbn in Ht; simplify_eq. reflexivity. }
    cbn. lia.
  - clear w. intros w t st w' st' Hr HI Ht Htr l. specialize (HI l). wcbn.
    pose proof (wt_insert (rr l) _ _ _ st' Ht) as Hwt. rewrite (trans_thr _ _ _ _ _ _ Htr).
    pose proof (wt_ge (rr l) _ _ _ Ht) as Hge.
    enough (Hgoal : ecount (is_disc_true l) (w_log w') + swt (rr l) st' + b2n (spec_flag (w_log w') l) <=
      ecount (is_disc_true l) (w_log w) + swt (rr l) st + b2n (spec_flag (w_log w) l) \/
      (length (w_slots w) <= l /\ ecount (is_disc_true l) (w_log w') = ecount (is_disc_true l) (w_log w) /\ swt (rr l) st' = swt (rr l) st)).
    { destruct Hgoal as [|(Hl & -> & Heq)]; [lia|].
      assert (wt (rr l) (w_thr w) = 0) as Hz.
      { eapply fresh_frames; eauto. intros x Hx. destruct x; cbn in *; auto. case_decide; auto. subst. exfalso. apply Hx. apply elem_of_list_here. }
      assert (ecount (is_disc_true l) (w_log w) = 0) as ->.
      { apply ecount_zero. intros ev Hev. pose proof (fresh_log _ _ _ _ _ Hr Hl Hev) as Hf.
        destruct ev; cbn in *; auto. destruct b; auto. apply bool_decide_eq_false. intros ->. apply Hf. apply elem_of_list_here. }
      pose proof (wt_ge (rr l) (<[t:=st']> (w_thr w)) t st'). rewrite list_lookup_insert in H by (eapply lookup_lt_Some; eauto).
      specialize (H eq_refl). assert (swt (rr l) st = 0) by lia.
      destruct (spec_flag (w_log w') l); cbn; lia. }
    clear Hge Hwt HI Ht.
    destruct Htr; wcbn; autorewrite with wsimp; rewrite ?ecount_cons; repeat first [rewrite swt_app | rewrite swt_cons]; cbn [is_disc_true rr spec_flag]; try (left; lia).
    + left. apply vop_ev in H as [(?&->&?)|[(?&->&?)|[(?&->&?)|[(?&->&?)|(?&->&?)]]]]; cbn [spec_flag is_disc_true]; lia.
    + left. apply vop_ev in H as [(?&->&?)|[(?&->&?)|[(?&->&?)|[(?&->&?)|(?&->&?)]]]]; cbn [spec_flag is_disc_true]; lia.
    + left. rewrite (swt_varish _ after); [lia|eapply vop_after; eauto|apply rr_varish].
    + left. rewrite (swt_varish _ after); [lia|eapply vop_after; eauto|apply rr_varish].
    + left. rewrite (swt_varish _ fr); [lia|eapply begins_fr; eauto|apply rr_varish].
    + left. destruct (cc_log w r) as [->|(l0 & i0 & _ & _ & _ & ->)]; rewrite ?ecount_cons; cbn [is_disc_true spec_flag]; [lia|].
      case_decide; cbn; lia.
    + left. destruct (I_fields_inv _ _ _ Hr _ _ H) as (_ & Hc & _). case_decide; [subst|lia]. rewrite <- Hc, H0. cbn. lia.
    + case_decide; [|left; lia]. right. subst. split; [lia|]. split; lia.
    + left. case_bool_decide; case_decide; congruence || lia.
  - clear w. intros w t st D L HI Ht HD HL l. specialize (HI l). wcbn.
    pose proof (wt_insert (rr l) _ _ _ (D ++ st) Ht) as Hwt. rewrite swt_app, (swt_dtorish _ D HD) in Hwt by reflexivity.
    rewrite ecount_app, (ecount_dead _ L HL), flag_dead by (auto; reflexivity). lia.
Qed.

Lemma disc_once e ps w l : reachable e ps w -> ecount (is_disc_true l) (w_log w) <= 1.
Proof. intros Hr. pose proof (I_once_inv _ _ _ Hr l). lia. Qed.
