(** * Calls in progress, and the death of slots and objects *)
From Verif Require Export InvCount.

(** ** An emission's iterator refers to the list of the emission *)
Definition deref_ok (w : world) (f : frame) (r : list frame) : Prop :=
  match f, r with
  | FDeref _ pos l, FEmit _ _ v _ :: _ => vec_of w v !! pos = Some l
  | _, _ => True
  end.
Definition I_deref (w : world) : Prop := forall t st, w_thr w !! t = Some st -> AT (deref_ok w) st.

Lemma AT_dtorish_gen (P : frame -> list frame -> Prop) D st :
  dtorish D -> (forall d r, P (FDtor d) r) -> (forall p r, P (FProg p) r) -> AT P st -> AT P (D ++ st).
Proof. intros HD H1 H2 HA. induction HD as [|f D [[? ->]|[p ->]] _ IH]; cbn; auto. Qed.

Lemma AT_in_impl (P Q : frame -> list frame -> Prop) st :
  (forall f r a, st = a ++ f :: r -> P f r -> Q f r) -> AT P st -> AT Q st.
Proof.
  induction st as [|f r IH]; cbn; [auto|]. intros H [Hf Hr]. split; [apply (H f r []); auto|].
  apply IH; [|auto]. intros g r' a -> HP. apply (H g r' (f :: a)); auto.
Qed.

Lemma AT_app P a b : AT P (a ++ b) -> AT P b.
Proof. induction a as [|x a IH]; cbn; [auto|]. intros [_ H]. auto. Qed.

Lemma I_deref_inv e ps w : reachable e ps w -> I_deref w.
Proof.
  apply reach_ind2.
  - intros t st Ht. cbn in Ht. rewrite list_lookup_fmap in Ht. destruct (ps !! t); cbn in Ht; simplify_eq. cbn. auto.
  - clear w. intros w t st w' st' Hr HI Ht Htr t' x Hx. wcbn_in Hx. rewrite (trans_thr _ _ _ _ _ _ Htr) in Hx.
    assert (Hst : forall t0 st0, w_thr w !! t0 = Some st0 -> AT (deref_ok w') st0).
    { intros t0 st0 Ht0. eapply AT_in_impl; [|exact (HI _ _ Ht0)]. intros f r a Heq. unfold deref_ok.
      destruct f; auto. destruct r as [|[] r]; auto.
      erewrite (emit_vec e ps w t st w' st' t0 st0); eauto. subst st0.
      apply elem_of_app. right. apply elem_of_list_further, elem_of_list_here. }
    assert (Hext : forall st0, AT (deref_ok w') st0 -> AT (deref_ok (mid w' t st')) st0).
    { intros st0. apply AT_impl. intros f r. destruct f; auto. }
    apply Hext. destruct (thr_upd _ _ _ _ _ _ Ht Hx) as [[-> ->]|[Hn Hx']]; [|eauto].
    specialize (Hst _ _ Ht). clear Hx Hext HI. destruct (I_adj_inv _ _ _ Hr _ _ Ht) as [HA _].
    destruct Htr; cbn [AT deref_ok adj] in *; destruct_and?; repeat (match goal with |- _ /\ _ => split end); auto.
    + destruct (vop_after' _ _ _ _ _ _ H) as [->|[(d & m & ->)|[(d & s & ->)| ->]]]; cbn; auto.
    + destruct (vop_after' _ _ _ _ _ _ H) as [->|[(d & m & ->)|[(d & s & ->)| ->]]]; cbn; auto.
    + destruct H; cbn; auto.
  - clear w. intros w t st D L HI Ht HD HL t' x Hx. wcbn_in Hx.
    assert (Hext : forall st0, AT (deref_ok w) st0 -> AT (deref_ok (w_add_events (w_set_stack w t (D ++ st)) L)) st0).
    { intros st0. apply AT_impl. intros f r. destruct f; auto. }
    apply Hext. destruct (thr_upd _ _ _ _ _ _ Ht Hx) as [[-> ->]|[Hn Hx']]; [|eauto].
    apply AT_dtorish_gen; eauto; intros; exact I.
Qed.

(** A slot that is being called is alive. *)
Lemma slot_frame_alive e ps w t st l g args pin eid start :
  reachable e ps w -> w_thr w !! t = Some st -> FSlot (RSlot l) g args pin eid start ∈ st -> slot_alive w l = true.
Proof.
  intros Hr Ht Hin. apply elem_of_list_split in Hin as (a & b & ->).
  destruct (I_adj_inv _ _ _ Hr _ _ Ht) as [HA _]. pose proof (I_deref_inv _ _ _ Hr _ _ Ht) as HD.
  apply AT_app in HA as [HA _]. cbn in HA. destruct eid; [|contradiction]. destruct b as [|[] b]; try contradiction.
  destruct b as [|[] b]; try contradiction. destruct HA as [-> ->].
  apply AT_app in HD as [_ [HD _]]. cbn in HD.
  apply slot_alive_iff. right. eexists _, _, (FEmit _ _ _ _). split; [exact Ht|]. split.
  - apply elem_of_app. right. do 2 apply elem_of_list_further. apply elem_of_list_here.
  - cbn. apply bool_decide_eq_true. eapply elem_of_list_lookup_2; eauto.
Qed.

(** ** Calls and returns *)

Definition running (r : slotref) (f : frame) : nat :=
  match f with FSlot r' SRun _ _ _ _ => if decide (r' = r) then 1 else 0 | _ => 0 end.

Definition I_run (w : world) : Prop :=
  forall r, ecount (is_call r) (w_log w) = ecount (is_ret r) (w_log w) + wt (running r) (w_thr w).

Lemma running_varish r f : varish f -> running r f = 0.
Proof. destruct f; cbn; tauto || reflexivity. Qed.

Lemma I_run_inv e ps w : reachable e ps w -> I_run w.
Proof.
  apply reach_ind2.
  - intros r. cbn [w_log init]. assert (wt (running r) (w_thr (init ps)) = 0) as ->; [|reflexivity].
    apply wt_zero. intros t st Ht. cbn in Ht. rewrite list_lookup_fmap in Ht. destruct (ps !! t); cbn in Ht; simplify_eq. reflexivity.
  - clear w. intros w t st w' st' Hr HI Ht Htr r0. specialize (HI r0). wcbn.
    destruct (I_adj_inv _ _ _ Hr _ _ Ht) as [_ Hact].
    pose proof (wt_insert (running r0) _ _ _ st' Ht) as Hwt. rewrite (trans_thr _ _ _ _ _ _ Htr).
    enough (Hgoal : ecount (is_call r0) (w_log w') + ecount (is_ret r0) (w_log w) + swt (running r0) st =
      ecount (is_call r0) (w_log w) + ecount (is_ret r0) (w_log w') + swt (running r0) st') by lia.
    clear Hwt HI Ht.
    destruct Htr; wcbn; autorewrite with wsimp; rewrite ?ecount_cons; repeat first [rewrite swt_app | rewrite swt_cons];
      cbn [is_call is_ret running]; try lia.
    + apply vop_ev in H as [(?&->&?)|[(?&->&?)|[(?&->&?)|[(?&->&?)|(?&->&?)]]]]; cbn [is_call is_ret]; lia.
    + apply vop_ev in H as [(?&->&?)|[(?&->&?)|[(?&->&?)|[(?&->&?)|(?&->&?)]]]]; cbn [is_call is_ret]; lia.
    + rewrite (swt_varish _ after); [lia|eapply vop_after; eauto|apply running_varish].
    + rewrite (swt_varish _ after); [lia|eapply vop_after; eauto|apply running_varish].
    + rewrite (swt_varish _ fr); [lia|eapply begins_fr; eauto|apply running_varish].
    + destruct g; try discriminate; lia.
    + destruct (cc_log w r) as [->|(l0 & i0 & _ & _ & _ & ->)]; rewrite ?ecount_cons; cbn [is_call is_ret]; lia.
    + match goal with H : advances _ _ _ _ _ _ _ |- _ => destruct H; cbn; lia end.
    + case_bool_decide; case_decide; congruence || lia.
    + case_bool_decide; case_decide; congruence || lia.
  - clear w. intros w t st D L HI Ht HD HL r0. specialize (HI r0). wcbn.
    pose proof (wt_insert (running r0) _ _ _ (D ++ st) Ht) as Hwt. rewrite swt_app, (swt_dtorish _ D HD) in Hwt by reflexivity.
    rewrite !ecount_app, !(ecount_dead _ L HL) by reflexivity. lia.
Qed.

(** ** Deaths *)
Lemma hist_dead e ps w : reachable e ps w -> forall post ev pre, w_log w = post ++ ev :: pre -> is_dead ev = true ->
  exists w0 post0, reachable e ps w0 /\ w_log w0 = post0 ++ ev :: pre /\ deadish post0.
Proof.
  apply (reach_ind e ps (fun w => forall post ev pre, w_log w = post ++ ev :: pre -> is_dead ev = true ->
    exists w0 post0, reachable e ps w0 /\ w_log w0 = post0 ++ ev :: pre /\ deadish post0)).
  - intros post ev pre H. cbn in H. destruct post; discriminate.
  - clear w. intros w t st w' st' Hr HI Ht Htr Hr' post ev pre Hl Hd.
    destruct (reap_spec e w w' t st') as (D & L & HD & HL & Hreap & _).
    assert (Hlog : w_log (reap e w w' t st') = L ++ w_log w') by (rewrite Hreap; reflexivity).
    pose proof Hl as Hl0. rewrite Hlog in Hl.
    apply app_cons_case in Hl as [(c2 & -> & Hl)|(a2 & HL' & ->)].
    + destruct (trans_log _ _ _ _ _ _ Htr) as [He|[(ev1 & He)|(l & args & pin & eid & start & st0 & i & Hst & Hi & Hc & He)]];
        rewrite He in Hl.
      * eauto.
      * destruct c2 as [|x c2]; cbn in Hl; simplify_eq; [|eauto].
        exfalso. destruct Htr; wcbn_in He; autorewrite with wsimp in He;
          try (symmetry in He; exact (cons_ne _ _ He)); simplify_eq; try discriminate;
        apply vop_ev in H as [(?&->&?)|[(?&->&?)|[(?&->&?)|[(?&->&?)|(?&->&?)]]]]; discriminate.
      * destruct c2 as [|x [|y c2]]; cbn in Hl; simplify_eq; eauto.
    + exists (reap e w w' t st'), post. split; [auto|]. split; [auto|]. subst L. apply Forall_app in HL as [HL _]. exact HL.
Qed.

Lemma alive_dead L log l : deadish L -> spec_alive log l = false -> spec_alive (L ++ log) l = false.
Proof. intros HL H. induction HL as [|ev L [[x ->]|[o ->]] _ IH]; cbn; auto. case_decide; auto. Qed.
Lemma obj_dead L log l : deadish L -> spec_obj log l = false -> spec_obj (L ++ log) l = false.
Proof. intros HL H. induction HL as [|ev L [[x ->]|[o ->]] _ IH]; cbn; auto. case_decide; auto. Qed.

Lemma conn0_dead L log l : deadish L -> spec_conn0 (L ++ log) l = spec_conn0 log l.
Proof. intros HL. induction HL as [|ev L [[x ->]|[o ->]] _ IH]; cbn; auto. Qed.

Lemma death_idle e ps w : reachable e ps w ->
  log_all (fun ev pre => match ev with
    | ESlotDead l => ecount (is_call (RSlot l)) pre = ecount (is_ret (RSlot l)) pre
    | EObjDead o => forall l, spec_tracks pre l = Some o -> ecount (is_call (RSlot l)) pre = ecount (is_ret (RSlot l)) pre
    | _ => True end) (w_log w).
Proof.
  intros Hr post ev pre Hl.
  assert (Hz : forall w0 post0 l, reachable e ps w0 -> w_log w0 = post0 ++ ev :: pre -> deadish post0 -> is_dead ev = true ->
    wt (running (RSlot l)) (w_thr w0) = 0 -> ecount (is_call (RSlot l)) pre = ecount (is_ret (RSlot l)) pre).
  { intros w0 post0 l Hr0 Hl0 Hd Hev Hw. pose proof (I_run_inv _ _ _ Hr0 (RSlot l)) as HI.
    rewrite Hl0, Hw, !ecount_app, !ecount_cons, !(ecount_dead _ post0 Hd) in HI by reflexivity.
    destruct ev; try discriminate; cbn in HI; lia. }
  destruct ev; auto.
  - destruct (hist_dead _ _ _ Hr _ _ _ Hl eq_refl) as (w0 & post0 & Hr0 & Hl0 & Hd).
    eapply Hz; eauto. apply wt_zero. intros t st Ht. apply swt_zero. intros f Hf. destruct f; auto. cbn.
    destruct g; auto. case_decide; [|auto]. subst. exfalso.
    pose proof (slot_frame_alive _ _ _ _ _ _ _ _ _ _ _ Hr0 Ht Hf) as Ha.
    rewrite (proj1 (I_alive_inv _ _ _ Hr0)), Hl0, alive_dead in Ha; [discriminate|auto|]. cbn. rewrite decide_True; auto.
  - intros l Htk. destruct (hist_dead _ _ _ Hr _ _ _ Hl eq_refl) as (w0 & post0 & Hr0 & Hl0 & Hd).
    eapply Hz; eauto. apply wt_zero. intros t st Ht. apply swt_zero. intros f Hf. destruct f; auto. cbn.
    destruct g; auto. case_decide; [|auto]. subst. exfalso.
    pose proof (I_call_inv _ _ _ Hr0 _ _ Ht) as HC. rewrite Forall_forall in HC. specialize (HC _ Hf). cbn in HC.
    destruct HC as (_ & _ & _ & _ & _ & Hp).
    assert (spec_tracks (w_log w0) l = Some o) as Htk'.
    { unfold spec_tracks. rewrite Hl0, conn0_dead by auto. cbn. exact Htk. }
    assert (Ha : obj_alive w0 o = true).
    { apply obj_alive_iff. right. eexists _, _, _. split; [exact Ht|]. split; [exact Hf|]. cbn. rewrite Hp, Htk'. apply bool_decide_eq_true. auto. }
    rewrite (proj1 (I_obj_inv _ _ _ Hr0)), Hl0, obj_dead in Ha; [discriminate|auto|]. cbn. rewrite decide_True; auto.
Qed.

(** An object or slot dies once. *)
Lemma filter_seq_NoDup (f : nat -> bool) a n : NoDup (filter (fun x => f x) (seq a n)).
Proof. apply NoDup_filter. apply NoDup_seq. Qed.

Lemma slots_once ds log : NoDup ds -> (forall d, d ∈ ds -> spec_alive log d = true) ->
  forall post ev pre, map ESlotDead ds = post ++ ev :: pre -> forall l, ev = ESlotDead l -> spec_alive (pre ++ log) l = true.
Proof.
  intros Hnd Hal post ev pre Heq l ->.
  assert (exists a b, ds = a ++ l :: b /\ pre = map ESlotDead b) as (a & b & -> & ->).
  { clear Hnd Hal. revert ds Heq. induction post as [|x post IH]; intros [|d ds] Heq; cbn in Heq; simplify_eq.
    - exists [], ds. auto.
    - match goal with H : _ = post ++ _ |- _ => destruct (IH _ H) as (a & b & -> & ->) end. exists (d :: a), b. auto. }
  apply NoDup_app in Hnd as (_ & _ & Hnd). apply NoDup_cons in Hnd as [Hnd _].
  assert (Hb : spec_alive log l = true) by (apply Hal; apply elem_of_app; right; apply elem_of_list_here).
  clear Heq Hal. induction b as [|d b IH]; cbn; [auto|]. rewrite decide_False by (intros ->; apply Hnd; apply elem_of_list_here).
  apply IH. intros H. apply Hnd. apply elem_of_list_further. auto.
Qed.

Lemma objs_once ds log : NoDup ds -> (forall d, d ∈ ds -> spec_obj log d = true) ->
  forall post ev pre, map EObjDead ds = post ++ ev :: pre -> forall l, ev = EObjDead l -> spec_obj (pre ++ log) l = true.
Proof.
  intros Hnd Hal post ev pre Heq l ->.
  assert (exists a b, ds = a ++ l :: b /\ pre = map EObjDead b) as (a & b & -> & ->).
  { clear Hnd Hal. revert ds Heq. induction post as [|x post IH]; intros [|d ds] Heq; cbn in Heq; simplify_eq.
    - exists [], ds. auto.
    - match goal with H : _ = post ++ _ |- _ => destruct (IH _ H) as (a & b & -> & ->) end. exists (d :: a), b. auto. }
  apply NoDup_app in Hnd as (_ & _ & Hnd). apply NoDup_cons in Hnd as [Hnd _].
  assert (Hb : spec_obj log l = true) by (apply Hal; apply elem_of_app; right; apply elem_of_list_here).
  clear Heq Hal. induction b as [|d b IH]; cbn; [auto|]. rewrite decide_False by (intros ->; apply Hnd; apply elem_of_list_here).
  apply IH. intros H. apply Hnd. apply elem_of_list_further. auto.
Qed.

Lemma death_once e ps w : reachable e ps w ->
  log_all (fun ev pre => match ev with
    | ESlotDead l => spec_alive pre l = true
    | EObjDead o => spec_obj pre o = true
    | _ => True end) (w_log w).
Proof.
  apply (reach_ind e ps (fun w => log_all (fun ev pre => match ev with
    | ESlotDead l => spec_alive pre l = true
    | EObjDead o => spec_obj pre o = true
    | _ => True end) (w_log w))).
  - apply log_all_nil.
  - clear w. intros w t st w' st' Hr HI Ht Htr Hr'.
    destruct (reap_spec e w w' t st') as (D & L & HD & HL & Hreap & _ & HLe).
    rewrite Hreap. wcbn. intros post ev pre Hl.
    apply app_cons_case in Hl as [(c2 & -> & Hl)|(a2 & HL' & ->)].
    + destruct (trans_log _ _ _ _ _ _ Htr) as [He|[(ev1 & He)|(l & args & pin & eid & start & st0 & i & Hst & Hi & Hc & He)]];
        rewrite He in Hl.
      * eapply HI; eauto.
      * destruct c2 as [|x c2]; cbn in Hl; simplify_eq; [|eapply HI; eauto].
        destruct ev; auto; exfalso; destruct Htr; wcbn_in He; autorewrite with wsimp in He;
          try (symmetry in He; exact (cons_ne _ _ He)); simplify_eq; try discriminate; vlog_no.
      * destruct c2 as [|x [|y c2]]; cbn in Hl; simplify_eq; auto. eapply HI; eauto.
    + rewrite HLe in HL'. clear HL HLe Hreap.
      destruct (I_alive_inv _ _ _ Hr) as [HA _]. destruct (I_obj_inv _ _ _ Hr) as [HO _].
      assert (Hds : forall d, d ∈ dead_slots w (mid w' t st') -> spec_alive (w_log w') d = true).
      { intros d Hd. apply dead_slots_elem in Hd as (H1 & _). rewrite HA in H1.
        destruct (trans_spec_alive _ _ _ _ _ _ d Htr) as [[_ ->]|[_ ->]]; [auto|case_decide; auto]. }
      assert (Hos : forall d, d ∈ dead_objs w (mid w' t st') -> spec_obj (w_log w') d = true).
      { intros d Hd. apply dead_objs_elem in Hd as (H1 & _). rewrite HO in H1.
        destruct (trans_objs _ _ _ _ _ _ Htr) as [[_ He]|[[_ Hl]|(ob & _ & _ & Hl)]]; [rewrite He; auto|rewrite Hl; cbn; case_decide; auto|rewrite Hl; auto]. }
      apply app_cons_case in HL' as [(c2 & -> & HL')|(a3 & HL' & ->)].
      * destruct ev; auto.
        -- eapply slots_once; eauto. apply filter_seq_NoDup.
        -- exfalso. assert (EObjDead o ∈ map ESlotDead (dead_slots w (mid w' t st'))) as Hin
             by (rewrite HL'; apply elem_of_app; right; apply elem_of_list_here).
           apply elem_of_list_fmap in Hin as (? & ? & _). discriminate.
      * destruct ev; auto.
        -- exfalso. assert (ESlotDead l ∈ map EObjDead (dead_objs w (mid w' t st'))) as Hin
             by (rewrite HL'; apply elem_of_app; right; apply elem_of_list_here).
           apply elem_of_list_fmap in Hin as (? & ? & _). discriminate.
        -- rewrite <- app_assoc. eapply objs_once; [apply filter_seq_NoDup| |exact HL'|reflexivity].
           intros d Hd. specialize (Hos d Hd). clear - Hos.
           induction (dead_slots w (mid w' t st')) as [|x xs IH]; cbn; auto.
Qed.

(** ** A dropped object dies when the last call on it ends *)
Lemma trans_reset e w t st w' st' o :
  trans e w t st w' st' -> EReset o ∈ w_log w' ->
  EReset o ∈ w_log w \/ v_objs (w_vars w') = <[o := false]> (v_objs (w_vars w)) /\ v_objs (w_vars w) !! o = Some true.
Proof.
  intros Htr Hin. destruct Htr; wcbn_in Hin; autorewrite with wsimp in Hin; auto;
    try (apply elem_of_cons in Hin as [?|Hin]; [try discriminate|auto]).
  - subst. apply vop_ev in H as [(?&?&?)|[(?&?&?)|[(?&?&?)|[(?&?&?&?)|(?&?&?&->)]]]]; try discriminate. simplify_eq. right. auto.
  - subst. discriminate.
  - destruct (cc_log w r) as [He|(l0 & i0 & _ & _ & _ & He)]; rewrite He in Hin; [auto|].
    apply elem_of_cons in Hin as [?|Hin]; [discriminate|auto].
Qed.

Lemma reset_objs e ps w : reachable e ps w -> forall o, EReset o ∈ w_log w -> v_objs (w_vars w) !! o = Some false.
Proof.
  apply (reach_ind e ps (fun w => forall o, EReset o ∈ w_log w -> v_objs (w_vars w) !! o = Some false)).
  - intros o H. inversion H.
  - clear w. intros w t st w' st' Hr HI Ht Htr _ o Hin.
    destruct (reap_spec e w w' t st') as (D & L & HD & HL & Hreap & _). rewrite Hreap in Hin |- *. wcbn. wcbn_in Hin.
    apply elem_of_app in Hin as [Hin|Hin].
    { unfold deadish in HL. rewrite Forall_forall in HL. destruct (HL _ Hin) as [[? ?]|[? ?]]; discriminate. }
    destruct (trans_reset _ _ _ _ _ _ _ Htr Hin) as [Hold|[-> Ho]].
    + specialize (HI _ Hold). destruct (trans_objs _ _ _ _ _ _ Htr) as [[-> _]|[[-> _]|(ob & Hob & -> & _)]]; auto.
      * apply lookup_app_l_Some. auto.
      * rewrite list_lookup_insert_ne; [auto|]. intros ->. congruence.
    + apply list_lookup_insert. eapply lookup_lt_Some; eauto.
Qed.

Lemma dropped_dies e ps w o : reachable e ps w -> EReset o ∈ w_log w ->
  (forall t st f, w_thr w !! t = Some st -> f ∈ st -> match f with FSlot _ _ _ (Some o') _ _ => o' <> o | _ => True end) ->
  spec_obj (w_log w) o = false.
Proof.
  intros Hr Hin Hno. rewrite <- (proj1 (I_obj_inv _ _ _ Hr)). apply not_true_is_false. intros Ha.
  apply obj_alive_iff in Ha as [Ha|(t & st & f & Ht & Hf & Hk)].
  - rewrite (reset_objs _ _ _ Hr _ Hin) in Ha. discriminate.
  - specialize (Hno _ _ _ Ht Hf). destruct f; try discriminate. destruct pin as [o'|]; [|discriminate].
    cbn in Hk. apply bool_decide_eq_true in Hk. contradiction.
Qed.

(** Conversely an object the client holds is alive. *)
Lemma held_alive e ps w o : reachable e ps w -> ENewObj o ∈ w_log w -> EReset o ∉ w_log w -> spec_obj (w_log w) o = true.
Proof.
  intros Hr. revert o.
  assert (H : forall o, ENewObj o ∈ w_log w -> EReset o ∉ w_log w -> v_objs (w_vars w) !! o = Some true).
  { revert w Hr. apply (reach_ind e ps (fun w => forall o, ENewObj o ∈ w_log w -> EReset o ∉ w_log w -> v_objs (w_vars w) !! o = Some true)).
    - intros o H. inversion H.
    - intros w t st w' st' Hr HI Ht Htr _ o Hin Hnr.
      destruct (reap_spec e w w' t st') as (D & L & HD & HL & Hreap & _). rewrite Hreap in Hin, Hnr |- *. wcbn. wcbn_in Hin. wcbn_in Hnr.
      apply not_elem_of_app in Hnr as [_ Hnr].
      apply elem_of_app in Hin as [Hin|Hin].
      { unfold deadish in HL. rewrite Forall_forall in HL. destruct (HL _ Hin) as [[? ?]|[? ?]]; discriminate. }
      destruct (trans_objs _ _ _ _ _ _ Htr) as [[Ho Hs]|[[Ho Hl]|(ob & Hob & Ho & Hl)]]; rewrite Ho.
      + apply HI.
        * destruct Htr; wcbn_in Hin; autorewrite with wsimp in Hin; auto;
            try (apply elem_of_cons in Hin as [?|Hin]; [try discriminate|auto]).
          -- subst. apply vop_ev in H as [(?&?&?)|[(?&?&?)|[(?&?&?)|[(?&?&?&?)|(?&?&?&?)]]]]; try discriminate. simplify_eq.
             cbn in Ho. apply (f_equal length) in Ho. rewrite app_length in Ho. cbn in Ho. lia.
          -- subst. discriminate.
          -- destruct (cc_log w r) as [He|(l0 & i0 & _ & _ & _ & He)]; rewrite He in Hin; [auto|].
             apply elem_of_cons in Hin as [?|Hin]; [discriminate|auto].
        * intros H. apply Hnr. eapply trans_log_mono; eauto.
      + rewrite Hl in Hin. apply elem_of_cons in Hin as [Heq|Hin].
        * simplify_eq. rewrite lookup_app_r, Nat.sub_diag by lia. reflexivity.
        * apply lookup_app_l_Some. apply HI; [auto|]. intros H. apply Hnr. eapply trans_log_mono; eauto.
      + rewrite Hl in Hin, Hnr. apply elem_of_cons in Hin as [Heq|Hin]; [discriminate|].
        rewrite list_lookup_insert_ne.
        * apply HI; [auto|]. intros H. apply Hnr. apply elem_of_list_further. auto.
        * intros ->. apply Hnr. apply elem_of_list_here. }
  intros o H1 H2. rewrite <- (proj1 (I_obj_inv _ _ _ Hr)). apply obj_alive_iff. left. auto.
Qed.
