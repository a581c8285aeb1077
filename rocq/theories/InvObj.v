(** * Tracked objects *)
From Verif Require Export InvSlot.

Lemma obj_alive_iff w o :
  obj_alive w o = true <->
  v_objs (w_vars w) !! o = Some true \/
  (exists t st f, w_thr w !! t = Some st /\ f ∈ st /\ frame_pins_obj o f = true).
Proof.
  unfold obj_alive. rewrite orb_true_iff. f_equiv.
  - destruct (v_objs (w_vars w) !! o) as [[]|]; cbn; split; congruence.
  - rewrite existsb_exists. split.
    + intros (st & Hin & Hk). apply elem_of_list_In in Hin. apply elem_of_list_lookup in Hin as [t Ht].
      apply existsb_exists in Hk as (f & Hf & Hk). apply elem_of_list_In in Hf. eauto 10.
    + intros (t & st & f & Ht & Hf & Hk). exists st. split.
      * apply elem_of_list_In. eapply elem_of_list_lookup_2; eauto.
      * apply existsb_exists. exists f. split; [|auto]. apply elem_of_list_In. auto.
Qed.

Lemma obj_reap w t st D L o :
  w_thr w !! t = Some st -> dtorish D ->
  obj_alive (w_add_events (w_set_stack w t (D ++ st)) L) o = obj_alive w o.
Proof.
  intros Ht HD. apply eq_bool_prop_intro. rewrite !Is_true_true, !obj_alive_iff. apply or_iff_compat_l. split.
  - intros (t0 & x & f & Hx & Hf & Hk). wcbn_in Hx.
    destruct (thr_upd _ _ _ _ _ _ Ht Hx) as [[-> ->]|[Hn Hx']]; [|eauto 10].
    apply elem_of_app in Hf as [Hf|Hf]; [|eauto 10].
    unfold dtorish in HD. rewrite Forall_forall in HD. destruct (HD _ Hf) as [[? ->]|[p ->]]; discriminate.
  - intros (t0 & x & f & Hx & Hf & Hk). destruct (decide (t0 = t)) as [->|Hn].
    + exists t, (D ++ st), f. wcbn. rewrite list_lookup_insert by (eapply lookup_lt_Some; eauto).
      simplify_eq. split; [auto|]. split; [apply elem_of_app; auto|]. exact Hk.
    + exists t0, x, f. wcbn. rewrite list_lookup_insert_ne by auto. split; [auto|]. split; [auto|]. exact Hk.
Qed.

(** Which operations touch the objects. *)
Lemma vop_objs_ok w t v x o ef :
  exec_vop w t v = VOk x o ef ->
  (v_objs x = v_objs (w_vars w) /\ forall ob, ef <> EfLog (ENewObj ob)) \/
  (exists ob, ef = EfLog (ENewObj ob) /\ ob = length (v_objs (w_vars w)) /\ v_objs x = v_objs (w_vars w) ++ [true]) \/
  (exists ob, ef = EfLog (EReset ob) /\ v_objs (w_vars w) !! ob = Some true /\ v_objs x = <[ob := false]> (v_objs (w_vars w))).
Proof.
  unfold exec_vop, disc_res, blk_eff. intros H. destruct v; repeat (dm H; try discriminate); simplify_eq; cbn; eauto 10.
Qed.

Lemma vop_objs_do w t v x l after :
  exec_vop w t v = VDo x l after -> v_objs x = v_objs (w_vars w).
Proof.
  unfold exec_vop. intros H. destruct v; try discriminate; repeat (dm H; try discriminate);
    apply disc_res_after in H as (_ & -> & _); reflexivity.
Qed.

Lemma aref_objs w r f : v_objs (w_vars (alter_ref w r f)) = v_objs (w_vars w).
Proof. destruct r; reflexivity. Qed.

(** The objects the client holds. *)
Lemma trans_objs e w t st w' st' :
  trans e w t st w' st' ->
  (v_objs (w_vars w') = v_objs (w_vars w) /\ forall o, spec_obj (w_log w') o = spec_obj (w_log w) o) \/
  (v_objs (w_vars w') = v_objs (w_vars w) ++ [true] /\
     w_log w' = ENewObj (length (v_objs (w_vars w))) :: w_log w) \/
  (exists ob, v_objs (w_vars w) !! ob = Some true /\ v_objs (w_vars w') = <[ob := false]> (v_objs (w_vars w)) /\
     w_log w' = EReset ob :: w_log w).
Proof.
  intros Htr. destruct Htr; wcbn; autorewrite with wsimp; rewrite ?aref_objs; try (left; split; [reflexivity|]; intros; reflexivity).
  - apply vop_objs_ok in H as [[-> _]|[(ob & ? & _)|(ob & ? & _)]]; [auto|discriminate|discriminate].
  - apply vop_objs_ok in H as [[-> _]|[(ob & ? & _)|(ob & ? & _)]]; [auto|discriminate|discriminate].
  - destruct (vop_objs_ok _ _ _ _ _ _ H) as [[-> Hno]|[(ob & ? & -> & ->)|(ob & ? & Ho & ->)]]; simplify_eq; [|auto|right; right; eauto].
    left. split; [reflexivity|].
    apply vop_ev in H as [(l & -> & _)|[(l & -> & _)|[(l & -> & _)|[(ob & -> & -> & ->)|(ob & -> & _ & _)]]]];
      try reflexivity. exfalso. eapply Hno; reflexivity.
  - destruct (vop_objs_ok _ _ _ _ _ _ H) as [[-> Hno]|[(ob & ? & -> & ->)|(ob & ? & Ho & ->)]]; simplify_eq; [].
    left. split; [reflexivity|].
    apply vop_ev in H as [(l1 & -> & _)|[(l1 & -> & _)|[(l1 & -> & _)|[(ob & -> & -> & ->)|(ob & -> & _ & _)]]]];
      try reflexivity. exfalso. eapply Hno; reflexivity.
  - apply vop_objs_do in H as ->. auto.
  - apply vop_objs_do in H as ->. auto.
  - left. split; [reflexivity|]. intros. cbn. destruct (cc_log w r) as [->|(l0 & i0 & _ & _ & _ & ->)]; reflexivity.
Qed.

(** An object does not come back to life. *)
Lemma trans_obj_alive e ps w t st w' st' o :
  reachable e ps w -> w_thr w !! t = Some st -> trans e w t st w' st' ->
  obj_alive (mid w' t st') o = true ->
  obj_alive w o = true \/
  (o = length (v_objs (w_vars w)) /\ w_log w' = ENewObj (length (v_objs (w_vars w))) :: w_log w /\
   v_objs (w_vars w') = v_objs (w_vars w) ++ [true]).
Proof.
  intros Hr Ht Htr. pose proof (trans_thr _ _ _ _ _ _ Htr) as Hthr.
  rewrite obj_alive_iff. intros [Ho|(t0 & x & f & Hx & Hf & Hk)].
  - wcbn_in Ho. destruct (trans_objs _ _ _ _ _ _ Htr) as [[He _]|[[He Hl]|(ob & Hob & He & Hl)]]; rewrite He in Ho.
    + left. apply obj_alive_iff. auto.
    + apply snoc_lookup in Ho as [[Ho _]|[-> _]]; [left; apply obj_alive_iff; auto|auto].
    + apply insert_lookup_Some in Ho as [(_ & ? & _)|[_ Ho]]; [discriminate|]. left; apply obj_alive_iff; auto.
  - left. wcbn_in Hx. rewrite Hthr in Hx.
    assert (Hpin : forall g, g ∈ st -> frame_pins_obj o g = true -> obj_alive w o = true).
    { intros g Hg Hgk. apply obj_alive_iff. right. eauto 10. }
    destruct (thr_upd _ _ _ _ _ _ Ht Hx) as [[-> ->]|[Hn Hx']]; [|apply obj_alive_iff; right; eauto 10].
    clear Hx.
    destruct Htr; rewrite ?elem_of_cons, ?elem_of_app, ?elem_of_cons in Hf; destruct_or?; subst;
      cbn in Hk; try discriminate;
      try (eapply Hpin; [|exact Hk]; rewrite ?elem_of_cons; auto 10; fail).
    + exfalso. match goal with H : exec_vop _ _ _ = _, Hf : f ∈ _ |- _ => apply vop_after in H; rewrite Forall_forall in H; specialize (H _ Hf); destruct f; contradiction || discriminate end.
    + exfalso. match goal with H : exec_vop _ _ _ = _, Hf : f ∈ _ |- _ => apply vop_after in H; rewrite Forall_forall in H; specialize (H _ Hf); destruct f; contradiction || discriminate end.
    + exfalso. match goal with H : begins _ _ _ _ _, Hf : f ∈ _ |- _ => apply begins_fr in H; rewrite Forall_forall in H; specialize (H _ Hf); destruct f; contradiction || discriminate end.
    + match goal with H : advances _ _ _ _ _ _ _ |- _ => destruct H end;
        try (eapply Hpin; [apply elem_of_list_here|exact Hk]).
      apply bool_decide_eq_true in Hk. subst. assumption.
    + eapply (Hpin (FSlot r SCall args pin eid start)); [apply elem_of_list_here|exact Hk].
Qed.

Lemma spec_obj_reap L0 os ds log l :
  L0 = map EObjDead os ++ map ESlotDead ds ->
  spec_obj (L0 ++ log) l = if decide (l ∈ os) then false else spec_obj log l.
Proof.
  intros ->. rewrite <- app_assoc.
  assert (Hds : spec_obj (map ESlotDead ds ++ log) l = spec_obj log l) by (induction ds; auto).
  induction os as [|d os IH]; cbn.
  - rewrite decide_False; [exact Hds|]. intros H; inversion H.
  - rewrite IH. destruct (decide (d = l)) as [->|Hn].
    + rewrite decide_True by apply elem_of_list_here. reflexivity.
    + destruct (decide (l ∈ os)) as [Hi|Hi].
      * rewrite decide_True by (apply elem_of_list_further; auto). reflexivity.
      * rewrite decide_False; [reflexivity|]. intros Hx. apply elem_of_cons in Hx as [?|?]; auto.
Qed.

Lemma dead_objs_elem w w' l :
  l ∈ dead_objs w w' <-> obj_alive w l = true /\ obj_alive w' l = false /\ l < length (v_objs (w_vars w)).
Proof.
  unfold dead_objs. rewrite elem_of_list_filter, elem_of_list_In, in_seq, Is_true_true, andb_true_iff, negb_true_iff.
  intuition lia.
Qed.

Definition I_obj (w : world) : Prop :=
  (forall o, obj_alive w o = spec_obj (w_log w) o) /\
  (forall o, obj_alive w o = true -> o < length (v_objs (w_vars w))).

Lemma I_obj_inv e ps w : reachable e ps w -> I_obj w.
Proof.
  apply reach_ind.
  - assert (Hno : forall o, obj_alive (init ps) o = true -> False).
    { intros o H. apply obj_alive_iff in H as [H|(t & st & f & Ht & Hf & Hk)]; [discriminate|].
      cbn in Ht. rewrite list_lookup_fmap in Ht. destruct (ps !! t); cbn in Ht; simplify_eq.
      apply elem_of_list_singleton in Hf as ->. discriminate. }
    split; intros l; [|intros H; exfalso; eauto].
    cbn. apply not_true_is_false. intros H. eauto.
  - clear w. intros w t st w' st' Hr [H1 H2] Ht Htr _.
    destruct (reap_spec e w w' t st') as (D & L & HD & HL & -> & _ & HLe).
    pose proof (trans_thr _ _ _ _ _ _ Htr) as Hthr.
    assert (Hm : w_thr (mid w' t st') !! t = Some st').
    { wcbn. rewrite Hthr. apply list_lookup_insert. eapply lookup_lt_Some; eauto. }
    rewrite reap_set.
    assert (Hal : forall l, obj_alive (w_add_events (w_set_stack (mid w' t st') t (D ++ st')) L) l = obj_alive (mid w' t st') l)
      by (intros; eapply obj_reap; eauto).
    assert (Hlog : forall l, spec_obj (w_log (w_add_events (w_set_stack (mid w' t st') t (D ++ st')) L)) l =
       if decide (l ∈ dead_objs w (mid w' t st')) then false else spec_obj (w_log w') l)
      by (intros; eapply spec_obj_reap; eauto).
    assert (HT : forall o, obj_alive (mid w' t st') o = true -> _) by (intros o; exact (trans_obj_alive _ _ _ _ _ _ _ o Hr Ht Htr)).
    split; intros l.
    + rewrite Hal, Hlog. destruct (decide (l ∈ _)) as [Hd|Hd].
      * apply dead_objs_elem in Hd. tauto.
      * rewrite dead_objs_elem in Hd.
        destruct (obj_alive w l) eqn:Hw.
        { assert (obj_alive (mid w' t st') l = true) as ->.
          { destruct (obj_alive (mid w' t st') l) eqn:Hw'; [auto|]. exfalso. apply Hd. auto. }
          symmetry. destruct (trans_objs _ _ _ _ _ _ Htr) as [[_ He]|[[_ Hl]|(ob & _ & _ & Hl)]].
          - rewrite He, <- H1. auto.
          - rewrite Hl. cbn. case_decide; [auto|]. rewrite <- H1. auto.
          - rewrite Hl. cbn. rewrite <- H1. auto. }
        destruct (obj_alive (mid w' t st') l) eqn:Hw'.
        { destruct (HT l Hw') as [?|(-> & Hl & _)]; [congruence|]. rewrite Hl. cbn. rewrite decide_True by auto. auto. }
        symmetry. destruct (trans_objs _ _ _ _ _ _ Htr) as [[_ He]|[[Ho Hl]|(ob & _ & _ & Hl)]].
        -- rewrite He, <- H1. auto.
        -- rewrite Hl. cbn. case_decide as Hd'; [|rewrite <- H1; auto]. subst l. exfalso.
           assert (obj_alive (mid w' t st') (length (v_objs (w_vars w))) = true); [|congruence].
           apply obj_alive_iff. left. wcbn. rewrite Ho, lookup_app_r, Nat.sub_diag by lia. reflexivity.
        -- rewrite Hl. cbn. rewrite <- H1. auto.
    + rewrite Hal. intros Hw'. wcbn.
      assert (Hlen : length (v_objs (w_vars w)) <= length (v_objs (w_vars w'))).
      { destruct (trans_objs _ _ _ _ _ _ Htr) as [[-> _]|[[-> _]|(ob & _ & -> & _)]];
          rewrite ?app_length, ?insert_length; lia. }
      destruct (HT l Hw') as [Hw|(-> & _ & He)]; [specialize (H2 _ Hw); lia|].
      rewrite He, app_length. cbn. lia.
Qed.
