(** * Mutual exclusion *)
From Verif Require Export Reach.

(** The frames inside a critical section of signal [s]. *)
Definition holds (s : sid) (f : frame) : nat :=
  match f with
  | FWrite s' _ | FBody s' _ _ | FUnlock s' _ | FErase s' _ _ _ _ _ | FEraseCmp s' _ _ _ _ _ =>
      if decide (s' = s) then 1 else 0
  | _ => 0
  end.
Definition lockw (sigs : list sigrec) (s : sid) (t : tid) : nat :=
  match sigs !! s with
  | Some r => if decide (sg_lock r = Some t) then 1 else 0
  | None => 0
  end.

Definition I_lock (w : world) : Prop :=
  forall t st s, w_thr w !! t = Some st -> swt (holds s) st = lockw (w_sigs w) s t.

Lemma lock_pres w w' t st st' :
  I_lock w -> w_thr w !! t = Some st -> w_thr w' = w_thr w ->
  (forall s, swt (holds s) st' + lockw (w_sigs w) s t = swt (holds s) st + lockw (w_sigs w') s t) ->
  (forall s t', t' <> t -> lockw (w_sigs w') s t' = lockw (w_sigs w) s t') ->
  I_lock (mid w' t st').
Proof.
  intros HI Ht Hth H1 H2 t' x s Hx. cbn in Hx |- *. rewrite Hth in Hx.
  destruct (thr_upd _ _ _ _ _ _ Ht Hx) as [[-> ->]|[Hn Hx']].
  - specialize (H1 s). rewrite (HI _ _ s Ht) in H1. lia.
  - rewrite H2 by auto. auto.
Qed.

Lemma lockw_snoc sigs x s t : sg_lock x = None -> lockw (sigs ++ [x]) s t = lockw sigs s t.
Proof.
  intros Hx. unfold lockw. destruct (decide (s < length sigs)) as [Hl|Hl].
  - rewrite lookup_app_l by auto. reflexivity.
  - rewrite lookup_app_r by lia. rewrite (lookup_ge_None_2 sigs) by lia.
    destruct (s - length sigs) as [|n]; cbn.
    + rewrite Hx. reflexivity.
    + reflexivity.
Qed.

Lemma lockw_alter_keep sigs f s0 s t :
  (forall r, sg_lock (f r) = sg_lock r) -> lockw (alter f s0 sigs) s t = lockw sigs s t.
Proof.
  intros Hf. unfold lockw. rewrite alter_lookup. destruct (decide (s0 = s)) as [->|]; [|reflexivity].
  destruct (sigs !! s) as [r|]; cbn; [rewrite Hf|]; reflexivity.
Qed.

Lemma lockw_alter_ne sigs f s0 s t : s0 <> s -> lockw (alter f s0 sigs) s t = lockw sigs s t.
Proof. intros Hn. unfold lockw. rewrite alter_lookup, decide_False by auto. reflexivity. Qed.

Lemma holds_app_after s (a : list frame) k :
  swt (holds s) (a ++ [FWait k]) = swt (holds s) a.
Proof. rewrite swt_app. cbn. lia. Qed.

(** The continuation frames of an operation on client variables hold nothing. *)
Definition varish (f : frame) : Prop :=
  match f with FAssign _ _ _ | FAssignMv _ _ _ | FUnit _ | FMkConn _ => True | _ => False end.

Lemma disc_res_after x m after x' o x1 l after' :
  disc_res x m after x' o = VDo x1 l after' -> after' = after l /\ x1 = x /\ m = Some l.
Proof. unfold disc_res. repeat case_match; naive_solver. Qed.

Lemma vop_after w t v x l after :
  exec_vop w t v = VDo x l after -> Forall varish after.
Proof.
  unfold exec_vop. intros H. destruct v; try discriminate; repeat (dm H; try discriminate);
    apply disc_res_after in H as (-> & _ & _); repeat constructor.
Qed.

Lemma begins_fr w o s kk fr : begins w o s kk fr -> Forall varish fr.
Proof. destruct 1; repeat constructor. Qed.

Lemma swt_varish f fs : Forall varish fs ->
  (forall x, varish x -> f x = 0) -> swt f fs = 0.
Proof.
  intros H Hf. induction H as [|x fs Hx _ IH]; [reflexivity|].
  rewrite swt_cons, Hf, IH by auto. reflexivity.
Qed.

Lemma I_lock_inv e ps w : reachable e ps w -> I_lock w.
Proof.
  apply reach_ind2.
  - intros t st s Ht. cbn in Ht |- *. rewrite list_lookup_fmap in Ht.
    destruct (ps !! t); cbn in Ht; simplify_eq. reflexivity.
  - clear w. intros w t st w' st' Hr HI Ht Htr.
    pose proof (trans_thr _ _ _ _ _ _ Htr) as Hthr.
    assert (Hown : forall s, swt (holds s) st = lockw (w_sigs w) s t) by (intros; apply HI; auto).
    eapply lock_pres; eauto; destruct Htr; cbn [w_sigs w_add_log w_set_sigs w_set_vecs w_set_slots w_set_vars w_set_neid
      w_alter_sig w_alter_slot w_set_vec];
      autorewrite with wsimp; intros s1; rewrite ?swt_cons, ?swt_app; cbn [holds];
      try (rewrite lockw_snoc by reflexivity); try (rewrite lockw_alter_keep by reflexivity);
      try (intros; rewrite ?lockw_snoc by reflexivity; rewrite ?lockw_alter_keep by reflexivity; reflexivity); try lia.
    + (* vdo *) apply vop_after in H as Ha.
      rewrite (swt_varish _ after) by (auto; intros []; cbn; auto; contradiction). rewrite swt_cons. cbn. lia.
    + (* vdead *) apply vop_after in H as Ha.
      rewrite (swt_varish _ after) by (auto; intros []; cbn; auto; contradiction). rewrite swt_cons. cbn. lia.
    + apply begins_fr in H. rewrite (swt_varish _ fr) by (auto; intros []; cbn; auto; contradiction).
      rewrite swt_cons. cbn. lia.
    + (* lock *) apply get_sig_Some in H as [Hs Ha].
      unfold lockw. rewrite alter_lookup. destruct (decide (s = s1)) as [->|Hn]; [|lia].
      rewrite Hs. cbn. rewrite H0. rewrite decide_False by congruence. rewrite decide_True by auto. lia.
    + (* read *) specialize (Hown s). rewrite swt_cons in Hown. cbn in Hown. rewrite decide_True in Hown by auto.
      unfold lockw in Hown |- *. rewrite alter_lookup. destruct (decide (s = s1)) as [->|Hn]; [|lia].
      rewrite H in Hown |- *. cbn. destruct (decide (sg_lock r = Some t)); [|lia].
      rewrite decide_False by congruence. lia.
    + (* unlock *) specialize (Hown s). rewrite swt_cons in Hown. cbn in Hown. rewrite decide_True in Hown by auto.
      unfold lockw in Hown |- *. rewrite alter_lookup. destruct (decide (s = s1)) as [->|Hn]; [|lia].
      destruct (w_sigs w !! s1) as [r|]; [|lia]. cbn. destruct (decide (sg_lock r = Some t)); [|lia].
      rewrite decide_False by congruence. lia.
    + intros t' Hn. apply get_sig_Some in H as [Hs Ha].
      unfold lockw. rewrite alter_lookup. destruct (decide (s = s1)) as [->|Hn']; [|reflexivity].
      rewrite Hs. cbn. rewrite H0. rewrite !decide_False by congruence. reflexivity.
    + intros t' Hn. specialize (Hown s). rewrite swt_cons in Hown. cbn in Hown. rewrite decide_True in Hown by auto.
      unfold lockw in Hown |- *. rewrite alter_lookup. destruct (decide (s = s1)) as [->|Hn']; [|reflexivity].
      rewrite H in Hown |- *. cbn. destruct (decide (sg_lock r = Some t)) as [->|]; [|lia].
      rewrite !decide_False by congruence. reflexivity.
    + intros t' Hn. specialize (Hown s). rewrite swt_cons in Hown. cbn in Hown. rewrite decide_True in Hown by auto.
      unfold lockw in Hown |- *. rewrite alter_lookup. destruct (decide (s = s1)) as [->|Hn']; [|reflexivity].
      destruct (w_sigs w !! s1) as [r|]; [|lia]. cbn. destruct (decide (sg_lock r = Some t)) as [->|]; [|lia].
      rewrite !decide_False by congruence. reflexivity.
  - clear w. intros w t st D L HI Ht HD HL t' x s Hx. cbn in Hx |- *.
    destruct (thr_upd _ _ _ _ _ _ Ht Hx) as [[-> ->]|[Hn Hx']]; [|auto].
    rewrite swt_app, (swt_dtorish _ D HD) by reflexivity. apply HI; auto.
Qed.
