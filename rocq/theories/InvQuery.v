(** * What queries return, when calls are skipped, who may disconnect *)
From Verif Require Export InvCall.

Ltac qlog Hr := match goal with H : exec_vop _ _ _ = VOk _ _ (EfLog _) |- _ =>
  apply vop_ev in H as [(?&?&?)|[(?&?&?)|[(?&?&?)|[(?&?&?&?)|(?&?&?&?)]]]]; simplify_eq end.

Lemma slot_fields e ps w l : reachable e ps w -> slot_alive w l = true ->
  exists r, w_slots w !! l = Some r /\ slot_ok (w_log w) l r.
Proof.
  intros Hr Ha. apply (alive_bound _ _ _ _ Hr) in Ha. apply lookup_lt_is_Some in Ha as [r Hl].
  exists r. split; [auto|]. exact (I_fields_inv _ _ _ Hr _ _ Hl).
Qed.


Lemma connected_spec e ps w l : reachable e ps w ->
  slot_alive w l && slot_connected w l = spec_connected (w_log w) l.
Proof.
  intros Hr. unfold spec_connected. rewrite <- (proj1 (I_alive_inv _ _ _ Hr)).
  destruct (slot_alive w l) eqn:Ha; [cbn [andb]|reflexivity].
  destruct (slot_fields _ _ _ _ Hr Ha) as (r & Hl & (i0 & Hi0 & Hc) & Hf & _).
  unfold slot_connected, impl_connected, expired, spec_tracks. rewrite Hl, Hi0, <- Hf, Hc, andb_comm. f_equal.
  destruct (c_kind (im_c i0)); try reflexivity. rewrite negb_involutive. apply (I_obj_inv _ _ _ Hr).
Qed.

Lemma query_facts e ps w : reachable e ps w ->
  log_all (fun ev pre => match ev with
    | EConnd _ l b => b = spec_connected pre l
    | EBlkd _ l b => b = spec_alive pre l && spec_blk pre l
    | EValid _ l b => b = spec_alive pre l
    | EGet _ (RSlot l) z => spec_alive pre l = true /\ z = spec_st pre l
    | ESet _ (RSlot l) z => spec_alive pre l = true
    | _ => True end) (w_log w).
Proof.
  apply log_all_hist; [intros []; cbn; auto; discriminate|].
  clear w. intros w t st w' st' ev pre Hr Ht Htr Hlg.
  destruct ev; auto; try (destruct r as [l|]; [|exact I]); logs_inv Htr Hlg; try qlog Hr.
  - apply connected_spec with e ps; auto.
  - apply connected_spec with e ps; auto.
  - match goal with |- context [slot_blocked w ?x] => set (l := x) end.
    rewrite <- (proj1 (I_alive_inv _ _ _ Hr)). destruct (slot_alive w l) eqn:Ha; [cbn [andb]|reflexivity].
    destruct (slot_fields _ _ _ _ Hr Ha) as (r & Hl & _ & _ & Hb & _). unfold slot_blocked. rewrite Hl. auto.
  - match goal with |- context [slot_blocked w ?x] => set (l := x) end.
    rewrite <- (proj1 (I_alive_inv _ _ _ Hr)). destruct (slot_alive w l) eqn:Ha; [cbn [andb]|reflexivity].
    destruct (slot_fields _ _ _ _ Hr Ha) as (r & Hl & _ & _ & Hb & _). unfold slot_blocked. rewrite Hl. auto.
  - apply (I_alive_inv _ _ _ Hr).
  - match goal with H : get_ref _ _ = Some _ |- _ => destruct (ref_fields _ _ _ _ _ Hr H) as (_ & _ & _ & Hs) end.
    rewrite <- (proj1 (I_alive_inv _ _ _ Hr)). auto.
  - rewrite <- (proj1 (I_alive_inv _ _ _ Hr)). auto.
Qed.


Lemma skip_facts e ps w : reachable e ps w ->
  log_all (fun ev pre => match ev with
    | ESkip t (RSlot l) eid start => spec_alive pre l = true /\ start <= length pre /\ seen start pre (fun p => refuses p l)
    | _ => True end) (w_log w).
Proof.
  apply log_all_hist; [intros []; cbn; auto; discriminate|].
  clear w. intros w t st w' st' ev pre Hr Ht Htr Hlg. destruct ev; auto. destruct r as [l|]; auto.
  pose proof (I_call_inv _ _ _ Hr _ _ Ht) as HC. pose proof (I_alive_inv _ _ _ Hr) as [HA _].
  pose proof (I_obj_inv _ _ _ Hr) as [HO _].
  inversion Hlg; subst; clear Hlg.
  - match goal with H : w_log _ = _ :: w_log _ |- _ => rename H into He end.
    destruct Htr; wcbn_in He; autorewrite with wsimp in He;
      try (exfalso; symmetry in He; exact (cons_ne _ _ He)); try discriminate; simplify_eq; vlog_no;
      apply Forall_cons in HC as [HC _]; cbn in HC; destruct HC as (Q1 & Q2 & Q3 & Q4 & Q5 & Q6).
    + match goal with H : ref_ok _ _ = true |- _ => cbn in H; rewrite HA in H end.
      split; [auto|]. split; [auto|]. apply seen_now; [auto|].
      match goal with H : skips _ _ _ |- _ => destruct H as [g Hn|i Hi Hx|i Hi Hx|i Hi Hx|i Hi Hx] end.
      * exfalso. rewrite <- HA in *. destruct (slot_fields e ps w l) as (r & Hl & _); [auto|congruence|].
        cbn in Hn. rewrite Hl in Hn. discriminate.
      * left. destruct (ref_fields _ _ _ _ _ Hr Hi) as (_ & _ & Hb & _). congruence.
      * right. right. pose proof (ref_tracks _ _ _ _ _ Hr Hi) as Hft. unfold expired in Hx.
        destruct (c_kind (im_c i)); try discriminate. apply negb_true_iff in Hx. eexists. split; [exact Hft|]. rewrite <- HO. auto.
      * right. left. destruct (ref_fields _ _ _ _ _ Hr Hi) as (_ & Hb & _). congruence.
      * right. left. destruct (ref_fields _ _ _ _ _ Hr Hi) as (_ & Hb & _). congruence.
    + match goal with H : ref_ok _ _ = true |- _ => cbn in H; rewrite HA in H end.
      split; [auto|]. split; [auto|]. destruct Q6 as [_ (n & Hn & o & Ho & Hd)]. exists n. split; [auto|].
      right. right. eauto.
  - apply Forall_cons in HC as [HC _]; cbn in HC; destruct HC as (Q1 & Q2 & Q3 & Q4 & Q5 & Q6).
    assert (Hal : spec_alive (w_log w) l = true).
    { rewrite <- HA. inversion Htr; subst; cbn in *; auto. }
    split; [exact Hal|]. split; [cbn; lia|].
    change (EFlag l :: w_log w) with ([EFlag l] ++ w_log w). apply seen_app.
    destruct Q6 as [_ (n & Hn & o & Ho & Hd)]. exists n. split; [auto|]. right. right. eauto.
Qed.
