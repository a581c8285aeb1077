(** * Connecting and emitting in a loop: counting the calls *)
From Verif Require Import Reach InvUse InvFault InvFields InvRem InvSig InvEmit Emission LogLemmas InvList OpDeath Witness TidyCase TidySafe AloneProof AloneTest TidyExamples QuietExamples.
From Verif Require Export CountPhase.

(** ** Slots that are connected, not blocked, and stay so *)
Definition good_slot (log : list event) (l : lid) : Prop :=
  EFlag l ∉ log /\ (forall b, EBlk l b ∉ log) /\ exists t i, EConn t 0 l i ∈ log /\ im_conn i = true /\ im_blk i = false.

Lemma econn_conn0 log t s l i : wf_log log -> EConn t s l i ∈ log -> spec_conn0 log l = Some i.
Proof.
  induction log as [|ev log IH]; intros Hw Hin; [inversion Hin|]. pose proof (wf_tail _ _ Hw) as Hw'. apply log_all_cons in Hw as [Hev _].
  apply elem_of_cons in Hin as [<-|Hin]; [cbn; rewrite decide_True by auto; reflexivity|]. specialize (IH Hw' Hin).
  destruct ev; cbn; auto. case_decide; auto. subst. destruct (Hev _ Hin). left.
Qed.
Lemma blk_false log t s l i : wf_log log -> EConn t s l i ∈ log -> im_blk i = false -> (forall b, EBlk l b ∉ log) -> spec_blk log l = false.
Proof.
  induction log as [|ev log IH]; intros Hw Hin Hi Hb; [reflexivity|]. pose proof (wf_tail _ _ Hw) as Hw'. apply log_all_cons in Hw as [Hev _].
  apply elem_of_cons in Hin as [<-|Hin]; [cbn; rewrite decide_True by auto; exact Hi|].
  assert (IH' : spec_blk log l = false) by (apply IH; auto; intros b Hx; apply (Hb b); right; exact Hx).
  destruct ev; cbn; auto; case_decide; auto; subst.
  - destruct (Hev _ Hin). left.
  - destruct (Hb b). left.
Qed.
Lemma good_facts log l : wf_log log -> good_slot log l -> spec_flag log l = true /\ spec_home log l = Some 0 /\ spec_blk log l = false.
Proof.
  intros Hw (Hf & Hb & t & i & Hc & Hi & Hk). split; [|split].
  - destruct (conn0_flag _ _ _ (econn_conn0 _ _ _ _ _ Hw Hc)) as [H|[H|H]]; [exact H|congruence|contradiction].
  - eapply elem_home; eauto.
  - eapply blk_false; eauto.
Qed.
Lemma good_older log l p a t s i : log = a ++ p -> wf_log log -> good_slot log l -> EConn t s l i ∈ p -> good_slot p l.
Proof.
  intros -> Hw (Hf & Hb & t0 & i0 & Hc & Hi & Hk) Hin. split; [intros H; apply Hf, elem_of_app; auto|]. split; [intros b H; apply (Hb b), elem_of_app; auto|].
  assert (E : EConn t s l i ∈ a ++ p) by (apply elem_of_app; auto).
  pose proof (econn_conn0 _ _ _ _ _ Hw Hc) as H1. pose proof (econn_conn0 _ _ _ _ _ Hw E) as H2. rewrite H1 in H2. injection H2 as <-.
  pose proof (elem_home _ _ _ _ _ Hw Hc) as H3. rewrite (elem_home _ _ _ _ _ Hw E) in H3. injection H3 as ->. eauto.
Qed.
Lemma good_app evs log l : (forall ev, ev ∈ evs -> ev <> EFlag l /\ forall b, ev <> EBlk l b) -> good_slot log l -> good_slot (evs ++ log) l.
Proof.
  intros He (Hf & Hb & t & i & Hc & Hi & Hk). split; [|split].
  - intros H. apply elem_of_app in H as [H|H]; [destruct (He _ H); congruence|auto].
  - intros b H. apply elem_of_app in H as [H|H]; [destruct (He _ H) as [_ Hx]; exact (Hx b eq_refl)|exact (Hb b H)].
  - exists t, i. split; [apply elem_of_app; auto|auto].
Qed.

(** What an emission copies was connected before. *)
Lemma emit_known e ps w : reachable e ps w ->
  log_all (fun ev pre => match ev with EEmit _ _ _ _ xs => forall l, l ∈ xs -> exists t s i, EConn t s l i ∈ pre | _ => True end) (w_log w).
Proof.
  apply log_all_hist; [intros []; cbn; auto; discriminate|].
  clear w. intros w t st w' st' ev pre Hr Ht Htr Hlg. destruct ev; auto. logs_inv Htr Hlg. intros l Hl.
  destruct (listed_conn0 _ _ _ s l Hr) as (i & Hi); [|apply conn0_elem in Hi as (? & ? & ?); eauto].
  unfold slots_of. repeat match goal with H : _ = Some _ |- _ => rewrite H end. exact Hl.
Qed.

(** An emission that has returned called every slot in its list that has been good all the time. *)
Lemma good_called ps w t eid s a xs z l : Forall functions ps -> reachable add_env ps w -> began (w_log w) t eid s a xs None ->
  EEmitRet t eid (OutOpt z) ∈ w_log w -> l ∈ xs -> good_slot (w_log w) l -> exists c args start, ECall t (RSlot l) (Some eid) c args start ∈ w_log w.
Proof.
  intros Hps Hr Hb He Hl Hg. pose proof (visited_once _ _ _ _ _ _ _ _ _ l Hr Hb He) as Hv. rewrite decide_True in Hv by exact Hl.
  assert (Hx : exists ev, ev ∈ w_log w /\ is_visit eid l ev = true).
  { unfold ecount in Hv. destruct (filter (fun ev => is_visit eid l ev) (w_log w)) as [|ev evs] eqn:E; [discriminate|].
    assert (Hin : ev ∈ filter (fun ev => is_visit eid l ev) (w_log w)) by (rewrite E; left). apply elem_of_list_filter in Hin as [H1 H2]. exists ev. split; [exact H2|]. apply Is_true_eq_true. exact H1. }
  destruct Hx as (ev & Hin & Hvis).
  assert (Hown : forall t' ev', ev' ∈ w_log w -> thread_of ev' = Some t' -> about eid ev' = true -> t' = t).
  { intros t' ev' H1 H2 H3. pose proof (default_combiner _ _ _ _ _ _ _ _ Hr Hb) as HD.
    assert (Hd : ev' ∈ did eid (w_log w)) by (apply elem_of_list_filter; split; [apply Is_true_eq_left; exact H3|exact H1]).
    assert (HV : forall evs n z, visits t eid xs evs n z -> ev' ∈ evs -> t' = t).
    { clear - H2. intros evs n z HV. induction HV; intros Hx; [inversion Hx| |];
        repeat (apply elem_of_cons in Hx as [->|Hx]; [cbn in H2; congruence|]); auto. }
    inversion HD; subst; match goal with E : did eid _ = _ |- _ => idtac | E : _ = did eid _ |- _ => rewrite <- E in Hd | _ => idtac end;
      repeat (apply elem_of_cons in Hd as [->|Hd]; [cbn in H2; congruence|]); eauto. }
  destruct ev; try discriminate; destruct r; try discriminate; destruct eid0; try discriminate; cbn in Hvis; apply bool_decide_eq_true in Hvis as [-> ->].
  - assert (t0 = t) as -> by (eapply (Hown t0 _ Hin); [reflexivity|cbn; apply bool_decide_eq_true; reflexivity]). eauto.
  - exfalso. apply elem_of_list_split in Hin as (post & pre & Hlog).
    destruct (skip_reason _ _ _ Hr _ _ _ Hlog) as ((po & pr & s' & a' & xs' & Hold & Hlx) & _ & (n & Hn & Hrf)).
    pose proof (wf_log_reach _ _ _ Hr) as Hw.
    assert (Hk : exists t1 s1 i1, EConn t1 s1 l i1 ∈ pr).
    { destruct (older_suffix start pre) as [b Hbb]. apply (emit_known _ _ _ Hr (post ++ ESkip t0 (RSlot l) (Some eid) start :: b ++ po) (EEmit t0 eid s' a' xs') pr).
      - rewrite Hold in Hbb. rewrite Hlog, Hbb, <- !app_assoc. cbn. rewrite <- !app_assoc. reflexivity.
      - exact Hlx. }
    destruct Hk as (t1 & s1 & i1 & Hk).
    assert (Hgp : good_slot (older n pre) l).
    { destruct (older_suffix n pre) as [b Hbb]. eapply (good_older (w_log w) l _ (post ++ ESkip t0 (RSlot l) (Some eid) start :: b)); eauto.
      - rewrite Hlog. rewrite Hbb at 1. rewrite <- app_assoc. reflexivity.
      - destruct (older_between start n pre) as [mid Hm]; [lia|lia|]. rewrite Hm, Hold. apply elem_of_app. right. apply elem_of_app. right. right. exact Hk. }
    assert (Hwp : wf_log (older n pre)).
    { destruct (older_suffix n pre) as [b Hbb]. rewrite Hlog in Hw. apply log_all_app in Hw. apply wf_tail in Hw. rewrite Hbb in Hw. apply log_all_app in Hw. exact Hw. }
    destruct (good_facts _ _ Hwp Hgp) as (H1 & H2 & H3). destruct Hrf as [H|[H|(o & H & _)]]; [congruence|congruence|].
    unfold spec_tracks in H. destruct (spec_conn0 (older n pre) l) as [i|] eqn:Hc; [|discriminate]. apply conn0_elem in Hc as (t2 & s2 & Hc).
    apply older_elem in Hc. assert (Hc' : EConn t2 s2 l i ∈ w_log w) by (rewrite Hlog; apply elem_of_app; right; right; exact Hc).
    apply elem_of_list_split in Hc' as (p1 & p2 & Hc'). destruct (fun_conns _ _ add_functions Hps _ Hr _ _ _ Hc') as [_ Hx]. destruct (c_kind (im_c i)); [discriminate|discriminate|congruence].
Qed.
