(** * Facts about well-formed logs *)
From Verif Require Export InvFields.

Lemma older_all log : older (length log) log = log.
Proof. unfold older. rewrite Nat.sub_diag. reflexivity. Qed.
Lemma older_app n new log : n <= length log -> older n (new ++ log) = older n log.
Proof.
  intros H. unfold older. rewrite app_length.
  replace (length new + length log - n) with (length new + (length log - n)) by lia.
  rewrite <- drop_drop, drop_app. reflexivity.
Qed.
Lemma older_suffix n log : exists new, log = new ++ older n log.
Proof. unfold older. exists (take (length log - n) log). rewrite take_drop. reflexivity. Qed.
Lemma older_length n log : n <= length log -> length (older n log) = n.
Proof. intros H. unfold older. rewrite drop_length. lia. Qed.
Lemma older_older n m log : n <= m -> m <= length log -> older n (older m log) = older n log.
Proof.
  intros H1 H2. destruct (older_suffix m log) as [new Hn].
  rewrite Hn at 2. rewrite older_app; [reflexivity|]. rewrite older_length; auto.
Qed.
Lemma older_between n m log : n <= m -> m <= length log -> exists mid, older m log = mid ++ older n log.
Proof.
  intros H1 H2. destruct (older_suffix n (older m log)) as [new Hn]. rewrite older_older in Hn by auto. eauto.
Qed.
Lemma older_elem n log ev : ev ∈ older n log -> ev ∈ log.
Proof. intros H. destruct (older_suffix n log) as [new ->]. apply elem_of_app. auto. Qed.

(** A slot is connected once, before anything else happens to it. *)
Definition wf_log (log : list event) : Prop :=
  log_all (fun ev pre => match ev with
                         | EConn _ _ l _ => forall ev', ev' ∈ pre -> l ∉ ev_slots ev'
                         | _ => True
                         end) log.

Lemma log_all_app P new log : log_all P (new ++ log) -> log_all P log.
Proof. induction new as [|x new IH]; cbn; [auto|]. rewrite log_all_cons. intros [_ H]. auto. Qed.

Lemma wf_log_reach e ps w : reachable e ps w -> wf_log (w_log w).
Proof.
  apply log_all_hist.
  - intros [] pre; cbn; try discriminate; auto.
  - clear w. intros w t st w' st' ev pre Hr Ht Htr Hlg. destruct ev; auto.
    logs_inv Htr Hlg.
    intros ev' Hev. eapply fresh_log; eauto.
Qed.

(** [known log l]: something happened to [l] before. *)
Definition known (log : list event) (l : lid) : Prop := exists ev, ev ∈ log /\ l ∈ ev_slots ev.

Lemma conn0_known log l i : spec_conn0 log l = Some i -> exists t s, EConn t s l i ∈ log.
Proof.
  induction log as [|ev log IH]; cbn; [discriminate|]. intros H.
  assert (Hi : spec_conn0 log l = Some i -> exists t s, EConn t s l i ∈ ev :: log).
  { intros H'. destruct (IH H') as (t & s & Hin). exists t, s. apply elem_of_list_further. auto. }
  destruct ev; auto. case_decide; [|auto]. subst. simplify_eq. eexists _, _. apply elem_of_list_here.
Qed.

Lemma known_conn0 log l i : spec_conn0 log l = Some i -> known log l.
Proof. intros H. destruct (conn0_known _ _ _ H) as (t & s & Hin). eexists. split; [exact Hin|]. apply elem_of_list_here. Qed.

Lemma known_app new log l : known log l -> known (new ++ log) l.
Proof. intros (ev & H & Hl). exists ev. split; [|auto]. apply elem_of_app. auto. Qed.

Lemma wf_tail ev log : wf_log (ev :: log) -> wf_log log.
Proof. intros H. apply log_all_cons in H as [_ H]. exact H. Qed.

Lemma wf_conn log t s l i : wf_log (EConn t s l i :: log) -> ~ known log l.
Proof. intros H (ev & Hev & Hl). apply log_all_cons in H as [H _]. exact (H _ Hev Hl). Qed.

Lemma flag_app new log l : wf_log (new ++ log) -> known log l -> spec_flag log l = false -> spec_flag (new ++ log) l = false.
Proof.
  induction new as [|ev new IH]; cbn [app]; intros Hw Hk Hf; [auto|].
  assert (Hi : spec_flag (new ++ log) l = false) by (apply IH; eauto using wf_tail).
  destruct ev; cbn; auto; case_decide; auto. subst. exfalso.
  eapply (wf_conn _ _ _ _ _ Hw). apply known_app. auto.
Qed.
Lemma dead_app new log l : wf_log (new ++ log) -> known log l -> spec_alive log l = false -> spec_alive (new ++ log) l = false.
Proof.
  induction new as [|ev new IH]; cbn [app]; intros Hw Hk Hf; [auto|].
  assert (Hi : spec_alive (new ++ log) l = false) by (apply IH; eauto using wf_tail).
  destruct ev; cbn; auto; case_decide; auto. subst. exfalso.
  eapply (wf_conn _ _ _ _ _ Hw). apply known_app. auto.
Qed.
Lemma conn0_app new log l i : wf_log (new ++ log) -> spec_conn0 log l = Some i -> spec_conn0 (new ++ log) l = Some i.
Proof.
  induction new as [|ev new IH]; cbn [app]; intros Hw Hf; [auto|].
  assert (Hi : spec_conn0 (new ++ log) l = Some i) by (apply IH; eauto using wf_tail).
  destruct ev; cbn; auto; case_decide; auto. subst. exfalso.
  eapply (wf_conn _ _ _ _ _ Hw). apply known_app. eapply known_conn0; eauto.
Qed.
Lemma home_app new log l s : wf_log (new ++ log) -> known log l -> spec_home log l = Some s -> spec_home (new ++ log) l = Some s.
Proof.
  induction new as [|ev new IH]; cbn [app]; intros Hw Hk Hf; [auto|].
  assert (Hi : spec_home (new ++ log) l = Some s) by (apply IH; eauto using wf_tail).
  destruct ev; cbn; auto; case_decide; auto. subst. exfalso.
  eapply (wf_conn _ _ _ _ _ Hw). apply known_app. auto.
Qed.
Lemma tracks_app new log l o : wf_log (new ++ log) -> spec_tracks log l = Some o -> spec_tracks (new ++ log) l = Some o.
Proof.
  unfold spec_tracks. intros Hw H. destruct (spec_conn0 log l) as [i|] eqn:Hi; [|discriminate].
  rewrite (conn0_app _ _ _ _ Hw Hi). auto.
Qed.

Lemma wf_suffix new log : wf_log (new ++ log) -> wf_log log.
Proof. apply log_all_app. Qed.

Lemma flag_cleared log l : wf_log log -> EFlag l ∈ log -> spec_flag log l = false.
Proof.
  intros Hw Hin. apply elem_of_list_split in Hin as (a & b & ->).
  replace (a ++ EFlag l :: b) with ((a ++ []) ++ EFlag l :: b) by (rewrite app_nil_r; reflexivity).
  rewrite app_nil_r. apply flag_app; auto.
  - eexists. split; [apply elem_of_list_here|]. apply elem_of_list_here.
  - cbn. rewrite decide_True by auto. reflexivity.
Qed.

Lemma slot_known e ps w l : reachable e ps w -> l < length (w_slots w) -> exists i, spec_conn0 (w_log w) l = Some i.
Proof.
  intros Hr Hl. apply lookup_lt_is_Some in Hl as [r Hs].
  destruct (I_fields_inv _ _ _ Hr _ _ Hs) as ((i & Hi & _) & _). eauto.
Qed.
