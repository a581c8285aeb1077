(** * When nothing is running, the list is what the handles say: proofs *)
From Verif Require Export SpecQuiet OpDeath.

Definition krem (l : lid) (f : frame) : Prop :=
  match f with FLock _ (KRem l') | FWrite _ (KRem l') | FBody _ _ (KRem l') => l' = l | _ => False end.
Definition pend (w : world) (l : lid) : Prop := exists t st f, w_thr w !! t = Some st /\ f ∈ st /\ krem l f.

Lemma died_app L log l : died_in_call log l -> died_in_call (L ++ log) l.
Proof. intros (a & t & eid & start & b & -> & H). exists (L ++ a), t, eid, start, b. split; [apply app_assoc|exact H]. Qed.

(** A call of a slot begins after the slot was connected. *)
Definition fr_first (log : list event) (f : frame) : Prop :=
  match f with FSlot (RSlot l) _ _ _ _ start => start <= length log /\ exists i, spec_conn0 (older start log) l = Some i | _ => True end.
Lemma fr_first_app new log f : fr_first log f -> fr_first (new ++ log) f.
Proof. destruct f; cbn; auto. destruct r; auto. intros [H1 H2]. rewrite older_app by auto. rewrite app_length. split; [lia|exact H2]. Qed.
Lemma I_first_inv e ps w : reachable e ps w -> AF (fr_first (w_log w)) w.
Proof.
  apply (reach_ind2 e ps (fun w => AF (fr_first (w_log w)) w)).
  - apply AF_init. intros; exact I.
  - clear w. intros w t st w' st' Hr HI Ht Htr.
    pose proof (trans_thr _ _ _ _ _ _ Htr) as Hthr. destruct (trans_log_app _ _ _ _ _ _ Htr) as [new Hnew].
    eapply (AF_pres (fr_first (w_log w)) (fr_first (w_log w'))); eauto.
    + intros t' x _ _ HF. eapply Forall_impl; [exact HF|]. intros f. rewrite Hnew. apply fr_first_app.
    + intros Hst. assert (Hst' : Forall (fr_first (w_log w')) st) by (eapply Forall_impl; [exact Hst|]; intros f; rewrite Hnew; apply fr_first_app).
      clear Hst Hnew Hthr HI Ht. destruct Htr; rewrite ?Forall_cons in Hst'; repeat first [rewrite Forall_cons | rewrite Forall_app];
        destruct_and?; repeat (match goal with |- _ /\ _ => split end); auto; try exact I.
      * apply vop_after in H. eapply Forall_impl; [exact H|]. intros []; cbn; auto; contradiction.
      * apply vop_after in H. eapply Forall_impl; [exact H|]. intros []; cbn; auto; contradiction.
      * apply begins_fr in H. eapply Forall_impl; [exact H|]. intros []; cbn; auto; contradiction.
      * cbn. split; [auto|]. rewrite older_all. eapply slot_known; [exact Hr|]. eapply deref_bound; eauto.
  - clear w. intros w t st D L HI Ht HD HL. intros t' x Hx. wcbn_in Hx. wcbn.
    destruct (thr_upd _ _ _ _ _ _ Ht Hx) as [[-> ->]|[Hn Hx']].
    + apply Forall_app. split; [eapply Forall_impl; [exact HD|]; intros f [[? ->]|[p ->]]; exact I|].
      eapply Forall_impl; [eapply HI; eauto|]. intros f. apply fr_first_app.
    + eapply Forall_impl; [eapply HI; eauto|]. intros f. apply fr_first_app.
Qed.
Lemma tracks_since log l start i n : wf_log log -> start <= n -> n <= length log -> spec_conn0 (older start log) l = Some i -> spec_tracks (older n log) l = spec_tracks log l.
Proof.
  intros Hwf H1 H2 Hi. unfold spec_tracks. destruct (older_between start n log H1 H2) as [mid Hm]. destruct (older_suffix n log) as [new Hn].
  assert (Hc : spec_conn0 (older n log) l = Some i) by (rewrite Hm; apply conn0_app; [rewrite <- Hm; rewrite Hn in Hwf; eapply wf_suffix; eauto|exact Hi]).
  rewrite Hc. rewrite Hn. rewrite (conn0_app new (older n log) l i); [reflexivity|rewrite <- Hn; exact Hwf|exact Hc].
Qed.

(** What becomes of the removal. *)
Lemma krem_trans e w t st w' st' l f : trans e w t st w' st' -> f ∈ st -> krem l f ->
  (exists f', f' ∈ st' /\ krem l f') \/ removed (w_log w') t l.
Proof.
  intros Htr Hf Hk.
  assert (Hkeep : forall a b rest, st = a ++ rest -> st' = b ++ rest -> Forall (fun g => ~ krem l g) a -> exists f', f' ∈ st' /\ krem l f').
  { intros a b rest -> -> Ha. exists f. split; [|exact Hk]. apply elem_of_app. right. apply elem_of_app in Hf as [Hf|Hf]; [|exact Hf].
    rewrite Forall_forall in Ha. destruct (Ha _ Hf Hk). }
  assert (Htop : forall g f2 rest, st = g :: rest -> st' = f2 :: rest -> (krem l g -> krem l f2) -> exists f', f' ∈ st' /\ krem l f').
  { intros g f2 rest -> -> Hg. apply elem_of_cons in Hf as [->|Hf]; [exists f2; split; [left|auto]|exists f; split; [right; exact Hf|exact Hk]]. }
  destruct Htr;
    try (left; eapply (Hkeep [_] []); [reflexivity|reflexivity|repeat constructor; cbn; auto]; fail);
    try (left; eapply (Hkeep [_] [_]); [reflexivity|reflexivity|repeat constructor; cbn; auto]; fail);
    try (left; eapply (Hkeep [_] [_; _]); [reflexivity|reflexivity|repeat constructor; cbn; auto]; fail);
    try (left; eapply (Hkeep [_] [_; _; _]); [reflexivity|reflexivity|repeat constructor; cbn; auto]; fail);
    try (left; eapply (Hkeep [_; _] []); [reflexivity|reflexivity|repeat constructor; cbn; auto]; fail);
    try (left; eapply (Hkeep [_; _] [_]); [reflexivity|reflexivity|repeat constructor; cbn; auto]; fail);
    try (left; eapply (Hkeep [_; _] [_; _]); [reflexivity|reflexivity|repeat constructor; cbn; auto]; fail);
    try (left; eapply (Hkeep [_; _] [_; _; _]); [reflexivity|reflexivity|repeat constructor; cbn; auto]; fail);
    try (left; eapply (Hkeep [_; _; _] [_; _]); [reflexivity|reflexivity|repeat constructor; cbn; auto]; fail).
  - left. eapply (Hkeep [_] (_ :: after ++ [_])); [reflexivity|cbn; rewrite <- app_assoc; reflexivity|repeat constructor; cbn; auto].
  - left. eapply (Hkeep [_] (_ :: after ++ [_])); [reflexivity|cbn; rewrite <- app_assoc; reflexivity|repeat constructor; cbn; auto].
  - left. eapply (Hkeep [_] (_ :: fr ++ [_])); [reflexivity|cbn; rewrite <- app_assoc; reflexivity|repeat constructor; cbn; auto].
  - left. eapply Htop; eauto.
  - left. eapply Htop; eauto. cbn. destruct k; try tauto. intros _. match goal with H : forall l, KRem _ <> _ |- _ => edestruct H; reflexivity end.
  - left. eapply Htop; eauto.
  - left. eapply Htop; eauto.
  - apply elem_of_cons in Hf as [->|Hf]; [right|left; exists f; split; [right; exact Hf|exact Hk]]. cbn in Hk. subst. exists s. left. exists l'. left.
  - apply elem_of_cons in Hf as [->|Hf]; [right|left; exists f; split; [right; exact Hf|exact Hk]]. cbn in Hk. subst. exists s. right. left.
Qed.

(** A slot whose flag was cleared is out of all lists, or a disconnect is about to take it out, or
    a call found its object dead; [X] is what is known in that case. *)
Section settles.
Context (e : env) (ps : list prog) (X : list event -> lid -> Prop).
Hypothesis X_app : forall L log l, X log l -> X (L ++ log) l.
Hypothesis X_dead : forall w t l args pin eid start st, reachable e ps w -> w_thr w !! t = Some (FSlot (RSlot l) SDead args pin eid start :: st) ->
  X (ESkip t (RSlot l) eid start :: EFlag l :: w_log w) l.
Definition settles (w : world) (l : lid) : Prop := out_of_list (w_log w) l \/ X (w_log w) l \/ pend w l.
Lemma flag_settles w : reachable e ps w -> forall l, EFlag l ∈ w_log w -> settles w l.
Proof.
  apply (reach_ind e ps (fun w => forall l, EFlag l ∈ w_log w -> settles w l)).
  - intros l H. inversion H.
  - clear w. intros w t st w' st' Hr HI Ht Htr Hr' l Hin.
    destruct (reap_spec e w w' t st') as (D & L & HD & HL & Hreap & _).
    destruct (trans_log_app _ _ _ _ _ _ Htr) as [new Hnew].
    assert (Hthr : forall t0 x, t0 <> t -> w_thr w !! t0 = Some x -> w_thr (reap e w w' t st') !! t0 = Some x).
    { intros t0 x Hn H0. rewrite Hreap. wcbn. rewrite (trans_thr _ _ _ _ _ _ Htr). rewrite !list_lookup_insert_ne by congruence. auto. }
    assert (Hme : w_thr (reap e w w' t st') !! t = Some (D ++ st')).
    { rewrite Hreap. wcbn. apply list_lookup_insert. rewrite ?insert_length, (trans_thr _ _ _ _ _ _ Htr). eapply lookup_lt_Some; eauto. }
    assert (Hlog : w_log (reap e w w' t st') = L ++ w_log w') by (rewrite Hreap; reflexivity).
    rewrite Hlog in Hin. apply elem_of_app in Hin as [Hin|Hin].
    { unfold deadish in HL. rewrite Forall_forall in HL. destruct (HL _ Hin) as [[? ?]|[? ?]]; discriminate. }
    assert (Hout : removed (w_log w') t l -> settles (reap e w w' t st') l).
    { intros Hrem. left. eapply removed_out; [exact Hr'|]. rewrite Hlog. destruct Hrem as (s & [[l' H]|H]); exists s; [left; exists l'|right]; apply elem_of_app; right; exact H. }
    assert (Hhere : (exists f', f' ∈ st' /\ krem l f') -> settles (reap e w w' t st') l).
    { intros (f' & Hf' & Hk). right. right. exists t, (D ++ st'), f'. split; [exact Hme|]. split; [apply elem_of_app; right; exact Hf'|exact Hk]. }
    assert (Hold : EFlag l ∈ w_log w -> settles (reap e w w' t st') l).
    { intros Ho. destruct (HI _ Ho) as [H|[H|(t0 & st0 & f & H0 & Hf & Hk)]].
      - left. rewrite Hlog, Hnew. apply out_app, out_app. exact H.
      - right. left. rewrite Hlog, Hnew. apply X_app, X_app. exact H.
      - destruct (decide (t0 = t)) as [->|Hn].
        + rewrite Ht in H0. injection H0 as <-. destruct (krem_trans _ _ _ _ _ _ _ _ Htr Hf Hk) as [H|H]; auto.
        + right. right. exists t0, st0, f. split; [apply Hthr; auto|auto]. }
    destruct (decide (EFlag l ∈ w_log w)) as [Ho|Ho]; [auto|].
    destruct Htr; wcbn_in Hin; autorewrite with wsimp in Hin;
      try (contradiction Ho; exact Hin);
      try (apply elem_of_cons in Hin as [Hin|Hin]; [try discriminate Hin|contradiction Ho; exact Hin]).
    + subst ev. apply vop_ev in H as [(?&?&?)|[(?&?&?)|[(?&?&?)|[(?&?&?&?)|(?&?&?&?)]]]]; discriminate.
    + subst ev. apply vop_ev in H as [(?&?&?)|[(?&?&?)|[(?&?&?)|[(?&?&?&?)|(?&?&?&?)]]]]; discriminate.
    + apply elem_of_cons in Hin as [Hin|Hin]; [discriminate|]. destruct (cc_log w r) as [Hc|(l0 & i0 & -> & _ & _ & Hc)]; rewrite Hc in Hin; [contradiction|].
      apply elem_of_cons in Hin as [Hin|Hin]; [|contradiction]. injection Hin as ->.
      right. left. rewrite Hlog. apply X_app. wcbn. rewrite Hc. eapply X_dead; eauto.
    + injection Hin as ->. apply Hhere. eexists. split; [left|]. reflexivity.
Qed.
End settles.
Lemma dead_died e ps w t l args pin eid start st : reachable e ps w -> w_thr w !! t = Some (FSlot (RSlot l) SDead args pin eid start :: st) ->
  died_in_call (ESkip t (RSlot l) eid start :: EFlag l :: w_log w) l.
Proof.
  intros Hr Ht. pose proof (I_call_inv _ _ _ Hr _ _ Ht) as HC. apply Forall_cons in HC as [HC _]. destruct HC as (_ & _ & _ & HA & _ & _ & HC).
  pose proof (I_first_inv _ _ _ Hr _ _ Ht) as HF. apply Forall_cons in HF as [(_ & i1 & Hi1) _]. specialize (HA eq_refl). pose proof (wf_log_reach _ _ _ Hr) as Hwf.
  exists [], t, eid, start, (w_log w). split; [reflexivity|]. split; [|exact HC].
  destruct HC as (n2 & Hn2 & o & Ho2 & _). destruct HA as (n1 & Hn1 & HA). exists n1. split; [exact Hn1|]. exists o.
  assert (Ho1 : spec_tracks (older n1 (w_log w)) l = Some o).
  { rewrite (tracks_since _ _ start i1 n1 Hwf); [|lia|lia|exact Hi1]. rewrite <- (tracks_since _ _ start i1 n2 Hwf); [exact Ho2|lia|lia|exact Hi1]. }
  auto.
Qed.

Lemma flag_conn0 log l : spec_flag log l = true -> exists i, spec_conn0 log l = Some i.
Proof. induction log as [|ev log IH]; cbn; [discriminate|]. destruct ev; auto; case_decide; eauto; discriminate. Qed.
Lemma conn0_flag log l i : spec_conn0 log l = Some i -> spec_flag log l = true \/ im_conn i = false \/ EFlag l ∈ log.
Proof.
  induction log as [|ev log IH]; cbn; [discriminate|].
  assert (Hs : spec_conn0 log l = Some i -> spec_flag log l = true \/ im_conn i = false \/ EFlag l ∈ ev :: log).
  { intros H. destruct (IH H) as [?|[?|?]]; auto. right. right. right. auto. }
  destruct ev; auto.
  - case_decide; [|auto]. intros H1. simplify_eq. destruct (im_conn i); auto.
  - case_decide; [|auto]. subst. intros _. right. right. left.
Qed.
Lemma conn0_elem log l i : spec_conn0 log l = Some i -> exists t s, EConn t s l i ∈ log.
Proof.
  induction log as [|ev log IH]; cbn; [discriminate|].
  assert (Hs : spec_conn0 log l = Some i -> exists t s, EConn t s l i ∈ ev :: log) by (intros H; destruct (IH H) as (t & s & ?); exists t, s; right; auto).
  destruct ev; auto. case_decide; [|auto]. intros ?. simplify_eq. eexists _, _. left.
Qed.
Lemma listed_conn0 e ps w s l : reachable e ps w -> l ∈ slots_of w s -> exists i, spec_conn0 (w_log w) l = Some i.
Proof.
  intros Hr Hl. destruct (I_list_inv _ _ _ Hr) as (Hb & _). change slots_of with cur in Hl.
  destruct (cur_vec _ _ _ Hl) as (v & xs & Hv & Hx). rewrite Hx in Hl. apply (proj2 (Hb _ _ Hv)) in Hl as Hb'. apply lookup_lt_is_Some in Hb' as [r Hr0].
  destruct (I_fields_inv _ _ _ Hr _ _ Hr0) as ((i & Hi & _) & _). eauto.
Qed.

(** ** The list at rest *)
Lemma listed_settled e ps (X : list event -> lid -> Prop) w s l : (forall L log l, X log l -> X (L ++ log) l) ->
  (forall w t l args pin eid start st, reachable e ps w -> w_thr w !! t = Some (FSlot (RSlot l) SDead args pin eid start :: st) -> X (ESkip t (RSlot l) eid start :: EFlag l :: w_log w) l) ->
  reachable e ps w -> none_inside w l -> l ∈ slots_of w s -> spec_flag (w_log w) l = true \/ born_disconnected (w_log w) l \/ X (w_log w) l.
Proof.
  intros HX1 HX2 Hr Hn Hl. destruct (listed_conn0 _ _ _ _ _ Hr Hl) as (i & Hi).
  destruct (conn0_flag _ _ _ Hi) as [H|[H|H]]; [auto|right; left; exists i; auto|].
  right. right. destruct (flag_settles e ps X HX1 HX2 _ Hr _ H) as [Ho|[He|(t & st & f & Ht & Hf & Hk)]]; [|exact He|].
  - exfalso. destruct (conn0_elem _ _ _ Hi) as (t & s' & Hc). change slots_of with cur in Hl. rewrite (proj1 (list_spec _ _ _ s Hr)) in Hl.
    destruct (where_reach _ _ _ _ _ _ _ Hr Hc) as [[_ H1]|[H1 _]]; [exact (H1 _ Hl)|auto].
  - exfalso. destruct (I_adj_inv _ _ _ Hr _ _ Ht) as [Ha _]. apply elem_of_list_split in Hf as (a & b & ->). apply AT_app in Ha. cbn in Ha. destruct Ha as [Ha _].
    assert (Hb : match b with FRemRet l' :: _ => l' = l | _ => False end).
    { destruct f; try contradiction Hk; destruct k; try contradiction Hk; cbn in Hk; subst; exact Ha. }
    destruct b as [|[] b]; try contradiction. subst. apply (Hn _ _ Ht). apply elem_of_app. right. right. left.
Qed.
Theorem listed_connected e ps w s l : reachable e ps w -> none_inside w l -> l ∈ slots_of w s ->
  spec_flag (w_log w) l = true \/ born_disconnected (w_log w) l \/ died_in_call (w_log w) l.
Proof. apply listed_settled; [exact died_app|]. intros. eapply dead_died; eauto. Qed.

Lemma rem_flag e ps w : reachable e ps w ->
  log_all (fun ev pre => match ev with ERem t s l l' => EFlag l ∈ pre | _ => True end) (w_log w).
Proof.
  apply log_all_hist; [intros []; cbn; auto; discriminate|].
  clear w. intros w t st w' st' ev pre Hr Ht Htr Hlg. destruct ev; auto.
  pose proof (I_rr_inv _ _ _ Hr _ _ Ht) as HR. destruct (I_adj_inv _ _ _ Hr _ _ Ht) as [Ha _]. logs_inv Htr Hlg.
  cbn in Ha. destruct Ha as [Ha _]. destruct st as [|[] st]; try contradiction. subst. rewrite !Forall_cons in HR. destruct HR as (_ & HR & _). exact HR.
Qed.
Lemma flag_cleared log l : wf_log log -> EFlag l ∈ log -> spec_flag log l = false.
Proof.
  induction log as [|ev log IH]; intros Hw Hin; [inversion Hin|]. pose proof (wf_tail _ _ Hw) as Hw'. apply log_all_cons in Hw as [Hev _].
  apply elem_of_cons in Hin as [<-|Hin]; [cbn; rewrite decide_True by auto; reflexivity|]. specialize (IH Hw' Hin).
  destruct ev; cbn; auto; case_decide; auto. subst. destruct (Hev _ Hin). left.
Qed.

Theorem connected_listed e ps w l : reachable e ps w -> (forall t s l', EErased t s l' ∉ w_log w) -> spec_flag (w_log w) l = true ->
  exists s, spec_home (w_log w) l = Some s /\ exists s', l ∈ slots_of w s' /\ (s' = s \/ exists s2, EMoveSig s s2 ∈ w_log w).
Proof.
  intros Hr He Hf. destruct (flag_conn0 _ _ Hf) as (i & Hi). destruct (conn0_elem _ _ _ Hi) as (t & s & Hc).
  pose proof (wf_log_reach _ _ _ Hr) as Hw. exists s. split; [eapply elem_home; eauto|].
  destruct (where_reach _ _ _ _ _ _ _ Hr Hc) as [[(ev & Hin & Ht) _]|(_ & s' & Hl & Hs)].
  - exfalso. destruct ev; cbn in Ht; try contradiction; subst; [|exact (He _ _ _ Hin)].
    pose proof (rem_exact _ _ _ Hr He) as HE. pose proof (rem_flag _ _ _ Hr) as HF. apply elem_of_list_split in Hin as (a & b & Hab).
    specialize (HE _ _ _ Hab). specialize (HF _ _ _ Hab). cbn in HE, HF. subst.
    rewrite (flag_cleared (w_log w) l0) in Hf; [discriminate|exact Hw|]. rewrite Hab. apply elem_of_app. right. right. exact HF.
  - exists s'. split; [|exact Hs]. change slots_of with cur. rewrite (proj1 (list_spec _ _ _ s' Hr)). exact Hl.
Qed.
