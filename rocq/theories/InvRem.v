(** * Taking slots out of lists *)
From Verif Require Export Facts.

(** Invariants about a frame, what is below it and the log. *)
Lemma AT_log_inv e ps (P : tid -> list event -> frame -> list frame -> Prop) :
  (forall t L log f r, P t log f r -> P t (L ++ log) f r) ->
  (forall t log p r, P t log (FProg p) r) -> (forall t log d r, P t log (FDtor d) r) ->
  (forall w t st w' st', reachable e ps w -> w_thr w !! t = Some st -> trans e w t st w' st' ->
     AT adj st -> AT (P t (w_log w')) st -> AT (P t (w_log w')) st') ->
  forall w, reachable e ps w -> forall t st, w_thr w !! t = Some st -> AT (P t (w_log w)) st.
Proof.
  intros Hm Hp Hd HS. apply (reach_ind2 e ps (fun w => forall t st, w_thr w !! t = Some st -> AT (P t (w_log w)) st)).
  - intros t st Ht. cbn in Ht. rewrite list_lookup_fmap in Ht.
    destruct (ps !! t); cbn in Ht; simplify_eq. cbn. auto.
  - intros w t st w' st' Hr HI Ht Htr t' x Hx. wcbn_in Hx. wcbn. rewrite (trans_thr _ _ _ _ _ _ Htr) in Hx.
    destruct (trans_log_app _ _ _ _ _ _ Htr) as [new Hnew].
    assert (Hx0 : forall t0 x0, w_thr w !! t0 = Some x0 -> AT (P t0 (w_log w')) x0).
    { intros t0 x0 H0. rewrite Hnew. eapply AT_impl; [|eapply HI; eauto]. intros f r. apply Hm. }
    destruct (thr_upd _ _ _ _ _ _ Ht Hx) as [[-> ->]|[Hn Hx']]; [|auto].
    eapply HS; eauto. apply (I_adj_inv _ _ _ Hr _ _ Ht).
  - intros w t st D L HI Ht HD HL t' x Hx. wcbn_in Hx. wcbn.
    assert (Hx0 : forall t0 x0, w_thr w !! t0 = Some x0 -> AT (P t0 (L ++ w_log w)) x0).
    { intros t0 x0 H0. eapply AT_impl; [|eapply HI; eauto]. intros f r. apply Hm. }
    destruct (thr_upd _ _ _ _ _ _ Ht Hx) as [[-> ->]|[Hn Hx']]; [|auto].
    specialize (Hx0 _ _ Ht). clear - HD Hx0 Hp Hd.
    induction HD as [|f D [[? ->]|[p ->]] _ IH]; cbn; auto.
Qed.

(** ** Signals: never blocked, destroyed, moved from *)
Definition sig_ok (log : list event) (s : sid) (r : sigrec) : Prop :=
  sg_blocked r = false /\ (sg_alive r = false <-> EDestroySig s ∈ log) /\
  (forall s2, EMoveSig s s2 ∈ log -> sg_vec r = None) /\
  (sg_vec r = None -> exists s1 s2, EMoveSig s1 s2 ∈ log /\ (s1 = s \/ s2 = s)).
Definition I_sig (w : world) : Prop :=
  (forall s r, w_sigs w !! s = Some r -> sig_ok (w_log w) s r) /\
  (forall s, EDestroySig s ∈ w_log w -> s < length (w_sigs w)) /\
  (forall s s2, EMoveSig s s2 ∈ w_log w -> s < length (w_sigs w) /\ s2 < length (w_sigs w)).

Lemma sig_ok_other log s r ev : ev <> EDestroySig s -> (forall s2, ev <> EMoveSig s s2) -> sig_ok log s r -> sig_ok (ev :: log) s r.
Proof.
  intros H1 H2 (B & A & V1 & V2). split; [auto|]. split; [|split].
  - rewrite A, elem_of_cons. naive_solver.
  - intros s2 H. apply elem_of_cons in H as [H|H]; [|eauto]. symmetry in H. destruct (H2 _ H).
  - intros H. destruct (V2 H) as (s1 & s2 & Hm & Ho). exists s1, s2. split; [apply elem_of_list_further; auto|auto].
Qed.
Lemma sig_ok_ext log log' s r r' : sg_blocked r' = sg_blocked r -> sg_alive r' = sg_alive r -> (sg_vec r' = None <-> sg_vec r = None) ->
  (EDestroySig s ∈ log' <-> EDestroySig s ∈ log) -> (forall s1 s2, EMoveSig s1 s2 ∈ log' <-> EMoveSig s1 s2 ∈ log) ->
  sig_ok log s r -> sig_ok log' s r'.
Proof. unfold sig_ok. intros -> -> HV -> H (B & A & V1 & V2). setoid_rewrite H. rewrite HV. split; [auto|]. split; [auto|]. split; [|auto]. intros s2 H2. apply HV. eauto. Qed.

Definition sigev (ev : event) : bool := match ev with EDestroySig _ | EMoveSig _ _ => true | _ => false end.
Lemma sig_ok_app new log s r : Forall (fun ev => sigev ev = false) new -> sig_ok log s r -> sig_ok (new ++ log) s r.
Proof.
  intros Hn. apply sig_ok_ext; auto; try reflexivity.
  - rewrite elem_of_app. rewrite Forall_forall in Hn. split; [|auto]. intros [Hx|]; [apply Hn in Hx; discriminate|auto].
  - intros s1 s2. rewrite elem_of_app. rewrite Forall_forall in Hn. split; [|auto]. intros [Hx|]; [apply Hn in Hx; discriminate|auto].
Qed.

Lemma I_sig_inv e ps w : reachable e ps w -> I_sig w.
Proof.
  apply reach_ind2.
  - split; [intros s r H; discriminate|]. split; intros; inversion H.
  - clear w. intros w t st w' st' Hr (HI & HD & HM) Ht Htr.
    assert (Hgen : forall new, w_log w' = new ++ w_log w -> Forall (fun ev => sigev ev = false) new ->
       (forall s r', w_sigs w' !! s = Some r' -> sig_ok (w_log w) s r') -> length (w_sigs w) <= length (w_sigs w') -> I_sig (mid w' t st')).
    { intros new Hnew Hf Hs Hl. split; [|split]; wcbn.
      - intros s r' Hs'. rewrite Hnew. apply sig_ok_app; auto.
      - intros s Hin. rewrite Hnew, elem_of_app in Hin. rewrite Forall_forall in Hf. destruct Hin as [Hin|Hin]; [apply Hf in Hin; discriminate|].
        apply HD in Hin. lia.
      - intros s s2 Hin. rewrite Hnew, elem_of_app in Hin. rewrite Forall_forall in Hf. destruct Hin as [Hin|Hin]; [apply Hf in Hin; discriminate|].
        apply HM in Hin. lia. }
    assert (Hsame : forall new, w_log w' = new ++ w_log w -> Forall (fun ev => sigev ev = false) new -> w_sigs w' = w_sigs w -> I_sig (mid w' t st')).
    { intros new Hnew Hf Hs. eapply Hgen; eauto; rewrite Hs; auto. }
    assert (Halt : forall new f s, w_log w' = new ++ w_log w -> Forall (fun ev => sigev ev = false) new -> w_sigs w' = alter f s (w_sigs w) ->
       (forall r, w_sigs w !! s = Some r -> sg_blocked (f r) = sg_blocked r /\ sg_alive (f r) = sg_alive r /\ (sg_vec (f r) = None <-> sg_vec r = None)) -> I_sig (mid w' t st')).
    { intros new f s Hnew Hf Hs Hfr. eapply Hgen; eauto; rewrite Hs; [|rewrite alter_length; auto].
      intros s' r'. rewrite alter_lookup. case_decide; [|auto]. subst. destruct (w_sigs w !! s') as [r|] eqn:Hr0; [|discriminate].
      intros Heq. cbn in Heq. simplify_eq. destruct (Hfr _ eq_refl) as (F1 & F2 & F3).
      eapply sig_ok_ext; [exact F1|exact F2|exact F3| | |apply HI; eauto]; reflexivity. }
    destruct Htr;
      try (eapply (Hsame []); [wcbn; autorewrite with wsimp; reflexivity|constructor|wcbn; autorewrite with wsimp; reflexivity]; fail);
      try (eapply (Hsame [_]); [wcbn; autorewrite with wsimp; reflexivity|repeat constructor|wcbn; autorewrite with wsimp; reflexivity]; fail).
    + eapply (Hsame [_]); [reflexivity| |reflexivity]. apply Forall_singleton. apply vop_ev in H as [(?&->&?)|[(?&->&?)|[(?&->&?)|[(?&->&?)|(?&->&?)]]]]; reflexivity.
    + eapply (Hsame [_]); [reflexivity| |reflexivity]. apply Forall_singleton. apply vop_ev in H as [(?&->&?)|[(?&->&?)|[(?&->&?)|[(?&->&?)|(?&->&?)]]]]; reflexivity.
    + eapply (Hgen [_]); [reflexivity|repeat constructor| |wcbn; rewrite app_length; lia].
      wcbn. intros s r' Hs. apply snoc_lookup in Hs as [[Hs _]|[-> ->]]; [auto|]. split; [reflexivity|]. cbn. split; [split; [discriminate|]|split; [|discriminate]].
      * intros Hd. apply HD in Hd. lia.
      * intros s2 Hm. apply HM in Hm. lia.
    + apply get_sig_Some in H as [Hs Ha]. split; [|split]; wcbn.
      * intros s' r'. rewrite alter_lookup. case_decide; subst.
        -- rewrite Hs. cbn. intros Heq. simplify_eq. destruct (HI _ _ Hs) as (B & A & V1 & V2). split; [exact B|]. split; [|split]; cbn.
           ++ split; auto. intros _. apply elem_of_list_here.
           ++ intros s2 Hm. apply elem_of_cons in Hm as [Hm|Hm]; [discriminate|eauto].
           ++ intros Hn. destruct (V2 Hn) as (s1 & s2 & Hm & Ho). exists s1, s2. split; [apply elem_of_list_further; auto|auto].
        -- intros Hs'. apply sig_ok_other; auto; congruence.
      * intros s' Hin. rewrite alter_length. apply elem_of_cons in Hin as [Hin|Hin]; [simplify_eq; eapply lookup_lt_Some; eauto|auto].
      * intros s' s2 Hin. rewrite alter_length. apply elem_of_cons in Hin as [Hin|Hin]; [discriminate|eauto].
    + destruct (cc_log w r) as [Hc|(l0 & i0 & _ & _ & _ & Hc)].
      * eapply (Hsame [_]); [wcbn; rewrite Hc; reflexivity|repeat constructor|wcbn; autorewrite with wsimp; reflexivity].
      * eapply (Hsame [_; _]); [wcbn; rewrite Hc; reflexivity|repeat constructor|wcbn; autorewrite with wsimp; reflexivity].
    + eapply (Halt []); [reflexivity|constructor|reflexivity|]. intros; cbn; auto.
    + split; [|split]; wcbn.
      * intros s' r' Hs'. apply snoc_lookup in Hs' as [[Hs' Hlt]|[-> ->]].
        -- rewrite alter_lookup in Hs'. case_decide; subst.
           ++ rewrite H in Hs'. cbn in Hs'. simplify_eq. destruct (HI _ _ H) as (B & A & V1 & V2). split; [exact B|]. split; [|split]; cbn.
              ** rewrite A, elem_of_cons. naive_solver.
              ** auto.
              ** intros _. exists s', (length (w_sigs w)). split; [apply elem_of_list_here|auto].
           ++ apply sig_ok_other; auto; congruence.
        -- rewrite alter_length. destruct (HI _ _ H) as (B & A & V1 & V2). split; [exact B|]. split; [|split]; cbn.
           ++ split; [discriminate|]. intros Hin. apply elem_of_cons in Hin as [|Hin]; [discriminate|]. apply HD in Hin. lia.
           ++ intros s2 Hin. apply elem_of_cons in Hin as [Hin|Hin]; [simplify_eq; apply lookup_lt_Some in H; lia|]. apply HM in Hin. lia.
           ++ intros _. exists s, (length (w_sigs w)). split; [apply elem_of_list_here|auto].
      * intros s' Hin. rewrite app_length, alter_length. apply elem_of_cons in Hin as [Hin|Hin]; [discriminate|]. apply HD in Hin. lia.
      * intros s' s2 Hin. rewrite app_length, alter_length. apply elem_of_cons in Hin as [Hin|Hin]; [simplify_eq; apply lookup_lt_Some in H; cbn; lia|].
        apply HM in Hin. lia.
    + eapply (Halt [_]); [reflexivity|repeat constructor|reflexivity|]. intros; cbn; auto.
    + eapply (Halt []); [reflexivity|constructor|reflexivity|]. intros r0 Hr0. cbn. split; [auto|]. split; [auto|]. split; [discriminate|]. congruence.
    + eapply (Halt []); [reflexivity|constructor|reflexivity|]. intros; cbn; auto.
  - clear w. intros w t st D L (H1 & H2 & H3) Ht HDt HL.
    assert (Hf : Forall (fun ev => sigev ev = false) L) by (eapply Forall_impl; [exact HL|]; intros ev [[? ->]|[? ->]]; reflexivity).
    split; [|split]; wcbn.
    + intros s r Hs. apply sig_ok_app; auto.
    + intros s Hin. apply elem_of_app in Hin as [Hin|Hin]; [|auto]. rewrite Forall_forall in Hf. apply Hf in Hin. discriminate.
    + intros s s2 Hin. apply elem_of_app in Hin as [Hin|Hin]; [|eauto]. rewrite Forall_forall in Hf. apply Hf in Hin. discriminate.
Qed.

(** ** Where slots are *)
Lemma swap_remove_elem x xs l : l ∈ xs -> l <> x -> l ∈ swap_remove x xs.
Proof.
  intros Hl Hn. unfold swap_remove. case_decide as Hx; [|auto].
  destruct xs as [|y xs] using rev_ind; [inversion Hl|]. clear IHxs. rewrite last_snoc, app_length. cbn [length].
  replace (length xs + 1 - 1) with (length xs) by lia. rewrite take_app. apply elem_of_list_fmap.
  apply elem_of_app in Hl as [Hl|Hl].
  - exists l. rewrite decide_False by auto. auto.
  - apply elem_of_list_singleton in Hl as ->. apply elem_of_app in Hx as [Hx|Hx].
    + exists x. rewrite decide_True by auto. auto.
    + apply elem_of_list_singleton in Hx. congruence.
Qed.
Lemma swap_remove_notin x xs : NoDup xs -> x ∈ xs -> x ∉ swap_remove x xs.
Proof.
  intros Hn Hx. apply elem_of_list_lookup in Hx as [i Hi]. rewrite <- (swap_pop_remove _ _ _ Hn Hi).
  rewrite (swap_pop_elem _ _ _ x Hn Hi). naive_solver.
Qed.
Lemma swap_remove_sub x xs l : NoDup xs -> l ∈ swap_remove x xs -> l ∈ xs.
Proof.
  intros Hn. destruct (decide (x ∈ xs)) as [Hx|Hx].
  - apply elem_of_list_lookup in Hx as [i Hi]. rewrite <- (swap_pop_remove _ _ _ Hn Hi).
    rewrite (swap_pop_elem _ _ _ l Hn Hi). tauto.
  - unfold swap_remove. rewrite decide_False by auto. auto.
Qed.

Lemma home_elem log l s : spec_home log l = Some s -> exists t i, EConn t s l i ∈ log.
Proof.
  induction log as [|ev log IH]; cbn; [discriminate|]. intros H.
  assert (Hi : spec_home log l = Some s -> exists t i, EConn t s l i ∈ ev :: log).
  { intros H'. destruct (IH H') as (t & i & Hin). exists t, i. apply elem_of_list_further. auto. }
  destruct ev; auto. case_decide; [|auto]. subst. simplify_eq. eexists _, _. apply elem_of_list_here.
Qed.
Lemma elem_home log l s t i : wf_log log -> EConn t s l i ∈ log -> spec_home log l = Some s.
Proof.
  intros Hw Hin. apply elem_of_list_split in Hin as (a & b & ->). apply home_app; auto.
  - eexists. split; [apply elem_of_list_here|apply elem_of_list_here].
  - cbn. rewrite decide_True by auto. reflexivity.
Qed.

Lemma conn_sig_bound e ps w : reachable e ps w -> forall t s l i, EConn t s l i ∈ w_log w -> s < length (w_sigs w).
Proof.
  intros Hr t s l i Hin. pose proof (wf_log_reach _ _ _ Hr) as Hw.
  assert (Hs : l < length (w_slots w)).
  { destruct (I_hb_inv _ _ _ Hr) as (_ & _ & H). specialize (H _ Hin). cbn in H. apply below_one in H. auto. }
  apply lookup_lt_is_Some in Hs as [r Hr0].
  destruct (I_fields_inv _ _ _ Hr _ _ Hr0) as (_ & _ & _ & _ & Hh). rewrite (elem_home _ _ _ _ _ Hw Hin) in Hh. simplify_eq.
  clear Hin Hw. revert l r Hr0. revert Hr.
  apply (reach_ind2 e ps (fun w => forall l r, w_slots w !! l = Some r -> sl_sig r < length (w_sigs w))).
  - intros l r H. discriminate.
  - clear w. intros w t0 st w' st' Hr HI Ht Htr l r Hl. wcbn_in Hl. wcbn.
    assert (Hlen : length (w_sigs w) <= length (w_sigs w')).
    { clear -Htr. destruct Htr; wcbn; autorewrite with wsimp; rewrite ?app_length, ?alter_length; try lia. }
    assert (Hold : forall f l0, alter (on_impl f) l0 (w_slots w) !! l = Some r -> sl_sig r < length (w_sigs w)).
    { intros f l0. rewrite alter_lookup. case_decide; [|eauto]. destruct (w_slots w !! l) eqn:Hx; [|discriminate]. cbn. intros. simplify_eq. cbn. eauto. }
    assert (Hdone : sl_sig r < length (w_sigs w) -> sl_sig r < length (w_sigs w')) by lia.
    assert (Href : forall f r0, w_slots (alter_ref w r0 f) !! l = Some r -> sl_sig r < length (w_sigs w)).
    { intros f [l0|u]; cbn; eauto. }
    apply Hdone. clear Hdone Hlen. pose proof (I_crit_inv _ _ _ Hr _ _ Ht) as HC.
    destruct Htr; wcbn_in Hl; autorewrite with wsimp in Hl; eauto.
    + apply snoc_lookup in Hl as [[Hl _]|[-> ->]]; [eauto|]. cbn.
      apply Forall_cons in HC as [HC _]. destruct HC as [(r1 & Hr1 & _) _]. eapply lookup_lt_Some; eauto.
    + unfold do_swap_pop in Hl. destruct (last (vec_of w v)); cbn in Hl; eauto.
    + unfold do_swap_pop in Hl. destruct (last (vec_of w v)); cbn in Hl; eauto.
  - intros w0 t0 st D L HI Ht HD HL. exact HI.
Qed.

Definition ev_lists (ev : event) (pre : list event) : Prop :=
  (forall s, NoDup (spec_list pre s)) /\
  (forall s1 s2 l, l ∈ spec_list pre s1 -> l ∈ spec_list pre s2 -> s1 = s2) /\
  match ev with
  | ERem _ s _ l | EErased _ s l => l ∈ spec_list pre s
  | EMoveSig s1 s2 => s1 <> s2 /\ spec_list pre s2 = [] /\ forall t l i, EConn t s2 l i ∉ pre
  | EConn _ _ l _ => forall s, l ∉ spec_list pre s
  | _ => True
  end.

Lemma lists_ok e ps w : reachable e ps w -> log_all (fun ev pre => is_dead ev = false -> ev_lists ev pre) (w_log w).
Proof.
  apply log_all_hist; [intros ev pre H; congruence|].
  clear w. intros w t st w' st' ev pre Hr Ht Htr Hlg _.
  pose proof (fun s => proj1 (list_spec _ _ _ s Hr)) as Hc. pose proof (fun s => proj2 (list_spec _ _ _ s Hr)) as Hn.
  destruct (I_list_inv _ _ _ Hr) as (Hb & _ & Hd & _).
  assert (Hp : forall s, spec_list pre s = spec_list (w_log w) s).
  { intros s. inversion Hlg; reflexivity. }
  split; [intros s; rewrite Hp; auto|]. split; [intros s1 s2 l; rewrite !Hp, <- !Hc; apply Hd|].
  assert (Hbelow : forall s l, l ∈ spec_list pre s -> l < length (w_slots w)).
  { intros s l. rewrite Hp, <- Hc. intros Hl. destruct (cur_vec _ _ _ Hl) as (v & xs & Hv & Hx). rewrite Hx in Hl. eapply Hb; eauto. }
  pose proof (conn_sig_bound _ _ _ Hr) as Hcs.
  assert (Hlist : forall s r v, w_sigs w !! s = Some r -> sg_vec r = Some v -> spec_list (w_log w) s = vec_of w v).
  { intros s r v H1 H2. rewrite <- Hc. unfold cur. rewrite H1, H2. reflexivity. }
  pose proof (I_crit_inv _ _ _ Hr _ _ Ht) as HC.
  assert (Hown : forall s v, own w s v -> spec_list (w_log w) s = vec_of w v).
  { intros s v Ho. rewrite <- Hc. apply cur_own. auto. }
  destruct ev; auto; logs_inv Htr Hlg.
  - match goal with H : w_sigs w !! _ = Some _ |- _ => pose proof (lookup_lt_Some _ _ _ H) end.
    split; [lia|]. split.
    + rewrite <- Hc. unfold cur. rewrite (lookup_ge_None_2 (w_sigs w)) by lia. reflexivity.
    + intros t0 l i Hin. apply Hcs in Hin. lia.
  - intros s0 Hin. apply Hbelow in Hin. lia.
  - apply Forall_cons in HC as [[Ho _] _]. rewrite (Hown _ _ Ho). eapply elem_of_list_lookup_2; eauto.
  - apply Forall_cons in HC as [_ HC]. apply Forall_cons in HC as [[Ho _] _]. rewrite (Hown _ _ Ho). eapply elem_of_list_lookup_2; eauto.
Qed.

(** A slot is in one list, that of the signal it was connected to or of one
    that took its list, until it is taken out. *)
Lemma where_is log : wf_log log -> log_all (fun ev pre => is_dead ev = false -> ev_lists ev pre) log ->
  forall t s l i, EConn t s l i ∈ log ->
  (out_of_list log l /\ forall s', l ∉ spec_list log s') \/
  (~ out_of_list log l /\ exists s', l ∈ spec_list log s' /\ (s' = s \/ exists s2, EMoveSig s s2 ∈ log)).
Proof.
  intros Hw HL. induction log as [|ev log IH]; intros t s l i Hin; [inversion Hin|].
  apply log_all_cons in HL as [Hev HL]. pose proof (wf_tail _ _ Hw) as Hw'. specialize (IH Hw' HL t s l i).
  assert (Hout : forall ev', out_of_list (ev' :: log) l <-> takes_out l ev' \/ out_of_list log l).
  { intros ev'. unfold out_of_list. setoid_rewrite elem_of_cons. naive_solver. }
  apply elem_of_cons in Hin as [<-|Hin].
  - right. rewrite Hout. cbn. destruct (Hev eq_refl) as (_ & _ & Hn). cbn in Hw. apply log_all_cons in Hw as [Hf _].
    split.
    + intros [[]|(ev & Hin & Ht)]. apply (Hf _ Hin). destruct ev; cbn in Ht; try contradiction; subst; cbn; set_solver.
    + exists s. rewrite decide_True by auto. split; [set_solver|auto].
  - specialize (IH Hin). rewrite Hout.
    assert (Hsame : (forall s', spec_list (ev :: log) s' = spec_list log s') -> ~ takes_out l ev ->
      ((takes_out l ev \/ out_of_list log l) /\ forall s', l ∉ spec_list (ev :: log) s') \/
      (~ (takes_out l ev \/ out_of_list log l) /\ exists s', l ∈ spec_list (ev :: log) s' /\ (s' = s \/ exists s2, EMoveSig s s2 ∈ ev :: log))).
    { intros Hs Hn. destruct IH as [[Ho Hi]|(Ho & s' & Hi & Hm)].
      - left. split; [auto|]. intros s'. rewrite Hs. auto.
      - right. split; [tauto|]. exists s'. rewrite Hs. split; [auto|]. destruct Hm as [->|[s2 Hm]]; [auto|].
        right. exists s2. apply elem_of_list_further. auto. }
    destruct ev; try (apply Hsame; [reflexivity|cbn; auto]; fail); clear Hsame;
      destruct (Hev eq_refl) as (Hnd & Hd & Hx); clear Hev; cbn [takes_out spec_list].
    + (* move *) destruct Hx as (Hne & He & Hf). destruct IH as [[Ho Hi]|(Ho & s' & Hi & Hm)].
      * left. split; [auto|]. intros s'. repeat case_decide; auto. set_solver.
      * right. split; [tauto|].
        assert (Hs' : s' <> s2) by (intros ->; rewrite He in Hi; inversion Hi).
        destruct (decide (s' = s0)) as [->|Hn].
        -- exists s2. rewrite decide_True by auto. split; [auto|]. right. destruct Hm as [->|[s3 Hm]].
           ++ exists s2. apply elem_of_list_here.
           ++ exists s3. apply elem_of_list_further. auto.
        -- exists s'. rewrite !decide_False by auto. split; [auto|]. destruct Hm as [->|[s3 Hm]]; [auto|].
           right. exists s3. apply elem_of_list_further. auto.
    + (* conn *) destruct IH as [[Ho Hi]|(Ho & s' & Hi & Hm)].
      * left. split; [auto|]. intros s'. case_decide; [|auto]. subst. intros Hl.
        apply elem_of_app in Hl as [Hl|Hl]; [eapply Hi; eauto|]. apply elem_of_list_singleton in Hl as ->.
        apply log_all_cons in Hw as [Hf _]. apply (Hf _ Hin). apply elem_of_list_here.
      * right. split; [tauto|]. exists s'. split; [case_decide; set_solver|]. destruct Hm as [->|[s3 Hm]]; [auto|].
        right. exists s3. apply elem_of_list_further. auto.
    + (* rem *) destruct (decide (l' = l)) as [->|Hn].
      * left. split; [auto|]. intros s'. case_decide.
        -- subst. apply swap_remove_notin; auto.
        -- intros Hs'. pose proof (Hd _ _ _ Hx Hs'). auto.
      * destruct IH as [[Ho Hi]|(Ho & s' & Hi & Hm)].
        -- left. split; [auto|]. intros s'. case_decide; [|auto]. intros Hs'. apply swap_remove_sub in Hs'; [|auto]. eapply Hi; eauto.
        -- right. split; [tauto|]. exists s'. split; [case_decide; [apply swap_remove_elem|]; auto|].
           destruct Hm as [->|[s3 Hm]]; [auto|]. right. exists s3. apply elem_of_list_further. auto.
    + (* erased *) destruct (decide (l0 = l)) as [->|Hn].
      * left. split; [auto|]. intros s'. case_decide.
        -- subst. apply swap_remove_notin; auto.
        -- intros Hs'. pose proof (Hd _ _ _ Hx Hs'). auto.
      * destruct IH as [[Ho Hi]|(Ho & s' & Hi & Hm)].
        -- left. split; [auto|]. intros s'. case_decide; [|auto]. intros Hs'. apply swap_remove_sub in Hs'; [|auto]. eapply Hi; eauto.
        -- right. split; [tauto|]. exists s'. split; [case_decide; [apply swap_remove_elem|]; auto|].
           destruct Hm as [->|[s3 Hm]]; [auto|]. right. exists s3. apply elem_of_list_further. auto.
Qed.

Lemma where_reach e ps w t s l i : reachable e ps w -> EConn t s l i ∈ w_log w ->
  (out_of_list (w_log w) l /\ forall s', l ∉ spec_list (w_log w) s') \/
  (~ out_of_list (w_log w) l /\ exists s', l ∈ spec_list (w_log w) s' /\ (s' = s \/ exists s2, EMoveSig s s2 ∈ w_log w)).
Proof. intros Hr. apply where_is; [eapply wf_log_reach|eapply lists_ok]; eauto. Qed.

(** ** The removal inside a disconnect *)
Definition removed (log : list event) (t : tid) (l : lid) : Prop :=
  exists s, (exists l', ERem t s l l' ∈ log) \/ ERemMiss t s l ∈ log.
Definition fr_rem (t : tid) (log : list event) (f : frame) (r : list frame) : Prop :=
  match f with
  | FLock s (KRem l) | FWrite s (KRem l) | FBody s _ (KRem l) => exists t' i, EConn t' s l i ∈ log
  | FRet _ | FUnlock _ _ => match r with FRemRet l :: _ => removed log t l | _ => True end
  | _ => True
  end.

Lemma fr_rem_inv e ps w : reachable e ps w -> forall t st, w_thr w !! t = Some st -> AT (fr_rem t (w_log w)) st.
Proof.
  apply AT_log_inv.
  - intros t L log f r. unfold fr_rem.
    assert (Hc : forall s l, (exists t' i, EConn t' s l i ∈ log) -> exists t' i, EConn t' s l i ∈ L ++ log).
    { intros s l (t' & i & H). exists t', i. apply elem_of_app. auto. }
    assert (Hd : forall l, removed log t l -> removed (L ++ log) t l).
    { intros l (s & [(l' & H)|H]); exists s; [left; exists l'|right]; apply elem_of_app; auto. }
    destruct f; auto; try (destruct k; auto; fail); destruct r as [|[] r]; auto.
  - intros; exact I.
  - intros; exact I.
  - clear w. intros w t st w' st' Hr Ht Htr Ha HA.
    assert (Hvar : forall fr r, Forall varish fr -> AT (fr_rem t (w_log w')) r -> AT (fr_rem t (w_log w')) (fr ++ r)).
    { clear. intros fr r Hf HA. induction Hf as [|f fr Hv _ IH]; cbn; [auto|]. split; [|auto]. destruct f; cbn in *; auto; contradiction. }
    destruct Htr; cbn [AT app adj fr_rem] in *; destruct_and?; repeat (match goal with |- _ /\ _ => split end); auto;
      try (match goal with k : crit |- _ => destruct k; cbn in *; auto; contradiction end);
      try (match goal with st : list frame |- match ?st with _ => _ end => destruct st as [|[] st]; cbn in *; auto; try discriminate; try contradiction end; fail).
    + apply Hvar; [eapply vop_after; eauto|cbn; auto].
    + destruct (vop_after' _ _ _ _ _ _ H) as [->|[(d & m & ->)|[(d & s & ->)| ->]]]; exact I.
    + apply Hvar; [eapply vop_after; eauto|cbn; auto].
    + match goal with H : begins _ _ _ _ _ |- _ => inversion H; subst; exact I end.
    + apply Hvar; [eapply begins_fr; eauto|cbn; auto].
    + destruct r, eid, st as [|[] st]; try contradiction; auto.
    + destruct r, eid, st as [|[] st]; try contradiction; auto.
    + destruct (I_fields_inv _ _ _ Hr _ _ H) as (_ & _ & _ & _ & Hh). apply home_elem in Hh as (t' & i & Hh).
      exists t', i. apply elem_of_list_further. auto.
    + destruct k; cbn in *; destruct st as [|[] st]; auto; try discriminate; try contradiction. naive_solver.
    + destruct st as [|[] st]; try contradiction. cbn in H3. subst. exists s. left. exists l'. apply elem_of_list_here.
    + destruct st as [|[] st]; try contradiction. cbn in H3. subst. exists s. right. apply elem_of_list_here.
    + destruct r, eid, st as [|[] st]; try contradiction; auto.
Qed.

Lemma out_app L log l : out_of_list log l -> out_of_list (L ++ log) l.
Proof. intros (ev & Hin & H). exists ev. split; [apply elem_of_app|]; auto. Qed.

Lemma classic_out log l : out_of_list log l \/ ~ out_of_list log l.
Proof.
  unfold out_of_list. induction log as [|ev log IH]; [right; intros (? & H & _); inversion H|].
  destruct IH as [(ev' & H & Ht)|Hn]; [left; exists ev'; split; [apply elem_of_list_further|]; auto|].
  assert (takes_out l ev \/ ~ takes_out l ev) as [Ht|Ht].
  { destruct ev; cbn; auto; match goal with |- ?a = ?b \/ _ => destruct (decide (a = b)); auto end. }
  - left. exists ev. split; [apply elem_of_list_here|auto].
  - right. intros (ev' & H & Ht'). apply elem_of_cons in H as [->|H]; [auto|]. apply Hn. eauto.
Qed.

(** The position a slot remembers is right as long as it is in a list. *)
Lemma rem_facts e ps w : reachable e ps w ->
  log_all (fun ev pre => match ev with
    | ERem t s l l' => spec_home pre l = Some s /\ l' ∈ spec_list pre s /\ EDestroySig s ∉ pre /\ (~ out_of_list pre l -> l' = l)
    | ERemMiss t s l => spec_home pre l = Some s /\ EDestroySig s ∉ pre /\ out_of_list pre l
    | _ => True end) (w_log w).
Proof.
  apply log_all_hist; [intros []; cbn; auto; discriminate|].
  clear w. intros w t st w' st' ev pre Hr Ht Htr Hlg.
  pose proof (fr_rem_inv _ _ _ Hr _ _ Ht) as HR. pose proof (I_crit_inv _ _ _ Hr _ _ Ht) as HC.
  destruct (I_list_inv _ _ _ Hr) as (_ & Hidx & _ & _). pose proof (list_spec _ _ _ 0 Hr) as _.
  pose proof (fun s => proj1 (list_spec _ _ _ s Hr)) as Hcur.
  destruct (I_sig_inv _ _ _ Hr) as (HS & _).
  destruct ev; auto; logs_inv Htr Hlg.
  - destruct HR as [(t' & i & Hc) _]. apply Forall_cons in HC as [[Ho _] _]. cbn in Ho.
    pose proof (wf_log_reach _ _ _ Hr) as Hw. rewrite <- Hcur, (cur_own _ _ _ Ho).
    destruct Ho as (r0 & Hr0 & Hal & Hv). destruct (HS _ _ Hr0) as (_ & Hd & Hm & _).
    split; [eapply elem_home; eauto|]. split; [eapply elem_of_list_lookup_2; eauto|].
    split; [rewrite <- Hd, Hal; discriminate|]. intros Hno.
    destruct (where_reach _ _ _ _ _ _ _ Hr Hc) as [[Ho _]|(_ & s' & Hin & Hs')]; [contradiction|].
    destruct Hs' as [->|[s2 Hs2]]; [|apply Hm in Hs2; congruence].
    rewrite <- Hcur in Hin. apply elem_of_list_lookup in Hin as [j Hj].
    destruct (Hidx _ _ _ Hj) as (r1 & Hr1 & Hi1). simplify_eq.
    unfold cur in Hj. rewrite Hr0, Hv in Hj. congruence.
  - destruct HR as [(t' & i & Hc) _]. apply Forall_cons in HC as [[Ho _] _]. cbn in Ho.
    pose proof (wf_log_reach _ _ _ Hr) as Hw.
    destruct Ho as (r0 & Hr0 & Hal & Hv). destruct (HS _ _ Hr0) as (_ & Hd & Hm & _).
    split; [eapply elem_home; eauto|]. split; [rewrite <- Hd, Hal; discriminate|].
    destruct (where_reach _ _ _ _ _ _ _ Hr Hc) as [[Hout _]|(_ & s' & Hin & Hs')]; [auto|]. exfalso.
    destruct Hs' as [->|[s2 Hs2]]; [|apply Hm in Hs2; congruence].
    rewrite <- Hcur in Hin. apply elem_of_list_lookup in Hin as [j Hj].
    destruct (Hidx _ _ _ Hj) as (r1 & Hr1 & Hi1). simplify_eq.
    unfold cur in Hj. rewrite Hr0, Hv in Hj. congruence.
Qed.

(** ** A disconnect that returned [true] has taken the slot out *)
Lemma removed_out e ps w t l : reachable e ps w -> removed (w_log w) t l -> out_of_list (w_log w) l.
Proof.
  intros Hr (s & [(l' & H)|H]); pose proof (rem_facts _ _ _ Hr) as HF;
    apply elem_of_list_split in H as (a & b & Hab); rewrite Hab in *;
    apply log_all_app in HF; apply log_all_cons in HF as [HF _].
  - destruct HF as (_ & _ & _ & HF). destruct (decide (l' = l)) as [->|Hn].
    + exists (ERem t s l l). split; [set_solver|reflexivity].
    + destruct (classic_out b l) as [Ho|Ho]; [|naive_solver]. change (ERem t s l l' :: b) with ([ERem t s l l'] ++ b).
      apply out_app, out_app. auto.
  - destruct HF as (_ & _ & HF). change (ERemMiss t s l :: b) with ([ERemMiss t s l] ++ b). apply out_app, out_app. auto.
Qed.

Lemma disc_true_out e ps w : reachable e ps w ->
  log_all (fun ev pre => match ev with
    | EDisc t l true => removed pre t l /\ out_of_list pre l /\ forall s, l ∉ spec_list pre s
    | _ => True end) (w_log w).
Proof.
  apply log_all_hist; [intros []; cbn; auto; discriminate|].
  clear w. intros w t st w' st' ev pre Hr Ht Htr Hlg. destruct ev; auto. destruct b; auto.
  pose proof (fr_rem_inv _ _ _ Hr _ _ Ht) as HR. pose proof (I_rr_inv _ _ _ Hr _ _ Ht) as HL.
  logs_inv Htr Hlg.
  - destruct HR as [HR _]. cbn in HR. split; [auto|]. pose proof (removed_out _ _ _ _ _ Hr HR) as Ho. split; [auto|].
    assert (Hc : exists s i t', EConn t' s l i ∈ w_log w).
    { destruct HR as (s & [(l' & H)|H]); pose proof (rem_facts _ _ _ Hr) as HF;
        apply elem_of_list_split in H as (a & b & Hab); rewrite Hab in *;
        apply log_all_app in HF; apply log_all_cons in HF as [HF _].
      - destruct HF as (HF & _). apply home_elem in HF as (t' & i & HF). exists s, i, t'. set_solver.
      - destruct HF as (HF & _). apply home_elem in HF as (t' & i & HF). exists s, i, t'. set_solver. }
    destruct Hc as (s & i & t' & Hc). destruct (where_reach _ _ _ _ _ _ _ Hr Hc) as [[_ H]|[H _]]; [auto|contradiction].
Qed.

(** ** One removal per slot *)
Definition kr (l : lid) (f : frame) : nat :=
  match f with
  | FLock _ (KRem l') | FWrite _ (KRem l') | FBody _ _ (KRem l') => if decide (l' = l) then 1 else 0
  | _ => 0
  end.
Definition I_rem1 (w : world) : Prop :=
  forall l, ecount (is_rem l) (w_log w) + wt (kr l) (w_thr w) + b2n (spec_flag (w_log w) l) <= 1.
Lemma kr_varish l f : varish f -> kr l f = 0.
Proof. destruct f; cbn; tauto || reflexivity. Qed.

Lemma I_rem1_inv e ps w : reachable e ps w -> I_rem1 w.
Proof.
  apply reach_ind2.
  - intros l. cbn [w_log init]. assert (wt (kr l) (w_thr (init ps)) = 0) as ->.
    { apply wt_zero. intros t st Ht. cbn in Ht. rewrite list_lookup_fmap in Ht. destruct (ps !! t); cbn in Ht; simplify_eq. reflexivity. }
    cbn. lia.
  - clear w. intros w t st w' st' Hr HI Ht Htr l. specialize (HI l). wcbn.
    pose proof (wt_insert (kr l) _ _ _ st' Ht) as Hwt. rewrite (trans_thr _ _ _ _ _ _ Htr).
    pose proof (wt_ge (kr l) _ _ _ Ht) as Hge.
    enough (Hgoal : ecount (is_rem l) (w_log w') + swt (kr l) st' + b2n (spec_flag (w_log w') l) <=
      ecount (is_rem l) (w_log w) + swt (kr l) st + b2n (spec_flag (w_log w) l) \/
      (length (w_slots w) <= l /\ ecount (is_rem l) (w_log w') = ecount (is_rem l) (w_log w) /\ swt (kr l) st' = 0)).
    { destruct Hgoal as [|(Hl & -> & Heq)]; [lia|].
      assert (wt (kr l) (w_thr w) = 0) as Hz.
      { eapply fresh_frames; eauto. intros x Hx. destruct x; cbn in *; auto; destruct k; auto; case_decide; auto; subst; exfalso; apply Hx; apply elem_of_list_here. }
      assert (ecount (is_rem l) (w_log w) = 0) as ->.
      { apply ecount_zero. intros ev Hev. pose proof (fresh_log _ _ _ _ _ Hr Hl Hev) as Hf.
        destruct ev; cbn in *; auto; apply bool_decide_eq_false; intros ->; apply Hf; apply elem_of_list_here. }
      destruct (spec_flag (w_log w') l); cbn; lia. }
    assert (Hsw : length (w_slots w) <= l -> swt (kr l) st = 0).
    { intros Hl. assert (wt (kr l) (w_thr w) = 0); [|lia].
      eapply fresh_frames; eauto. intros x Hx. destruct x; cbn in *; auto; destruct k; auto; case_decide; auto; subst; exfalso; apply Hx; apply elem_of_list_here. }
    clear Hge Hwt HI Ht.
    destruct Htr; wcbn; autorewrite with wsimp; rewrite ?ecount_cons; repeat first [rewrite swt_app | rewrite swt_cons]; repeat first [rewrite swt_app in Hsw| rewrite swt_cons in Hsw]; cbn [is_rem kr spec_flag] in *; try (left; lia).
    + left. apply vop_ev in H as [(?&->&?)|[(?&->&?)|[(?&->&?)|[(?&->&?)|(?&->&?)]]]]; cbn [spec_flag is_rem]; lia.
    + left. apply vop_ev in H as [(?&->&?)|[(?&->&?)|[(?&->&?)|[(?&->&?)|(?&->&?)]]]]; cbn [spec_flag is_rem]; lia.
    + left. rewrite (swt_varish _ after); [lia|eapply vop_after; eauto|apply kr_varish].
    + left. rewrite (swt_varish _ after); [lia|eapply vop_after; eauto|apply kr_varish].
    + left. rewrite (swt_varish _ fr); [|eapply begins_fr; eauto|apply kr_varish]. inversion H; subst; lia.
    + left. destruct (cc_log w r) as [->|(l0 & i0 & _ & _ & _ & ->)]; rewrite ?ecount_cons; cbn [is_rem spec_flag]; [lia|].
      case_decide; cbn; lia.
    + left. destruct (I_fields_inv _ _ _ Hr _ _ H) as (_ & Hc & _). case_decide; [subst|lia]. rewrite <- Hc, H0. cbn. lia.
    + case_decide; [|left; lia]. right. subst. split; [lia|]. split; [lia|]. specialize (Hsw ltac:(lia)). lia.
    + left. case_bool_decide; case_decide; congruence || lia.
    + left. case_bool_decide; case_decide; congruence || lia.
  - clear w. intros w t st D L HI Ht HD HL l. specialize (HI l). wcbn.
    pose proof (wt_insert (kr l) _ _ _ (D ++ st) Ht) as Hwt. rewrite swt_app, (swt_dtorish _ D HD) in Hwt by reflexivity.
    rewrite ecount_app, (ecount_dead _ L HL), flag_dead by (auto; reflexivity). lia.
Qed.

Lemma rem_once e ps w l : reachable e ps w -> ecount (is_rem l) (w_log w) <= 1.
Proof. intros Hr. pose proof (I_rem1_inv _ _ _ Hr l). lia. Qed.

(** Without [disconnect(callable)] a disconnect takes out exactly its slot. *)
Lemma rem_exact e ps w : reachable e ps w -> (forall t s l, EErased t s l ∉ w_log w) ->
  log_all (fun ev pre => match ev with
    | ERem t s l l' => l' = l
    | ERemMiss t s l => False
    | _ => True end) (w_log w).
Proof.
  intros Hr He. pose proof (rem_facts _ _ _ Hr) as HF. pose proof (fun l => rem_once _ _ _ l Hr) as H1.
  revert He HF H1. generalize (w_log w). induction l as [|ev log IH]; intros He HF H1; [apply log_all_nil|].
  apply log_all_cons in HF as [HF HF']. apply log_all_cons.
  assert (IH' : log_all (fun ev pre => match ev with ERem t s l l' => l' = l | ERemMiss t s l => False | _ => True end) log).
  { apply IH; auto.
    - intros t s l Hin. apply (He t s l). apply elem_of_list_further. auto.
    - intros l. specialize (H1 l). rewrite ecount_cons in H1. lia. }
  split; [|exact IH'].
  assert (Hno : forall l, is_rem l ev = true -> ~ out_of_list log l).
  { intros l Hrm (ev' & Hin & Ht). pose proof (H1 l) as Hc. rewrite ecount_cons, Hrm in Hc.
    assert (is_rem l ev' = true) as Hev'.
    { destruct ev'; cbn in Ht; try contradiction; subst.
      - apply elem_of_list_split in Hin as (a & b & ->). apply log_all_app in IH'. apply log_all_cons in IH' as [-> _].
        cbn. apply bool_decide_eq_true. reflexivity.
      - exfalso. eapply He. apply elem_of_list_further. eauto. }
    apply elem_of_list_split in Hin as (a & b & ->). rewrite ecount_app, ecount_cons, Hev' in Hc. lia. }
  destruct ev; auto.
  - destruct HF as (_ & _ & _ & HF). apply HF. apply Hno. cbn. apply bool_decide_eq_true. reflexivity.
  - destruct HF as (_ & _ & HF). eapply Hno; eauto. cbn. apply bool_decide_eq_true. reflexivity.
Qed.
