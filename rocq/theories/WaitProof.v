(** * Who waits for whom *)
From Verif Require Import InvUse InvSig InvDeath InvFields InvObj InvCall Hist Facts.
From Verif Require Export AtomicCalls SpecWait.

Lemma section_locks w0 p s f : fits w0 p f -> in_section s f \/ (exists c, f = FLock s c) -> locks w0 p s.
Proof.
  intros Hf [Hs|[c ->]].
  - unfold locks. destruct f; cbn in Hs; try contradiction; subst; cbn in Hf; auto; repeat case_match; naive_solver.
  - unfold locks. cbn in Hf. destruct c; naive_solver.
Qed.
Lemma section_bottom w s f : in_section s f \/ (exists c, f = FLock s c) -> ~ fits w (OSelfGet (RUser 0)) f.
Proof.
  intros Hs Hf. destruct (section_locks _ _ _ _ Hf Hs) as [H|[l []]]. discriminate.
Qed.
Lemma stands_elem e ps w t s0 f : stands e ps w t s0 -> f ∈ s0 -> ~ fits w (OSelfGet (RUser 0)) f ->
  exists pre b k st op w0, s0 = pre ++ b ++ FWait k :: st /\ f ∈ b /\ fits w0 op f /\ reachable e ps w0 /\ in_call e t op k st w0 w.
Proof.
  intros H Hin Hno. induction H as [b Hb Hf|b k st op w0 Hb Hf Hr Hn Hc H IH].
  - rewrite Forall_forall in Hf. exfalso. auto.
  - apply elem_of_app in Hin as [Hin|Hin].
    + exists [], b, k, st, op, w0. rewrite Forall_forall in Hf. split; [reflexivity|]. auto.
    + apply elem_of_cons in Hin as [->|Hin]; [exfalso; apply Hno; exact I|].
      destruct (IH Hin) as (pre & b' & k' & st' & op' & w0' & -> & H'). exists (b ++ FWait k :: pre), b', k', st', op', w0'. split; [|exact H'].
      rewrite <- app_assoc. reflexivity.
Qed.

(** What stands directly above the continuation of a call. *)
Lemma do_fits e w t op k st w' st' : trans e w t (FProg (Do op k) :: st) w' st' -> (forall pos, op <> ODeref pos) ->
  exists Z, st' = Z ++ FWait k :: st /\ shape Z /\ Forall (fits w op) Z.
Proof.
  intros H Hn. inversion H; subst;
    try (exists [FRet o]; split; [reflexivity|]; split; [exact I|]; constructor; [exact I|constructor]; fail);
    try (eexists [_]; split; [reflexivity|]; split; [repeat constructor|]; constructor; [cbn; eauto|constructor]; fail);
    try (eexists [_; _]; split; [reflexivity|]; split; [repeat constructor|]; constructor; [cbn; eauto|constructor; [cbn; eauto|constructor]]; fail).
  all: try (edestruct Hn; reflexivity).
  - exists (FDisc l :: after). split; [reflexivity|]. destruct (after_lib _ _ _ _ _ _ w (OVar v) ltac:(eassumption)) as [H1 H2].
    split; [constructor; [reflexivity|auto]|]. constructor; [|auto]. eapply do_disconnects; eauto.
  - exists (FRet (OutBool false) :: after). split; [reflexivity|]. destruct (after_lib _ _ _ _ _ _ w (OVar v) ltac:(eassumption)) as [H1 H2].
    split; [apply lib_shape; constructor; [reflexivity|auto]|]. constructor; [exact I|auto].
  - eexists (FLock _ _ :: _). split; [reflexivity|]. edestruct begins_fits as (H1 & H2 & H3); [eassumption|].
    split; [constructor; [reflexivity|auto]|auto].
Qed.
Lemma in_call_fits e ps t op k st w0 w : reachable e ps w0 -> (forall pos, op <> ODeref pos) -> in_call e t op k st w0 w ->
  exists c b, w_thr w !! t = Some (c ++ b ++ FWait k :: st) /\ (c = [] \/ exists c2 k2, c = c2 ++ [FWait k2]) /\ shape b /\ Forall (fits w0 op) b.
Proof.
  intros Hr0 Hnd H.
  assert (Hup : forall D c b, dtorish D -> (c = [] \/ exists c2 k2, c = c2 ++ [FWait k2]) -> shape b -> Forall (fits w0 op) b ->
    exists c' b', D ++ c ++ b = c' ++ b' /\ (c' = [] \/ exists c2 k2, c' = c2 ++ [FWait k2]) /\ shape b' /\ Forall (fits w0 op) b').
  { intros D c b HD [->|(c2 & k2 & ->)] Hb Hf.
    - exists [], (D ++ b). split; [reflexivity|]. split; [auto|]. split; [apply dtorish_shape; auto|]. apply Forall_app. split; [apply dtorish_fits; auto|auto].
    - exists ((D ++ c2) ++ [FWait k2]), b. split; [rewrite <- !app_assoc; reflexivity|]. split; [eauto|]. auto. }
  assert (Hup' : forall D s c b, dtorish D -> s = c ++ b ++ FWait k :: st -> (c = [] \/ exists c2 k2, c = c2 ++ [FWait k2]) -> shape b -> Forall (fits w0 op) b ->
    exists c' b', Some (D ++ s) = Some (c' ++ b' ++ FWait k :: st) /\ (c' = [] \/ exists c2 k2, c' = c2 ++ [FWait k2]) /\ shape b' /\ Forall (fits w0 op) b').
  { intros D s c b HD -> Hc Hb Hf. destruct (Hup D c b HD Hc Hb Hf) as (c' & b' & He & H'). exists c', b'. split; [|exact H'].
    rewrite (app_assoc c'), <- He, <- !app_assoc. reflexivity. }
  induction H as [fail w Ht Hs|t' fail w w' H IH Hn Hs].
  - destruct (step_inv _ _ _ _ _ _ Hs Ht) as (w1 & st1 & D & L & Htr & _ & HD & _ & _ & _ & _ & _ & _ & Hthr).
    rewrite Hthr, list_lookup_insert by (eapply lookup_lt_Some; eauto).
    destruct (do_fits _ _ _ _ _ _ _ _ Htr Hnd) as (Z & -> & HZ & Hf). apply (Hup' D _ [] Z); auto.
  - destruct IH as (c & b & Ht & Hc & Hb & Hf). destruct (decide (t' = t)) as [->|Hne].
    + destruct (step_inv _ _ _ _ _ _ Hs Ht) as (w1 & st1 & D & L & Htr & _ & HD & _ & _ & _ & _ & _ & _ & Hthr).
      rewrite Hthr, list_lookup_insert by (eapply lookup_lt_Some; eauto).
      destruct (local _ _ _ _ _ _ Htr) as [(o & k' & st' & Heq & ->)|[(op' & k' & st' & Z & Heq & -> & Hn' & HZ & HfZ)|(X & Y & r & Heq & -> & HX & Hnw & Hsh & Hfi & Hno)]].
      * destruct Hc as [->|(c2 & k2 & ->)].
        { cbn in Heq. destruct b as [|g b]; [discriminate|]. cbn in Heq. injection Heq as -> Heq.
          destruct b as [|g b]; cbn in Heq; injection Heq as Hk Heq.
          - subst. exfalso. eapply (Hn eq_refl). exact Ht.
          - subst g. exfalso. apply shape_nw in Hb. apply Forall_inv_tail in Hb. apply Forall_inv in Hb. edestruct Hb; reflexivity. }
        destruct c2 as [|g c2]; [discriminate|]. cbn in Heq. injection Heq as -> Heq. destruct c2 as [|g c2]; cbn in Heq; injection Heq as Hk Heq; subst.
        { apply (Hup' D _ [] (FProg (k' o) :: b)); auto. constructor; [exact I|auto]. }
        apply (Hup' D _ ((FProg (k' o) :: c2) ++ [FWait k2]) b); [auto|cbn; rewrite <- !app_assoc; reflexivity|right; eauto|auto|auto].
      * destruct Hc as [->|(c2 & k2 & ->)].
        { cbn in Heq. destruct b as [|g b]; [discriminate|]. cbn in Heq. injection Heq as -> Heq. subst st'.
          apply (Hup' D _ (Z ++ [FWait k']) b); [auto|rewrite <- !app_assoc; reflexivity|eauto|exact Hb|inversion Hf; auto]. }
        destruct c2 as [|g c2]; [discriminate|]. cbn in Heq. injection Heq as -> Heq. subst st'.
        apply (Hup' D _ ((Z ++ FWait k' :: c2) ++ [FWait k2]) b); [auto|rewrite <- ?app_assoc; cbn; rewrite <- ?app_assoc; reflexivity|eauto|exact Hb|auto].
      * destruct Hc as [->|(c2 & k2 & ->)].
        { cbn in Heq. symmetry in Heq. destruct (nw_prefix _ _ _ _ _ Hnw Heq) as (b1 & -> & ->). apply Forall_app in Hf as [Hf1 Hf2].
          apply (Hup' D _ [] (Y ++ b1)); [auto|rewrite <- app_assoc; reflexivity|auto|auto|]. apply Forall_app. auto. }
        rewrite <- app_assoc in Heq. cbn in Heq. symmetry in Heq. destruct (nw_prefix _ _ _ _ _ Hnw Heq) as (b1 & -> & ->).
        apply (Hup' D _ ((Y ++ b1) ++ [FWait k2]) b); [auto|rewrite <- !app_assoc; reflexivity|eauto|auto|auto].
    + destruct (step_trans _ _ _ _ _ Hs) as (st0 & w1 & st1 & Ht1 & _).
      destruct (step_inv _ _ _ _ _ _ Hs Ht1) as (w2 & st2 & D & L & Htr & _ & HD & _ & _ & _ & _ & _ & _ & Hthr).
      exists c, b. rewrite Hthr, list_lookup_insert_ne by auto. auto.
Qed.

(** ** The theorems *)
Lemma who_waits e ps w t fail : reachable e ps w -> step e w t fail = SBlocked ->
  exists s t' op k st w0 stk op' k' st' w0' pre b f,
    t' <> t /\ w_thr w !! t = Some stk /\ own_step k st stk /\ reachable e ps w0 /\ in_call e t op k st w0 w /\ locks w0 op s /\
    w_thr w !! t' = Some (pre ++ b ++ FWait k' :: st') /\ f ∈ b /\ in_section s f /\ reachable e ps w0' /\ in_call e t' op' k' st' w0' w /\ locks w0' op' s.
Proof.
  intros Hr Hs. destruct (blocked_on _ _ _ _ Hs) as (s & c & st0 & r & t' & Ht & Hsg & Hl & Hn).
  pose proof (stands_reach _ _ _ Hr _ _ Ht) as Hst.
  assert (Hno : ~ fits w (OSelfGet (RUser 0)) (FLock s c)) by (apply (section_bottom _ s); eauto).
  inversion Hst as [b Hsh Hfi Heq|b k st op w0 Hsh Hfi Hr0 Hn0 Hc Hst' Heq].
  { subst b. inversion Hfi; subst. contradiction. }
  destruct b as [|g b]; cbn in Heq; injection Heq as Hg Heq; [subst; discriminate|]. subst g.
  destruct (owner_exists _ _ _ Hr _ _ _ Hsg Hl) as [st1 Ht'].
  destruct (proj1 (lock_iff _ _ _ _ _ s Hr Ht')) as (f & Hf & Hi); [eauto|].
  assert (Hnf : ~ fits w (OSelfGet (RUser 0)) f) by (apply (section_bottom _ s); eauto).
  destruct (stands_elem _ _ _ _ _ _ (stands_reach _ _ _ Hr _ _ Ht') Hf Hnf) as (pre & b' & k' & st' & op' & w0' & -> & Hfb & Hfits & Hr' & Hc').
  exists s, t', op, k, st, w0, (FLock s c :: st0), op', k', st', w0', pre, b', f.
  split; [auto|]. split; [auto|]. split.
  { exists (FLock s c :: b). split; [rewrite <- Heq; reflexivity|]. intros x Hx. cbn in Hsh. rewrite Forall_forall in Hsh. apply Hsh. auto. }
  split; [auto|]. split; [auto|]. split; [eapply section_locks; [exact (Forall_inv Hfi)|eauto]|].
  split; [auto|]. split; [auto|]. split; [auto|]. split; [auto|]. split; [auto|]. eapply section_locks; eauto.
Qed.
Lemma no_wait e ps t op k st w0 w stk fail : reachable e ps w0 -> (forall pos, op <> ODeref pos) -> in_call e t op k st w0 w -> w_thr w !! t = Some stk -> own_step k st stk ->
  (forall s, ~ locks w0 op s) -> step e w t fail <> SBlocked.
Proof.
  intros Hr Hnd Hc Ht (c0 & -> & Hown) Hno Hs. destruct (blocked_on _ _ _ _ Hs) as (s & c & st0 & r & t' & Ht' & Hsg & Hl & Hn).
  destruct (in_call_fits _ _ _ _ _ _ _ _ Hr Hnd Hc) as (cc & b & Ht2 & Hcc & Hb & Hf). rewrite Ht in Ht', Ht2. injection Ht' as Ht'. injection Ht2 as Ht2.
  rewrite app_assoc in Ht2. apply app_inv_tail in Ht2. subst c0.
  destruct Hcc as [->|(c2 & k2 & ->)].
  - destruct b as [|g b]; cbn in Ht'; injection Ht' as Hg _; [discriminate|]. subst g. apply (Hno s). eapply section_locks; [exact (Forall_inv Hf)|eauto].
  - assert (Hx : client_frame (FWait k2) = false); [|discriminate]. apply Hown. apply elem_of_app. left. apply elem_of_app. right. apply elem_of_list_here.
Qed.
Lemma no_delay e ps w t fail : reachable e ps w -> (forall t', t' <> t -> outside w t') -> step e w t fail <> SBlocked.
Proof.
  intros Hr Ho Hs. destruct (blocked_on _ _ _ _ Hs) as (s & c & st0 & r & t' & Ht & Hsg & Hl & Hn).
  destruct (owner_exists _ _ _ Hr _ _ _ Hsg Hl) as [[|f st'] Ht'].
  - destruct (proj1 (lock_iff _ _ _ _ _ s Hr Ht')) as (f & Hf & _); [eauto|]. inversion Hf.
  - destruct (Ho t' Hn f st' Ht') as [Hcalm Hsec]. eapply no_lock_in_callbacks; eauto.
Qed.

(** ** How long *)
Definition left_in (stk : list frame) : nat :=
  match stk with
  | FWrite _ _ :: _ => 3
  | FBody _ _ _ :: _ | FRet _ :: FEraseCmp _ _ _ _ _ _ :: _ => 2
  | FErase _ _ _ _ _ _ :: _ => 1
  | _ => 0
  end.
Definition in_sec (s : sid) (stk : list frame) : Prop :=
  match stk with
  | FRet _ :: FEraseCmp s' _ _ _ _ _ :: _ => s' = s
  | f :: _ => in_section s f
  | [] => False
  end.
Lemma holds_in_sec e ps w t s k st : reachable e ps w -> holds_in t s k st w ->
  exists stk, w_thr w !! t = Some stk /\ AT adj stk /\ in_sec s stk.
Proof.
  intros Hr (c & Ht & Hc & f & Hf & Hs). eexists. split; [exact Ht|]. destruct (I_adj_inv _ _ _ Hr _ _ Ht) as [Ha Hact]. split; [auto|].
  destruct c as [|g c]; [inversion Hf|]. cbn [app] in *. apply elem_of_cons in Hf as [->|Hf].
  { destruct g; cbn in Hs |- *; auto; contradiction. }
  assert (Hgo : forall c g, AT adj (g :: c ++ FWait k :: st) -> (forall h, h ∈ g :: c -> client_frame h = false) -> f ∈ c -> exists o c', g = FRet o /\ c = f :: c' /\ exists v tgt i n xs, f = FEraseCmp s v tgt i n xs).
  { clear -Hs. induction c as [|h c IH]; intros g Ha Hc Hf; [inversion Hf|]. apply elem_of_cons in Hf as [->|Hf].
    - destruct Ha as [Ha _]. pose proof (Hc g (elem_of_list_here _ _)) as Hg. destruct g; try discriminate; destruct h; cbn in Hs; try contradiction; subst;
        cbn in Ha; try match type of Ha with crit_below ?q _ => destruct q end; unfold ret_below, unlock_below in Ha; cbn in Ha; repeat case_match; try contradiction; try discriminate; try (destruct_or?; contradiction || discriminate); eauto 15.
    - destruct (IH h) as (o & c' & -> & _); [exact (proj2 Ha)|intros x Hx; apply Hc; apply elem_of_list_further; exact Hx|exact Hf|].
      destruct Ha as [Ha _]. pose proof (Hc g (elem_of_list_here _ _)) as Hg. exfalso. destruct g; try discriminate; cbn in Ha; try match type of Ha with crit_below ?q _ => destruct q end; unfold ret_below, unlock_below in Ha; cbn in Ha;
        repeat case_match; try contradiction; try discriminate; destruct_or?; try contradiction; discriminate. }
  destruct (Hgo _ _ Ha Hc Hf) as (o & c' & -> & -> & v & tgt & i & n & xs & ->). cbn in Hs |- *. exact Hs.
Qed.
Lemma step_left e w t stk w' stk' D s s' : trans e w t stk w' stk' -> dtorish D -> AT adj stk ->
  in_sec s stk -> in_sec s' (D ++ stk') -> S (left_in (D ++ stk')) <= left_in stk.
Proof.
  intros Htr HD Ha Hs Hs'. destruct D as [|d D].
  2:{ inversion HD as [|? ? Hd _]; subst. destruct Hd as [[x ->]|[p ->]]; contradiction. }
  cbn [app] in *. destruct Htr; cbn in Hs, Hs' |- *; try contradiction; try lia.
  - destruct Ha as [Ha _]. cbn in Ha. destruct st as [|[] st]; contradiction.
Qed.
Lemma section_short e ps t s k st n w w' : reachable e ps w -> section_run e t s k st n w w' -> n <= 3.
Proof.
  intros Hr H.
  assert (Hgo : reachable e ps w' /\ holds_in t s k st w' /\ forall stk, w_thr w' !! t = Some stk -> n + left_in stk <= 3).
  { induction H as [w Hh|n w w1 w2 fail H IH Hs Hh|n w w1 w2 u fail H IH Hu Hs].
    - split; [auto|]. split; [auto|]. intros stk _. destruct stk as [|[] stk]; cbn; try lia. destruct stk as [|[] stk]; lia.
    - destruct (IH Hr) as (Hr1 & Hh1 & Hl). split; [eapply reachable_step; eauto|]. split; [auto|]. intros stk2 Ht2.
      destruct (holds_in_sec _ _ _ _ _ _ _ Hr1 Hh1) as (stk & Ht & Ha & Hsec).
      destruct (holds_in_sec _ _ _ _ _ _ _ (reachable_step _ _ _ _ _ _ Hr1 Hs) Hh) as (stk2' & Ht2' & _ & Hsec2). rewrite Ht2 in Ht2'. injection Ht2' as <-.
      destruct (step_inv _ _ _ _ _ _ Hs Ht) as (w3 & st3 & D & L & Htr & _ & HD & _ & _ & _ & _ & _ & _ & Hthr).
      rewrite Hthr, list_lookup_insert in Ht2 by (eapply lookup_lt_Some; eauto). injection Ht2 as <-.
      pose proof (step_left _ _ _ _ _ _ _ _ _ Htr HD Ha Hsec Hsec2). specialize (Hl _ Ht). lia.
    - destruct (IH Hr) as (Hr1 & Hh1 & Hl). split; [eapply reachable_step; eauto|].
      destruct (step_trans _ _ _ _ _ Hs) as (st0 & w3 & st1 & Ht1 & _).
      destruct (step_inv _ _ _ _ _ _ Hs Ht1) as (w4 & st4 & D & L & Htr & _ & HD & _ & _ & _ & _ & _ & _ & Hthr).
      assert (Heq : w_thr w2 !! t = w_thr w1 !! t) by (rewrite Hthr, list_lookup_insert_ne; auto).
      unfold holds_in. rewrite Heq. auto. }
  destruct Hgo as (_ & (c & Ht & _) & Hl). specialize (Hl _ Ht). lia.
Qed.

Lemma section_moves e ps t s k st n w w' fail : reachable e ps w -> section_run e t s k st n w w' -> step e w' t fail <> SBlocked.
Proof.
  intros Hr H. assert (Hgo : reachable e ps w' /\ holds_in t s k st w').
  { induction H as [w Hh|n w w1 w2 fail' H IH Hs Hh|n w w1 w2 u fail' H IH Hu Hs]; [auto|..]; destruct (IH Hr) as (Hr1 & Hh1); (split; [eapply reachable_step; eauto|]); [exact Hh|].
    destruct (step_trans _ _ _ _ _ Hs) as (st0 & w3 & st1 & Ht1 & _).
    destruct (step_inv _ _ _ _ _ _ Hs Ht1) as (w4 & st4 & D & L & Htr & _ & HD & _ & _ & _ & _ & _ & _ & Hthr).
    unfold holds_in. rewrite Hthr, list_lookup_insert_ne; auto. }
  destruct Hgo as [Hr' Hh]. destruct (holds_in_sec _ _ _ _ _ _ _ Hr' Hh) as (stk & Ht & _ & Hsec). intros Hb.
  destruct (blocked_on _ _ _ _ Hb) as (s' & c & st0 & r & t' & Ht' & _). rewrite Ht in Ht'. injection Ht' as ->. exact Hsec.
Qed.
