(** * What calls return *)
From Verif Require Export SpecCall InvErase.

(** ** The frames of a call and what runs above them *)
Lemma trans_above e w t b g r w' st' : trans e w t (b ++ g :: r) w' st' -> b <> [] ->
  (exists b', st' = b' ++ g :: r) \/ (exists o, b = [FRet o]) \/
  (exists s eid v args args' b', g = FEmit s eid v args /\ st' = b' ++ FEmit s eid v args' :: r).
Proof.
  intros Htr Hb. destruct b as [|f1 b]; [congruence|]. clear Hb. cbn in Htr.
  remember (f1 :: b ++ g :: r) as st0 eqn:Hst.
  assert (Hgen : forall fr tl, tl = b ++ g :: r -> (exists b', fr ++ tl = b' ++ g :: r)).
  { intros fr tl ->. exists (fr ++ b). rewrite <- app_assoc. reflexivity. }
  destruct Htr; try (injection Hst as <- Hst);
    try (left; first [exact (Hgen [_] _ Hst)|exact (Hgen [_; _] _ Hst)|exact (Hgen [_; _; _] _ Hst)]; fail);
    try (destruct b as [|f2 b]; cbn in Hst; injection Hst as Hf Hst; [right; left; eexists; reflexivity|left; subst; try (eexists (_ :: b); reflexivity); fail]; fail).
  - left. destruct (Hgen (FDisc l :: after ++ [FWait k]) _ Hst) as [b' Hb']. exists b'. rewrite <- Hb'. cbn. rewrite <- app_assoc. reflexivity.
  - left. destruct (Hgen (FRet (OutBool false) :: after ++ [FWait k]) _ Hst) as [b' Hb']. exists b'. rewrite <- Hb'. cbn. rewrite <- app_assoc. reflexivity.
  - left. destruct (Hgen (FLock s kk :: fr ++ [FWait k]) _ Hst) as [b' Hb']. exists b'. rewrite <- Hb'. cbn. rewrite <- app_assoc. reflexivity.
  - destruct b as [|f2 [|f3 b]]; cbn in Hst; simplify_eq.
    + right. left. eexists; reflexivity.
    + right. right. eexists _, _, _, _, _, [_]. split; reflexivity.
    + left. eexists (_ :: _ :: b). reflexivity.
  - destruct b as [|f2 b]; cbn in Hst; simplify_eq; [right; left; eexists; reflexivity|]. left. exists b. reflexivity.
Qed.

(** Whose events a step logs. *)
Lemma trans_thread e w t st w' st' new ev : trans e w t st w' st' -> w_log w' = new ++ w_log w -> ev ∈ new ->
  thread_of ev = None \/ thread_of ev = Some t.
Proof.
  intros Htr Hnew Hin.
  destruct (trans_log _ _ _ _ _ _ Htr) as [He|[(ev1 & He)|(l0 & args & pin & eid & start & st0 & i0 & _ & _ & _ & He)]].
  - rewrite He in Hnew. apply (app_inv_tail _ [] new) in Hnew. subst. inversion Hin.
  - rewrite He in Hnew. apply (app_inv_tail _ [ev1] new) in Hnew. subst. apply elem_of_list_singleton in Hin. subst ev1.
    destruct Htr; wcbn_in He; autorewrite with wsimp in He; try (exfalso; symmetry in He; exact (cons_ne _ _ He)); simplify_eq; cbn; auto.
    + apply vop_ev in H; destruct_or?; destruct_and?; naive_solver.
    + apply vop_ev in H; destruct_or?; destruct_and?; naive_solver.
  - rewrite He in Hnew. apply (app_inv_tail _ [_; _] new) in Hnew. subst.
    apply elem_of_cons in Hin as [->|Hin]; [cbn; auto|]. apply elem_of_list_singleton in Hin. subst. cbn; auto.
Qed.
Lemma deadish_thread L ev : deadish L -> ev ∈ L -> thread_of ev = None.
Proof. unfold deadish. rewrite Forall_forall. intros H Hin. destruct (H _ Hin) as [[? ->]|[? ->]]; reflexivity. Qed.
Lemma mine_none t L new : (forall ev, ev ∈ L -> thread_of ev <> Some t) -> mine t (L ++ new) = mine t new.
Proof.
  intros H. unfold mine. rewrite filter_app. replace (filter _ L) with (@nil event); [reflexivity|]. symmetry.
  induction L as [|ev L IH]; [reflexivity|]. rewrite filter_cons_False.
  - apply IH. intros ev' Hin. apply H. apply elem_of_list_further. auto.
  - apply H. apply elem_of_list_here.
Qed.

(** ** Steps that destroy nothing *)
Definition spares_slots (w w' : world) (t : tid) (st' : list frame) : Prop := dead_slots w (mid w' t st') = [].
Definition kills_nothing (w w' : world) (t : tid) (st' : list frame) : Prop := dead w (mid w' t st') = [].
Lemma kills_keep w w' t st' : (forall l, slot_alive w l = true -> slot_alive (mid w' t st') l = true) -> spares_slots w w' t st'.
Proof.
  intros H. unfold spares_slots, dead_slots. apply InvSig.filter_nil. intros l. specialize (H l).
  destruct (slot_alive w l); cbn; [|auto]. rewrite H by auto. cbn. auto.
Qed.
Lemma kills_quiet w w' t st st' : w_thr w !! t = Some st -> w_thr w' = w_thr w ->
  (forall s r v l, w_sigs w !! s = Some r -> sg_alive r = true -> sg_vec r = Some v -> l ∈ vec_of w v ->
     exists s' r' v', w_sigs w' !! s' = Some r' /\ sg_alive r' = true /\ sg_vec r' = Some v' /\ l ∈ vec_of w' v') ->
  (forall l f, frame_keeps w l f = true -> frame_keeps w' l f = true) ->
  (forall l f, f ∈ st -> frame_keeps w l f = true -> exists f', f' ∈ st' /\ frame_keeps w l f' = true) ->
  spares_slots w w' t st'.
Proof.
  intros Ht Hthr Hs Hk Hf. apply kills_keep. intros l. rewrite !slot_alive_iff.
  intros [(s & r & v & H1 & H2 & H3 & H4)|(t0 & x & f & Hx & Hin & Hfk)].
  - left. destruct (Hs _ _ _ _ H1 H2 H3 H4) as (s' & r' & v' & Ha & Hb & Hc & Hd). exists s', r', v'. auto.
  - right. destruct (decide (t0 = t)) as [->|Hn].
    + rewrite Ht in Hx. injection Hx as <-. destruct (Hf _ _ Hin Hfk) as (f' & Hin' & Hfk'). exists t, st', f'.
      wcbn. rewrite Hthr. rewrite list_lookup_insert by (eapply lookup_lt_Some; eauto). split; [auto|]. split; [auto|].
      apply Hk in Hfk'. exact Hfk'.
    + exists t0, x, f. wcbn. rewrite Hthr, list_lookup_insert_ne by auto. split; [auto|]. split; [auto|]. apply Hk in Hfk. exact Hfk.
Qed.

Lemma kills_sub w w' t st st' : w_thr w !! t = Some st -> w_thr w' = w_thr w ->
  (forall v l, l ∈ vec_of w v -> l ∈ vec_of w' v) ->
  (forall s r v, w_sigs w !! s = Some r -> sg_alive r = true -> sg_vec r = Some v ->
     exists s' r' v', w_sigs w' !! s' = Some r' /\ sg_alive r' = true /\ sg_vec r' = Some v' /\ forall l, l ∈ vec_of w v -> l ∈ vec_of w' v') ->
  (forall f, f ∈ st -> f ∈ st' \/ forall l, frame_keeps w l f = false) -> spares_slots w w' t st'.
Proof.
  intros Ht Hthr Hv Hs Hf. eapply kills_quiet; eauto.
  - intros s r v l H1 H2 H3 H4. destruct (Hs _ _ _ H1 H2 H3) as (s' & r' & v' & Ha & Hb & Hc & Hd). exists s', r', v'. auto.
  - intros l f. unfold frame_keeps. destruct f; auto. rewrite !bool_decide_eq_true. auto.
  - intros l f Hin Hk. destruct (Hf _ Hin) as [Hin'|Hno]; [eauto|]. rewrite Hno in Hk. discriminate.
Qed.

(** Frames from which the next step destroys no slot. *)
Definition quiet (st : list frame) : Prop :=
  match st with
  | FProg (Do (OConnect _ _ _) _) :: _ | FProg (Do (OErase _ _) _) :: _ | FProg (Do (OEmit _ _) _) :: _ => True
  | FLock _ _ :: _ | FWrite _ _ :: _ | FUnlock _ _ :: _ => True
  | FBody _ _ (KAdd _) :: _ | FBody _ _ (KErase _) :: _ => True
  | FRet _ :: FMkConn _ :: _ => True
  | _ => False
  end.
Lemma quiet_slots e ps w t st w' st' : reachable e ps w -> w_thr w !! t = Some st -> trans e w t st w' st' -> quiet st ->
  spares_slots w w' t st'.
Proof.
  intros Hr Ht Htr Hq.
  pose proof (trans_thr _ _ _ _ _ _ Htr) as Hthr.
  destruct (I_bound_inv _ _ _ Hr) as (Hb1 & Hb2 & Hb3 & Hb4).
  assert (Hsame : w_vecs w' = w_vecs w -> (forall s r v, w_sigs w !! s = Some r -> sg_alive r = true -> sg_vec r = Some v ->
     exists s' r', w_sigs w' !! s' = Some r' /\ sg_alive r' = true /\ sg_vec r' = Some v) ->
     (forall f, f ∈ st -> f ∈ st' \/ forall l, frame_keeps w l f = false) -> spares_slots w w' t st').
  { intros Hv Hs Hf. eapply kills_sub; eauto.
    - intros v l. rewrite (vec_of_ext w w') by auto. auto.
    - intros s r v H1 H2 H3. destruct (Hs _ _ _ H1 H2 H3) as (s' & r' & Ha & Hb & Hc). exists s', r', v.
      split; [auto|]. split; [auto|]. split; [auto|]. intros l. rewrite (vec_of_ext w w') by auto. auto. }
  assert (Halter : forall s x s0 r v, w_sigs w !! s0 = Some r -> sg_alive r = true -> sg_vec r = Some v ->
     exists s' r', alter (sg_set_lock x) s (w_sigs w) !! s' = Some r' /\ sg_alive r' = true /\ sg_vec r' = Some v).
  { intros s x s0 r v H1 H2 H3. exists s0. rewrite alter_lookup. rewrite H1. cbn. destruct (decide (s = s0)); cbn; eauto. }
  assert (Hid : forall s0 r v, w_sigs w !! s0 = Some r -> sg_alive r = true -> sg_vec r = Some v ->
     exists s' r', w_sigs w !! s' = Some r' /\ sg_alive r' = true /\ sg_vec r' = Some v) by eauto.
  assert (Hfr : forall a f tl, (forall l, frame_keeps w l f = false) -> forall g, g ∈ f :: tl -> g ∈ a ++ tl \/ forall l, frame_keeps w l g = false).
  { intros a f tl Hf g Hin. apply elem_of_cons in Hin as [->|Hin]; [auto|]. left. apply elem_of_app. auto. }
  destruct Htr; cbn [quiet] in Hq; try contradiction;
    try (apply Hsame; [reflexivity|first [exact Hid|apply Halter]|first [eapply (Hfr [_])|eapply (Hfr [_; _])]; reflexivity]; fail).
  - (* begin *) apply Hsame; [reflexivity|exact Hid|]. intros f Hin. apply elem_of_cons in Hin as [->|Hin]; [auto|]. left.
    apply elem_of_cons; right. apply elem_of_app; right. apply elem_of_cons; auto.
  - (* move *) apply Hsame; [reflexivity| |eapply (Hfr [_]); reflexivity]. intros s0 r0 v0 H1 H2 H3. wcbn.
    destruct (decide (s0 = s)) as [->|Hn].
    + exists (length (w_sigs w)). eexists. rewrite lookup_app_r by (rewrite alter_length; lia). rewrite alter_length, Nat.sub_diag.
      split; [reflexivity|]. cbn. split; congruence.
    + exists s0, r0. rewrite lookup_app_l by (rewrite alter_length; eapply lookup_lt_Some; eauto). rewrite alter_lookup, decide_False by auto. auto.
  - (* detach *) eapply kills_sub; eauto; [..|eapply (Hfr [_]); reflexivity].
    + intros v0 l Hl. destruct (vec_of_lookup _ _ _ Hl) as (xs & Hxs & _ & _).
      erewrite vec_of_snoc; [exact Hl|reflexivity|eapply lookup_lt_Some; eauto].
    + intros s0 r0 v0 H2 H3 H4. wcbn. exists s0. rewrite alter_lookup, H2. cbn. destruct (decide (s = s0)) as [<-|Hn]; cbn.
      * eexists _, _. split; [reflexivity|]. cbn. split; [auto|]. split; [reflexivity|]. assert (v0 = v) by congruence. subst v0.
        intros l Hl. unfold vec_of at 1. cbn. rewrite lookup_app_r, Nat.sub_diag by lia. exact Hl.
      * exists r0, v0. split; [auto|]. split; [auto|]. split; [auto|]. intros l Hl. destruct (vec_of_lookup _ _ _ Hl) as (xs & Hxs & _ & _).
        erewrite vec_of_snoc; [exact Hl|reflexivity|eapply lookup_lt_Some; eauto].
  - (* add *)
    assert (Hvs : forall v0 l, l ∈ vec_of w v0 -> l ∈ vec_of (w_add_log
      (w_set_slots (w_set_vec w v (vec_of w v ++ [length (w_slots w)]))
         (w_slots w ++ [SlotRec (im_set_idx (length (vec_of w v)) i) s]))
      (EConn t s (length (w_slots w)) (im_set_idx (length (vec_of w v)) i))) v0).
    { intros v0 l Hl. destruct (vec_of_lookup _ _ _ Hl) as (xs & Hxs & Hxs' & Hin). unfold vec_of at 1. cbn.
      destruct (decide (v0 = v)) as [->|Hn].
      - rewrite list_lookup_insert by (eapply lookup_lt_Some; eauto). cbn. apply elem_of_app. auto.
      - rewrite list_lookup_insert_ne by auto. rewrite Hxs. exact Hin. }
    eapply kills_sub; eauto; [|eapply (Hfr [_]); reflexivity].
    intros s0 r0 v0 H2 H3 H4. exists s0, r0, v0. split; [auto|]. split; [auto|]. split; [auto|]. intros l. apply Hvs.
  - (* mkconn *) apply Hsame; [reflexivity|exact Hid|]. intros f Hin. apply elem_of_cons in Hin as [->|Hin]; [auto|].
    apply elem_of_cons in Hin as [->|Hin]; [auto|]. left. apply elem_of_cons; auto.
  - apply Hsame; [reflexivity|exact Hid|]. intros f Hin. apply elem_of_cons in Hin as [->|Hin]; [auto|].
    apply elem_of_cons in Hin as [->|Hin]; [auto|]. left. apply elem_of_cons; auto.
Qed.

Lemma quiet_trans e ps w t st w' st' : reachable e ps w -> w_thr w !! t = Some st -> trans e w t st w' st' -> quiet st ->
  kills_nothing w w' t st'.
Proof.
  intros Hr Ht Htr Hq. unfold kills_nothing, dead. rewrite (quiet_slots _ _ _ _ _ _ _ Hr Ht Htr Hq).
  rewrite (keeps_objs_dead _ _ _ _ _ _ _ Hr Ht Htr); [reflexivity|]. clear - Hq. destruct st as [|[] st]; cbn in *; try contradiction; auto.
  - destruct st as [|[] st]; cbn in *; try contradiction; auto.
  - destruct p as [|[]]; try contradiction; auto.
Qed.

Lemma top_touch_holds' x1 x2 a r s : top_touch (x1 :: x2 :: a ++ r) = Some s -> 1 <= swt (holds s) (x1 :: x2 :: a).
Proof. unfold top_touch. repeat case_match; intros; simplify_eq; rewrite !swt_cons; cbn [holds]; rewrite decide_True by auto; lia. Qed.

Section call.
  Context (e : env) (ps : list prog) (t : tid) (op : op) (k : out -> prog) (st : list frame) (w0 : world).
  (** [ph c new]: the frames [c] the call has on the stack and the events since its start. *)
  Variable ph : list frame -> list event -> Prop.
  (** While [busy c], client code may run above [c]. *)
  Variable busy : list frame -> Prop.
  Hypothesis ph_other : forall c L new, (forall ev, ev ∈ L -> thread_of ev <> Some t) ->
    (forall s f ev, f ∈ c -> erases s f -> ev ∈ L -> ~ touches s ev) -> ph c new -> ph c (L ++ new).
  Hypothesis ph_busy : forall c L new, busy c ->
    (forall s f ev, f ∈ c -> erases s f -> ev ∈ L -> ~ touches s ev) -> ph c new -> ph c (L ++ new).
  Hypothesis ph_emit : forall s eid v args args' c new, ph (FEmit s eid v args :: c) new ->
    busy (FEmit s eid v args :: c) -> ph (FEmit s eid v args' :: c) new /\ busy (FEmit s eid v args' :: c).
  Hypothesis ph_start : forall w' st' new, reachable e ps w0 -> trans e w0 t (FProg (Do op k) :: st) w' st' ->
    w_log w' = new ++ w_log w0 ->
    exists b f c, st' = b ++ f :: c ++ FWait k :: st /\ ph (f :: c) new /\ ((b = [] /\ kills_nothing w0 w' t st') \/ busy (f :: c)).
  Hypothesis ph_act : forall w f c new w' st' new', reachable e ps w -> w_log w = new ++ w_log w0 ->
    w_thr w !! t = Some (f :: c ++ FWait k :: st) -> AT adj (f :: c ++ FWait k :: st) ->
    ph (f :: c) new -> (forall o, f :: c <> [FRet o]) ->
    trans e w t (f :: c ++ FWait k :: st) w' st' -> w_log w' = new' ++ w_log w0 ->
    exists b' f' c', st' = b' ++ f' :: c' ++ FWait k :: st /\ ph (f' :: c') new' /\ ((b' = [] /\ kills_nothing w w' t st') \/ busy (f' :: c')).
  Hypothesis ph_ret : forall w o f c new w' st' new', reachable e ps w -> w_log w = new ++ w_log w0 ->
    w_thr w !! t = Some (FRet o :: f :: c ++ FWait k :: st) -> AT adj (FRet o :: f :: c ++ FWait k :: st) ->
    ph (f :: c) new ->
    trans e w t (FRet o :: f :: c ++ FWait k :: st) w' st' -> w_log w' = new' ++ w_log w0 ->
    exists b' f' c', st' = b' ++ f' :: c' ++ FWait k :: st /\ ph (f' :: c') new' /\ ((b' = [] /\ kills_nothing w w' t st') \/ busy (f' :: c')).

  Lemma call_inv w : reachable e ps w0 -> in_call e t op k st w0 w ->
    reachable e ps w /\
    exists b f c new, w_thr w !! t = Some (b ++ f :: c ++ FWait k :: st) /\ w_log w = new ++ w_log w0 /\ ph (f :: c) new /\ (b = [] \/ busy (f :: c)).
  Proof.
    intros Hr0 H.
    assert (HD0 : forall D w w' st', kills_nothing w w' t st' -> D = flat_map (dtor_frames e (mid w' t st')) (dead w (mid w' t st')) -> D = []).
    { intros D w1 w' st' Hk ->. rewrite Hk. reflexivity. }
    assert (Hdead : forall L c new, deadish L -> ph c new -> ph c (L ++ new)).
    { intros L c new HL. apply ph_other.
      - intros ev Hin. rewrite (deadish_thread _ _ HL Hin). discriminate.
      - intros s f ev _ _ Hin. unfold deadish in HL. rewrite Forall_forall in HL. destruct (HL _ Hin) as [[? ->]|[? ->]]; intros []. }
    induction H as [fail w Ht Hs|t' fail w w' H [Hr IH] Hn Hs].
    - split; [eapply reachable_step; eauto|].
      destruct (step_trans _ _ _ _ _ Hs) as (st0 & w1 & st1 & Ht0 & Htr & -> & _). simplify_eq.
      destruct (reap_spec e w0 w1 t st1) as (D & L & HD & HL & -> & HDeq & _).
      destruct (trans_log_app _ _ _ _ _ _ Htr) as [new Hnew].
      destruct (ph_start _ _ _ Hr0 Htr Hnew) as (b0 & f & c & -> & Hph & Hbs).
      exists (D ++ b0), f, c, (L ++ new). wcbn. rewrite (trans_thr _ _ _ _ _ _ Htr).
      rewrite list_lookup_insert by (eapply lookup_lt_Some; eauto). split; [rewrite <- app_assoc; reflexivity|]. split; [rewrite Hnew, app_assoc; reflexivity|].
      split; [auto|]. destruct Hbs as [[-> Hk]|Hb]; [left; rewrite (HD0 _ _ _ _ Hk HDeq); reflexivity|auto].
    - split; [eapply reachable_step; eauto|].
      destruct IH as (b & f & c & new & Ht & Hlog & Hph & Hbusy).
      destruct (step_trans _ _ _ _ _ Hs) as (st0 & w1 & st1 & Ht0 & Htr & -> & _).
      destruct (reap_spec e w w1 t' st1) as (D & L & HD & HL & -> & HDeq & _).
      destruct (trans_log_app _ _ _ _ _ _ Htr) as [new1 Hnew].
      assert (Hlog1 : w_log w1 = (new1 ++ new) ++ w_log w0) by (rewrite Hnew, Hlog, app_assoc; reflexivity).
      assert (Hquiet : forall a, w_thr w !! t = Some (a ++ f :: c ++ FWait k :: st) ->
        (t' = t -> a <> [] /\ forall o, a <> [FRet o]) -> forall s g ev, g ∈ f :: c -> erases s g -> ev ∈ new1 -> ~ touches s ev).
      { intros a Ha Hat s g ev Hg Hs' Hev Hto.
        assert (Hin : g ∈ a ++ f :: c ++ FWait k :: st).
        { apply elem_of_app. right. apply (elem_of_app (f :: c)). auto. }
        pose proof (I_lock_inv _ _ _ Hr) as HLk.
        assert (Hlt : s < length (w_sigs w)).
        { pose proof (I_crit_inv _ _ _ Hr _ _ Ha) as HF. rewrite Forall_forall in HF. specialize (HF _ Hin).
          destruct Hs' as [v Hv]. unfold fr_crit in HF. rewrite Hv in HF. destruct HF as [(r & Hl & _) _]. eapply lookup_lt_Some; eauto. }
        pose proof (trans_touch _ _ _ _ _ _ _ _ _ Htr Hnew Hev Hto Hlt) as Htt.
        destruct Hs' as [v Hv]. apply elem_of_list_split in Hg as (b1 & b2 & Hg).
        assert (H1 : 1 <= swt (holds s) (f :: c)) by (rewrite Hg; eapply holds_swt; eauto).
        pose proof (HLk _ _ s Ha) as Hh. rewrite swt_app in Hh.
        replace (f :: c ++ FWait k :: st) with ((f :: c) ++ FWait k :: st) in Hh by reflexivity. rewrite swt_app in Hh. unfold lockw in Hh.
        destruct (decide (t' = t)) as [->|Hne].
        - destruct (Hat eq_refl) as [Hne Hnr]. rewrite Ha in Ht0. injection Ht0 as <-.
          assert (H2 : 1 <= swt (holds s) a).
          { destruct a as [|x1 [|x2 a]]; [congruence|..].
            - unfold top_touch in Htt. cbn [app] in Htt. rewrite swt_cons.
              repeat case_match; simplify_eq; cbn [holds]; rewrite ?decide_True by auto; try lia; edestruct Hnr; reflexivity.
            - apply top_touch_holds' in Htt. exact Htt. }
          destruct (w_sigs w !! s); [|lia]. repeat case_decide; lia.
        - pose proof (HLk _ _ s Ht0) as Hh0. apply top_touch_holds in Htt. unfold lockw in Hh0.
          destruct (w_sigs w !! s); [|lia]. repeat case_decide; try lia. congruence. }
      destruct (decide (t' = t)) as [->|Hne].
      2:{ exists b, f, c, (L ++ new1 ++ new). wcbn. rewrite (trans_thr _ _ _ _ _ _ Htr).
          rewrite list_lookup_insert_ne by auto. split; [auto|]. split; [rewrite Hlog1, !app_assoc; reflexivity|].
          split; [|auto]. apply Hdead; [auto|]. apply ph_other; [| |auto].
          - intros ev Hin. destruct (trans_thread _ _ _ _ _ _ _ _ Htr Hnew Hin) as [->| ->]; congruence.
          - apply (Hquiet b); [auto|congruence]. }
      rewrite Ht in Ht0. injection Ht0 as Hst0. subst st0.
      destruct (I_adj_inv _ _ _ Hr _ _ Ht) as [HA _].
      assert (Hnext : exists b' f' c', st1 = b' ++ f' :: c' ++ FWait k :: st /\ ph (f' :: c') (new1 ++ new) /\
                ((b' = [] /\ kills_nothing w w1 t st1) \/ busy (f' :: c'))).
      { destruct b as [|g b].
        - cbn [app] in *. assert (Hnr : forall o, f :: c <> [FRet o]).
          { intros o Ho. injection Ho as -> ->. eapply Hn; eauto. }
          destruct (ph_act _ _ _ _ _ _ _ Hr Hlog Ht HA Hph Hnr Htr Hlog1) as (b' & f' & c' & -> & Hp & Hb'). exists b', f', c'. auto.
        - destruct Hbusy as [Hbusy|Hbusy]; [discriminate|].
          assert (Hor : (exists o, g :: b = [FRet o]) \/ forall o, g :: b <> [FRet o]).
          { destruct b; [|right; discriminate]. destruct g; try (right; discriminate). left. eauto. }
          destruct Hor as [[o Hb]|Hnr];
            [|specialize (Hquiet (g :: b) Ht (fun _ => conj (fun H => nil_cons (eq_sym H)) Hnr));
              destruct (trans_above _ _ _ _ _ _ _ _ Htr) as [[b' ->]|[[o Hb]|(s & eid & v & args & args' & b' & -> & ->)]]; [congruence| |edestruct Hnr; eauto|]].
          + injection Hb as -> ->. cbn [app] in *.
            destruct (ph_ret _ _ _ _ _ _ _ _ Hr Hlog Ht HA Hph Htr Hlog1) as (b' & f' & c' & -> & Hp & Hb'). exists b', f', c'. auto.
          + exists b', f, c. split; [reflexivity|]. split; [|auto]. apply ph_busy; auto.
          + destruct (ph_emit _ _ _ _ args' _ _ Hph Hbusy) as [Hp Hb'].
            exists b', (FEmit s eid v args'), c. split; [reflexivity|]. split; [|auto]. apply ph_busy; auto.
            intros s1 g1 ev Hg1 He1. apply elem_of_cons in Hg1 as [->|Hg1]; [destruct He1; discriminate|]. apply (Hquiet s1 g1); [apply elem_of_cons; auto|auto]. }
      destruct Hnext as (b' & f' & c' & -> & Hp & Hb').
      exists (D ++ b'), f', c', (L ++ new1 ++ new). wcbn. rewrite (trans_thr _ _ _ _ _ _ Htr).
      rewrite list_lookup_insert by (eapply lookup_lt_Some; eauto). split; [rewrite <- app_assoc; reflexivity|].
      split; [rewrite Hlog1, !app_assoc; reflexivity|]. split; [auto|].
      destruct Hb' as [[-> Hk]|Hb']; [left; rewrite (HD0 _ _ _ _ Hk HDeq); reflexivity|auto].
  Qed.

  (** When the call has returned, its only frame holds the result. *)
  Lemma call_returned w o : reachable e ps w0 -> in_call e t op k st w0 w -> returned t k st w o ->
    exists new, since w0 w new /\ ph [FRet o] new.
  Proof.
    intros Hr0 Hc Hret. destruct (call_inv w Hr0 Hc) as (Hr & b & f & c & new & Ht & Hlog & Hph & _).
    unfold returned in Hret. rewrite Hret in Ht. injection Ht as Ht.
    exists new. split; [exact Hlog|].
    assert (Hlen : length (FRet o :: FWait k :: st) = length (b ++ f :: c ++ FWait k :: st)) by (rewrite Ht; reflexivity).
    rewrite !app_length in Hlen. cbn in Hlen. rewrite app_length in Hlen. cbn in Hlen.
    destruct b as [|? b]; [|cbn in Hlen; lia]. destruct c as [|? c]; [|cbn in Hlen; lia]. cbn in Ht. congruence.
  Qed.
End call.
