(** * Calls of slots *)
From Verif Require Export LogLemmas.

(** ** A slot call that has not yet reached the callable is on top of its stack *)
Definition no_slot_top (r : list frame) : Prop :=
  match r with FSlot _ _ _ _ _ _ :: _ => False | _ => True end.
Definition dtor_top (f : frame) (r : list frame) : Prop := match f with FDtor _ => no_slot_top r | _ => True end.
Definition I_top (w : world) : Prop := forall t st, w_thr w !! t = Some st -> AT dtor_top st.

Lemma keep_all_alive w t st st' :
  w_thr w !! t = Some st -> (forall f l, f ∈ st -> frame_keeps w l f = true -> exists g, g ∈ st' /\ frame_keeps w l g = true) ->
  dead_slots w (mid w t st') = [].
Proof.
  intros Ht H. apply elem_of_nil_inv. intros l Hl. apply dead_slots_elem in Hl as (H1 & H2 & _).
  apply not_true_iff_false in H2. apply H2. apply slot_alive_iff in H1 as [Hs|(t0 & x & f & Hx & Hf & Hk)]; apply slot_alive_iff.
  - left. exact Hs.
  - right. destruct (decide (t0 = t)) as [->|Hn].
    + simplify_eq. destruct (H _ _ Hf Hk) as (g & Hg & Hgk). exists t, st', g. wcbn.
      rewrite list_lookup_insert by (eapply lookup_lt_Some; eauto). split; [auto|]. split; [auto|].
      destruct g; exact Hgk.
    + exists t0, x, f. wcbn. rewrite list_lookup_insert_ne by auto. split; [auto|]. split; [auto|]. destruct f; exact Hk.
Qed.

(** A call has no shared_ptr to its tracked object before 964. *)
Definition pin_none (f : frame) : Prop :=
  match f with FSlot _ (SBlk | SExp | SConn | SDisp | SDead) _ pin _ _ => pin = None | _ => True end.
Lemma pin_none_inv e ps w : reachable e ps w -> AF pin_none w.
Proof.
  apply reach_ind.
  - apply AF_init. intros; exact I.
  - clear w. intros w t st w' st' Hr HI Ht Htr _. destruct (reap_spec e w w' t st') as (D & L & HD & HL & -> & _).
    pose proof (trans_thr _ _ _ _ _ _ Htr) as Hthr. intros t' x Hx. wcbn_in Hx. rewrite Hthr in Hx.
    destruct (thr_upd _ _ _ _ _ _ Ht Hx) as [[-> ->]|[Hn Hx']]; [|eapply HI; eauto]. specialize (HI _ _ Ht). clear Hx.
    apply Forall_app. split; [eapply Forall_impl; [exact HD|]; intros f [[? ->]|[p ->]]; exact I|].
    destruct Htr; rewrite ?Forall_cons in HI; repeat first [rewrite Forall_cons | rewrite Forall_app];
      destruct_and?; repeat (match goal with |- _ /\ _ => split end); auto; try exact I; try reflexivity.
    + apply vop_after in H. eapply Forall_impl; [exact H|]. intros []; cbn; auto; contradiction.
    + apply vop_after in H. eapply Forall_impl; [exact H|]. intros []; cbn; auto; contradiction.
    + apply begins_fr in H. eapply Forall_impl; [exact H|]. intros []; cbn; auto; contradiction.
    + match goal with H : advances _ _ _ _ _ _ _ |- _ => destruct H end; cbn in *; auto.
Qed.

(** Steps that destroy no tracked object. *)
Definition keeps_objs (st : list frame) : Prop :=
  match st with
  | FProg (Do (OVar (VResetObj _)) _) :: _ => False
  | FSlot _ (SPin | SCall | SRun) _ _ _ _ :: _ => False
  | FRet _ :: FSlot _ _ _ _ _ _ :: _ => False
  | _ => True
  end.
Lemma no_dead_objs w w' t st st' : w_thr w !! t = Some st -> w_thr w' = w_thr w ->
  (forall o, v_objs (w_vars w) !! o = Some true -> v_objs (w_vars w') !! o = Some true) ->
  (forall f o, f ∈ st -> frame_pins_obj o f = true -> exists g, g ∈ st' /\ frame_pins_obj o g = true) ->
  dead_objs w (mid w' t st') = [].
Proof.
  intros Ht Hthr Ho H. apply elem_of_nil_inv. intros o Hd. apply dead_objs_elem in Hd as (H1 & H2 & _).
  apply not_true_iff_false in H2. apply H2. apply obj_alive_iff in H1 as [Hs|(t0 & x & f & Hx & Hf & Hk)]; apply obj_alive_iff.
  - left. wcbn. auto.
  - right. wcbn. rewrite Hthr. destruct (decide (t0 = t)) as [->|Hn].
    + simplify_eq. destruct (H _ _ Hf Hk) as (g & Hg & Hgk). exists t, st', g.
      rewrite list_lookup_insert by (eapply lookup_lt_Some; eauto). auto.
    + exists t0, x, f. rewrite list_lookup_insert_ne by auto. auto.
Qed.
Lemma vop_resets w t v x o ob : exec_vop w t v = VOk x o (EfLog (EReset ob)) -> v = VResetObj ob.
Proof.
  unfold exec_vop, disc_res, blk_eff. intros H. destruct v; repeat (dm H; try discriminate); simplify_eq; reflexivity.
Qed.
Lemma keeps_objs_dead e ps w t st w' st' : reachable e ps w -> w_thr w !! t = Some st -> trans e w t st w' st' -> keeps_objs st -> dead_objs w (mid w' t st') = [].
Proof.
  intros Hr Ht Htr Hk. pose proof (trans_thr _ _ _ _ _ _ Htr) as Hthr. pose proof (pin_none_inv _ _ _ Hr _ _ Ht) as HP.
  apply (no_dead_objs w w' t st st'); [exact Ht|exact Hthr| |].
  - intros o Ho.
    destruct (trans_objs _ _ _ _ _ _ Htr) as [[He _]|[[He Hl]|(ob & Hob & He & Hl)]]; rewrite He.
    + exact Ho.
    + rewrite lookup_app_l; [exact Ho|eapply lookup_lt_Some; eauto].
    + exfalso. clear - Hl Htr Hk. destruct Htr; wcbn_in Hl; autorewrite with wsimp in Hl;
        try (apply (f_equal length) in Hl; cbn in Hl; lia); try discriminate Hl.
      all: try (injection Hl as ->; match goal with H : exec_vop _ _ _ = VOk _ _ (EfLog _) |- _ => apply vop_resets in H; subst; destruct Hk end).
  - clear Hthr. intros f o Hf Hp. destruct Htr; cbn [keeps_objs] in Hk; try contradiction.
    all: rewrite ?elem_of_cons in Hf.
    all: try (destruct_or?; subst; cbn in Hp; try discriminate Hp; exists f; split; [rewrite ?elem_of_cons, ?elem_of_app, ?elem_of_cons; auto 10|exact Hp]; fail).
    all: apply Forall_cons in HP as [HP _]; destruct Hf as [->|Hf]; [|exists f; split; [rewrite ?elem_of_cons; auto|exact Hp]].
    + destruct g; cbn in HP; try contradiction; subst; discriminate Hp.
    + cbn in HP. subst. discriminate Hp.
    + match goal with H : advances _ _ _ _ _ _ _ |- _ => destruct H end; cbn in HP; subst; try discriminate Hp; contradiction.
Qed.
Lemma advance_objs e ps w t r g args pin eid start g' pin' st i : reachable e ps w -> w_thr w !! t = Some (FSlot r g args pin eid start :: st) ->
  advances w r i g pin g' pin' -> dead_objs w (mid w t (FSlot r g' args pin' eid start :: st)) = [].
Proof.
  intros Hr Ht Ha. pose proof (pin_none_inv _ _ _ Hr _ _ Ht) as HP. apply Forall_cons in HP as [HP _].
  eapply no_dead_objs; [exact Ht|reflexivity|auto|]. intros f o Hf Hp. apply elem_of_cons in Hf as [->|Hf].
  - destruct Ha; cbn in HP; subst; try discriminate Hp. eexists. split; [apply elem_of_list_here|exact Hp].
  - exists f. split; [apply elem_of_list_further; exact Hf|exact Hp].
Qed.

Lemma AT_dtor_top_app D st : dtorish D -> D = [] \/ no_slot_top st -> AT dtor_top st -> AT dtor_top (D ++ st).
Proof.
  intros HD Hs HA. induction HD as [|f D Hf HD IH]; cbn; [auto|].
  assert (Hns : no_slot_top st) by (destruct Hs as [?|?]; [discriminate|auto]).
  destruct Hf as [[? ->]|[p ->]]; cbn; (split; [|apply IH; auto]); auto.
  destruct D as [|g D]; [exact Hns|]. apply Forall_cons in HD as [[[? ->]|[q ->]] _]; exact I.
Qed.

Lemma I_top_inv e ps w : reachable e ps w -> I_top w.
Proof.
  apply reach_ind.
  - intros t st Ht. cbn in Ht. rewrite list_lookup_fmap in Ht.
    destruct (ps !! t); cbn in Ht; simplify_eq. cbn. auto.
  - clear w. intros w t st w' st' Hr HI Ht Htr _ t' x Hx.
    destruct (reap_spec e w w' t st') as (D & L & HD & HL & Hre & HDe & _). rewrite Hre in Hx.
    pose proof (trans_thr _ _ _ _ _ _ Htr) as Hthr.
    wcbn_in Hx. rewrite Hthr in Hx.
    destruct (thr_upd _ _ _ _ _ _ Ht Hx) as [[-> ->]|[Hn Hx']]; [|eauto].
    specialize (HI _ _ Ht). clear Hx Hre.
    assert (Hd : forall r g a p ei sta rest, st' = FSlot r g a p ei sta :: rest -> w' = w ->
      dead_objs w (mid w' t st') = [] ->
      (forall f, f ∈ st -> (exists l, frame_keeps w l f = true) -> f ∈ st') -> D = []).
    { intros r g a p ei sta rest _ -> Ho Hk. rewrite HDe. unfold dead. rewrite Ho, (keep_all_alive w t st st' Ht); [reflexivity|].
      intros f l Hf Hfk. exists f. split; [apply Hk; eauto|auto]. }
    apply AT_dtor_top_app; [exact HD| |].
    + pose proof Htr as Htr'. destruct Htr; cbn [no_slot_top]; auto.
      * left. eapply Hd; try reflexivity; [exact (keeps_objs_dead _ _ _ _ _ _ _ Hr Ht Htr' I)|]. intros f Hf [l Hk]. apply elem_of_cons in Hf as [->|Hf]; [discriminate|].
        do 3 apply elem_of_list_further. exact Hf.
      * left. eapply Hd; try reflexivity; [exact (keeps_objs_dead _ _ _ _ _ _ _ Hr Ht Htr' I)|]. intros f Hf [l0 Hk]. apply elem_of_cons in Hf as [->|Hf]; [discriminate|].
        do 2 apply elem_of_list_further. exact Hf.
      * left. eapply Hd; try reflexivity; [eapply advance_objs; eauto|]. intros f Hf [l0 Hk]. apply elem_of_cons in Hf as [->|Hf]; [discriminate|].
        apply elem_of_list_further. exact Hf.
      * destruct HI as [_ [HI _]]. auto.
    + clear Hd HDe HL HD Ht Hr. destruct Htr; cbn [AT dtor_top] in HI |- *; destruct_and?; auto 10.
      * destruct (vop_after' _ _ _ _ _ _ H) as [->|[(d & m & ->)|[(d & s & ->)| ->]]]; cbn; auto.
      * destruct (vop_after' _ _ _ _ _ _ H) as [->|[(d & m & ->)|[(d & s & ->)| ->]]]; cbn; auto.
      * destruct H; cbn; auto.
Qed.

(** The destructor of a tracked object returns to a call of the library that is about to return,
    or to another destructor that has not started. *)
Definition at_return (r : list frame) : Prop := match r with FRet _ :: _ | FProg _ :: _ => True | _ => False end.
Definition odt (f : frame) (r : list frame) : Prop := match f with FDtor (inr _) => at_return r | _ => True end.
Lemma obj_dies_about e ps w t st w' st' : reachable e ps w -> w_thr w !! t = Some st -> trans e w t st w' st' -> at_return st' \/ dead_objs w (mid w' t st') = [].
Proof.
  intros Hr Ht Htr. pose proof (keeps_objs_dead _ _ _ _ _ _ _ Hr Ht Htr) as Hk.
  destruct Htr; cbn [at_return]; auto; try (right; apply Hk; cbn; auto; fail).
  - right. apply Hk. cbn. destruct v; auto. unfold exec_vop in H. repeat (dm H; try discriminate).
  - right. apply Hk. cbn. match goal with H : begins _ _ _ _ _ |- _ => destruct H; exact I end.
  - right. eapply advance_objs; eauto.
Qed.
Lemma odt_inv e ps w : reachable e ps w -> forall t st, w_thr w !! t = Some st -> AT odt st.
Proof.
  revert w. apply (reach_ind e ps (fun w => forall t st, w_thr w !! t = Some st -> AT odt st)).
  - intros t st Ht. cbn in Ht. rewrite list_lookup_fmap in Ht.
    destruct (ps !! t); cbn in Ht; simplify_eq. cbn. auto.
  - intros w t st w' st' Hr HI Ht Htr _ t' x Hx.
    destruct (reap_spec e w w' t st') as (D & L & HD & HL & Hre & HDe & _). rewrite Hre in Hx.
    pose proof (trans_thr _ _ _ _ _ _ Htr) as Hthr. wcbn_in Hx. rewrite Hthr in Hx.
    destruct (thr_upd _ _ _ _ _ _ Ht Hx) as [[-> ->]|[Hn Hx']]; [|eauto]. specialize (HI _ _ Ht). clear Hx Hre.
    assert (HA : AT odt st').
    { clear - HI Htr. destruct Htr; cbn [AT odt] in HI |- *; destruct_and?; auto 10.
      - destruct (vop_after' _ _ _ _ _ _ H) as [->|[(d & m & ->)|[(d & s & ->)| ->]]]; cbn; auto.
      - destruct (vop_after' _ _ _ _ _ _ H) as [->|[(d & m & ->)|[(d & s & ->)| ->]]]; cbn; auto.
      - destruct H; cbn; auto. }
    subst D. unfold dead. rewrite flat_map_app, <- app_assoc.
    assert (HB : forall ds st0, AT odt st0 -> AT odt (flat_map (dtor_frames e (mid w' t st')) (map inl ds) ++ st0)).
    { clear. intros ds st0 H0. induction ds as [|d ds IH]; [exact H0|]. cbn [map flat_map]. rewrite <- app_assoc. unfold dtor_frames at 1.
      destruct (dtor_prog _ _ _); [|exact IH]. cbn [app AT odt]. auto. }
    destruct (obj_dies_about _ _ _ _ _ _ _ Hr Ht Htr) as [Hab|Hno]; [|rewrite Hno; apply HB, HA].
    assert (HB' : at_return (flat_map (dtor_frames e (mid w' t st')) (map inl (dead_slots w (mid w' t st'))) ++ st')).
    { clear - Hab. induction (dead_slots w (mid w' t st')) as [|d ds IH]; [exact Hab|]. cbn [map flat_map]. rewrite <- app_assoc. unfold dtor_frames at 1.
      destruct (dtor_prog _ _ _); [exact I|exact IH]. }
    specialize (HB (dead_slots w (mid w' t st')) _ HA). revert HB HB'. generalize (flat_map (dtor_frames e (mid w' t st')) (map inl (dead_slots w (mid w' t st'))) ++ st').
    intros r HB HB'. clear - HB HB'. enough (H : at_return (flat_map (dtor_frames e (mid w' t st')) (map inr (dead_objs w (mid w' t st'))) ++ r) /\
      AT odt (flat_map (dtor_frames e (mid w' t st')) (map inr (dead_objs w (mid w' t st'))) ++ r)) by apply H.
    induction (dead_objs w (mid w' t st')) as [|o os [IH1 IH2]]; [auto|]. cbn [map flat_map]. rewrite <- app_assoc. unfold dtor_frames at 1 3.
    destruct (dtor_prog _ _ _); [|auto]. cbn [app AT odt at_return]. auto.
Qed.

(** Above a slot call that has not reached its callable there is nothing. *)
Lemma slot_top e ps w t st a r g args pin eid start b :
  reachable e ps w -> w_thr w !! t = Some st -> st = a ++ FSlot r g args pin eid start :: b -> g <> SRun -> a = [].
Proof.
  intros Hr Ht -> Hg. destruct (I_adj_inv _ _ _ Hr _ _ Ht) as [HA _].
  pose proof (I_top_inv _ _ _ Hr _ _ Ht) as HT.
  destruct a as [|f a] using rev_ind; [reflexivity|]. exfalso. clear IHa.
  rewrite <- app_assoc in HA, HT. cbn in HA, HT.
  assert (Hin : forall P, AT P (a ++ f :: FSlot r g args pin eid start :: b) -> P f (FSlot r g args pin eid start :: b)).
  { intros P. clear. induction a as [|x a IH]; cbn; [tauto|]. intros [_ H]. auto. }
  apply Hin in HA, HT.
  destruct f; cbn in HA, HT; try contradiction; try discriminate; try (destruct g; congruence).
  - destruct HA as [HA|[HA|HA]]; cbn in HA; try contradiction. destruct g; congruence.
  - destruct k; cbn in HA; try contradiction; discriminate.
  - destruct k; cbn in HA; try contradiction; discriminate.
  - destruct k; cbn in HA; try contradiction; discriminate.
  - destruct r0, eid0; contradiction.
Qed.


Lemma seen_app start new log P : seen start log P -> seen start (new ++ log) P.
Proof.
  intros (n & Hn & HP). exists n. rewrite app_length. split; [lia|]. rewrite older_app by lia. auto.
Qed.
Lemma seen_now start log (P : list event -> Prop) : start <= length log -> P log -> seen start log P.
Proof. intros H HP. exists (length log). rewrite older_all. split; [lia|auto]. Qed.

Definition past_blk (g : stage) : bool := match g with SBlk => false | _ => true end.
Definition past_exp (g : stage) : bool := match g with SBlk | SExp => false | _ => true end.
Definition past_conn (g : stage) : bool := match g with SBlk | SExp | SConn => false | _ => true end.

Definition call_ok (log : list event) (f : frame) : Prop :=
  match f with
  | FSlot (RSlot l) g args pin eid start =>
      start <= length log /\ (exists i, spec_conn0 log l = Some i) /\
      (past_blk g = true -> seen start log (fun p => spec_blk p l = false)) /\
      (past_exp g = true -> seen start log (fun p => forall o, spec_tracks p l = Some o -> spec_obj p o = true)) /\
      (past_conn g = true -> seen start log (fun p => spec_flag p l = true)) /\
      match g with
      | SBlk | SExp | SConn | SDisp => pin = None
      | SDead => pin = None /\ seen start log (fun p => exists o, spec_tracks p l = Some o /\ spec_obj p o = false)
      | SPin => pin = spec_tracks log l /\ pin <> None
      | SCall | SRun => pin = spec_tracks log l
      end
  | FSlot (RUser _) g _ pin _ start =>
      start <= length log /\ match g with SBlk | SExp | SConn | SDisp | SDead => pin = None | _ => True end
  | _ => True
  end.

Lemma call_ok_app new log f : wf_log (new ++ log) -> call_ok log f -> call_ok (new ++ log) f.
Proof.
  intros Hw. destruct f; cbn; auto. destruct r as [l|u]; [|rewrite app_length; intros [? ?]; split; [lia|auto]].
  intros (H1 & (i & H2) & H3 & H4 & H5 & H6).
  assert (Ht : spec_tracks (new ++ log) l = spec_tracks log l).
  { unfold spec_tracks. rewrite (conn0_app _ _ _ _ Hw H2), H2. reflexivity. }
  repeat (match goal with |- _ /\ _ => split end).
  - rewrite app_length. lia.
  - exists i. apply conn0_app; auto.
  - intros Hg. apply seen_app. auto.
  - intros Hg. apply seen_app. auto.
  - intros Hg. apply seen_app. auto.
  - rewrite Ht. destruct g; auto. destruct H6. split; [auto|]. apply seen_app. auto.
Qed.

Lemma ref_fields e ps w l i : reachable e ps w -> get_ref w (RSlot l) = Some i ->
  (exists i0, spec_conn0 (w_log w) l = Some i0 /\ im_c i = im_c i0) /\ im_conn i = spec_flag (w_log w) l /\
  im_blk i = spec_blk (w_log w) l /\ im_st i = spec_st (w_log w) l.
Proof.
  intros Hr Hi. cbn in Hi. destruct (w_slots w !! l) as [r|] eqn:Hl; [|discriminate]. cbn in Hi. simplify_eq.
  destruct (I_fields_inv _ _ _ Hr _ _ Hl) as (H1 & H2 & H3 & H4 & _). auto.
Qed.
Lemma ref_tracks e ps w l i : reachable e ps w -> get_ref w (RSlot l) = Some i ->
  spec_tracks (w_log w) l = match c_kind (im_c i) with KTracked => Some (c_pv (im_c i)) | _ => None end.
Proof.
  intros Hr Hi. destruct (ref_fields _ _ _ _ _ Hr Hi) as ((i0 & H0 & Hc) & _).
  unfold spec_tracks. rewrite H0, Hc. reflexivity.
Qed.

Lemma trans_wf e ps w t st w' st' : reachable e ps w -> w_thr w !! t = Some st -> trans e w t st w' st' -> wf_log (w_log w').
Proof.
  intros Hr Ht Htr. intros post ev pre Hl. destruct ev; auto.
  assert (HW := wf_log_reach _ _ _ Hr).
  destruct (trans_log _ _ _ _ _ _ Htr) as [He|[(ev1 & He)|(l0 & args & pin & eid & start & st0 & i0 & _ & _ & _ & He)]]; rewrite He in Hl.
  - exact (HW _ _ _ Hl).
  - destruct post as [|x post]; cbn in Hl; simplify_eq; [|match goal with H : w_log w = _ |- _ => exact (HW _ _ _ H) end].
    destruct Htr; wcbn_in He; autorewrite with wsimp in He;
     try (exfalso; symmetry in He; exact (cons_ne _ _ He)); try discriminate; simplify_eq; vlog_no.
    intros ev' Hev. eapply fresh_log; eauto.
  - destruct post as [|x [|y post]]; cbn in Hl; simplify_eq. match goal with H : w_log w = _ |- _ => exact (HW _ _ _ H) end.
Qed.

Lemma deref_bound e ps w v pos l : reachable e ps w -> vec_of w v !! pos = Some l -> l < length (w_slots w).
Proof.
  intros Hr H. pose proof (vec_of_below _ _ w v Hr) as Hb. unfold below in Hb. rewrite Forall_lookup in Hb. eauto.
Qed.

Definition I_call (w : world) : Prop := AF (call_ok (w_log w)) w.

Lemma I_call_inv e ps w : reachable e ps w -> I_call w.
Proof.
  apply reach_ind.
  - apply AF_init. intros; exact I.
  - clear w. intros w t st w' st' Hr HI Ht Htr Hr'.
    pose proof (wf_log_reach _ _ _ Hr') as Hwf.
    destruct (reap_spec e w w' t st') as (D & L & HD & HL & Hre & _). rewrite Hre in *. clear Hre.
    pose proof (trans_thr _ _ _ _ _ _ Htr) as Hthr. destruct (trans_log_app _ _ _ _ _ _ Htr) as [new Hnew].
    intros t' x Hx. wcbn_in Hx. wcbn. wcbn_in Hwf. rewrite Hthr in Hx.
    destruct (thr_upd _ _ _ _ _ _ Ht Hx) as [[-> ->]|[Hn Hx']].
    2:{ eapply Forall_impl; [eapply HI; eauto|]. intros f. rewrite Hnew in Hwf |- *. rewrite app_assoc in Hwf |- *. apply call_ok_app. auto. }
    apply Forall_app. split.
    { eapply Forall_impl; [exact HD|]. intros f [[? ->]|[p ->]]; exact I. }
    apply (Forall_impl (call_ok (w_log w'))); [|intros f; apply call_ok_app; exact Hwf].
    apply wf_suffix in Hwf. clear Hx HL HD D L Hr' Hthr.
    assert (Hst : Forall (call_ok (w_log w')) st).
    { rewrite Hnew in Hwf |- *. eapply Forall_impl; [eapply HI; eauto|]. intros f. apply call_ok_app. auto. }
    assert (Hst0 : Forall (call_ok (w_log w)) st) by (eapply HI; eauto).
    clear Hwf Hnew HI.
    destruct Htr; rewrite ?Forall_cons in Hst; repeat first [rewrite Forall_cons | rewrite Forall_app];
      destruct_and?; repeat (match goal with |- _ /\ _ => split end); auto; try exact I; try (cbn; lia); try (cbn; split; [lia|auto]; fail).
    + apply vop_after in H. eapply Forall_impl; [exact H|]. intros []; cbn; auto; contradiction.
    + apply vop_after in H. eapply Forall_impl; [exact H|]. intros []; cbn; auto; contradiction.
    + apply begins_fr in H. eapply Forall_impl; [exact H|]. intros []; cbn; auto; contradiction.
    + (* deref *) cbn. pose proof (deref_bound _ _ _ _ _ _ Hr H) as Hb. pose proof (slot_known _ _ _ _ Hr Hb).
      repeat (match goal with |- _ /\ _ => split end); auto; discriminate.
    + (* adv *) destruct r as [l|u].
      2:{ cbn in *. match goal with H : _ /\ _ |- _ => destruct H as [Q1 Q2] end. destruct H1; auto. }
      pose proof (ref_fields _ _ _ _ _ Hr H0) as (_ & Hfc & Hfb & _).
      pose proof (ref_tracks _ _ _ _ _ Hr H0) as Hft.
      pose proof (I_obj_inv _ _ _ Hr) as [Hob _].
      clear Hst0. cbn [call_ok] in *.
      match goal with H : _ /\ _ |- _ => destruct H as (Q1 & Q2 & Q3 & Q4 & Q5 & Q6) end.
      destruct H1; cbn [past_blk past_exp past_conn] in *;
        repeat (match goal with |- _ /\ _ => split end); auto; try discriminate; intros.
      * apply seen_now; [auto|]. congruence.
      * apply seen_now; [auto|]. intros o Ho. rewrite Hft in Ho. unfold expired in H1.
        destruct (c_kind (im_c i)); try discriminate. simplify_eq. rewrite Hob in H1. apply negb_false_iff in H1. auto.
      * apply seen_now; [auto|]. congruence.
      * rewrite Q6, Hft. destruct (c_kind (im_c i)); congruence.
      * rewrite Hft, H1. reflexivity.
      * apply seen_now; [auto|]. exists (c_pv (im_c i)). rewrite Hft, H1. split; [auto|]. rewrite <- Hob. auto.
      * destruct Q6. auto.
Qed.

(** ** Disconnecting *)
Definition fr_remret (log : list event) (f : frame) : Prop :=
  match f with FRemRet l => EFlag l ∈ log | _ => True end.
Definition I_rr (w : world) : Prop := AF (fr_remret (w_log w)) w.

Lemma fr_remret_mono log log' f : (forall ev, ev ∈ log -> ev ∈ log') -> fr_remret log f -> fr_remret log' f.
Proof. intros H. destruct f; cbn; auto. Qed.

Lemma I_rr_inv e ps w : reachable e ps w -> I_rr w.
Proof.
  apply reach_ind2.
  - apply AF_init. intros; exact I.
  - clear w. intros w t st w' st' Hr HI Ht Htr.
    pose proof (trans_thr _ _ _ _ _ _ Htr) as Hthr. pose proof (trans_log_mono _ _ _ _ _ _ Htr) as Hm.
    eapply (AF_pres (fr_remret (w_log w)) (fr_remret (w_log w'))); eauto.
    + intros t' x _ _ HF. eapply Forall_impl; [exact HF|]. intros f. apply fr_remret_mono. auto.
    + intros Hst. assert (Hst' : Forall (fr_remret (w_log w')) st) by (eapply Forall_impl; [exact Hst|]; intros f; apply fr_remret_mono; auto).
      clear Hst Hm Hthr HI Ht. destruct Htr; rewrite ?Forall_cons in Hst'; repeat first [rewrite Forall_cons | rewrite Forall_app];
        destruct_and?; repeat (match goal with |- _ /\ _ => split end); auto; try exact I.
      * apply vop_after in H. eapply Forall_impl; [exact H|]. intros []; cbn; auto; contradiction.
      * apply vop_after in H. eapply Forall_impl; [exact H|]. intros []; cbn; auto; contradiction.
      * apply begins_fr in H. eapply Forall_impl; [exact H|]. intros []; cbn; auto; contradiction.
      * cbn. apply elem_of_list_here.
  - clear w. intros w t st D L HI Ht HD HL. intros t' x Hx. wcbn_in Hx. wcbn.
    destruct (thr_upd _ _ _ _ _ _ Ht Hx) as [[-> ->]|[Hn Hx']].
    + apply Forall_app. split; [eapply Forall_impl; [exact HD|]; intros f [[? ->]|[p ->]]; exact I|].
      eapply Forall_impl; [eapply HI; eauto|]. intros f. apply fr_remret_mono. intros; apply elem_of_app; auto.
    + eapply Forall_impl; [eapply HI; eauto|]. intros f. apply fr_remret_mono. intros; apply elem_of_app; auto.
Qed.

(** When a disconnect returns the slot is marked disconnected or does not exist any more. *)
Lemma disc_gone e ps w : reachable e ps w ->
  log_all (fun ev pre => match ev with
    | EDisc t l b => known pre l /\ (spec_flag pre l = false \/ spec_alive pre l = false)
    | _ => True end) (w_log w).
Proof.
  apply log_all_hist; [intros []; cbn; auto; discriminate|].
  clear w. intros w t st w' st' ev pre Hr Ht Htr Hlg. destruct ev; auto.
  destruct (I_hb_inv _ _ _ Hr) as (Hv & Hf & _).
  assert (Hk : l < length (w_slots w) -> known (w_log w) l).
  { intros Hl. destruct (slot_known _ _ _ _ Hr Hl) as [i Hi]. eapply known_conn0; eauto. }
  logs_inv Htr Hlg.
  - match goal with H : exec_vop _ _ _ = VDo _ _ _ |- _ => destruct (vop_vb_do _ _ _ _ _ _ _ H Hv) as (_ & Hl & _) end. split; [auto|].
    right. rewrite <- (proj1 (I_alive_inv _ _ _ Hr)). auto.
  - match goal with H : w_slots _ !! _ = Some _ |- _ => rename H into Hls end.
    split; [apply Hk; eapply lookup_lt_Some; eauto|].
    left. destruct (I_fields_inv _ _ _ Hr _ _ Hls) as (_ & Hc & _). congruence.
  - pose proof (I_rr_inv _ _ _ Hr _ _ Ht) as HR. rewrite !Forall_cons in HR. destruct HR as (_ & HR & _). cbn in HR.
    split; [eexists; split; [exact HR|apply elem_of_list_here]|].
    left. apply flag_cleared; [eapply wf_log_reach; eauto|auto].
Qed.

(** ** Calls *)
Lemma call_facts e ps w : reachable e ps w ->
  log_all (fun ev pre => match ev with
    | ECall t (RSlot l) eid c args start =>
        spec_alive pre l = true /\
        (exists i, spec_conn0 pre l = Some i /\ im_c i = c) /\
        start <= length pre /\
        seen start pre (fun p => spec_blk p l = false) /\
        seen start pre (fun p => forall o, spec_tracks p l = Some o -> spec_obj p o = true) /\
        seen start pre (fun p => spec_flag p l = true) /\
        (forall o, spec_tracks pre l = Some o -> spec_obj pre o = true)
    | _ => True end) (w_log w).
Proof.
  apply log_all_hist; [intros []; cbn; auto; discriminate|].
  clear w. intros w t st w' st' ev pre Hr Ht Htr Hlg. destruct ev; auto. destruct r as [l|]; auto.
  pose proof (I_call_inv _ _ _ Hr _ _ Ht) as HC.
  logs_inv Htr Hlg. apply Forall_cons in HC as [HC _]. cbn in HC. destruct HC as (Q1 & Q2 & Q3 & Q4 & Q5 & Q6).
  match goal with H : get_ref _ _ = Some _ |- _ => pose proof (ref_fields _ _ _ _ _ Hr H) as ((i0 & Hc0 & Hc) & _) end.
  split; [rewrite <- (proj1 (I_alive_inv _ _ _ Hr)); assumption|].
  split; [eauto|]. repeat (split; [auto|]).
  intros o Ho. rewrite <- (proj1 (I_obj_inv _ _ _ Hr)). apply obj_alive_iff. right.
  eexists _, _, _. split; [exact Ht|]. split; [apply elem_of_list_here|]. cbn. rewrite Q6, Ho. apply bool_decide_eq_true. auto.
Qed.

Lemma seen_flag_back start log l : wf_log log -> known (older start log) l -> seen start log (fun p => spec_flag p l = true) ->
  spec_flag (older start log) l = true.
Proof.
  intros Hw Hk (n & Hn & Hf). destruct (spec_flag (older start log) l) eqn:H0; [reflexivity|].
  destruct (older_between start n log) as [m Hm]; [lia|lia|]. rewrite Hm in Hf.
  rewrite flag_app in Hf; [discriminate| |auto|auto].
  rewrite <- Hm. destruct (older_suffix n log) as [a Ha]. rewrite Ha in Hw. eapply wf_suffix; eauto.
Qed.

Lemma log_all_older P n log : log_all P log -> log_all P (older n log).
Proof. intros H. destruct (older_suffix n log) as [a Ha]. rewrite Ha in H. eapply log_all_app; eauto. Qed.

Lemma gone_after P log ev : log_all P log -> ev ∈ log -> exists post pre, log = post ++ ev :: pre /\ P ev pre.
Proof. intros H Hin. apply elem_of_list_split in Hin as (a & b & ->). exists a, b. split; [auto|]. apply (H a). auto. Qed.

Lemma log_all_pre P post ev pre : log_all P (post ++ ev :: pre) -> log_all P pre.
Proof. intros H. apply log_all_app in H. apply log_all_cons in H. tauto. Qed.

Lemma no_call_after_disc e ps w : reachable e ps w ->
  log_all (fun ev pre => match ev with
    | ECall _ (RSlot l) _ _ _ start => start <= length pre /\ forall t b, EDisc t l b ∉ older start pre
    | _ => True end) (w_log w).
Proof.
  intros Hr post ev pre Hl. pose proof (call_facts _ _ _ Hr _ _ _ Hl) as HC.
  destruct ev; auto. destruct r as [l|]; auto. destruct HC as (Ha & _ & Hs & _ & _ & Hf & _).
  split; [auto|]. intros t' b Hin.
  pose proof (wf_log_reach _ _ _ Hr) as Hw. rewrite Hl in Hw. apply log_all_pre in Hw.
  pose proof (disc_gone _ _ _ Hr) as HD. rewrite Hl in HD. apply log_all_pre in HD.
  apply (log_all_older _ start) in HD as HD'.
  destruct (gone_after _ _ _ HD' Hin) as (a & p & Heq & Hk & Hg).
  destruct (older_suffix start pre) as [x Hx]. 
  assert (Hk' : known (older start pre) l).
  { rewrite Heq. destruct Hk as (ev & Hev & Hlev). exists ev. split; [|auto]. apply elem_of_app. right. apply elem_of_list_further. auto. }
  assert (Hw' : wf_log (older start pre)) by (apply log_all_older; auto).
  destruct Hg as [Hg|Hg].
  - apply seen_flag_back in Hf; auto. rewrite Heq in Hf, Hw'.
    replace (a ++ EDisc t' l b :: p) with ((a ++ [EDisc t' l b]) ++ p) in Hf, Hw' by (rewrite <- app_assoc; reflexivity).
    rewrite flag_app in Hf; auto. discriminate.
  - rewrite Hx, Heq in Ha, Hw.
    replace (x ++ a ++ EDisc t' l b :: p) with ((x ++ a ++ [EDisc t' l b]) ++ p) in Ha, Hw by (rewrite <- !app_assoc; reflexivity).
    rewrite dead_app in Ha; auto. discriminate.
Qed.
