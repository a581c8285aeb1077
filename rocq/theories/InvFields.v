(** * The fields of slots follow the log *)
From Verif Require Export Hist.

(** ** Slots mentioned anywhere exist *)
Definition ref_slots (r : slotref) : list lid := match r with RSlot l => [l] | RUser _ => [] end.
Definition ev_slots (ev : event) : list lid :=
  match ev with
  | ENewSig _ _ | EMoveSig _ _ | EDestroySig _ | EEmitRet _ _ _ | ENewObj _ | EReset _ | EObjDead _ => []
  | EConn _ _ l _ | EHandle _ l _ | ERemMiss _ _ l | EErased _ _ l | EFlag l | EBlk l _ | EDisc _ l _
  | EConnd _ l _ | EBlkd _ l _ | EValid _ l _ | EScoped _ l | EDeref _ _ _ l _ | ESlotDead l => [l]
  | ERem _ _ l l' => [l; l']
  | EErase _ _ _ xs0 xs1 _ | EEraseExn _ _ _ xs0 xs1 _ => xs0 ++ xs1
  | EEmit _ _ _ _ xs => xs
  | ECall _ r _ _ _ _ | ERet _ r _ _ | ESkip _ r _ _ | EGet _ r _ | ESet _ r _ => ref_slots r
  end.
Definition opt_slots (m : option lid) : list lid := match m with Some l => [l] | None => [] end.
Definition crit_slots (k : crit) : list lid := match k with KRem l => [l] | _ => [] end.
Definition fr_slots (f : frame) : list lid :=
  match f with
  | FDeref _ _ l | FAssignMv _ _ l | FUnit l | FDisc l | FRemRet l | FTmp l => [l]
  | FAssign _ m l => l :: opt_slots m
  | FLock _ k | FWrite _ k | FBody _ _ k => crit_slots k
  | FErase _ _ _ _ _ xs0 | FEraseCmp _ _ _ _ _ xs0 => xs0
  | FSlot r _ _ _ _ _ => ref_slots r
  | _ => []
  end.
Definition below (n : nat) (xs : list lid) : Prop := Forall (fun l => l < n) xs.
Definition vb (n : nat) (x : vars) : Prop :=
  Forall (fun r => below n (opt_slots (cn_slot r))) (v_conns x) /\
  Forall (fun r => below n (opt_slots (bk_slot r))) (v_blks x).

(** The result of an add_slot in progress is a slot just connected by this thread. *)
Definition mk_ok (t : tid) (log : list event) (f : frame) (r : list frame) : Prop :=
  match f, r with
  | FRet (OutId l), FMkConn _ :: _ | FUnlock _ (OutId l), FMkConn _ :: _ =>
      exists s i, EConn t s l i ∈ log
  | _, _ => True
  end.

Definition I_hb (w : world) : Prop :=
  let n := length (w_slots w) in
  vb n (w_vars w) /\
  AF (fun f => below n (fr_slots f)) w /\
  (forall ev, ev ∈ w_log w -> below n (ev_slots ev)).

Definition I_mk (w : world) : Prop :=
  forall t st, w_thr w !! t = Some st -> AT (mk_ok t (w_log w)) st.

Lemma mk_ok_mono t log log' f r : (forall ev, ev ∈ log -> ev ∈ log') -> mk_ok t log f r -> mk_ok t log' f r.
Proof. intros H. unfold mk_ok. repeat case_match; auto; intros (s0 & i & Hi); eauto. Qed.

Lemma trans_log_app e w t st w' st' : trans e w t st w' st' -> exists new, w_log w' = new ++ w_log w.
Proof.
  intros Htr. destruct (trans_log _ _ _ _ _ _ Htr) as [He|[(ev1 & He)|(l & args & pin & eid & start & st0 & i & _ & _ & _ & He)]].
  - exists []. auto.
  - exists [ev1]. auto.
  - exists [ESkip t (RSlot l) eid start; EFlag l]. auto.
Qed.

Lemma trans_log_mono e w t st w' st' : trans e w t st w' st' -> forall ev, ev ∈ w_log w -> ev ∈ w_log w'.
Proof.
  intros Htr ev Hev. destruct (trans_log_app _ _ _ _ _ _ Htr) as [new ->]. apply elem_of_app. auto.
Qed.

Lemma AT_mk_dtorish t log D st : dtorish D -> AT (mk_ok t log) st -> AT (mk_ok t log) (D ++ st).
Proof.
  induction 1 as [|f D [[? ->]|[p ->]] _ IH]; cbn; auto.
Qed.

Lemma I_mk_inv e ps w : reachable e ps w -> I_mk w.
Proof.
  apply reach_ind2.
  - intros t st Ht. cbn in Ht. rewrite list_lookup_fmap in Ht.
    destruct (ps !! t); cbn in Ht; simplify_eq. cbn. auto.
  - clear w. intros w t st w' st' Hr HI Ht Htr t' x Hx.
    pose proof (trans_thr _ _ _ _ _ _ Htr) as Hthr.
    pose proof (trans_log_mono _ _ _ _ _ _ Htr) as Hmono.
    pose proof (I_adj_inv _ _ _ Hr _ _ Ht) as [HA _].
    wcbn_in Hx. rewrite Hthr in Hx.
    destruct (thr_upd _ _ _ _ _ _ Ht Hx) as [[-> ->]|[Hn Hx']].
    2:{ eapply AT_impl; [|eapply HI; eauto]. intros f r. apply mk_ok_mono. exact Hmono. }
    clear Hx. specialize (HI _ _ Ht).
    assert (HI' : AT (mk_ok t (w_log w')) st) by (eapply AT_impl; [|exact HI]; intros f r; apply mk_ok_mono; exact Hmono).
    clear HI Hthr Hmono Ht. wcbn.
    destruct Htr; cbn [AT] in HI', HA |- *; destruct_and?;
      repeat (match goal with |- _ /\ _ => split end); auto;
      try (exact I).
    all: try (unfold mk_ok; cbn; repeat (case_match; auto; try discriminate); fail).
    all: try (destruct st as [|[] st]; cbn in *; auto; try discriminate; fail).
    + destruct (vop_after' _ _ _ _ _ _ H) as [->|[(d & m & ->)|[(d & s & ->)| ->]]]; cbn; auto.
    + destruct (vop_after' _ _ _ _ _ _ H) as [->|[(d & m & ->)|[(d & s & ->)| ->]]]; cbn; auto.
    + destruct H; cbn; auto.
    + unfold mk_ok. destruct st as [|[] st]; auto. wcbn. eexists _, _. apply elem_of_list_here.
  - clear w. intros w t st D L HI Ht HD HL t' x Hx. wcbn_in Hx.
    destruct (thr_upd _ _ _ _ _ _ Ht Hx) as [[-> ->]|[Hn Hx']].
    + apply AT_mk_dtorish; [auto|]. eapply AT_impl; [|eapply HI; eauto].
      intros f r. apply mk_ok_mono. intros ev Hev. wcbn. apply elem_of_app. auto.
    + eapply AT_impl; [|eapply HI; eauto].
      intros f r. apply mk_ok_mono. intros ev Hev. wcbn. apply elem_of_app. auto.
Qed.

Lemma below_mono n m xs : n <= m -> below n xs -> below m xs.
Proof. intros H Hb. eapply Forall_impl; [exact Hb|]. cbn. intros; lia. Qed.
Lemma below_app n xs ys : below n (xs ++ ys) <-> below n xs /\ below n ys.
Proof. unfold below. rewrite Forall_app. reflexivity. Qed.
Lemma below_cons n x xs : below n (x :: xs) <-> x < n /\ below n xs.
Proof. unfold below. rewrite Forall_cons. reflexivity. Qed.
Lemma below_nil n : below n [].
Proof. constructor. Qed.
Lemma below_one n x : below n [x] <-> x < n.
Proof. unfold below. rewrite Forall_singleton. reflexivity. Qed.
Lemma vb_mono n m x : n <= m -> vb n x -> vb m x.
Proof. intros H [H1 H2]. split; (eapply Forall_impl; [eassumption|]); cbn; intros r; apply below_mono; auto. Qed.

Lemma vb_get_conn n x c r : vb n x -> get_conn x c = Some r -> below n (opt_slots (cn_slot r)).
Proof.
  intros [H _] Hg. unfold get_conn in Hg. repeat case_match; simplify_eq.
  rewrite Forall_lookup in H. eauto.
Qed.
Lemma vb_get_blk n x c r : vb n x -> get_blk x c = Some r -> below n (opt_slots (bk_slot r)).
Proof.
  intros [_ H] Hg. unfold get_blk in Hg. repeat case_match; simplify_eq.
  rewrite Forall_lookup in H. eauto.
Qed.
Lemma vb_add_conn n x r : vb n x -> below n (opt_slots (cn_slot r)) -> vb n (add_conn x r).
Proof. intros [H1 H2] H. split; [|exact H2]. apply Forall_app. split; [auto|]. apply Forall_singleton. auto. Qed.
Lemma vb_add_blk n x r : vb n x -> below n (opt_slots (bk_slot r)) -> vb n (add_blk x r).
Proof. intros [H1 H2] H. split; [exact H1|]. apply Forall_app. split; [auto|]. apply Forall_singleton. auto. Qed.
Lemma vb_put_conn n x c m : vb n x -> below n (opt_slots m) -> vb n (put_conn x c m).
Proof. intros [H1 H2] H. split; [|exact H2]. cbn. apply Forall_alter; auto. Qed.
Lemma vb_put_blk n x c m : vb n x -> below n (opt_slots m) -> vb n (put_blk x c m).
Proof. intros [H1 H2] H. split; [exact H1|]. cbn. apply Forall_alter; auto. Qed.
Lemma vb_kill_conn n x c : vb n x -> vb n (kill_conn x c).
Proof. intros [H1 H2]. split; [|exact H2]. cbn. apply Forall_alter; auto. intros; constructor. Qed.
Lemma vb_kill_blk n x c : vb n x -> vb n (kill_blk x c).
Proof. intros [H1 H2]. split; [exact H1|]. cbn. apply Forall_alter; auto. intros; constructor. Qed.
Lemma vb_ext n x x' : v_conns x' = v_conns x -> v_blks x' = v_blks x -> vb n x -> vb n x'.
Proof. unfold vb. intros -> ->. auto. Qed.

Lemma vop_vb_ok w t v x o ef n : exec_vop w t v = VOk x o ef -> vb n (w_vars w) -> vb n x.
Proof.
  unfold exec_vop, disc_res, blk_eff. intros H Hv.
  destruct v; try discriminate; repeat (dm H; try discriminate); simplify_eq; auto;
    repeat match goal with
    | |- vb _ (if ?b then _ else _) => destruct b
    | |- vb _ (add_conn _ _) => apply vb_add_conn
    | |- vb _ (add_blk _ _) => apply vb_add_blk
    | |- vb _ (put_conn _ _ _) => apply vb_put_conn
    | |- vb _ (put_blk _ _ _) => apply vb_put_blk
    | |- vb _ (kill_conn _ _) => apply vb_kill_conn
    | |- vb _ (kill_blk _ _) => apply vb_kill_blk
    end; auto using below_nil; try (cbn; eauto using vb_get_conn, vb_get_blk, below_nil; fail);
    try (eapply vb_ext; [| |exact Hv]; reflexivity).
Qed.

Lemma vop_vb_do w t v x l after n : exec_vop w t v = VDo x l after -> vb n (w_vars w) ->
  vb n x /\ l < n /\ Forall (fun f => below n (fr_slots f)) after.
Proof.
  unfold exec_vop. intros H Hv.
  destruct v; try discriminate; repeat (dm H; try discriminate);
    apply disc_res_after in H as (-> & -> & Hm);
    repeat match goal with Hg : get_conn _ _ = Some _ |- _ => apply (vb_get_conn _ _ _ _ Hv) in Hg end;
    match goal with Hm : cn_slot ?r = Some l, Hg : below n (opt_slots (cn_slot ?r)) |- _ =>
      pose proof Hg as Hl; rewrite Hm in Hl; apply below_one in Hl end;
    (split; [auto using vb_put_conn, vb_kill_conn, below_nil|split; [assumption|]]);
    repeat (apply Forall_cons; split); try apply Forall_nil; auto; cbn; try apply below_cons; auto using below_nil.
Qed.

Lemma alive_bound e ps w l : reachable e ps w -> slot_alive w l = true -> l < length (w_slots w).
Proof. intros Hr. apply (I_alive_inv _ _ _ Hr). Qed.

Lemma vec_of_below e ps w v : reachable e ps w -> below (length (w_slots w)) (vec_of w v).
Proof.
  intros Hr. destruct (I_list_inv _ _ _ Hr) as (H & _). apply Forall_forall. intros l Hl.
  destruct (vec_of_lookup _ _ _ Hl) as (xs & Hv & _ & Hin). eapply H; eauto.
Qed.

Lemma swap_pop_below n xs i : below n xs -> below n (swap_pop xs i).
Proof.
  intros H. unfold swap_pop. destruct (last xs) as [y|] eqn:Hy; [|auto].
  apply Forall_take. apply Forall_insert; auto.
  apply last_Some_elem_of in Hy. unfold below in H. rewrite Forall_forall in H. auto.
Qed.

Lemma I_hb_inv e ps w : reachable e ps w -> I_hb w.
Proof.
  apply reach_ind.
  - split; [split; constructor|]. split; [apply AF_init; intros; constructor|].
    intros ev Hev. inversion Hev.
  - clear w. intros w t st w' st' Hr (Hv & Hf & Hl) Ht Htr _.
    pose proof (trans_slots_len _ _ _ _ _ _ Htr) as Hlen.
    pose proof (trans_thr _ _ _ _ _ _ Htr) as Hthr.
    destruct (reap_spec e w w' t st') as (D & L & HD & HL & -> & HDeq & HLeq).
    pose proof (Hf _ _ Ht) as Hst.
    pose proof (fun v => vec_of_below e ps w v Hr) as Hvec.
    assert (Hrel : forall r i, get_ref w r = Some i -> below (length (w_slots w)) (ref_slots r)).
    { intros [l|u] i Hi; cbn; [|apply below_nil]. apply below_one. cbn in Hi.
      destruct (w_slots w !! l) eqn:Hs; [|discriminate]. eapply lookup_lt_Some; eauto. }
    assert (Hrok : forall r, ref_ok w r = true -> below (length (w_slots w)) (ref_slots r)).
    { intros [l|u] Hi; cbn; [|apply below_nil]. apply below_one. eapply alive_bound; eauto. }
    assert (H1 : vb (length (w_slots w')) (w_vars w')).
    { eapply (vb_mono _ _ _ Hlen). destruct Htr; wcbn; autorewrite with wsimp; auto.
      - eapply vop_vb_ok; eauto.
      - eapply vop_vb_ok; eauto.
      - eapply vop_vb_ok; eauto.
      - eapply vop_vb_ok; eauto.
      - eapply vop_vb_do; eauto.
      - eapply vop_vb_do; eauto.
      - destruct r; cbn; auto.
      - destruct r; cbn; auto.
      - apply vb_add_conn; auto. cbn. apply below_one.
        destruct (I_mk_inv _ _ _ Hr _ _ Ht) as [(s & i & Hin) _].
        specialize (Hl _ Hin). cbn in Hl. apply below_one in Hl. auto.
      - apply Forall_cons in Hst as [_ Hst]. apply Forall_cons in Hst as [Hx _]. cbn in Hx. apply below_cons in Hx as [? ?].
        apply vb_put_conn; auto.
      - destruct Hv as [Hv1 Hv2]. apply vb_put_conn; [apply vb_put_conn; [split; auto|apply below_nil]|].
        rewrite Forall_lookup in Hv1. eauto. }
    assert (H2 : Forall (fun f => below (length (w_slots w')) (fr_slots f)) st').
    { eapply Forall_impl; [|intros f; apply (below_mono _ _ _ Hlen)].
      clear H1 Hlen HDeq HLeq Hf Hthr.
      destruct Htr; rewrite ?Forall_cons in Hst; repeat first [rewrite Forall_cons | rewrite Forall_app]; cbn [fr_slots] in Hst |- *; destruct_and?;
        repeat (match goal with |- _ /\ _ => split end); auto using below_nil.
      all: try (apply below_one; eapply vop_vb_do; eauto; fail).
      all: try (eapply vop_vb_do; eauto; fail).
      all: try (apply below_one; eapply alive_bound; eauto using blk_alive, tmp_alive; fail).
      - destruct H; apply below_nil.
      - destruct H; repeat constructor.
      - apply below_one. eapply Forall_lookup in H; [|apply (Hvec v)]. exact H.
      - apply below_one. eapply Forall_lookup in H; [|apply (Hvec v)]. exact H. }
    assert (H3 : forall ev, ev ∈ w_log w' -> below (length (w_slots w')) (ev_slots ev)).
    { apply Forall_forall.
      assert (Ho : Forall (fun ev => below (length (w_slots w')) (ev_slots ev)) (w_log w)).
      { apply Forall_forall. intros ev Hev. eapply (below_mono _ _ _ Hlen). auto. }
      assert (Hup : forall xs, below (length (w_slots w)) xs -> below (length (w_slots w')) xs) by (intros; eapply below_mono; eauto).
      clear Hl Hf HDeq HLeq H1 H2. remember (length (w_slots w')) as n' eqn:Hn'. clear Hlen Hthr.
      destruct Htr; wcbn; autorewrite with wsimp; auto.
      all: try (rewrite ?Forall_cons in Hst; cbn [fr_slots crit_slots] in Hst; destruct_and?;
                apply Forall_cons; split; [|exact Ho]; cbn [ev_slots]; apply Hup; auto using below_nil; fail).
      - (* vblk *) apply Forall_cons; split; [|exact Ho]. apply Hup. apply below_one.
        unfold exec_vop, disc_res, blk_eff in H.
        destruct v; try discriminate; repeat (dm H; try discriminate); simplify_eq;
          match goal with Hw : wlock w _ = Some _ |- _ => unfold wlock in Hw; repeat case_match; simplify_eq end;
          eapply alive_bound; eauto.
      - (* vlog *) apply Forall_cons; split; [|exact Ho]. apply Hup.
        assert (Hc : forall c r l, get_conn (w_vars w) c = Some r -> cn_slot r = Some l -> l < length (w_slots w)).
        { intros c r l Hg Hcn. apply (vb_get_conn _ _ _ _ Hv) in Hg. rewrite Hcn in Hg. apply below_one in Hg. auto. }
        clear - H Hc. unfold exec_vop, disc_res, blk_eff in H.
        destruct v; try discriminate; repeat (dm H; try discriminate); simplify_eq; cbn [ev_slots];
          try apply below_nil; apply below_one; eauto.
      - (* vheld *) apply Forall_cons; split; [|exact Ho]. apply Hup.
        assert (Hc : forall c r l0, get_conn (w_vars w) c = Some r -> cn_slot r = Some l0 -> l0 < length (w_slots w)).
        { intros c r l0 Hg Hcn. apply (vb_get_conn _ _ _ _ Hv) in Hg. rewrite Hcn in Hg. apply below_one in Hg. auto. }
        clear - H Hc. unfold exec_vop, disc_res, blk_eff in H.
        destruct v; try discriminate; repeat (dm H; try discriminate); simplify_eq; cbn [ev_slots];
          try apply below_nil; apply below_one; eauto.
      - (* vdead *) apply Forall_cons; split; [|exact Ho]. apply Hup. apply below_one. eapply vop_vb_do; eauto.
      - (* dead *) apply Forall_cons in Hst as [Hst _]. cbn in Hst.
        destruct (cc_log w r) as [->|(l & i0 & -> & _ & _ & ->)]; (apply Forall_cons; split; [apply Hup; exact Hst|]); [exact Ho|apply Forall_cons; split; [apply Hup; exact Hst|exact Ho]].
      - (* add *) apply Forall_cons; split; [|exact Ho]. apply below_one. rewrite Hn'. wcbn. rewrite app_length. cbn. lia.
      - (* rem *) apply Forall_cons; split; [|exact Ho]. apply Forall_cons in Hst as [Hst _]. cbn in Hst. apply below_one in Hst.
        apply Hup. apply below_cons. split; [exact Hst|]. apply below_one.
        eapply Forall_lookup in H0; [|apply (Hvec v)]. exact H0.
      - (* erase end *) apply Forall_cons; split; [|exact Ho]. apply Forall_cons in Hst as [Hst _]. cbn in Hst.
        apply Hup. apply below_app. auto.
      - (* mkconn *) destruct (I_mk_inv _ _ _ Hr _ _ Ht) as [(s & i & Hin) _].
        apply Forall_cons; split; [|exact Ho]. rewrite Forall_forall in Ho. exact (Ho _ Hin).
      - (* assign *) rewrite ?Forall_cons in Hst; cbn [fr_slots] in Hst; rewrite below_cons in Hst; destruct_and?.
        apply Forall_cons; split; [|exact Ho]. apply Hup, below_one. auto.
      - apply Forall_cons; split; [|exact Ho].  apply Forall_cons in Hst as [_ Hst]. apply Forall_cons in Hst as [Hst _].
        apply Hup. apply below_one. eapply Forall_lookup in H; [|apply (Hvec v)]. exact H.
      - apply Forall_cons; split; [|exact Ho]. apply Forall_cons in Hst as [_ Hst]. apply Forall_cons in Hst as [Hst _].
        apply Hup. apply below_app. auto. }
    split; [exact H1|]. split.
    + intros t' x Hx. wcbn_in Hx. rewrite Hthr in Hx. wcbn.
      destruct (thr_upd _ _ _ _ _ _ Ht Hx) as [[-> ->]|[Hn Hx']].
      * apply Forall_app. split; [|exact H2]. eapply Forall_impl; [exact HD|].
        intros f [[? ->]|[p ->]]; apply below_nil.
      * eapply Forall_impl; [eapply Hf; eauto|]. intros f. apply (below_mono _ _ _ Hlen).
    + intros ev Hev. wcbn_in Hev. apply elem_of_app in Hev as [Hev|Hev]; [|auto].
      wcbn. subst L. apply elem_of_app in Hev as [Hev|Hev]; apply elem_of_list_fmap in Hev as (y & -> & Hy); cbn; [apply below_nil|].
      apply dead_slots_elem in Hy as (_ & _ & Hy). apply below_one. lia.
Qed.

Lemma fresh_log e ps w l ev : reachable e ps w -> length (w_slots w) <= l -> ev ∈ w_log w -> l ∉ ev_slots ev.
Proof.
  intros Hr Hl Hev Hin. destruct (I_hb_inv _ _ _ Hr) as (_ & _ & H). specialize (H _ Hev).
  unfold below in H. rewrite Forall_forall in H. specialize (H _ Hin). lia.
Qed.

(** ** The fields *)
Definition slot_ok (log : list event) (l : lid) (r : slotrec) : Prop :=
  (exists i0, spec_conn0 log l = Some i0 /\ im_c (sl_impl r) = im_c i0) /\
  im_conn (sl_impl r) = spec_flag log l /\
  im_blk (sl_impl r) = spec_blk log l /\
  im_st (sl_impl r) = spec_st log l /\
  spec_home log l = Some (sl_sig r).

Definition I_fields (w : world) : Prop := forall l r, w_slots w !! l = Some r -> slot_ok (w_log w) l r.

(** Events that do not change what [slot_ok] says about [l]. *)
Definition quiet (l : lid) (ev : event) : Prop :=
  match ev with
  | EConn _ _ l' _ | EFlag l' | EBlk l' _ => l' <> l
  | ESet _ (RSlot l') _ => l' <> l
  | _ => True
  end.

Lemma slot_ok_quiet log l r ev : quiet l ev -> slot_ok log l r -> slot_ok (ev :: log) l r.
Proof.
  intros Hq. unfold slot_ok. destruct ev; cbn in *; auto; try (rewrite !decide_False by auto; auto).
  destruct r0; [rewrite !decide_False by auto|]; auto.
Qed.
Lemma slot_ok_dead log l r L : deadish L -> slot_ok log l r -> slot_ok (L ++ log) l r.
Proof. induction 1 as [|ev L [[? ->]|[? ->]] _ IH]; cbn [app]; auto; intros; apply slot_ok_quiet; cbn; auto. Qed.

Lemma slot_ok_idx log l r n : slot_ok log l r -> slot_ok log l (on_impl (im_set_idx n) r).
Proof. auto. Qed.

Lemma on_impl_cases (slots : list slotrec) f l0 l r' :
  alter (on_impl f) l0 slots !! l = Some r' ->
  exists r, slots !! l = Some r /\ ((l <> l0 /\ r' = r) \/ (l = l0 /\ r' = on_impl f r)).
Proof.
  rewrite alter_lookup. destruct (decide (l0 = l)) as [->|Hn].
  - destruct (slots !! l) as [r|]; cbn; intros H; simplify_eq. eauto.
  - intros H. exists r'. auto.
Qed.

Lemma I_fields_inv e ps w : reachable e ps w -> I_fields w.
Proof.
  apply reach_ind2.
  - intros l r H. discriminate.
  - clear w. intros w t st w' st' Hr HI Ht Htr l r' Hl. wcbn_in Hl. wcbn.
    assert (Hk : forall ev, quiet l ev -> w_slots w !! l = Some r' -> slot_ok (ev :: w_log w) l r').
    { intros ev Hq Hs. apply slot_ok_quiet; auto. }
    destruct Htr; wcbn_in Hl; wcbn; autorewrite with wsimp in *; try (exact (HI _ _ Hl));
      try (apply Hk; [exact I|exact Hl]).
    + (* blk *) apply on_impl_cases in Hl as (r & Hr0 & [[Hn ->]|[-> ->]]).
      * apply slot_ok_quiet; cbn; auto.
      * destruct (HI _ _ Hr0) as (Hc & Hf & Hb & Hs & Hh). unfold slot_ok. cbn. rewrite !decide_True by auto. auto.
    + (* vlog *) apply Hk; auto. apply vop_ev in H; destruct_or?; destruct_and?; naive_solver.
    + (* vheld *) apply Hk; auto. apply vop_ev in H; destruct_or?; destruct_and?; naive_solver.
    + (* selfset *) destruct r as [l0|u]; cbn in Hl; [|apply Hk; cbn; auto].
      apply on_impl_cases in Hl as (r & Hr0 & [[Hn ->]|[-> ->]]).
      * apply slot_ok_quiet; cbn; auto.
      * destruct (HI _ _ Hr0) as (Hc & Hf & Hb & Hs & Hh). unfold slot_ok. cbn. rewrite !decide_True by auto. auto.
    + (* dead *) apply slot_ok_quiet; [exact I|]. unfold clear_conn. 
      destruct r as [l0|u]; cbn in Hl; [|apply HI; exact Hl].
      rewrite H0. cbn in H0. destruct (w_slots w !! l0) as [r0|] eqn:Hs0; [|discriminate]. cbn in H0. simplify_eq.
      apply on_impl_cases in Hl as (r & Hr0 & [[Hn ->]|[-> ->]]).
      * destruct (im_conn (sl_impl r0)); [|apply HI; exact Hr0]. wcbn. apply slot_ok_quiet; cbn; auto.
      * assert (r = r0) as -> by congruence. destruct (HI _ _ Hr0) as (Hc & Hf & Hb & Hs & Hh). unfold slot_ok.
        destruct (im_conn (sl_impl r0)) eqn:Hcn; cbn; [rewrite !decide_True by auto|]; auto 10.
    + (* disc *) apply on_impl_cases in Hl as (r0 & Hr0 & [[Hn ->]|[-> ->]]).
      * apply slot_ok_quiet; cbn; auto.
      * destruct (HI _ _ Hr0) as (Hc & Hf & Hb & Hs & Hh). unfold slot_ok. cbn. rewrite !decide_True by auto. auto.
    + (* add *) apply snoc_lookup in Hl as [[Hl Hlt]|[-> ->]].
      * apply slot_ok_quiet; [cbn; lia|auto].
      * unfold slot_ok. cbn. rewrite !decide_True by auto. eauto 10.
    + (* rem *) unfold do_swap_pop in Hl. destruct (last (vec_of w v)) as [y|]; [|apply Hk; cbn; auto].
      wcbn_in Hl. apply on_impl_cases in Hl as (r0 & Hr0 & [[Hn ->]|[-> ->]]); apply slot_ok_quiet; cbn; auto.
      apply slot_ok_idx; auto.
    + (* cmp_true *) unfold do_swap_pop in Hl. destruct (last (vec_of w v)) as [y|]; [|apply Hk; cbn; auto].
      wcbn_in Hl. apply on_impl_cases in Hl as (r0 & Hr0 & [[Hn ->]|[-> ->]]); apply slot_ok_quiet; cbn; auto.
      apply slot_ok_idx; auto.
  - clear w. intros w t st D L HI Ht HD HL l r Hl. wcbn. apply slot_ok_dead; auto.
Qed.
