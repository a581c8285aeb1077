(** * Undefined behaviour has a cause in the client *)
From Verif Require Export InvUse InvErase.

(** ** Signals and variables mentioned by frames exist *)
Definition fr_ex (ns nc : nat) (f : frame) : Prop :=
  match f with
  | FLock s _ => s < ns
  | FBody s _ k => writes k
  | FAssignMv _ s _ => s < nc
  | _ => True
  end.
Definition I_ex (w : world) : Prop :=
  AF (fr_ex (length (w_sigs w)) (length (v_conns (w_vars w)))) w /\
  Forall (fun r => sl_sig r < length (w_sigs w)) (w_slots w).

Lemma fr_ex_mono a b c d f : a <= c -> b <= d -> fr_ex a b f -> fr_ex c d f.
Proof. destruct f; cbn; auto; lia. Qed.

Lemma disc_res_conns x m after x' o y o' ef : disc_res x m after x' o = VOk y o' ef -> y = x'.
Proof. unfold disc_res. destruct m; intros H; simplify_eq; auto. Qed.

Lemma conns_len w t v :
  match exec_vop w t v with
  | VOk x _ _ => length (v_conns (w_vars w)) <= length (v_conns x)
  | VDo x l after => length (v_conns (w_vars w)) <= length (v_conns x) /\
      Forall (fr_ex 0 (length (v_conns (w_vars w)))) after
  | VBad _ => True
  end.
Proof.
  unfold exec_vop, disc_res, get_conn. cbv zeta. destruct v; repeat case_match; cbn; auto;
    rewrite ?app_length, ?alter_length; cbn; rewrite ?alter_length; auto; try lia;
    try (split; [auto|]); repeat constructor; cbn; rewrite ?alter_length; auto; try lia; try (eapply lookup_lt_Some; eauto).
  all: simplify_eq; cbn; rewrite ?alter_length; cbn; rewrite ?alter_length; auto.
  all: try (rewrite app_length, ?alter_length; cbn; lia).
  all: repeat constructor; cbn; auto; eapply lookup_lt_Some; eauto.
Qed.

Lemma trans_sigs_mono e w t st w' st' : trans e w t st w' st' -> length (w_sigs w) <= length (w_sigs w').
Proof. destruct 1; wcbn; autorewrite with wsimp; rewrite ?app_length, ?alter_length; cbn; lia. Qed.
Lemma trans_conns_mono e w t st w' st' : trans e w t st w' st' -> length (v_conns (w_vars w)) <= length (v_conns (w_vars w')).
Proof.
  destruct 1; wcbn; autorewrite with wsimp; auto;
    try (match goal with H : exec_vop ?w ?t ?v = _ |- _ => pose proof (conns_len w t v) as Hc; rewrite H in Hc end; tauto).
  - destruct r; auto.
  - destruct r; auto.
  - cbn. rewrite app_length. lia.
  - cbn. rewrite alter_length. lia.
  - cbn. rewrite !alter_length. lia.
Qed.

Lemma I_ex_inv e ps w : reachable e ps w -> I_ex w.
Proof.
  apply reach_ind2.
  - split; [apply AF_init; intros; exact I|constructor].
  - clear w. intros w t st w' st' Hr [HF HS] Ht Htr.
    pose proof (trans_sigs_mono _ _ _ _ _ _ Htr) as M1. pose proof (trans_conns_mono _ _ _ _ _ _ Htr) as M2.
    split.
    + eapply AF_pres; [exact HF|exact Ht|eapply trans_thr; eauto| |].
      * intros t' x _ _ Hx. eapply Forall_impl; [exact Hx|]. intros f. apply fr_ex_mono; assumption.
      * intros Hst. assert (Hup : forall x, Forall (fr_ex (length (w_sigs w)) (length (v_conns (w_vars w)))) x ->
          Forall (fr_ex (length (w_sigs w')) (length (v_conns (w_vars w')))) x).
        { intros x Hx. eapply Forall_impl; [exact Hx|]. intros f. apply fr_ex_mono; assumption. }
        destruct Htr; repeat (apply Forall_cons in Hst as [? Hst]);
          repeat (apply Forall_cons; split; [cbn; auto|]); auto.
        all: try (apply Forall_app; split; [|apply Forall_cons; split; [exact I|auto]]).
        all: try (match goal with H : exec_vop ?w ?t ?v = _ |- _ => pose proof (conns_len w t v) as Hc; rewrite H in Hc; destruct Hc as [_ Hc];
            eapply Forall_impl; [exact Hc|]; intros f; apply fr_ex_mono; [apply Nat.le_0_l|exact M2] end).
        -- match goal with H : get_sig _ _ = Some _ |- _ => apply get_sig_Some in H as [H _]; eapply lookup_lt_Some in H; wcbn; exact H end.
        -- match goal with H : begins _ _ _ _ _ |- _ => inversion H; subst; repeat constructor end.
        -- match goal with H : w_slots w !! _ = Some _ |- _ => eapply Forall_lookup in H; [|exact HS] end. wcbn. auto.
    + assert (Hup : Forall (fun r => sl_sig r < length (w_sigs w')) (w_slots w)).
      { eapply Forall_impl; [exact HS|]. intros r Hx. cbv beta in *. eapply Nat.lt_le_trans; [exact Hx|exact M1]. }
      assert (Halt : forall f l, (forall r, sl_sig (f r) = sl_sig r) -> Forall (fun r => sl_sig r < length (w_sigs w')) (alter f l (w_slots w))).
      { intros f l Hf. apply Forall_lookup. intros i x Hx. rewrite alter_lookup in Hx. rewrite Forall_lookup in Hup. case_decide; [|eauto].
        destruct (w_slots w !! i) eqn:Hi; [|discriminate]. cbn in Hx. injection Hx as <-. rewrite Hf. eauto. }
      assert (Halt' : forall f l, (forall r, sl_sig (f r) = sl_sig r) -> Forall (fun r => sl_sig r < length (w_sigs w)) (alter f l (w_slots w))).
      { intros f l Hf. apply Forall_lookup. intros i x Hx. rewrite alter_lookup in Hx. rewrite Forall_lookup in HS. case_decide; [|eauto].
        destruct (w_slots w !! i) eqn:Hi; [|discriminate]. cbn in Hx. injection Hx as <-. rewrite Hf. eauto. }
      pose proof (I_crit_inv _ _ _ Hr _ _ Ht) as HC.
      wcbn. destruct Htr; wcbn; autorewrite with wsimp; try exact Hup; try (apply Halt; reflexivity); clear Hup Halt.
      * destruct r; cbn; [apply Halt'; reflexivity|exact HS].
      * destruct r; cbn; [apply Halt'; reflexivity|exact HS].
      * apply Forall_app. split; [exact HS|]. apply Forall_singleton. cbn.
        apply Forall_cons in HC as [[(r & Hs & _) _] _]. eapply lookup_lt_Some; eauto.
      * unfold do_swap_pop. destruct (last _); [apply Halt'; reflexivity|exact HS].
      * unfold do_swap_pop. destruct (last _); [apply Halt'; reflexivity|exact HS].
  - intros w0 t st D L [HF HS] Ht HD _. split; [|exact HS].
    eapply AF_dtor; eauto; intros; exact I.
Qed.

(** ** Getters *)
Lemma get_conn_none w c : get_conn (w_vars w) c = None -> ~ conn_lives w c.
Proof. unfold get_conn. intros H (r & Hr & Hl). rewrite Hr, Hl in H. discriminate. Qed.
Lemma get_blk_none w c : get_blk (w_vars w) c = None -> ~ blk_lives w c.
Proof. unfold get_blk. intros H (r & Hr & Hl). rewrite Hr, Hl in H. discriminate. Qed.
Lemma get_us_none w c : get_us (w_vars w) c = None -> ~ slot_lives w c.
Proof. unfold get_us. intros H (r & Hr & Hl). rewrite Hr, Hl in H. discriminate. Qed.
Lemma get_us_null w u b : get_us (w_vars w) u = Some (UsV b None) -> slot_null w u.
Proof. unfold get_us. intros H. repeat case_match; simplify_eq. eexists. eauto. Qed.
Lemma get_sig_none w s : get_sig w s = None -> ~ signal_lives w s.
Proof. unfold get_sig. intros H (r & Hr & Hl). rewrite Hr, Hl in H. discriminate. Qed.

Lemma vop_misuse w t v u st : exec_vop w t v = VBad u -> misuse w st (OVar v) u.
Proof.
  unfold exec_vop, disc_res. cbv zeta. intros H. destruct v; nores H; injection H as <-;
    try (eapply M_conn; [|apply get_conn_none; eassumption]; set_solver);
    try (eapply M_blk; [|apply get_blk_none; eassumption]; set_solver);
    try (eapply M_slot; [|apply get_us_none; eassumption]; set_solver);
    try (constructor; congruence).
  apply M_copy_null. eapply get_us_null; eauto.
Qed.

Lemma op_misuse e ps w t fail o k st u : reachable e ps w -> start_op e w t fail o k st = LUB u ->
  misuse w st o u \/ (u = UTerminate /\ fail = MAbort /\ exists c, o = ONewSignal c).
Proof.
  intros Hrch. unfold start_op. intros H. destruct o; nores H; injection H as <-;
    try (left; eapply M_signal; [reflexivity|apply get_sig_none; assumption]; fail);
    try (left; eapply M_slot; [|apply get_us_none; eassumption]; set_solver; fail);
    try (left; apply M_nowhere; congruence).
  - left. eapply vop_misuse; eauto.
  - right. eauto.
  - left. unfold get_sig in *. nores Heqo. eapply M_locked. eexists. simplify_eq. eauto.
  - left. constructor.
  - left. constructor. eapply get_us_null; eauto.
  - left. destruct r as [l|u]; cbn in *.
    + exfalso. destruct (lookup_lt_is_Some_2 (w_slots w) l) as [x Hx]; [eapply alive_bound; eauto|]. rewrite Hx in *. discriminate.
    + destruct (get_us (w_vars w) u) as [[b i]|] eqn:Hu; [|discriminate]. cbn in *. subst. apply M_self_null. eapply get_us_null; eauto.
  - left. destruct r as [l|u]; cbn in *.
    + apply (M_self_slot _ _ l); auto.
    + apply (M_self_user _ _ u); auto. apply get_us_none. destruct (get_us _ u); [discriminate|auto].
  - left. destruct r as [l|u]; cbn in *.
    + apply (M_self_slot _ _ l); eauto.
    + apply (M_self_user _ _ u); eauto. apply get_us_none. destruct (get_us _ u); [discriminate|auto].
  - left. eapply M_range; [reflexivity|]. apply lookup_ge_None_1. auto.
Qed.

Lemma wrap_bad e o : wrap e o = None -> ~ returns_ok e o.
Proof. destruct o; cbn; auto; try discriminate; destruct (e_void e); cbn; congruence. Qed.

Lemma ub_blame e ps w t fail u st : reachable e ps w -> w_thr w !! t = Some st -> step e w t fail = SUB u ->
  fault e w fail st u \/ sig_fault w t st u.
Proof.
  intros Hr Ht Hs. unfold step in Hs. rewrite Ht in Hs.
  destruct (lstep e w t fail st) as [| | |u'] eqn:Hl; try discriminate. injection Hs as ->.
  destruct (I_adj_inv _ _ _ Hr _ _ Ht) as [HA Hact].
  pose proof (proj1 (I_ex_inv _ _ _ Hr) _ _ Ht) as HX.
  pose proof (proj1 (proj2 (I_hb_inv _ _ _ Hr)) _ _ Ht) as HB.
  pose proof (I_crit_inv _ _ _ Hr _ _ Ht) as HC.
  destruct st as [|f st]; [discriminate|]. apply Forall_cons in HX as [HX1 HX]. apply Forall_cons in HB as [HB1 HB].
  apply Forall_cons in HC as [HC1 HC]. destruct HA as [HA1 HA].
  destruct f; cbn in Hact; try discriminate Hact; cbn in Hl; try discriminate.
  - (* returning *) destruct st as [|g st]; [discriminate|]. cbn in HA1.
    apply Forall_cons in HX as [HX2 _]. apply Forall_cons in HC as [HC2 _]. destruct HA as [HA2 _].
    unfold deliver in Hl. destruct g; try discriminate; try (destruct HA1 as [HA1|[HA1|HA1]]; cbn in HA1; contradiction || discriminate).
    + destruct HA1 as [HA1|[HA1|(r & a & -> & _)]]; try contradiction; try discriminate. cbn in HA2.
      destruct st as [|[] st]; try contradiction. discriminate.
    + destruct o; try discriminate. injection Hl as <-. left. constructor.
    + nores Hl.
    + case_match; [discriminate|]. cbn in HX2. apply lookup_lt_is_Some in HX2 as [x Hx]. rewrite Hx in Hl. discriminate.
    + assert (Hown : own w s v) by apply HC2.
      assert (Hi : exists l, vec_of w v !! i = Some l).
      { pose proof (I_er_inv _ _ _ Hr _ _ Ht) as [[_ (l & c & Hl1 & _)] _]. exists l.
        destruct (I_list_inv _ _ _ Hr) as (_ & _ & _ & Hc). rewrite <- (Hc s), (cur_own _ _ _ Hown) in Hl1. exact Hl1. }
      destruct Hi as [l Hi]. rewrite Hi in Hl. left. destruct o as [| | |b| | | | |]; try discriminate;
        try (injection Hl as <-; apply F_eq; auto). destruct b; discriminate.
    + destruct g; try (injection Hl as <-); try (destruct HA1 as [HA1|[HA1|HA1]]; cbn in HA1; contradiction || discriminate).
      destruct (wrap e o) eqn:Hw; [discriminate|]. injection Hl as <-. left. apply F_ret. apply wrap_bad. auto.
    + destruct HA1 as [HA1|[HA1|(r & a & -> & _)]]; try contradiction; discriminate.
  - destruct p as [o|o k]; [discriminate|]. left. destruct (op_misuse _ _ _ _ _ _ _ _ _ Hr Hl) as [Hm|(-> & -> & c & ->)]; [apply F_op; auto|].
    apply F_mem_new. auto.
  - cbn in HB1. apply below_one in HB1. apply lookup_lt_is_Some in HB1 as [x Hx]. rewrite Hx in Hl. case_match; discriminate.
  - right. cbn in HX1. apply lookup_lt_is_Some in HX1 as [x Hx]. unfold get_sig in Hl. rewrite Hx in Hl.
    destruct (sg_alive x) eqn:Hal.
    + destruct (sg_lock x) as [t'|] eqn:Hlk; [|discriminate]. destruct (Nat.eqb t t') eqn:Hq; [|discriminate]. apply Nat.eqb_eq in Hq. subst t'.
      injection Hl as <-. apply S_held. exists x. auto.
    + injection Hl as <-. apply S_destroyed. destruct (I_sig_inv _ _ _ Hr) as (HS & _). apply (HS _ _ Hx). auto.
  - destruct (proj2 (lock_iff _ _ _ _ _ s Hr Ht)) as (x & Hx & _); [exists (FWrite s k); split; [apply elem_of_list_here|reflexivity]|].
    unfold step_write in Hl. rewrite Hx in Hl.
    assert (Hnull : sg_vec x = None -> sig_fault w t (FWrite s k :: st) UNullVec).
    { intros Hn. destruct (I_sig_inv _ _ _ Hr) as (HS & _). destruct (HS _ _ Hx) as (_ & _ & _ & HS4).
      destruct (HS4 Hn) as (s1 & s2 & Hm & Ho). eapply S_moved; eauto. }
    destruct k; nores Hl; try (injection Hl as <-; right; apply Hnull; reflexivity);
      injection Hl as <-; left; try (apply F_mem_detach; reflexivity); apply F_mem_rem; discriminate.
  - unfold step_body in Hl. cbn in HX1. destruct k; try contradiction.
    + nores Hl.
    + cbn in HB1. apply below_one in HB1. apply lookup_lt_is_Some in HB1 as [x Hx]. rewrite Hx in Hl. nores Hl.
    + discriminate.
  - destruct (vec_of w v !! i) as [l|] eqn:Hi; [|discriminate]. exfalso.
    pose proof (vec_of_below e ps w v Hr) as Hb. eapply Forall_lookup in Hb; [|exact Hi].
    apply lookup_lt_is_Some in Hb as [x Hx]. rewrite Hx in Hl. discriminate.
  - unfold step_slot, skip in Hl. destruct (ref_ok w r) eqn:Hrok.
    + destruct (get_ref w r); [|discriminate]. destruct g; try discriminate; nores Hl.
    + injection Hl as <-. left. destruct r as [l|x]; cbn in Hrok.
      * exfalso. cbn in HA1. destruct eid as [eid|]; [|contradiction].
        assert (slot_alive w l = true) by (eapply slot_frame_alive; eauto using elem_of_list_here). congruence.
      * apply F_gone. apply get_us_none. destruct (get_us _ x); [discriminate|auto].
Qed.

(** ** Clients that keep their signals and whose operator== and destructors take no mutex *)
Lemma ub_client e ps w t fail u st : lockless_env e -> reachable e ps w ->
  (forall s, EDestroySig s ∉ w_log w) -> (forall s1 s2, EMoveSig s1 s2 ∉ w_log w) ->
  w_thr w !! t = Some st -> step e w t fail = SUB u -> fault e w fail st u.
Proof.
  intros He Hr Hd Hm Ht Hs. destruct (ub_blame _ _ _ _ _ _ _ Hr Ht Hs) as [H|H]; [exact H|].
  exfalso. destruct H.
  - eapply Hd; eauto.
  - eapply Hm; eauto.
  - eapply lock_holds_nothing; eauto.
Qed.

Lemma ub_reached e ps u : goes_ub e ps u -> exists w t fail, reachable e ps w /\ step e w t fail = SUB u.
Proof.
  intros [sc H]. assert (Hg : forall w, reachable e ps w -> run e w sc = inr u -> exists w t fail, reachable e ps w /\ step e w t fail = SUB u).
  2:{ eapply Hg; [|exact H]. exists []. reflexivity. }
  clear H. induction sc as [|[t f] sc IH]; intros w Hr H; [discriminate|]. cbn in H.
  destruct (step e w t f) eqn:Hs; try (eapply IH; eauto; fail).
  - eapply IH; [|exact H]. eapply reachable_step; eauto.
  - injection H as ->. eauto 6.
Qed.

Lemma blameless_safe e ps u : lockless_env e -> blameless e ps -> goes_ub e ps u -> u = UTerminate.
Proof.
  intros He Hb Hu. destruct (ub_reached _ _ _ Hu) as (w & t & fail & Hr & Hs).
  destruct (Hb _ Hr) as (Hd & Hm & Hf).
  destruct (w_thr w !! t) as [st|] eqn:Ht; [|unfold step in Hs; rewrite Ht in Hs; discriminate].
  assert (Hn : u = UTerminate \/ u <> UTerminate) by (destruct u; auto; right; discriminate). destruct Hn as [|Hn]; [auto|]. exfalso. eapply Hf; [exact Ht|exact Hn|].
  eapply ub_client; eauto.
Qed.

(** ** The faults are really undefined behaviour *)
Lemma misuse_bad e w t o k st u : misuse w st o u -> exists u', start_op e w t MOk o k st = LUB u'.
Proof.
  assert (Hc : forall c, ~ conn_lives w c -> get_conn (w_vars w) c = None).
  { intros c H. unfold get_conn. repeat case_match; auto. destruct H. eexists. eauto. }
  assert (Hb : forall c, ~ blk_lives w c -> get_blk (w_vars w) c = None).
  { intros c H. unfold get_blk. repeat case_match; auto. destruct H. eexists. eauto. }
  assert (Hu : forall c, ~ slot_lives w c -> get_us (w_vars w) c = None).
  { intros c H. unfold get_us. repeat case_match; auto. destruct H. eexists. eauto. }
  assert (Hs : forall c, ~ signal_lives w c -> get_sig w c = None).
  { intros c H. unfold get_sig. repeat case_match; auto. destruct H. eexists. eauto. }
  assert (Hn : forall c, slot_null w c -> get_us (w_vars w) c = None \/ exists b, get_us (w_vars w) c = Some (UsV b None)).
  { intros c (r & Hr & Hi). unfold get_us. rewrite Hr. destruct r as [b i]. cbn in *. subst. destruct b; eauto. }
  intros H. destruct H; unfold start_op.
  - apply Hc in H0. unfold exec_vop, disc_res. cbv zeta. destruct v; cbn in H; try (inversion H; fail);
      repeat (apply elem_of_cons in H as [->|H]); try (inversion H; fail); rewrite H0; repeat case_match; eauto; simplify_eq.
  - apply Hb in H0. unfold exec_vop, disc_res. cbv zeta. destruct v; cbn in H; try (inversion H; fail);
      repeat (apply elem_of_cons in H as [->|H]); try (inversion H; fail); rewrite H0; repeat case_match; eauto; simplify_eq.
  - apply Hu in H0. destruct o; cbn in H; try (inversion H; fail); try (destruct src; cbn in H; try (inversion H; fail)).
    + unfold exec_vop. cbv zeta. destruct v; cbn in H; try (inversion H; fail);
        repeat (apply elem_of_cons in H as [->|H]); try (inversion H; fail); rewrite H0; repeat case_match; eauto; simplify_eq.
    + apply elem_of_list_singleton in H. subst. cbn. rewrite H0. case_match; eauto.
    + apply elem_of_list_singleton in H. subst. rewrite H0. case_match; eauto.
    + apply elem_of_list_singleton in H. subst. rewrite H0. eauto.
    + repeat (apply elem_of_cons in H as [->|H]); try (inversion H; fail); rewrite H0; repeat case_match; eauto; simplify_eq.
  - unfold exec_vop; cbv zeta. destruct (v_objs (w_vars w) !! x) as [[]|]; try congruence; eauto.
  - unfold exec_vop; cbv zeta. rewrite H. eauto.
  - unfold exec_vop; cbv zeta. rewrite H. eauto.
  - unfold exec_vop; cbv zeta. destruct (Hn _ H) as [->|[b ->]]; eauto.
  - cbn. destruct (get_sig w s); [|eauto]. destruct (Hn _ H) as [->|[b ->]]; eauto.
  - apply Hs in H0. destruct o; cbn in H; simplify_eq; rewrite H0; eauto.
  - destruct H as (r & Hr & Hl). unfold get_sig. rewrite Hr. destruct (sg_alive r); [rewrite Hl|]; eauto.
  - eauto.
  - subst. apply lookup_ge_None_2 in H0. rewrite H0. eauto.
  - destruct st as [|[] st]; eauto. edestruct H; reflexivity.
  - destruct H as [->|[z ->]]; cbn; rewrite H0; eauto.
  - apply Hu in H0. destruct H as [->|[z ->]]; cbn; rewrite H0; eauto.
  - cbn. destruct (Hn _ H) as [->|[b ->]]; eauto.
Qed.

Lemma fault_bad e w t fail st u : w_thr w !! t = Some st -> fault e w fail st u -> u <> UTerminate ->
  exists u', step e w t MOk = SUB u'.
Proof.
  intros Ht H Hu. unfold step. rewrite Ht. enough (exists u', lstep e w t MOk st = LUB u') as [u' ->] by eauto.
  destruct H; try congruence; cbn.
  - eapply misuse_bad; eauto.
  - assert (Hw : wrap e o = None). { destruct o; cbn in *; try tauto; destruct (e_void e); tauto. } rewrite Hw. eauto.
  - destruct o; cbn in *; try tauto; eauto.
  - assert (Hn : get_us (w_vars w) u = None). { unfold get_us. repeat case_match; auto. destruct H. eexists. eauto. }
    unfold step_slot. cbn. rewrite Hn. eauto.
Qed.

(** ** Checking by exploration that a client of one thread is blameless *)
(** The outcomes of allocations that make a difference. *)
Definition shared (w : world) (s : sid) : bool :=
  match w_sigs w !! s with
  | Some r => match sg_vec r with Some v => Nat.ltb 1 (use_count w v) | None => false end
  | None => false
  end.
Definition mems (w : world) (st : list frame) : list mem :=
  match st with
  | FProg (Do (ONewSignal _) _) :: _ => [MOk; MThrow; MAbort]
  | FProg (Do (OConnect _ _ _) _) :: _ | FProg (Do (OErase _ _) _) :: _ | FBody _ _ (KAdd _) :: _ => [MOk; MThrow]
  | FWrite s k :: _ => if shared w s then [MOk; MThrow; MAbort] else [MOk]
  | _ => [MOk]
  end.
Lemma mems_ok e w t fail st : w_thr w !! t = Some st -> exists f, In f (mems w st) /\ step e w t fail = step e w t f.
Proof.
  intros Ht. unfold step. rewrite Ht.
  enough (exists f, In f (mems w st) /\ lstep e w t fail st = lstep e w t f st) as (f & Hf & ->) by eauto.
  destruct st as [|f st]; [exists MOk; cbn; auto|].
  assert (Hone : lstep e w t fail (f :: st) = lstep e w t MOk (f :: st) -> exists f0, In f0 [MOk] /\ lstep e w t fail (f :: st) = lstep e w t f0 (f :: st)).
  { intros H. exists MOk. cbn. auto. }
  assert (Htwo : lstep e w t MThrow (f :: st) = lstep e w t MAbort (f :: st) -> exists f0, In f0 [MOk; MThrow] /\ lstep e w t fail (f :: st) = lstep e w t f0 (f :: st)).
  { intros H. destruct fail; [exists MOk|exists MThrow|exists MThrow]; cbn; auto. }
  assert (Hthree : exists f0, In f0 [MOk; MThrow; MAbort] /\ lstep e w t fail (f :: st) = lstep e w t f0 (f :: st)).
  { exists fail. destruct fail; cbn; auto. }
  destruct f; try (apply Hone; reflexivity).
  - destruct p as [|o k]; [apply Hone; reflexivity|].
    destruct o; try (apply Hone; reflexivity); try (apply Htwo; reflexivity). exact Hthree.
  - cbn [mems]. destruct (shared w s) eqn:Hs; [exact Hthree|]. apply Hone. cbn. unfold step_write. unfold shared in Hs.
    destruct (w_sigs w !! s); [|auto]. destruct k; auto; destruct (sg_vec s0); auto; rewrite Hs; auto.
  - destruct k; try (apply Hone; reflexivity). apply Htwo. reflexivity.
Qed.
Definition keeps_signals (log : list event) : bool :=
  forallb (fun ev => match ev with EDestroySig _ | EMoveSig _ _ => false | _ => true end) log.
Fixpoint explore (e : env) (n : nat) (w : world) : bool :=
  match n with
  | 0 => false
  | S n =>
      keeps_signals (w_log w) &&
      match w_thr w with
      | [st] =>
          forallb (fun f => match step e w 0 f with
                            | SOk w' => explore e n w'
                            | SBlocked => false
                            | SDone => true
                            | SUB u => match u, f with UTerminate, MAbort => true | UTerminate, MThrow => true | _, _ => false end
                            end) (mems w st)
      | _ => false
      end
  end.
Lemma explore_sound e p n : explore e n (init [p]) = true -> blameless e [p].
Proof.
  intros He.
  assert (Hg : forall w, reachable e [p] w -> exists m, explore e m w = true).
  { apply reach_ind_step; [eauto|]. intros w t f w' Hr [m Hm] Hs. destruct m as [|m]; [discriminate|]. cbn in Hm.
    apply andb_true_iff in Hm as [_ Hm]. destruct (w_thr w) as [|st [|]] eqn:Ht; try discriminate.
    assert (Hst : w_thr w !! t = Some st /\ t = 0).
    { unfold step in Hs. destruct t as [|t]; rewrite Ht in Hs; cbn in Hs; [|discriminate]. rewrite Ht. auto. }
    destruct Hst as [Hst ->]. rewrite forallb_forall in Hm. exists m.
    assert (Hin : exists f', In f' (mems w st) /\ step e w 0 f' = SOk w').
    { destruct (mems_ok e w 0 f st Hst) as (f' & Hin & He'). exists f'. split; [auto|]. congruence. }
    destruct Hin as (f' & Hin & Hs'). specialize (Hm _ Hin). rewrite Hs' in Hm. exact Hm. }
  intros w Hr. destruct (Hg _ Hr) as [m Hm]. destruct m as [|m]; [discriminate|]. cbn in Hm.
  apply andb_true_iff in Hm as [Hk Hm]. unfold keeps_signals in Hk. rewrite forallb_forall in Hk.
  split; [intros s Hin; apply elem_of_list_In, Hk in Hin; discriminate|].
  split; [intros s1 s2 Hin; apply elem_of_list_In, Hk in Hin; discriminate|].
  intros t fail st u Ht Hu Hf. destruct (w_thr w) as [|st' [|]] eqn:Hth; try discriminate.
  destruct t as [|t]; [|discriminate]. cbn in Ht. injection Ht as ->.
  destruct (fault_bad e w 0 fail st u) as [u' Hb]; auto; [rewrite Hth; reflexivity|].
  rewrite forallb_forall in Hm. specialize (Hm MOk). rewrite Hb in Hm.
  assert (Hx : In MOk (mems w st)) by (unfold mems; repeat case_match; left; auto).
  specialize (Hm Hx). destruct u'; discriminate.
Qed.
