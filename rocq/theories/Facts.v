(** * Consequences of the invariants, in the form the properties state them *)
From Verif Require Export InvDeath.

(** An object is created once. *)
Definition wf_objs (log : list event) : Prop :=
  log_all (fun ev pre => match ev with ENewObj o => ENewObj o ∉ pre | _ => True end) log.

Lemma new_objs_bound e ps w o : reachable e ps w -> ENewObj o ∈ w_log w -> o < length (v_objs (w_vars w)).
Proof.
  intros Hr. revert w Hr o.
  apply (reach_ind e ps (fun w => forall o, ENewObj o ∈ w_log w -> o < length (v_objs (w_vars w)))).
  - intros o H. inversion H.
  - intros w t st w' st' Hr HI Ht Htr _ o Hin.
    destruct (reap_spec e w w' t st') as (D & L & HD & HL & Hreap & _). rewrite Hreap in Hin |- *. wcbn. wcbn_in Hin.
    apply elem_of_app in Hin as [Hin|Hin].
    { unfold deadish in HL. rewrite Forall_forall in HL. destruct (HL _ Hin) as [[? ?]|[? ?]]; discriminate. }
    destruct (trans_objs _ _ _ _ _ _ Htr) as [[Ho Hs]|[[Ho Hl]|(ob & Hob & Ho & Hl)]]; rewrite Ho.
    + apply HI.
      destruct Htr; wcbn_in Hin; autorewrite with wsimp in Hin; auto;
        try (apply elem_of_cons in Hin as [?|Hin]; [try discriminate|auto]).
      * subst. apply vop_ev in H as [(?&?&?)|[(?&?&?)|[(?&?&?)|[(?&?&?&?)|(?&?&?&?)]]]]; try discriminate. simplify_eq.
        cbn in Ho. apply (f_equal length) in Ho. rewrite app_length in Ho. cbn in Ho. lia.
      * subst. discriminate.
      * destruct (cc_log w r) as [He|(l0 & i0 & _ & _ & _ & He)]; rewrite He in Hin; [auto|].
        apply elem_of_cons in Hin as [?|Hin]; [discriminate|auto].
    + rewrite app_length. cbn. rewrite Hl in Hin. apply elem_of_cons in Hin as [Heq|Hin]; [simplify_eq; lia|].
      specialize (HI _ Hin). lia.
    + rewrite Hl in Hin. apply elem_of_cons in Hin as [Heq|Hin]; [discriminate|]. rewrite insert_length. auto.
Qed.

Lemma wf_objs_reach e ps w : reachable e ps w -> wf_objs (w_log w).
Proof.
  apply log_all_hist; [intros []; cbn; auto; discriminate|].
  clear w. intros w t st w' st' ev pre Hr Ht Htr Hlg. destruct ev; auto. logs_inv Htr Hlg.
  match goal with H : exec_vop _ _ _ = VOk _ _ (EfLog _) |- _ => 
    apply vop_ev in H as [(?&?&?)|[(?&?&?)|[(?&?&?)|[(?&?&?)|(?&?&?)]]]]; try discriminate end.
  simplify_eq. intros Hin. apply (new_objs_bound _ _ _ _ Hr) in Hin.
  destruct_and?. lia.
Qed.

Lemma obj_dead_app new log o : wf_objs (new ++ log) -> ENewObj o ∈ log -> spec_obj log o = false -> spec_obj (new ++ log) o = false.
Proof.
  induction new as [|ev new IH]; cbn [app]; intros Hw Hk Hf; [auto|].
  pose proof Hw as Hw'. apply log_all_cons in Hw' as [Hev Hw'].
  specialize (IH Hw' Hk Hf). destruct ev; cbn; auto; case_decide; auto. subst.
  exfalso. apply Hev. apply elem_of_app. auto.
Qed.

(** Queries are made through handles of slots that were connected. *)
Lemma connd_known e ps w : reachable e ps w ->
  log_all (fun ev pre => match ev with EConnd _ l _ => known pre l | _ => True end) (w_log w).
Proof.
  apply log_all_hist; [intros []; cbn; auto; discriminate|].
  clear w. intros w t st w' st' ev pre Hr Ht Htr Hlg. destruct ev; auto.
  destruct (I_hb_inv _ _ _ Hr) as (Hv & Hf & _).
  logs_inv Htr Hlg.
  all: match goal with H : exec_vop _ _ _ = VOk _ _ (EfLog (EConnd _ ?l _)) |- _ => assert (Hl : l < length (w_slots w)) end;
    [match goal with H : exec_vop _ _ _ = VOk _ _ (EfLog _) |- _ => rename H into Hx end;
     unfold exec_vop, disc_res, blk_eff in Hx; destruct v; try discriminate; repeat (dm Hx; try discriminate); simplify_eq;
     match goal with Hg : get_conn _ _ = Some _ |- _ => apply (vb_get_conn _ _ _ _ Hv) in Hg; rename Hg into Hb end;
     match goal with H : cn_slot _ = Some _ |- _ => rewrite H in Hb end; apply below_one in Hb; exact Hb
    |destruct (slot_known _ _ _ _ Hr Hl) as [i Hi]; eapply known_conn0; eauto].
Qed.

Lemma connected_false_app new log l : wf_log (new ++ log) -> wf_objs (new ++ log) -> known log l ->
  (forall o, spec_tracks log l = Some o -> ENewObj o ∈ log) ->
  spec_connected log l = false -> spec_connected (new ++ log) l = false.
Proof.
  unfold spec_connected. intros Hw Ho Hk Hn Hf.
  destruct (spec_alive log l) eqn:Ha; [|rewrite dead_app by auto; reflexivity].
  destruct (spec_flag log l) eqn:Hg; [|rewrite (flag_app _ _ _ Hw Hk Hg), andb_false_r; reflexivity].
  destruct (spec_tracks log l) as [o|] eqn:Ht; [|discriminate].
  rewrite (tracks_app _ _ _ _ Hw Ht), (obj_dead_app _ _ _ Ho (Hn _ eq_refl) Hf), andb_false_r. reflexivity.
Qed.

Lemma connected_final e ps w post t' l b mid t pre : reachable e ps w ->
  w_log w = post ++ EConnd t' l b :: mid ++ EConnd t l false :: pre ->
  (forall o, spec_tracks pre l = Some o -> ENewObj o ∈ pre) -> b = false.
Proof.
  intros Hr Hl Hn.
  pose proof (query_facts _ _ _ Hr _ _ _ Hl) as Q1. cbn in Q1. subst b.
  assert (Hl2 : w_log w = (post ++ EConnd t' l (spec_connected (mid ++ EConnd t l false :: pre) l) :: mid) ++ EConnd t l false :: pre)
    by (rewrite Hl at 1; rewrite <- app_assoc; reflexivity).
  pose proof (query_facts _ _ _ Hr _ _ _ Hl2) as Q2. cbn in Q2. 
  pose proof (connd_known _ _ _ Hr _ _ _ Hl2) as Hk. cbn in Hk.
  pose proof (wf_log_reach _ _ _ Hr) as Hw. rewrite Hl in Hw. apply log_all_pre in Hw.
  pose proof (wf_objs_reach _ _ _ Hr) as Hw2. rewrite Hl in Hw2. apply log_all_pre in Hw2.
  replace (mid ++ EConnd t l false :: pre) with ((mid ++ [EConnd t l false]) ++ pre) in * by (rewrite <- app_assoc; reflexivity).
  apply connected_false_app; auto.
Qed.

Lemma log_all_impl (P Q : event -> list event -> Prop) log :
  (forall ev pre, P ev pre -> Q ev pre) -> log_all P log -> log_all Q log.
Proof. intros H HP post ev pre Hl. eauto. Qed.
Lemma log_all_and (P Q : event -> list event -> Prop) log :
  log_all P log -> log_all Q log -> log_all (fun ev pre => P ev pre /\ Q ev pre) log.
Proof. intros HP HQ post ev pre Hl. eauto. Qed.

Lemma connd_spec e ps w : reachable e ps w ->
  log_all (fun ev pre => match ev with EConnd _ l b => b = spec_connected pre l | _ => True end) (w_log w).
Proof. intros Hr. eapply log_all_impl; [|exact (query_facts _ _ _ Hr)]. intros []; auto. Qed.

Lemma blkd_spec e ps w : reachable e ps w ->
  log_all (fun ev pre => match ev with
    | EBlkd _ l b => b = spec_alive pre l && spec_blk pre l
    | _ => True end) (w_log w).
Proof. intros Hr. eapply log_all_impl; [|exact (query_facts _ _ _ Hr)]. intros []; auto. Qed.

Lemma get_spec e ps w : reachable e ps w ->
  log_all (fun ev pre => match ev with
    | EGet _ (RSlot l) z => spec_alive pre l = true /\ z = spec_st pre l
    | _ => True end) (w_log w).
Proof. intros Hr. eapply log_all_impl; [|exact (query_facts _ _ _ Hr)]. intros []; auto. Qed.

Lemma call_unblocked e ps w : reachable e ps w ->
  log_all (fun ev pre => match ev with
    | ECall _ (RSlot l) _ _ _ start => start <= length pre /\ seen start pre (fun p => spec_blk p l = false)
    | _ => True end) (w_log w).
Proof. intros Hr. eapply log_all_impl; [|exact (call_facts _ _ _ Hr)]. intros []; auto. destruct r; tauto. Qed.

Lemma seq_unblocked e p w : reachable e [p] w ->
  log_all (fun ev pre => match ev with
    | ECall _ (RSlot l) _ _ _ _ => spec_blk pre l = false
    | _ => True end) (w_log w).
Proof.
  intros Hr. eapply log_all_impl; [|exact (seq_call _ _ _ Hr)]. intros []; auto. destruct r; auto. intros pre.
  unfold spec_callable. rewrite andb_true_iff, negb_true_iff. tauto.
Qed.

Lemma tracked_safe e ps w : reachable e ps w ->
  log_all (fun ev pre => match ev with
    | ECall _ (RSlot l) _ _ _ _ => forall o, spec_tracks pre l = Some o -> spec_obj pre o = true
    | EObjDead o => forall l, spec_tracks pre l = Some o ->
        ecount (is_call (RSlot l)) pre = ecount (is_ret (RSlot l)) pre
    | _ => True end) (w_log w).
Proof.
  intros Hr. eapply log_all_impl; [|exact (log_all_and _ _ _ (call_facts _ _ _ Hr) (death_idle _ _ _ Hr))].
  intros [] pre [H1 H2]; auto. destruct r; tauto.
Qed.

Lemma slot_life e ps w : reachable e ps w ->
  log_all (fun ev pre => match ev with
    | ESlotDead l => spec_alive pre l = true /\ ecount (is_call (RSlot l)) pre = ecount (is_ret (RSlot l)) pre
    | ECall _ (RSlot l) _ _ _ _ => spec_alive pre l = true
    | EConnd _ l true => spec_alive pre l = true
    | EConn _ _ l _ => forall t s i, EConn t s l i ∉ pre
    | _ => True end) (w_log w).
Proof.
  intros Hr. eapply log_all_impl; [|exact (log_all_and _ _ _ (log_all_and _ _ _ (call_facts _ _ _ Hr) (death_idle _ _ _ Hr))
    (log_all_and _ _ _ (death_once _ _ _ Hr) (log_all_and _ _ _ (query_facts _ _ _ Hr) (wf_log_reach _ _ _ Hr))))].
  intros [] pre [[H1 H2] [H3 [H4 H5]]]; auto.
  - intros t0 s0 i0 Hin. eapply (H5 _ Hin). apply elem_of_list_here.
  - destruct b; [|exact I]. unfold spec_connected in H4. symmetry in H4. rewrite !andb_true_iff in H4. tauto.
  - destruct r; tauto.
Qed.

Lemma list_spec e ps w s : reachable e ps w -> cur w s = spec_list (w_log w) s /\ NoDup (spec_list (w_log w) s).
Proof.
  intros Hr. destruct (I_list_inv _ _ _ Hr) as (Hv & _ & _ & Hl). rewrite <- Hl. split; [reflexivity|].
  unfold cur. destruct (w_sigs w !! s) as [r|]; [|constructor]. destruct (sg_vec r) as [v|]; [|constructor].
  unfold vec_of. destruct (w_vecs w !! v) as [xs|] eqn:Hx; [|constructor]. apply (proj1 (Hv _ _ Hx)).
Qed.
