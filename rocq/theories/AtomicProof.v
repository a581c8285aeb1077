(** * The operations on connections act as a sequential object *)
From Verif Require Import InvDeath InvFields InvObj InvCall Hist Facts.
From Verif Require Export OpQuery SpecAtomic.

(** ** The table is what the log says *)
Definition cell_of (log : list event) (l : lid) : option cell :=
  match spec_conn0 log l with
  | Some _ => Some (Cell (spec_alive log l) (spec_flag log l) (spec_blk log l) (spec_tracks log l))
  | None => None
  end.
Lemma history_cons ev log : history (ev :: log) = match act_of ev with Some a => a :: history log | None => history log end.
Proof. reflexivity. Qed.
Lemma after_log log : (forall l, t_slot (after (history log)) l = cell_of log l) /\ (forall o, t_obj (after (history log)) o = spec_obj log o).
Proof.
  induction log as [|ev log [IH1 IH2]]; [split; reflexivity|]. rewrite history_cons.
  assert (Hsame : act_of ev = None -> (forall l, cell_of (ev :: log) l = cell_of log l) /\ (forall o, spec_obj (ev :: log) o = spec_obj log o)).
  { destruct ev; try discriminate; auto. }
  destruct (act_of ev) as [a|] eqn:Ha.
  2:{ destruct (Hsame eq_refl) as [H1 H2]. split; intros; rewrite ?H1, ?H2; auto. }
  clear Hsame.
  destruct ev; try discriminate; try (destruct b; [discriminate|]); cbn in Ha; simplify_eq;
    (split; [intros x; unfold cell_of, spec_tracks; cbn; unfold cell_of, spec_tracks in IH1|intros x; cbn]); auto.
  - destruct (decide (x = l)) as [->|]; [rewrite !decide_True by auto; reflexivity|rewrite !decide_False by auto; auto].
  - destruct (decide (x = l)) as [->|]; [rewrite IH1, !decide_True by auto|rewrite !decide_False by auto; auto].
    destruct (spec_conn0 log l); reflexivity.
  - destruct (decide (x = l)) as [->|]; [rewrite IH1, !decide_True by auto|rewrite !decide_False by auto; auto].
    destruct (spec_conn0 log l); reflexivity.
  - destruct (decide (x = o)) as [->|]; [rewrite !decide_True by auto; reflexivity|rewrite !decide_False by auto; auto].
  - destruct (decide (x = l)) as [->|]; [rewrite IH1, !decide_True by auto|rewrite !decide_False by auto; auto].
    destruct (spec_conn0 log l); reflexivity.
  - destruct (decide (x = o)) as [->|]; [rewrite !decide_True by auto; reflexivity|rewrite !decide_False by auto; auto].
Qed.

(** ** Every act is right *)
Lemma conn0_before e ps w post ev pre l : reachable e ps w -> w_log w = post ++ ev :: pre -> l ∈ ev_slots ev ->
  (forall t s i, ev <> EConn t s l i) -> exists i, spec_conn0 pre l = Some i.
Proof.
  intros Hr Hl Hin Hne. destruct (I_hb_inv _ _ _ Hr) as (_ & _ & Hb).
  assert (Hn : l < length (w_slots w)).
  { assert (Hev : ev ∈ w_log w) by (rewrite Hl; apply elem_of_app; right; apply elem_of_list_here).
    specialize (Hb _ Hev). unfold below in Hb. rewrite Forall_forall in Hb. auto. }
  destruct (slot_known _ _ _ _ Hr Hn) as [i Hi]. pose proof (wf_log_reach _ _ _ Hr) as Hw. rewrite Hl in Hi, Hw.
  assert (Hp : spec_conn0 (ev :: pre) l = Some i).
  { clear Hl. induction post as [|x post IH]; [exact Hi|]. cbn in Hw. pose proof (wf_tail _ _ Hw) as Hw'.
    destruct x; auto. cbn in Hi. case_decide; [subst|auto]. exfalso.
    apply wf_conn in Hw. apply Hw. exists ev. split; [apply elem_of_app; right; apply elem_of_list_here|auto]. }
  destruct ev; try (exists i; exact Hp). cbn in Hp. case_decide; [subst; edestruct Hne; reflexivity|eauto].
Qed.

Lemma flag_facts e ps w : reachable e ps w ->
  log_all (fun ev pre => match ev with
    | EFlag l => spec_alive pre l = true /\ spec_flag pre l = true
    | EBlk l _ => spec_alive pre l = true
    | ENewObj o => spec_obj pre o = false
    | _ => True end) (w_log w).
Proof.
  apply log_all_hist; [intros []; cbn; auto; discriminate|].
  clear w. intros w t st w' st' ev pre Hr Ht Htr Hlg. pose proof (proj1 (I_alive_inv _ _ _ Hr)) as HA.
  destruct ev; auto; logs_inv Htr Hlg.
  - rewrite <- HA. split.
    + apply slot_alive_iff. right. eexists _, _, _. split; [exact Ht|]. split; [apply elem_of_list_here|]. cbn. apply bool_decide_eq_true. auto.
    + match goal with H : w_slots _ !! _ = Some _ |- _ => destruct (I_fields_inv _ _ _ Hr _ _ H) as (_ & Hc & _) end. congruence.
  - split.
    + rewrite <- HA. match goal with H : trans _ _ _ _ _ _ |- _ => inversion H; subst; assumption end.
    + match goal with H : get_ref _ _ = Some _ |- _ => destruct (ref_fields _ _ _ _ _ Hr H) as (_ & Hc & _) end. congruence.
  - rewrite <- HA. eapply blk_alive; eauto.
  - match goal with H : exec_vop _ _ _ = _ |- _ => apply vop_ev in H as [(?&?&?)|[(?&?&?)|[(?&?&?)|[(?&?&?&?)|(?&?&?&?)]]]]; simplify_eq end.
    destruct (I_obj_inv _ _ _ Hr) as [HO HB]. rewrite <- HO. apply not_true_iff_false. intros Ho. apply HB in Ho. lia.
Qed.

Lemma acts_right e ps w post ev pre a : reachable e ps w -> w_log w = post ++ ev :: pre -> act_of ev = Some a -> right (after (history pre)) a.
Proof.
  intros Hr Hl Ha. destruct (after_log pre) as [HS HO].
  pose proof (query_facts _ _ _ Hr _ _ _ Hl) as Q. pose proof (flag_facts _ _ _ Hr _ _ _ Hl) as F.
  pose proof (death_once _ _ _ Hr _ _ _ Hl) as D. pose proof (disc_gone _ _ _ Hr _ _ _ Hl) as G.
  assert (Hk : forall l, l ∈ ev_slots ev -> (forall t s i, ev <> EConn t s l i) -> exists c, t_slot (after (history pre)) l = Some c /\
    k_there c = spec_alive pre l /\ k_flag c = spec_flag pre l /\ k_blk c = spec_blk pre l /\ k_obj c = spec_tracks pre l).
  { intros l Hin Hne. destruct (conn0_before _ _ _ _ _ _ _ Hr Hl Hin Hne) as [i Hi]. rewrite HS. unfold cell_of. rewrite Hi. eexists. split; [reflexivity|]. auto. }
  destruct ev; try discriminate; try (destruct b; [discriminate|]); cbn in Ha; simplify_eq; cbn [right] in *;
    try (destruct (Hk l) as (c & Hc & H1 & H2 & H3 & H4); [apply elem_of_list_here|discriminate|]; rewrite Hc).
  - rewrite HS. unfold cell_of. pose proof (wf_log_reach _ _ _ Hr) as Hw. rewrite Hl in Hw. apply wf_suffix in Hw. apply wf_conn in Hw.
    destruct (spec_conn0 pre l) eqn:Hc; [|reflexivity]. edestruct Hw. eapply known_conn0; eauto.
  - exists c. destruct F as [F1 F2]. rewrite H1, H2, F1, F2. auto.
  - exists c. split; [auto|]. rewrite H1. auto.
  - exists c. split; [auto|]. rewrite H1, H2. destruct G as [_ [-> | ->]]; [symmetry; apply andb_false_r|reflexivity].
  - exists c. split; [auto|]. rewrite H1, H2, H4. unfold spec_connected. f_equal. destruct (spec_tracks pre l); [rewrite HO|]; reflexivity.
  - exists c. split; [auto|]. rewrite H1, H3. auto.
  - exists c. split; [auto|]. rewrite H1. auto.
  - rewrite HO. auto.
  - exists c. split; [auto|]. rewrite H1. auto.
  - rewrite HO. auto.
Qed.
Lemma history_sequential e ps w : reachable e ps w -> sequential (history (w_log w)).
Proof.
  intros Hr. assert (H : forall pre post, w_log w = post ++ pre -> sequential (history pre)).
  { induction pre as [|ev pre IH]; intros post Hl; [exact I|]. rewrite history_cons.
    specialize (IH (post ++ [ev])). rewrite <- app_assoc in IH. specialize (IH Hl).
    destruct (act_of ev) as [a|] eqn:Ha; [|exact IH]. split; [|exact IH]. eapply acts_right; eauto. }
  apply (H _ []). reflexivity.
Qed.
(** The table at the end of the history is what is in memory. *)
Lemma table_in_memory e ps w l r : reachable e ps w -> w_slots w !! l = Some r ->
  t_slot (after (history (w_log w))) l =
    Some (Cell (slot_alive w l) (im_conn (sl_impl r)) (im_blk (sl_impl r)) (match c_kind (im_c (sl_impl r)) with KTracked => Some (c_pv (im_c (sl_impl r))) | _ => None end)).
Proof.
  intros Hr Hl. rewrite (proj1 (after_log _)). unfold cell_of, spec_tracks.
  destruct (I_fields_inv _ _ _ Hr _ _ Hl) as ((i & Hi & Hc) & H2 & H3 & _). rewrite Hi, H2, H3, Hc, (proj1 (I_alive_inv _ _ _ Hr)). reflexivity.
Qed.
Lemma table_objects e ps w o : reachable e ps w -> t_obj (after (history (w_log w))) o = obj_alive w o.
Proof. intros Hr. rewrite (proj2 (after_log _)). symmetry. apply (I_obj_inv _ _ _ Hr). Qed.

(** ** A call performs one act *)
Lemma history_app a b : history (a ++ b) = history a ++ history b.
Proof. apply omap_app. Qed.
Lemma disc_history t l b evs : disc_deed t l b evs -> history evs = [ADisconnect l b].
Proof. intros [[-> ->]|[-> (s & x & -> & [->|[l' ->]])]]; reflexivity. Qed.
Lemma us_connects w u b i : get_us (w_vars w) u = Some (UsV b (Some i)) -> connects w (SrcSlot u) i.
Proof.
  unfold get_us. intros H. destruct (v_us (w_vars w) !! u) as [r|] eqn:Hu; [|discriminate]. destruct (us_live r) eqn:Hl; [|discriminate].
  injection H as ->. cbn in Hl. subst b. exists i. auto.
Qed.
Lemma connects_idx w src i n : connects w src i -> connects w src (im_set_idx n i).
Proof. destruct src; cbn; auto. Qed.
Section connect.
  Context (e : env) (ps : list prog) (t : tid) (s : sid) (src : csrc) (sc : bool) (k : out -> prog) (st : list frame) (w0 : world).
  Inductive conn_ph : list frame -> list event -> Prop :=
  | CP_lock i : connects w0 src i -> conn_ph [FLock s (KAdd i); FMkConn sc] []
  | CP_write i : connects w0 src i -> conn_ph [FWrite s (KAdd i); FMkConn sc] []
  | CP_body v i : connects w0 src i -> conn_ph [FBody s v (KAdd i); FMkConn sc] []
  | CP_unlock_oom : conn_ph [FUnlock s oom; FMkConn sc] []
  | CP_ret_oom : conn_ph [FRet oom; FMkConn sc] []
  | CP_oom : conn_ph [FRet oom] []
  | CP_unlock l i : connects w0 src i -> conn_ph [FUnlock s (OutId l); FMkConn sc] [EConn t s l i]
  | CP_ret l i : connects w0 src i -> conn_ph [FRet (OutId l); FMkConn sc] [EConn t s l i]
  | CP_done l i c : connects w0 src i -> conn_ph [FRet (OutId c)] [EHandle t l c; EConn t s l i].
  Lemma connect_own w o evs : reachable e ps w0 -> call_log e t (OConnect s src sc) k st w0 w evs -> returned t k st w o -> conn_ph [FRet o] evs.
  Proof.
    intros Hr Hc Ho. eapply (own_returned e ps t (OConnect s src sc) k st w0 conn_ph (fun _ _ _ => False)); eauto.
    - intros c evs' f Hp Hf. destruct Hp; rewrite ?elem_of_cons, ?elem_of_nil in Hf; destruct_or?; subst; try reflexivity; contradiction.
    - intros w' st' new _ Htr Hnew. inversion Htr; subst.
      + apply log_same in Hnew; [|reflexivity]. subst. eexists [], [FRet oom]. split; [reflexivity|]. split; [constructor|]. auto.
      + apply log_same in Hnew; [|reflexivity]. subst. match goal with H : begins _ _ _ _ _ |- _ => inversion H; subst end.
        * eexists [], [_; _]. split; [reflexivity|]. split; [constructor|auto].
          match goal with H : _ = src |- _ => rewrite <- H end. cbn. auto.
        * eexists [], [_; _]. split; [reflexivity|]. split; [constructor|auto].
          match goal with H : _ = src |- _ => rewrite <- H end. eapply us_connects; eauto.
    - intros w1 c evs' w' st' new _ _ Hp Hn Htr Hnew. inversion Hp; subst; cbn [app] in Htr; inversion Htr; subst; try (edestruct Hn; reflexivity);
        try (eapply log_same in Hnew; [|reflexivity]); try (eapply log_one in Hnew; [|reflexivity]); subst.
      all: try (eexists [], [_; _]; split; [reflexivity|]; split; [constructor; eauto using connects_idx|auto]; fail).
      all: try (eexists [], [_]; split; [reflexivity|]; split; [constructor; eauto using connects_idx|auto]; fail).
      all: try (match goal with H : forall l, OutId _ <> OutId l |- _ => edestruct H; reflexivity end).
    - contradiction.
    - intros ? ? ? ? ? ? ? ? ? ? H _. inversion H.
  Qed.
End connect.
Lemma asks_answer c v t l b : asks c v ->
  act_of (answer t v l b) = Some (match v with VValid _ => AValid l b | VConnected _ => AConnected l b | _ => ABlocked l b end).
Proof. intros [->|[->| ->]]; reflexivity. Qed.

Lemma disconnect_acts e ps t op k st w0 w o evs l : reachable e ps w0 -> call_log e t op k st w0 w evs -> returned t k st w o ->
  disconnects w0 op l -> exists a, history evs = [a] /\ performs w0 op l o a.
Proof.
  intros Hr Hc Ho Hd.
  assert (Hs : forall d, (op = OVar (VDestroyConn d) \/ (exists s, op = OVar (VAssignCopy d s)) \/ (exists s, op = OVar (VAssignMove d s))) ->
    (exists r, v_conns (w_vars w0) !! d = Some r /\ cn_live r = true /\ cn_scoped r = true /\ cn_slot r = Some l) ->
    exists a, history evs = [a] /\ performs w0 op l o a).
  { intros d Hv (r & H1 & H2 & H3 & H4).
    assert (Hw : exists v, op = OVar v /\ (v = VDestroyConn d \/ (exists s, v = VAssignCopy d s) \/ (exists s, v = VAssignMove d s))) by naive_solver.
    destruct Hw as (v & -> & Hw).
    destruct (scoped_returns _ _ _ _ _ _ _ _ _ _ _ _ Hr H1 H2 H3 Hw Hc Ho) as (-> & H). rewrite H4 in H. destruct H as (b & evs' & -> & H).
    exists (ADisconnect l b). split; [exact (disc_history _ _ _ _ H)|]. left. split; [auto|]. exists b. split; [auto|]. intros c [= ->]. naive_solver. }
  destruct op; try contradiction. destruct v; try contradiction.
  - eapply Hs; eauto.
  - eapply Hs; eauto.
  - eapply Hs; eauto.
  - destruct Hd as (r & H1 & H2 & H3). pose proof (disconnect_returns _ _ _ _ _ _ _ _ _ _ _ Hr H1 H2 Hc Ho) as H. rewrite H3 in H.
    destruct H as (b & -> & H). exists (ADisconnect l b). split; [exact (disc_history _ _ _ _ H)|]. left. split; [cbn; eauto|]. eauto.
Qed.
Lemma query_acts e ps t v k st w0 w o evs l : reachable e ps w0 -> call_log e t (OVar v) k st w0 w evs -> returned t k st w o ->
  looks_at w0 v l -> exists a, history evs = [a] /\ performs w0 (OVar v) l o a.
Proof.
  intros Hr Hc Ho (c & r & Hv & H1 & H2 & H3). pose proof (query_returns _ _ _ _ _ _ _ _ _ _ _ _ Hr H1 H2 Hv Hc Ho) as H. rewrite H3 in H.
  destruct H as (b & -> & ->). rewrite history_cons, (asks_answer _ _ _ _ _ Hv). eexists. split; [reflexivity|]. right. left.
  exists v, b. split; [auto|]. split; [exists c, r; auto|]. auto.
Qed.
Lemma block_acts e ps t v k st w0 w o evs l b : reachable e ps w0 -> call_log e t (OVar v) k st w0 w evs -> returned t k st w o ->
  sets_block w0 v (Some l) b ->
  (exists a, history evs = [a] /\ performs w0 (OVar v) l o a) \/ (history evs = [] /\ slot_alive w0 l = false).
Proof.
  intros Hr Hc Ho Hb. destruct (blocking_returns _ _ _ _ _ _ _ _ _ _ _ _ Hr Hb Hc Ho) as [[Ha ->]|[Ha ->]]; [left|right; auto].
  eexists. split; [reflexivity|]. right. right. left. eauto 10.
Qed.
Lemma connect_acts e ps t s src sc k st w0 w c evs : reachable e ps w0 -> call_log e t (OConnect s src sc) k st w0 w evs -> returned t k st w (OutId c) ->
  exists l a, history evs = [a] /\ performs w0 (OConnect s src sc) l (OutId c) a /\ EHandle t l c ∈ evs.
Proof.
  intros Hr Hc Ho. pose proof (connect_own _ _ _ _ _ _ _ _ _ _ _ _ Hr Hc Ho) as H. inversion H; subst.
  eexists l, _. split; [reflexivity|]. split; [|apply elem_of_list_here]. right. right. right. eexists _, _, _, _, _. split; [reflexivity|]. eauto.
Qed.
Lemma connect_throws_acts e ps t s src sc k st w0 w x evs : reachable e ps w0 -> call_log e t (OConnect s src sc) k st w0 w evs -> returned t k st w (OutExn x) ->
  history evs = [].
Proof. intros Hr Hc Ho. pose proof (connect_own _ _ _ _ _ _ _ _ _ _ _ _ Hr Hc Ho) as H. inversion H; subst; reflexivity. Qed.

(** ** The act happens between the beginning of the call and its end *)
Lemma history_sublist a b : sublist a b -> sublist (history a) (history b).
Proof. induction 1; rewrite ?history_cons; [constructor|..]; destruct (act_of x); auto; constructor; auto. Qed.
Lemma call_log_since e t op k st w0 w evs : call_log e t op k st w0 w evs -> exists new, since w0 w new /\ sublist evs new.
Proof.
  assert (Hd : forall L, sublist (deeds L) L).
  { induction L as [|x L IH]; [constructor|]. unfold deeds in *. rewrite filter_cons. case_decide; constructor; auto. }
  assert (Hstep : forall w t fail w', step e w t fail = SOk w' -> exists new, since w w' new).
  { intros w1 t1 f w2 Hs. destruct (step_trans _ _ _ _ _ Hs) as (st0 & w3 & st3 & _ & Htr & -> & _).
    destruct (reap_spec e w1 w3 t1 st3) as (D & L & _ & _ & -> & _). destruct (trans_log_app _ _ _ _ _ _ Htr) as [new Hn].
    exists (L ++ new). unfold since. wcbn. rewrite Hn. apply app_assoc. }
  induction 1 as [fail w new Ht Hs Hn|t' fail w w' evs H (new & Hn & Hsub) _ Hs|fail w w' stk new evs H (new' & Hn' & Hsub) _ _ _ Hs Hn].
  - exists new. auto.
  - destruct (Hstep _ _ _ _ Hs) as [m Hm]. exists (m ++ new). split; [unfold since in *; rewrite Hm, Hn; apply app_assoc|].
    apply sublist_inserts_l. auto.
  - exists (new ++ new'). split; [unfold since in *; rewrite Hn, Hn'; apply app_assoc|]. apply sublist_app; auto.
Qed.
Lemma run_since e sc w w' : run e w sc = inl w' -> exists new, since w w' new.
Proof.
  revert w. induction sc as [|[t f] sc IH]; intros w H; cbn in H.
  - injection H as <-. exists []. reflexivity.
  - destruct (step e w t f) as [w1| | |u] eqn:Hs; try (destruct (IH _ H) as [new Hn]; eauto; fail); try discriminate.
    destruct (IH _ H) as [new Hn]. destruct (step_trans _ _ _ _ _ Hs) as (st0 & w3 & st3 & _ & Htr & -> & _).
    destruct (reap_spec e w w3 t st3) as (D & L & _ & _ & Hre & _). destruct (trans_log_app _ _ _ _ _ _ Htr) as [new1 Hn1].
    exists (new ++ L ++ new1). unfold since in *. rewrite Hn, Hre. wcbn. rewrite Hn1, <- !app_assoc. reflexivity.
Qed.
Lemma sublist_elem {A} (a : A) xs ys : sublist xs ys -> a ∈ xs -> a ∈ ys.
Proof. induction 1; rewrite ?elem_of_cons; naive_solver. Qed.
Lemma real_time e t1 op1 k1 st1 w1 w1' evs1 a1 sc t2 op2 k2 st2 w2 w2' evs2 a2 :
  call_log e t1 op1 k1 st1 w1 w1' evs1 -> run e w1' sc = inl w2 -> call_log e t2 op2 k2 st2 w2 w2' evs2 ->
  a1 ∈ history evs1 -> a2 ∈ history evs2 ->
  exists x y z, history (w_log w2') = x ++ a2 :: y ++ a1 :: z ++ history (w_log w1).
Proof.
  intros H1 Hsc H2 Ha1 Ha2. destruct (call_log_since _ _ _ _ _ _ _ _ H1) as (n1 & Hn1 & Hs1).
  destruct (call_log_since _ _ _ _ _ _ _ _ H2) as (n2 & Hn2 & Hs2). destruct (run_since _ _ _ _ Hsc) as (m & Hm).
  apply history_sublist in Hs1, Hs2. apply (sublist_elem _ _ _ Hs1) in Ha1. apply (sublist_elem _ _ _ Hs2) in Ha2.
  apply elem_of_list_split in Ha1 as (z1 & z2 & E1). apply elem_of_list_split in Ha2 as (x1 & x2 & E2).
  unfold since in *. rewrite Hn2, Hm, Hn1, !history_app, E1, E2. exists x1, (x2 ++ history m ++ z1), z2.
  repeat (rewrite <- !app_assoc; cbn). reflexivity.
Qed.
