(** * Every event goes with its actions *)
From Verif Require Import RaceExamples InvDeath InvFields InvObj InvCall Hist Facts.
From Verif Require Export LifeExamples ObjLifeExamples SpecActs.

Lemma dead_in w w' ev : ev ∈ map EObjDead (dead_objs w w') ++ map ESlotDead (dead_slots w w') ->
  (exists l, ev = ESlotDead l /\ l < length (w_slots w) /\ slot_alive w l = true /\ slot_alive w' l = false) \/
  (exists o, ev = EObjDead o /\ o < length (v_objs (w_vars w)) /\ obj_alive w o = true /\ obj_alive w' o = false).
Proof.
  rewrite elem_of_app. intros [H|H]; apply elem_of_list_In, in_map_iff in H as (x & <- & H); apply elem_of_list_In in H;
    apply elem_of_list_filter in H as [H Hx]; apply Is_true_true in H; apply andb_true_iff in H as [Ha Hd]; apply negb_true_iff in Hd;
    apply elem_of_seq in Hx; [right|left]; eexists; (split; [reflexivity|]); repeat split; auto; lia.
Qed.

Lemma step_reap e w t fail w' st : step e w t fail = SOk w' -> w_thr w !! t = Some st ->
  exists w1 st1, trans e w t st w1 st1 /\ w' = reap e w w1 t st1.
Proof.
  intros Hs Ht. destruct (step_trans _ _ _ _ _ Hs) as (st0 & w1 & st1 & Ht0 & Htr & -> & Hl). simplify_eq. eauto.
Qed.

Lemma slot_dead_after e ps w' L log l : reachable e ps w' -> w_log w' = L ++ log -> deadish L -> ESlotDead l ∈ L -> slot_alive w' l = false.
Proof.
  intros Hr E HL Hin. rewrite (proj1 (I_alive_inv _ _ _ Hr)), E. apply elem_of_list_split in Hin as (a & b & ->).
  rewrite <- app_assoc. apply Forall_app in HL as [HL _]. apply alive_dead; [auto|]. cbn. rewrite decide_True; auto.
Qed.
Lemma obj_dead_after e ps w' L log o : reachable e ps w' -> w_log w' = L ++ log -> deadish L -> EObjDead o ∈ L -> obj_alive w' o = false.
Proof.
  intros Hr E HL Hin. rewrite (proj1 (I_obj_inv _ _ _ Hr)), E. apply elem_of_list_split in Hin as (a & b & ->).
  rewrite <- app_assoc. apply Forall_app in HL as [HL _]. apply obj_dead; [auto|]. cbn. rewrite decide_True; auto.
Qed.

Lemma app_own {A} (new xs : list A) : xs = new ++ xs -> new = [].
Proof. intros H. apply (f_equal length) in H. rewrite app_length in H. destruct new; [reflexivity|cbn in H; lia]. Qed.
Lemma app_one {A} (new xs : list A) x : x :: xs = new ++ xs -> new = [x].
Proof. change (x :: xs) with ([x] ++ xs). intros H. apply app_inv_tail in H. auto. Qed.
Lemma app_two {A} (new xs : list A) x y : x :: y :: xs = new ++ xs -> new = [x; y].
Proof. change (x :: y :: xs) with ([x; y] ++ xs). intros H. apply app_inv_tail in H. auto. Qed.

Lemma vop_blk w t v x o l b : exec_vop w t v = VOk x o (EfBlk l b) -> locked w t v = Some l.
Proof. intros H. unfold locked. rewrite H. reflexivity. Qed.

Lemma uses_of_events e w t st w1 st1 w' new ev a :
  (forall l, slot_alive w l = spec_alive (w_log w) l) ->
  trans e w t st w1 st1 -> w_slots w' = w_slots w1 -> w_log w1 = new ++ w_log w ->
  ev ∈ new -> a ∈ slot_acts (w_log w) ev -> a ∈ slot_uses w t st w'.
Proof.
  intros Hal Htr Esl Elog Hev Ha.
  destruct Htr; wcbn_in Elog; autorewrite with wsimp in Elog;
    try (apply app_own in Elog; subst new; inversion Hev; fail);
    try (apply app_one in Elog; subst new; apply elem_of_list_singleton in Hev; subst ev);
    try (cbn in Ha; inversion Ha; fail);
    try (destruct r as [l0|u0]; cbn in Ha; [apply elem_of_list_singleton in Ha; subst a; left|inversion Ha]; fail).
  - cbn in Ha. apply elem_of_list_singleton in Ha. subst a. cbn. rewrite (vop_blk _ _ _ _ _ _ _ H). right. right. left.
  - exfalso. apply vop_ev in H as [(?&->&?)|[(?&->&?)|[(?&->&?)|[(?&->&?)|(?&->&?)]]]]; cbn in Ha, H0; try (inversion Ha; fail); rewrite Hal in H0;
      repeat case_match; try discriminate; inversion Ha.
  - cbn. unfold locked. rewrite H, H0. match type of H0 with held _ ?e1 = _ => destruct e1 end; cbn in H0; try discriminate; cbn in Ha; rewrite <- Hal in Ha;
      (match type of H0 with context [slot_alive w ?l1] => destruct (slot_alive w l1) end; [|discriminate]); injection H0 as ->; apply elem_of_list_singleton in Ha; subst a; right; right; left.
  - destruct (cc_log w r) as [E|(l0 & i0 & -> & _ & _ & E)]; rewrite E in Elog.
    + apply app_one in Elog. subst new. apply elem_of_list_singleton in Hev. subst ev. destruct r as [l0|u0]; cbn in Ha; [apply elem_of_list_singleton in Ha; subst a; left|inversion Ha].
    + apply app_two in Elog. subst new. rewrite !elem_of_cons, elem_of_nil in Hev. destruct Hev as [->|[->|[]]]; cbn in Ha; apply elem_of_list_singleton in Ha; subst a; left.
  - cbn in Ha. apply elem_of_list_singleton in Ha. subst a. left.
  - cbn in Ha. apply elem_of_list_singleton in Ha. subst a. unfold slot_uses. rewrite (proj2 (Nat.ltb_lt _ _)); [left|]. rewrite Esl. wcbn. rewrite app_length. cbn. lia.
  - cbn in Ha. apply elem_of_list_singleton in Ha. subst a. left.
  - cbn in Ha. apply elem_of_list_singleton in Ha. subst a. left.
  - cbn in Ha. apply elem_of_list_singleton in Ha. subst a. cbn. unfold nth_slot. rewrite H. left.
Qed.

Lemma slot_log_acts e ps w t fail w' st new ev a : reachable e ps w -> w_thr w !! t = Some st -> step e w t fail = SOk w' -> w_log w' = new ++ w_log w ->
  ev ∈ new -> a ∈ slot_acts (w_log w) ev -> a ∈ all_acts w t st w'.
Proof.
  intros Hr Ht Hs Elog Hev Ha. assert (Hr' : reachable e ps w') by (eapply reachable_step; eauto).
  destruct (step_inv _ _ _ _ _ _ Hs Ht) as (w0 & st0 & D0 & L0 & _ & _ & _ & _ & _ & _ & _ & _ & _ & Ethr).
  destruct (step_reap _ _ _ _ _ _ Hs Ht) as (w1 & st1 & Htr & E).
  destruct (reap_spec e w w1 t st1) as (D & L & HD & HL & Hre & _ & EL). rewrite <- E in Hre.
  destruct (trans_log_app _ _ _ _ _ _ Htr) as [new1 Enew]. assert (El : w_log w' = L ++ w_log w1) by (rewrite Hre; reflexivity).
  assert (new = L ++ new1) as -> by (rewrite El, Enew, app_assoc in Elog; apply app_inv_tail in Elog; auto).
  unfold all_acts. rewrite !elem_of_app. apply elem_of_app in Hev as [Hev|Hev].
  - right. right. pose proof Hev as Hin. rewrite EL in Hev. apply dead_in in Hev as [(l & -> & Hlt & Hal & _)|(o & -> & _)]; [|inversion Ha].
    cbn in Ha. apply elem_of_list_singleton in Ha. subst a. pose proof (slot_dead_after _ _ _ _ _ _ Hr' El HL Hin) as Hd.
    assert (Hg : gives_up_slot w t st w' l = true).
    { eapply dies; eauto. intros v Hv. apply in_vec_iff in Hv as [[(s & r & Ho & Hv)|[u He]] _]; [eapply vec_lt; eauto|eapply emitting_bound; eauto]. }
    destruct (drops_at _ _ _ _ _ Hlt Hg Hd) as (x & y & Ed & _). rewrite Ed. apply elem_of_app. right. left.
  - left. eapply uses_of_events; eauto. { apply (I_alive_inv _ _ _ Hr). } rewrite Hre. reflexivity.
Qed.

Lemma vop_new w t v x o ob : exec_vop w t v = VOk x o (EfLog (ENewObj ob)) -> v = VNewObj.
Proof.
  unfold exec_vop, disc_res, blk_eff. intros H. destruct v; try discriminate; repeat (dm H; try discriminate); reflexivity.
Qed.

Lemma obj_uses_of_events e ps w t st w1 st1 w' new ev a :
  reachable e ps w -> w_thr w !! t = Some st ->
  trans e w t st w1 st1 -> w_vars w' = w_vars w1 -> w_log w1 = new ++ w_log w ->
  ev ∈ new -> a ∈ object_acts (w_log w) ev -> a ∈ obj_uses w st w'.
Proof.
  intros Hr Ht Htr Esl Elog Hev Ha. pose proof (I_call_inv _ _ _ Hr _ _ Ht) as HC.
  destruct Htr; wcbn_in Elog; autorewrite with wsimp in Elog;
    try (apply app_own in Elog; subst new; inversion Hev; fail);
    try (apply app_one in Elog; subst new; apply elem_of_list_singleton in Hev; subst ev);
    try (cbn in Ha; inversion Ha; fail).
  - apply vop_ev in H as Hx. destruct Hx as [(?&->&?)|[(?&->&?)|[(?&->&?)|[(ob&->&Hob&Ex)|(?&->&?)]]]]; try (cbn in Ha; inversion Ha; fail).
    apply vop_new in H. subst v. cbn in Ha. apply elem_of_list_singleton in Ha. subst a ob. unfold obj_uses. apply elem_of_app. left. unfold client_uses.
    rewrite (proj2 (Nat.ltb_lt _ _)); [left|]. rewrite Esl. wcbn. subst x. cbn. rewrite app_length. cbn. lia.
  - exfalso. match type of H0 with held _ ?e1 = _ => destruct e1 end; try discriminate; inversion Ha.
  - exfalso. destruct (cc_log w r) as [E|(l0 & i0 & -> & _ & _ & E)]; rewrite E in Elog.
    + apply app_one in Elog. subst new. apply elem_of_list_singleton in Hev. subst ev. inversion Ha.
    + apply app_two in Elog. subst new. rewrite !elem_of_cons, elem_of_nil in Hev. destruct Hev as [->|[->|[]]]; inversion Ha.
  - apply Forall_cons in HC as [HC _]. destruct r as [l|u]; cbn in Ha; [|inversion Ha]. cbn in HC. destruct HC as (_ & _ & _ & _ & _ & ->).
    unfold obj_uses. apply elem_of_app. right. cbn [flat_map frame_uses]. destruct (spec_tracks (w_log w) l); [|inversion Ha]. apply elem_of_app. left. exact Ha.
  - apply Forall_cons in HC as [_ HC]. apply Forall_cons in HC as [HC _]. destruct r as [l|u]; cbn in Ha; [|inversion Ha]. cbn in HC. destruct HC as (_ & _ & _ & _ & _ & ->).
    unfold obj_uses. apply elem_of_app. right. cbn [flat_map frame_uses]. destruct (spec_tracks (w_log w) l); [|inversion Ha]. apply elem_of_app. right. apply elem_of_app. left. exact Ha.
Qed.

Lemma obj_log_acts e ps w t fail w' st new ev a : reachable e ps w -> w_thr w !! t = Some st -> step e w t fail = SOk w' -> w_log w' = new ++ w_log w ->
  ev ∈ new -> a ∈ object_acts (w_log w) ev -> a ∈ full_acts w t st w'.
Proof.
  intros Hr Ht Hs Elog Hev Ha. assert (Hr' : reachable e ps w') by (eapply reachable_step; eauto).
  destruct (step_inv _ _ _ _ _ _ Hs Ht) as (w0 & st0 & D0 & L0 & _ & _ & _ & _ & _ & _ & _ & _ & _ & Ethr).
  destruct (step_reap _ _ _ _ _ _ Hs Ht) as (w1 & st1 & Htr & E).
  destruct (reap_spec e w w1 t st1) as (D & L & HD & HL & Hre & _ & EL). rewrite <- E in Hre.
  destruct (trans_log_app _ _ _ _ _ _ Htr) as [new1 Enew]. assert (El : w_log w' = L ++ w_log w1) by (rewrite Hre; reflexivity).
  assert (new = L ++ new1) as -> by (rewrite El, Enew, app_assoc in Elog; apply app_inv_tail in Elog; auto).
  unfold full_acts. rewrite !elem_of_app. apply elem_of_app in Hev as [Hev|Hev].
  - right. right. pose proof Hev as Hin. rewrite EL in Hev. apply dead_in in Hev as [(l & -> & _)|(o & -> & Hlt & Hal & _)]; [inversion Ha|].
    cbn in Ha. apply elem_of_list_singleton in Ha. subst a. pose proof (obj_dead_after _ _ _ _ _ _ Hr' El HL Hin) as Hd.
    assert (Hg : gives_up_obj w t st w' o = true) by (eapply dying; eauto).
    destruct (odrops_at _ _ _ _ _ Hlt Hg Hd) as (x & y & Ed & _). rewrite Ed. apply elem_of_app. right. left.
  - left. eapply obj_uses_of_events; eauto. rewrite Hre. reflexivity.
Qed.

Lemma step_thr e w t fail w' : step e w t fail = SOk w' -> exists st, w_thr w !! t = Some st.
Proof. unfold step. destruct (w_thr w !! t); [eauto|discriminate]. Qed.
Lemma lived_log_acts e ps w tr t fail w' new : lived e ps w tr -> step e w t fail = SOk w' -> w_log w' = new ++ w_log w ->
  exists as_, lived e ps w' (tr ++ (pair t <$> as_)) /\ forall ev a, ev ∈ new -> a ∈ slot_acts (w_log w) ev -> a ∈ as_.
Proof.
  intros Hl Hs E. destruct (step_thr _ _ _ _ _ Hs) as [st Ht]. exists (all_acts w t st w'). split.
  - exact (L_step _ _ _ _ _ _ _ _ Hl Ht Hs).
  - intros ev a. eapply slot_log_acts; eauto. eapply lived_reach; eauto.
Qed.
Lemma tracked_log_acts e ps w tr t fail w' new : tracked_run e ps w tr -> step e w t fail = SOk w' -> w_log w' = new ++ w_log w ->
  exists as_, tracked_run e ps w' (tr ++ (pair t <$> as_)) /\
    forall ev a, ev ∈ new -> a ∈ slot_acts (w_log w) ev ++ object_acts (w_log w) ev -> a ∈ as_.
Proof.
  intros Hl Hs E. destruct (step_thr _ _ _ _ _ Hs) as [st Ht]. pose proof (tracked_reach _ _ _ _ Hl) as Hr. exists (full_acts w t st w'). split.
  - exact (K_step _ _ _ _ _ _ _ _ Hl Ht Hs).
  - intros ev a Hev Ha. apply elem_of_app in Ha as [Ha|Ha]; [|eapply obj_log_acts; eauto].
    unfold full_acts. rewrite !elem_of_app. right. left. eapply slot_log_acts; eauto.
Qed.

(** ** Runs *)
Lemma ex_C70_log : exists w tr w', tracked_run y1_env o1_ps w tr /\ step y1_env w 1 MOk = SOk w' /\
  w_log w' = [EObjDead 0; ERet 1 (RSlot 0) (Some 0) (OutOpt (Some 1%Z))] ++ w_log w /\ spec_tracks (w_log w) 0 = Some 0.
Proof.
  destruct (obj_run y1_env (init o1_ps) (sch [(0, 11); (1, 10); (0, 20); (1, 1)]) []) as [[w tr]|] eqn:E; [|vm_compute in E; discriminate E].
  exists w, tr. pose proof (obj_run_tracked _ _ _ _ _ _ _ (K_init _ _) E) as Hw. vm_compute in E. injection E as <- <-.
  eexists. split; [exact Hw|]. split; [vm_compute; reflexivity|]. split; vm_compute; reflexivity.
Qed.
Lemma ex_C69_log : exists w tr w', lived y1_env z1_ps w tr /\ step y1_env w 1 MOk = SOk w' /\ w_log w' = [ESlotDead 0; EDisc 1 0 true] ++ w_log w.
Proof.
  destruct (life_run y1_env (init z1_ps) (sch [(0, 60); (1, 6)]) []) as [[w tr]|] eqn:E; [|vm_compute in E; discriminate E].
  exists w, tr. pose proof (life_run_lived _ _ _ _ _ _ _ (L_init _ _) E) as Hw. vm_compute in E. injection E as <- <-.
  eexists. split; [exact Hw|]. split; vm_compute; reflexivity.
Qed.
