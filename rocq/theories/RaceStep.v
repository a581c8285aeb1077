(** * Every step keeps the accesses ordered *)
From Verif Require Export RaceProof.

Lemma ex_existsb {A} (p : A -> bool) (xs : list A) : (exists x, x ∈ xs /\ p x = true) <-> existsb p xs = true.
Proof. rewrite existsb_exists. setoid_rewrite elem_of_list_In. reflexivity. Qed.
Lemma existsb_none {A} (p : A -> bool) (xs : list A) : Forall (fun x => p x = false) xs -> existsb p xs = false.
Proof. induction 1 as [|x xs Hx _ IH]; cbn; [reflexivity|]. rewrite Hx. exact IH. Qed.
Lemma existsb_dtor p (D : list frame) : dtorish D -> (forall d, p (FDtor d) = false) -> (forall q, p (FProg q) = false) -> existsb p D = false.
Proof. intros HD H1 H2. apply existsb_none. eapply Forall_impl; [exact HD|]. intros f [[? ->]|[q ->]]; auto. Qed.
Lemma existsb_var p (fs : list frame) : Forall varish fs -> (forall f, varish f -> p f = false) -> existsb p fs = false.
Proof. intros HF Hp. apply existsb_none. eapply Forall_impl; eauto. Qed.

Definition crit_is (s : sid) (v : vid) (f : frame) : bool := bool_decide (crit_vec f = Some (s, v)).
Lemma crit_is_ex s v st : (exists g, g ∈ st /\ crit_vec g = Some (s, v)) <-> existsb (crit_is s v) st = true.
Proof. rewrite <- ex_existsb. unfold crit_is. setoid_rewrite bool_decide_eq_true. reflexivity. Qed.

Ltac crits := cbn [existsb]; unfold crit_is; cbn [crit_vec]; rewrite ?orb_true_iff, ?bool_decide_eq_true; intuition discriminate.

Section step.
Context (sw : act -> act -> Prop) (uses : Prop).
Context (Hlock : forall s, sw (Rel (YLock s)) (Acq (YLock s))).
Context (Hcount : forall v, sw (Rel (YCount v)) (Acq (YCount v))).
Context (Huse : uses -> forall v, sw (Rel (YCount v)) (Use v)).
Notation Inv := (Inv sw uses).
Notation known := (known sw).
Notation publ := (publ sw).

(** Everybody who ever touched a vector is ordered before the one who drops it
    last. *)
Lemma last_owner_sig e ps w tr t s r v : reachable e ps w -> Inv w tr -> on w s r -> sg_vec r = Some v ->
  (forall i, sealed sw tr s r i -> known tr t i) -> use_count w v <= 1 ->
  forall as_ i b, Acq (YCount v) ∈ as_ -> accesses tr i (LVec v) b -> known (tr ++ blk t as_) t i.
Proof.
  intros Hr HI Ho Hv Hk Hc as_ i b Has Hi. destruct b.
  - apply known_mono, Hk. eapply V_vec; eauto.
  - destruct (V_rd _ _ _ _ HI _ _ Hi) as [(s1 & r1 & Ho1 & Hv1 & Hg1)|[(u & He & _)|Hp]].
    + pose proof (I_bound_inv _ _ _ Hr) as (_ & _ & Hb3 & _). destruct Ho as [Hs _], Ho1 as [Hs1 _].
      assert (s1 = s) as -> by eauto. simplify_eq. apply known_mono, Hk. auto.
    + exfalso. destruct He as (x & f & Hx & Hf & Hfo). destruct Ho as [Hs Ha].
      pose proof (use_count_no_emits w s v ltac:(eexists; eauto) Hc) as Hz.
      assert (Hz' : swt (emits v) x = 0) by (eapply wt_zero; eauto).
      assert (emits v f = 0) by (eapply swt_zero; eauto). unfold emits in *. rewrite Hfo in *. discriminate.
    + eapply publ_known_blk; eauto.
Qed.

Lemma frame_counts w t st f v : w_thr w !! t = Some st -> f ∈ st -> frame_owns v f = true -> 1 <= wt (emits v) (w_thr w).
Proof.
  intros Ht Hf Ho. pose proof (wt_ge (emits v) _ _ _ Ht). assert (swt (emits v) st <> 0); [|lia].
  intros Hz. assert (emits v f = 0) by (eapply swt_zero; eauto). unfold emits in *. rewrite Ho in *. discriminate.
Qed.

Lemma last_owner_emit w tr t v : Inv w tr -> emitting w t v -> use_count w v <= 1 ->
  forall as_ i b, Acq (YCount v) ∈ as_ -> accesses tr i (LVec v) b -> known (tr ++ blk t as_) t i.
Proof.
  intros HI He Hc as_ i b Has Hi. rewrite use_count_emits in Hc. destruct He as (st & f & Ht & Hf & Hfo).
  pose proof (frame_counts _ _ _ _ _ Ht Hf Hfo) as H1. destruct b.
  - apply known_mono. eapply V_emit; eauto. exists st, f. auto.
  - destruct (V_rd _ _ _ _ HI _ _ Hi) as [(s1 & r1 & [Hs1 Ha1] & Hv1 & Hg1)|[(u & (x & g & Hx & Hg & Hgo) & Hk)|Hp]].
    + exfalso. assert (Hin : r1 ∈ filter (fun r => sig_owns v r) (w_sigs w)).
      { apply elem_of_list_filter. split; [|eapply elem_of_list_lookup_2; eauto].
        unfold sig_owns. rewrite Ha1, Hv1, bool_decide_true by auto. exact I. }
      destruct (filter _ _); [inversion Hin|cbn in Hc; lia].
    + destruct (decide (u = t)) as [->|Hn]; [apply known_mono; auto|]. exfalso.
      pose proof (wt_ge2 (emits v) _ _ _ _ _ Hn Hx Ht) as E.
      assert (Hnz : forall y h, h ∈ y -> frame_owns v h = true -> swt (emits v) y <> 0).
      { intros y h Hh Hho Hz. assert (emits v h = 0) by (eapply swt_zero; eauto). unfold emits in *. rewrite Hho in *. discriminate. }
      pose proof (Hnz _ _ Hg Hgo). pose proof (Hnz _ _ Hf Hfo). lia.
    + eapply publ_known_blk; eauto.
Qed.

Ltac frames HD :=
  rewrite ?ex_existsb, ?crit_is_ex, ?existsb_app, ?(existsb_dtor _ _ HD) by reflexivity;
  cbn [existsb app orb]; rewrite ?existsb_app; cbn [existsb app orb].

(** The same world, more actions. *)
Lemma inv_ext e ps w tr t st as_ : reachable e ps w -> Inv w tr -> w_thr w !! t = Some st ->
  (forall v a, a ∈ as_ -> a <> Rel (YCount v)) -> (forall a, a ∈ as_ -> may w w t st a) -> Inv w (tr ++ blk t as_).
Proof.
  intros Hr HI Ht Hn Hm. eapply (inv_quiet sw uses Huse e ps w w tr t st st); eauto.
  rewrite list_insert_id; auto.
Qed.

(** A signal that was moved from has no vector; destroying it only ends [m_Ptr]. *)
Lemma inv_gone w w' tr t st st' s r : Inv w tr ->
  w_thr w !! t = Some st -> w_thr w' = <[t := st']> (w_thr w) ->
  on w s r -> sg_vec r = None -> (forall i, sealed sw tr s r i -> known tr t i) ->
  w_vecs w' = w_vecs w -> w_slots w' = w_slots w -> w_sigs w' = alter (sg_set_alive false) s (w_sigs w) ->
  (forall v, (exists f, f ∈ st' /\ frame_owns v f = true) <-> (exists f, f ∈ st /\ frame_owns v f = true)) ->
  (forall f s v, f ∈ st' -> crit_vec f = Some (s, v) -> exists g, g ∈ st /\ crit_vec g = Some (s, v)) ->
  Inv w' (tr ++ blk t [Wr (LPtr s)]).
Proof.
  intros HI Ht Hthr Ho Hv Hkn Evc Esl Esg Hef Hcr. pose proof (emitting_iff _ _ _ _ _ Ht Hthr Hef) as Hem.
  set (tr1 := tr ++ blk t [Wr (LPtr s)]).
  assert (Hon : forall s' r', on w' s' r' -> on w s' r' /\ s' <> s).
  { intros s' r' [Hs Ha]. rewrite Esg, alter_lookup in Hs. case_decide as E; [|split; [split|]; auto].
    subst s'. destruct Ho as [Hs0 _]. rewrite Hs0 in Hs. cbn in Hs. simplify_eq. }
  assert (Hon' : forall s' r', on w s' r' -> s' <> s -> on w' s' r').
  { intros s' r' [Hs Ha] Hn. split; [|auto]. rewrite Esg, alter_lookup, decide_False by auto. auto. }
  assert (Hcur : forall s', s' <> s -> cur w' s' = cur w s').
  { intros s' Hn. unfold cur. rewrite Esg, alter_lookup, decide_False by auto. destruct (w_sigs w !! s') as [r'|]; [|reflexivity].
    destruct (sg_vec r'); [|reflexivity]. apply vec_of_ext. auto. }
  assert (Hacc : forall i l b, accesses tr1 i l b -> accesses tr i l b \/ (l = LPtr s /\ b = true)).
  { intros i l b Hi. apply (acc_app sw) in Hi as [Hi|[Hin _]]; [auto|right]. apply elem_of_list_singleton in Hin. destruct b; simplify_eq. auto. }
  split.
  - intros i l b Hi. apply Hacc in Hi as [Hi|[-> _]].
    + apply (V_ok _ _ _ _ HI) in Hi. destruct l; cbn in *; rewrite ?Esg, ?alter_length, ?Evc, ?Esl; auto.
    + cbn. rewrite Esg, alter_length. destruct Ho. eapply lookup_lt_Some; eauto.
  - intros s' r' i b Ho' Hi. apply Hon in Ho' as [Ho' Hn]. apply Hacc in Hi as [Hi|[E _]]; [|simplify_eq].
    apply sealed_mono. eapply V_ptr; eauto.
  - intros s' r' v i Ho' Hv' Hi. apply Hon in Ho' as [Ho' Hn]. apply Hacc in Hi as [Hi|[E _]]; [|simplify_eq].
    apply sealed_mono. eapply V_vec; eauto.
  - intros s' r' v l i b Ho' Hv' Hh Hi. apply Hon in Ho' as [Ho' Hn]. apply Hacc in Hi as [Hi|[E _]]; [|simplify_eq].
    apply sealed_mono. eapply V_idx; eauto. destruct Hh as [Hh|Hh]; [left; rewrite <- Hcur; auto|right; rewrite <- Esl; auto].
  - intros v i Hi. apply Hacc in Hi as [Hi|[E _]]; [|simplify_eq].
    destruct (V_rd _ _ _ _ HI _ _ Hi) as [(s1 & r1 & Ho1 & Hv1 & Hg1)|[(u & He & Hk)|Hp]].
    + left. exists s1, r1. split; [apply Hon'; auto; intros ->|split; [auto|apply sealed_mono; auto]].
      destruct Ho as [Hs _], Ho1 as [Hs1 _]. simplify_eq.
    + right; left. exists u. split; [apply Hem; auto|apply known_mono; auto].
    + right; right. apply publ_mono. auto.
  - intros u v i He Hi. apply Hacc in Hi as [Hi|[E _]]; [|simplify_eq]. apply known_mono. eapply V_emit; eauto. apply Hem. auto.
  - intros U u x f s' v i Hx Hf Hc Hp. apply publ_app in Hp; [|intros a Ha; apply elem_of_list_singleton in Ha as ->; discriminate].
    apply known_mono. rewrite Hthr, list_lookup_insert_Some in Hx by idtac.
    destruct Hx as [(-> & -> & _)|[Hn Hx]].
    + destruct (Hcr _ _ _ Hf Hc) as (g & Hg & Hcg). eapply (V_crit _ _ _ _ HI U); eauto.
    + eapply (V_crit _ _ _ _ HI U); eauto.
  - intros k u v Hk. unfold tr1 in Hk. rewrite Evc. apply lookup_app_Some in Hk as [Hk|[_ Hk]]; [eapply (V_cnt _ _ _ _ HI); eauto|].
    apply elem_of_list_lookup_2, elem_of_list_fmap in Hk as (a & E & Ha). apply elem_of_list_singleton in Ha as ->. discriminate.
  - unfold tr1. apply good_blk; [apply HI|]. intros l b Hin i a' Hi _. apply elem_of_list_singleton in Hin. destruct b; simplify_eq.
    apply Hkn. eapply V_ptr; eauto.
Qed.

Lemma list_in_slots e ps w s l : reachable e ps w -> l ∈ cur w s -> l < length (w_slots w).
Proof.
  intros Hr Hl. apply elem_of_list_lookup in Hl as [i Hi]. destruct (I_list_inv _ _ _ Hr) as (_ & H & _).
  destruct (H _ _ _ Hi) as (r & Hl & _). eapply lookup_lt_Some; eauto.
Qed.

Lemma moved_in w v a : a ∈ moved_slot w v -> exists l, a = Wr (LIdx l) /\ l ∈ vec_of w v.
Proof.
  unfold moved_slot. destruct (last (vec_of w v)) as [l|] eqn:E; [|inversion 1].
  intros ->%elem_of_list_singleton. exists l. split; [reflexivity|]. rewrite last_lookup in E. eapply elem_of_list_lookup_2; eauto.
Qed.

Lemma moved_may e ps w w' t st s r v g a : reachable e ps w -> on w s r -> sg_lock r = Some t -> sg_vec r = Some v ->
  g ∈ st -> crit_vec g = Some (s, v) -> a ∈ moved_slot w v ++ [Wr (LVec v)] -> may w w' t st a.
Proof.
  intros Hr Ho Hl Hv Hg Hc Hin. apply elem_of_app in Hin as [Hin|Hin].
  - apply moved_in in Hin as (l & -> & Hin). exists s, r, v. split; [auto|]. split; [auto|]. split; [auto|]. left.
    assert (Hcur : l ∈ cur w s) by (erewrite cur_own; [exact Hin|]; exists r; destruct Ho; auto).
    split; [left; auto|]. eapply list_in_slots; eauto.
  - apply elem_of_list_singleton in Hin as ->. split; [exists s, r; auto|exists g, s; auto].
Qed.

Lemma step_keeps e ps w tr t fail st w' : reachable e ps w -> Inv w tr -> w_thr w !! t = Some st ->
  step e w t fail = SOk w' -> Inv w' (tr ++ blk t (acts w t st w')).
Proof.
  intros Hr HI Ht Hstep.
  assert (Hr' : reachable e ps w') by (eapply reachable_step; eauto).
  destruct (step_inv _ _ _ _ _ _ Hstep Ht) as (w1 & st1 & D & L & Htr & _ & HD & _ & Esg & Evc & Esl & _ & _ & Ethr).
  pose proof (I_bound_inv _ _ _ Hr) as (Hb1 & Hb2 & Hb3 & Hb4).
  pose proof (trans_len_vecs _ _ _ _ _ _ Htr) as Lv. pose proof (trans_slots_len _ _ _ _ _ _ Htr) as Ll.
  assert (Hh1 : forall s l, home w' s l <-> home w1 s l).
  { intros s l. unfold home. rewrite Esl, (cur_ext w1 w' s) by auto. reflexivity. }
  assert (Hsub : (forall s0 st0, st <> FWrite s0 KMove :: st0) -> forall s l, home w' s l -> home w s l \/ l = length (w_slots w)).
  { intros Hm s l Hh. apply Hh1 in Hh. destruct (home_sub _ _ _ _ _ _ _ _ _ Hr Ht Htr Hm Hh) as [?|[? _]]; auto. }
  assert (Hsec : forall f s, f ∈ st -> in_section s f -> exists r, on w s r /\ sg_lock r = Some t).
  { intros f s Hf Hin. destruct (proj2 (lock_iff _ _ _ _ _ s Hr Ht)) as (r & Hs & Hl); [eauto|]. exists r. split; [split; eauto|auto]. }
  assert (Hcrit : forall f s v, f ∈ st -> crit_vec f = Some (s, v) -> exists r, on w s r /\ sg_lock r = Some t /\ sg_vec r = Some v).
  { intros f s v Hf Hc. pose proof (I_crit_inv _ _ _ Hr _ _ Ht) as HF. rewrite Forall_forall in HF. specialize (HF _ Hf).
    unfold fr_crit in HF. rewrite Hc in HF. destruct HF as [(r & Hs & Ha & Hv) _].
    destruct (Hsec f s Hf) as (r' & [Hs' _] & Hl); [destruct f; cbn in *; simplify_eq; auto|]. simplify_eq. exists r. repeat split; auto. }
  assert (Hquiet : forall as_, w_sigs w1 = w_sigs w -> (forall s0 st0, st <> FWrite s0 KMove :: st0) ->
     (forall v, existsb (frame_owns v) st1 = existsb (frame_owns v) st) ->
     (forall v a, a ∈ as_ -> a <> Rel (YCount v)) ->
     (uses -> forall s v, existsb (crit_is s v) st1 = true -> Use v ∈ as_ \/ existsb (crit_is s v) st = true) ->
     (forall a, a ∈ as_ -> may w w' t st a) -> Inv w' (tr ++ blk t as_)).
  { intros as_ E1 Hm E2 Hnr Hc Hmay. eapply (inv_quiet sw uses Huse e ps w w' tr t st (D ++ st1)); eauto; try congruence; try (rewrite ?Evc, ?Esl; assumption).
    - intros v. frames HD. rewrite E2. reflexivity.
    - intros U f s v Hf Hcf. specialize (Hc U s v). rewrite <- !crit_is_ex in Hc. apply Hc.
      apply elem_of_app in Hf as [Hf|Hf]; [|eauto]. exfalso. unfold dtorish in HD. rewrite Forall_forall in HD. destruct (HD _ Hf) as [[? ->]|[q ->]]; discriminate. }
  assert (Hnone : forall as_, (forall a, a ∈ as_ -> exists o, (a = Acq o \/ a = Rel o) /\ forall v, o <> YCount v) ->
     w_sigs w1 = w_sigs w -> (forall s0 st0, st <> FWrite s0 KMove :: st0) ->
     (forall v, existsb (frame_owns v) st1 = existsb (frame_owns v) st) ->
     (forall s v, existsb (crit_is s v) st1 = true -> existsb (crit_is s v) st = true) ->
     Inv w' (tr ++ blk t as_)).
  { intros as_ Has E1 Hm E2 Hc. apply Hquiet; auto.
    - intros v a Ha ->. destruct (Has _ Ha) as (o & [?|?] & Ho); simplify_eq. eapply Ho; eauto.
    - intros a Ha. destruct (Has _ Ha) as (o & [->| ->] & Ho); exact I. }
  destruct Htr; cbn [acts]; wcbn_in Esg; wcbn_in Evc; wcbn_in Esl; wcbn_in Esl; autorewrite with wsimp in Esg, Evc, Esl.
  all: try (apply Hnone; [intros ?a ?Ha; inversion Ha|wcbn; autorewrite with wsimp; reflexivity|discriminate
    |intros v'; cbn [existsb frame_owns orb]; reflexivity|intros s' v'; cbn [existsb crit_is orb]; auto]; fail).
  - (* OVar *) unfold vop_acts. rewrite H. apply Hnone; try reflexivity; try discriminate; auto. intros a Ha. inversion Ha.
  - unfold vop_acts. rewrite H. apply Hnone; try reflexivity; try discriminate; auto.
    intros a Ha. apply elem_of_list_singleton in Ha as ->. eexists. split; [right; reflexivity|discriminate].
  - unfold vop_acts. rewrite H. apply Hnone; try reflexivity; try discriminate; auto.
    intros a Ha. destruct ev; try (inversion Ha; fail);
      (apply elem_of_list_singleton in Ha as ->; eexists; split; [left; reflexivity|discriminate]).
  - unfold vop_acts. rewrite H. apply Hnone; try reflexivity; try discriminate; auto.
    intros a Ha. destruct ev; try (inversion Ha; fail);
      (apply elem_of_list_singleton in Ha as ->; eexists; split; [left; reflexivity|discriminate]).
  - unfold vop_acts. rewrite H. apply vop_after in H. apply Hnone; try reflexivity; try discriminate; auto.
    + intros a Ha. inversion Ha.
    + intros v'. cbn [existsb]. rewrite existsb_app, (existsb_var _ after) by (auto; intros []; cbn; auto; contradiction). reflexivity.
    + intros s' v'. cbn [existsb]. rewrite existsb_app, (existsb_var _ after) by (auto; intros []; cbn; auto; contradiction). auto.
  - unfold vop_acts. rewrite H. apply vop_after in H. apply Hnone; try reflexivity; try discriminate; auto.
    + intros a Ha. inversion Ha.
    + intros v'. cbn [existsb]. rewrite existsb_app, (existsb_var _ after) by (auto; intros []; cbn; auto; contradiction). reflexivity.
    + intros s' v'. cbn [existsb]. rewrite existsb_app, (existsb_var _ after) by (auto; intros []; cbn; auto; contradiction). auto.
  - (* oom *) rewrite Esg, Nat.ltb_irrefl. assert (Hnil : forall l : list act, l = [] -> Inv w' (tr ++ blk t l)).
    { intros l ->. apply Hnone; try reflexivity; try discriminate; auto. intros a Ha. inversion Ha. }
    apply Hnil. destruct o; try contradiction; reflexivity.
  - (* new *) rewrite Esg, app_length, (proj2 (Nat.ltb_lt _ _)) by (cbn; lia).
    eapply (inv_new sw uses Huse e ps w w' tr t _ (D ++ FRet (OutId (length (w_sigs w))) :: FWait k :: st) c); eauto.
    + intros v. frames HD. auto.
    + intros v. frames HD. auto.
    + intros f s v Hf Hc. apply crit_is_ex. assert (Hx : exists g, g ∈ D ++ FRet (OutId (length (w_sigs w))) :: FWait k :: st /\ crit_vec g = Some (s, v)) by eauto.
      revert Hx. frames HD. auto.
  - (* destroy *) apply get_sig_Some in H as [Hs Ha].
    assert (Hfr : forall v, (exists f, f ∈ D ++ FRet OutUnit :: FWait k :: st /\ frame_owns v f = true) <->
                            (exists f, f ∈ FProg (Do (ODestroySignal s) k) :: st /\ frame_owns v f = true)).
    { intros v. frames HD. reflexivity. }
    assert (Hcf : forall f s0 v, f ∈ D ++ FRet OutUnit :: FWait k :: st -> crit_vec f = Some (s0, v) ->
       exists g, g ∈ FProg (Do (ODestroySignal s) k) :: st /\ crit_vec g = Some (s0, v)).
    { intros f s0 v Hf Hc. assert (Hx : exists g, g ∈ D ++ FRet OutUnit :: FWait k :: st /\ crit_vec g = Some (s0, v)) by eauto.
      revert Hx. frames HD. auto. }
    rewrite Hs. change ([Acq (YLock s); Wr (LPtr s)]) with ([Acq (YLock s)] ++ [Wr (LPtr s)]).
    rewrite <- app_assoc, blk_app. set (tr1 := tr ++ blk t [Acq (YLock s)]).
    assert (HI1 : Inv w tr1).
    { eapply inv_ext; eauto; intros; apply elem_of_list_singleton in H as ->; [discriminate|exact I]. }
    assert (Hkn : forall i, sealed sw tr1 s r i -> known tr1 t i).
    { intros i Hi. unfold sealed in Hi. rewrite H0 in Hi. apply publ_app in Hi; [|intros a Ha'; apply elem_of_list_singleton in Ha' as ->; discriminate].
      eapply publ_known; eauto. }
    destruct (sg_vec r) as [v|] eqn:Hv.
    + assert (Hncr : forall u x f s', w_thr w !! u = Some x -> f ∈ x -> crit_vec f <> Some (s', v)).
      { intros u x f s' Hx Hf Hc. pose proof (I_crit_inv _ _ _ Hr _ _ Hx) as HF. rewrite Forall_forall in HF. specialize (HF _ Hf).
        unfold fr_crit in HF. rewrite Hc in HF. destruct HF as [(r1 & Hs1 & Ha1 & Hv1) _]. assert (s' = s) as -> by eauto. simplify_eq.
        destruct (proj2 (lock_iff _ _ _ _ _ s Hr Hx)) as (r2 & Hs2 & Hl2); [|congruence].
        exists f. split; [auto|]. destruct f; cbn in *; simplify_eq; auto. }
      assert (HI2 : Inv w' (tr1 ++ blk t [Wr (LPtr s); Acq (YCount v); Rel (YCount v)])).
      { change [Wr (LPtr s); Acq (YCount v); Rel (YCount v)] with ((if false then [Wr (LVec (length (w_vecs w)))] else []) ++ [Wr (LPtr s); Acq (YCount v); Rel (YCount v)]).
        eapply (inv_leave sw uses Hlock Hcount Huse e ps w w' tr1 t _ _ s r v false); eauto.
        split; auto. }
      unfold drop_vec. change ([Wr (LPtr s)] ++ [Acq (YCount v); Rel (YCount v)] ++ (if use_count w v <=? 1 then [Wr (LVec v)] else []))
        with ([Wr (LPtr s); Acq (YCount v); Rel (YCount v)] ++ (if use_count w v <=? 1 then [Wr (LVec v)] else [])).
      rewrite blk_app. destruct (Nat.leb_spec (use_count w v) 1) as [Hc|Hc]; [|cbn; rewrite app_nil_r; exact HI2].
      apply inv_kill; auto.
      * rewrite Evc. eauto.
      * intros s1 r1 [Hs1 Ha1] Hv1. rewrite Esg, alter_lookup in Hs1. case_decide as E.
        -- subst s1. rewrite Hs in Hs1. cbn in Hs1. simplify_eq.
        -- apply E. eauto.
      * intros u Hu. apply (emitting_iff _ _ _ _ _ Ht Ethr Hfr) in Hu. destruct Hu as (x & f & Hx & Hf & Hfo).
        pose proof (frame_counts _ _ _ _ _ Hx Hf Hfo). pose proof (use_count_no_emits w s v ltac:(exists r; auto) Hc). lia.
      * intros i b Hi. apply (acc_app sw) in Hi as [Hi|[Hin _]].
        -- eapply (last_owner_sig e ps w tr1 t s r v); eauto; [split; auto|rewrite !elem_of_cons; auto].
        -- rewrite !elem_of_cons, elem_of_nil in Hin. destruct b; naive_solver.
    + rewrite app_nil_r. eapply (inv_gone w w' tr1 t _ _ s r); eauto. split; auto.
  - (* begin *) assert (Hg : forall as_, (forall a, a ∈ as_ -> exists o, (a = Acq o \/ a = Rel o) /\ forall v, o <> YCount v) -> Inv w' (tr ++ blk t as_)).
    { intros as_ Has. apply begins_fr in H. apply Hnone; try reflexivity; try discriminate; auto.
      - intros v'. cbn [existsb]. rewrite existsb_app, (existsb_var _ fr) by (auto; intros []; cbn; auto; contradiction). reflexivity.
      - intros s' v'. cbn [existsb]. rewrite existsb_app, (existsb_var _ fr) by (auto; intros []; cbn; auto; contradiction). auto. }
    destruct H; apply Hg; intros a Ha; try (inversion Ha; fail).
    apply elem_of_list_singleton in Ha as ->. eexists. split; [left; reflexivity|discriminate].
  - (* blocked *) apply Hnone; try reflexivity; try discriminate; auto.
    intros a Ha. apply elem_of_list_singleton in Ha as ->. eexists. split; [left; reflexivity|discriminate].
  - (* deref *) apply Hquiet; try reflexivity; try discriminate; auto.
    + intros v0 a Ha. apply elem_of_list_singleton in Ha as ->. discriminate.
    + intros a Ha. apply elem_of_list_singleton in Ha as ->. right. do 2 eexists. split; [eauto|]. split.
      * apply elem_of_list_further, elem_of_list_here.
      * cbn. rewrite bool_decide_true; auto.
  - (* slot *) apply Hnone; try reflexivity; try discriminate; auto.
    intros a Ha. destruct r, g; cbn in Ha; try (inversion Ha; fail); rewrite ?elem_of_cons, elem_of_nil in Ha;
      destruct_or?; subst; try contradiction; eexists; (split; [eauto|discriminate]).
  - apply Hnone; wcbn; autorewrite with wsimp; try reflexivity; try discriminate; auto.
    intros a Ha. destruct r; cbn in Ha; try (inversion Ha; fail); rewrite ?elem_of_cons, elem_of_nil in Ha;
      destruct_or?; subst; try contradiction; eexists; (split; [eauto|discriminate]).
  - apply Hnone; try reflexivity; try discriminate; auto.
    intros a Ha. destruct r, g; cbn in Ha; try (inversion Ha; fail); rewrite ?elem_of_cons, elem_of_nil in Ha;
      destruct_or?; subst; try contradiction; eexists; (split; [eauto|discriminate]).
  - apply Hnone; try reflexivity; try discriminate; auto. intros a Ha. destruct r; inversion Ha.
  - apply Hnone; try reflexivity; try discriminate; auto.
    intros a Ha. rewrite ?elem_of_cons, elem_of_nil in Ha. destruct_or?; subst; try contradiction; eexists; (split; [eauto|discriminate]).
  - apply Hnone; try reflexivity; try discriminate; auto.
    intros a Ha. rewrite ?elem_of_cons, elem_of_nil in Ha. destruct_or?; subst; try contradiction; eexists; (split; [eauto|discriminate]).
  - (* lock *) apply get_sig_Some in H as [Hs Ha]. change (blk t [Acq (YLock s)]) with [(t, Acq (YLock s))].
    eapply (inv_sync sw uses w w' tr t _ (D ++ FWrite s k :: st)); eauto; try discriminate.
    + rewrite Esg, alter_length. auto.
    + rewrite Evc. auto.
    + rewrite Esl. auto.
    + intros s1 r1 [Hs1 Ha1]. rewrite Esg, alter_lookup in Hs1. case_decide as E.
      * subst s1. rewrite Hs in Hs1. cbn in Hs1. injection Hs1 as <-. exists r. split; [split; auto|]. split; [destruct r; auto|].
        intros i Hi. unfold sealed in *. rewrite H0 in Hi. destruct r; cbn. eapply publ_known; eauto.
      * exists r1. split; [split; auto|]. split; [auto|]. intros. apply sealed_mono. auto.
    + intros s1 r1 [Hs1 Ha1]. destruct (decide (s1 = s)) as [->|Hn].
      * rewrite Hs in Hs1. injection Hs1 as <-. exists (sg_set_lock (Some t) r). split; [split|split].
        -- rewrite Esg, alter_lookup, decide_True, Hs by auto. reflexivity.
        -- destruct r; auto.
        -- destruct r; auto.
        -- intros i Hi. unfold sealed in *. rewrite H0 in Hi. destruct r; cbn. eapply publ_known; eauto.
      * exists r1. split; [split; auto; rewrite Esg, alter_lookup, decide_False by auto; auto|]. split; [auto|]. intros. apply sealed_mono. auto.
    + intros s1 l Hh. destruct (Hsub ltac:(discriminate) _ _ Hh) as [?|Hl]; [auto|]. apply Hh1 in Hh. 
      destruct (home_sub e ps w t _ _ _ s1 l Hr Ht (T_lock e w t s k st r ltac:(apply get_sig_Some; auto) H0) ltac:(discriminate) Hh) as [?|(_ & v & i & st0 & E)]; [auto|discriminate].
    + intros v. frames HD. auto.
    + intros v. frames HD. auto.
    + intros f s1 v Hf Hc. assert (Hx : exists g, g ∈ D ++ FWrite s k :: st /\ crit_vec g = Some (s1, v)) by eauto.
      revert Hx. frames HD. auto.
  - (* move *) cbn [write_acts]. destruct (Hsec (FWrite s KMove) s (elem_of_list_here _ _) eq_refl) as (r' & Ho & Hl). destruct Ho as [Hs Ha]. simplify_eq.
    eapply (inv_move sw uses Huse e ps w w' tr t _ (D ++ FUnlock s (OutId (length (w_sigs w))) :: st) s r); eauto.
    + split; auto.
    + intros v. frames HD. reflexivity.
    + intros f s1 v Hf Hc. assert (Hx : exists g, g ∈ D ++ FUnlock s (OutId (length (w_sigs w))) :: st /\ crit_vec g = Some (s1, v)) by eauto.
      revert Hx. frames HD. auto.
  - (* read *) cbn [write_acts]. rewrite H, H0.
    destruct (Hsec (FWrite s (KRead args)) s (elem_of_list_here _ _) eq_refl) as (r' & [Hs Ha] & Hl). assert (r' = r) as -> by congruence.
    change [Rd (LPtr s); Rel (YLock s); Rd (LVec v)] with ([Rd (LPtr s)] ++ [Rel (YLock s)] ++ [Rd (LVec v)]).
    rewrite !blk_app. change (blk t [Rel (YLock s)]) with [(t, Rel (YLock s))]. set (tr1 := tr ++ blk t [Rd (LPtr s)]).
    assert (HI1 : Inv w tr1).
    { eapply inv_ext; eauto; intros; apply elem_of_list_singleton in H1 as ->; [discriminate|]. exists r. repeat split; auto. }
    set (st' := FProg (combiner e (sg_comb r) (length (vec_of w v))) :: FEmit s (w_neid w) v args :: st) in *.
    assert (Hv' : forall v', existsb (frame_owns v') st' = (bool_decide (v = v') || existsb (frame_owns v') st)%bool).
    { intros v'. reflexivity. }
    assert (HI2 : Inv w' (tr1 ++ [(t, Rel (YLock s))])).
    { eapply (inv_sync sw uses w w' tr1 t _ (D ++ st')); eauto; try discriminate.
      - rewrite Esg, alter_length. auto.
      - rewrite Evc. auto.
      - rewrite Esl. auto.
      - intros s1 r1 [Hs1 Ha1]. rewrite Esg, alter_lookup in Hs1. case_decide as E.
        + subst s1. rewrite H in Hs1. cbn in Hs1. injection Hs1 as <-. exists r. split; [split; auto|]. split; [destruct r; auto|].
          intros i Hi. unfold sealed in *. rewrite Hl in Hi. destruct r; cbn. apply known_publ. auto.
        + exists r1. split; [split; auto|]. split; [auto|]. intros. apply sealed_mono. auto.
      - intros s1 r1 [Hs1 Ha1]. destruct (decide (s1 = s)) as [->|Hn].
        + rewrite H in Hs1. injection Hs1 as <-. exists (sg_set_lock None r). split; [split|split].
          * rewrite Esg, alter_lookup, decide_True, H by auto. reflexivity.
          * destruct r; auto.
          * destruct r; auto.
          * intros i Hi. unfold sealed in *. rewrite Hl in Hi. destruct r; cbn. apply known_publ. auto.
        + exists r1. split; [split; auto; rewrite Esg, alter_lookup, decide_False by auto; auto|]. split; [auto|]. intros. apply sealed_mono. auto.
      - intros s1 l Hh. apply Hh1 in Hh.
        destruct (home_sub e ps w t _ _ _ s1 l Hr Ht (T_read e w t s args st r v H H0) ltac:(discriminate) Hh) as [?|(_ & v1 & i & st0 & E)]; [auto|discriminate].
      - intros v'. frames HD. rewrite Hv'. destruct (bool_decide (v = v')) eqn:E; [|auto].
        apply bool_decide_eq_true in E as <-. intros _. right. intros i Hi. assert (Hg : sealed sw tr1 s r i) by (eapply V_vec; eauto; split; auto).
        unfold sealed in Hg. rewrite Hl in Hg. exact Hg.
      - intros v'. frames HD. rewrite Hv'. intros Hx. left. change (existsb (frame_owns v') st = true) in Hx. rewrite Hx. apply orb_true_r.
      - intros f s1 v1 Hf Hc. assert (Hx : exists g, g ∈ D ++ st' /\ crit_vec g = Some (s1, v1)) by eauto.
        revert Hx. frames HD. auto. }
    eapply inv_ext; [exact Hr'|exact HI2|..].
    + rewrite Ethr. apply list_lookup_insert. eapply lookup_lt_Some; eauto.
    + intros v' a Ha'. apply elem_of_list_singleton in Ha' as ->. discriminate.
    + intros a Ha'. apply elem_of_list_singleton in Ha' as ->. right. do 2 eexists. split; [|split].
      * rewrite Ethr. apply list_lookup_insert. eapply lookup_lt_Some; eauto.
      * apply elem_of_app. right. apply elem_of_list_further, elem_of_list_here.
      * cbn. rewrite bool_decide_true; auto.
  - (* write oom *) destruct (Hsec (FWrite s k) s (elem_of_list_here _ _) eq_refl) as (r' & [Hs Ha] & Hl). assert (r' = r) as -> by congruence.
    assert (E : write_acts w s k w' = [Rd (LPtr s); Use v] ++ (if 1 <? use_count w v then [Rd (LVec v)] else [])).
    { unfold write_acts. rewrite H, H0, Evc, Nat.ltb_irrefl. destruct k; try contradiction; reflexivity. }
    rewrite E. assert (Hk : k <> KMove) by (destruct k; discriminate || contradiction).
    apply Hquiet; try reflexivity; auto.
    + intros s0 st0 Eq. simplify_eq.
    + intros v0 a Hin. destruct (1 <? use_count w v); rewrite ?elem_of_app, ?elem_of_cons, ?elem_of_nil in Hin; destruct_or?; subst; try contradiction; discriminate.
    + intros a Hin. assert (Hin' : a = Rd (LPtr s) \/ a = Use v \/ a = Rd (LVec v)).
      { destruct (1 <? use_count w v); rewrite ?elem_of_app, ?elem_of_cons, ?elem_of_nil in Hin; tauto. }
      destruct Hin' as [->|[->| ->]]; cbn; [exists r|exact I|left; exists s, r]; repeat split; auto.
  - (* detach *) destruct (Hsec (FWrite s k) s (elem_of_list_here _ _) eq_refl) as (r' & [Hs Ha] & Hl). assert (r' = r) as -> by congruence.
    assert (E : write_acts w s k w' = [Rd (LPtr s); Use v; Rd (LVec v)] ++ ([Wr (LVec (length (w_vecs w)))] ++ [Wr (LPtr s); Acq (YCount v); Rel (YCount v)]) ++ (if use_count w v <=? 1 then [Wr (LVec v)] else [])).
    { unfold write_acts. rewrite H, H0, Evc, app_length, (proj2 (Nat.ltb_lt _ _)) by (cbn; lia). destruct k; try contradiction; reflexivity. }
    rewrite E, blk_app, blk_app. set (tr1 := tr ++ blk t [Rd (LPtr s); Use v; Rd (LVec v)]).
    assert (HI1 : Inv w tr1).
    { eapply inv_ext; eauto; intros; rewrite !elem_of_cons, elem_of_nil in *; destruct_or?; subst; try contradiction; try discriminate; cbn; [exists r|exact I|left; exists s, r]; repeat split; auto. }
    assert (Hkn : forall i, sealed sw tr1 s r i -> known tr1 t i).
    { intros i Hi. unfold sealed in Hi. rewrite Hl in Hi. exact Hi. }
    assert (Hfr : forall v0, (exists f, f ∈ D ++ FBody s (length (w_vecs w)) k :: st /\ frame_owns v0 f = true) <->
                            (exists f, f ∈ FWrite s k :: st /\ frame_owns v0 f = true)).
    { intros v0. frames HD. reflexivity. }
    assert (HI2 : Inv w' (tr1 ++ blk t ([Wr (LVec (length (w_vecs w)))] ++ [Wr (LPtr s); Acq (YCount v); Rel (YCount v)]))).
    { eapply (inv_leave sw uses Hlock Hcount Huse e ps w w' tr1 t _ _ s r v true); eauto.
      - split; auto.
      - intros f s0 v0 Hf Hc. assert (Hx : exists g, g ∈ D ++ FBody s (length (w_vecs w)) k :: st /\ crit_vec g = Some (s0, v0)) by eauto.
        revert Hx. frames HD. intros [Hx|Hx]%orb_true_iff; [left|right; auto].
        unfold crit_is in Hx. apply bool_decide_eq_true in Hx. cbn in Hx. simplify_eq. auto.
      - intros u x f s' Hx Hf Hc. pose proof (I_crit_inv _ _ _ Hr _ _ Hx) as HF. rewrite Forall_forall in HF. specialize (HF _ Hf).
        unfold fr_crit in HF. rewrite Hc in HF. destruct HF as [(r1 & Hs1 & Ha1 & Hv1) _]. assert (s' = s) as -> by eauto.
        pose proof (crit_holds _ _ _ Hc) as Hh. 
        destruct (hold_unique w t (FWrite s k) st s (I_lock_inv _ _ _ Hr) Ht) as (HA & HB & _); [cbn; rewrite decide_True; auto|].
        destruct (decide (u = t)) as [->|Hn].
        + rewrite Ht in Hx. injection Hx as <-. apply elem_of_cons in Hf as [->|Hf]; [discriminate|].
          rewrite Forall_forall in HA. rewrite (HA _ Hf) in Hh. discriminate.
        + specialize (HB _ _ Hn Hx). rewrite Forall_forall in HB. rewrite (HB _ Hf) in Hh. discriminate. }
    assert (Hvl : v < length (w_vecs w)) by eauto.
    destruct (Nat.leb_spec (use_count w v) 1) as [Hc|Hc]; [|rewrite app_nil_r; exact HI2].
    apply inv_kill; auto.
    + rewrite Evc, app_length. lia.
    + intros s1 r1 [Hs1 Ha1] Hv1. rewrite Esg, alter_lookup in Hs1. case_decide as E1.
      * subst s1. rewrite Hs in Hs1. cbn in Hs1. injection Hs1 as <-. destruct r; cbn in *. simplify_eq. lia.
      * apply E1. eauto.
    + intros u Hu. apply (emitting_iff _ _ _ _ _ Ht Ethr Hfr) in Hu. destruct Hu as (x & f & Hx & Hf & Hfo).
      pose proof (frame_counts _ _ _ _ _ Hx Hf Hfo). pose proof (use_count_no_emits w s v ltac:(exists r; auto) Hc). lia.
    + intros i b Hi. apply (acc_app sw) in Hi as [Hi|[Hin _]].
      * eapply (last_owner_sig e ps w tr1 t s r v); eauto; [split; auto|]. rewrite elem_of_app, !elem_of_cons. auto.
      * rewrite elem_of_app, !elem_of_cons, elem_of_nil in Hin. destruct b; destruct_or?; simplify_eq; try contradiction. lia.
  - (* nodetach *) destruct (Hsec (FWrite s k) s (elem_of_list_here _ _) eq_refl) as (r' & [Hs Ha] & Hl). assert (r' = r) as -> by congruence.
    assert (E : write_acts w s k w' = [Rd (LPtr s); Use v] ++ (if 1 <? use_count w v then [Rd (LVec v)] else [])).
    { unfold write_acts. rewrite H, H0, Evc, Nat.ltb_irrefl. destruct k; try contradiction; reflexivity. }
    rewrite E. assert (Hk : k <> KMove) by (destruct k; discriminate || contradiction).
    apply Hquiet; try reflexivity; auto.
    + intros s0 st0 Eq. simplify_eq.
    + intros v0 a Hin. destruct (1 <? use_count w v); rewrite ?elem_of_app, ?elem_of_cons, ?elem_of_nil in Hin; destruct_or?; subst; try contradiction; discriminate.
    + intros U s1 v1. cbn [existsb]. intros [Hc|Hc]%orb_true_iff; [|right; auto].
      unfold crit_is in Hc. apply bool_decide_eq_true in Hc. cbn in Hc. simplify_eq. left. rewrite elem_of_app, !elem_of_cons. auto.
    + intros a Hin. assert (Hin' : a = Rd (LPtr s) \/ a = Use v \/ a = Rd (LVec v)).
      { destruct (1 <? use_count w v); rewrite ?elem_of_app, ?elem_of_cons, ?elem_of_nil in Hin; tauto. }
      destruct Hin' as [->|[->| ->]]; cbn; [exists r|exact I|left; exists s, r]; repeat split; auto.
  - (* add oom *) cbn [body_acts]. rewrite Esl, Nat.ltb_irrefl. destruct (Hcrit _ s v (elem_of_list_here _ _) eq_refl) as (r0 & Ho & Hl & Hv).
    apply Hquiet; try reflexivity; try discriminate; auto.
    all: try (intros v0 a Hin; apply elem_of_list_singleton in Hin as ->; discriminate).
    all: try (intros a Hin; apply elem_of_list_singleton in Hin as ->; left; exists s, r0; auto).
    all: try (intros _ s1 v1 Hc; right; revert Hc; crits).
  - (* add *) cbn [body_acts]. rewrite Esl, app_length, (proj2 (Nat.ltb_lt _ _)) by (cbn; lia).
    destruct (Hcrit _ s v (elem_of_list_here _ _) eq_refl) as (r0 & Ho & Hl & Hv).
    apply Hquiet; try reflexivity; try discriminate; auto.
    + intros v0 a Hin. rewrite !elem_of_cons, elem_of_nil in Hin. destruct_or?; subst; try contradiction; discriminate.
    + intros _ s1 v1 Hc. right. revert Hc. crits.
    + intros a Hin. rewrite !elem_of_cons, elem_of_nil in Hin. destruct Hin as [->|[->|[->|[]]]]; cbn.
      * left. exists s, r0. auto.
      * exists s, r0, v. split; [auto|]. split; [auto|]. split; [auto|]. right. split; [auto|]. split; [rewrite Esl, app_length; cbn; lia|].
        intros s' Hh. apply Hh1 in Hh.
        destruct (home_sub e ps w t _ _ _ s' _ Hr Ht (T_add e w t s v i st) ltac:(discriminate) Hh) as [[Hi|(r1 & Hr1 & _)]|(_ & v1 & i1 & st0 & E)].
        -- apply (list_in_slots e ps) in Hi; auto. lia.
        -- apply lookup_lt_Some in Hr1. lia.
        -- simplify_eq. auto.
      * split; [exists s, r0; auto|]. exists (FBody s v (KAdd i)), s. split; [left|reflexivity].
  - (* rem *) cbn [body_acts]. rewrite H, H0.
    destruct (Hcrit _ s v (elem_of_list_here _ _) eq_refl) as (r0 & Ho & Hl & Hv).
    assert (Hsg : sl_sig r = s).
    { pose proof (fr_rem_inv _ _ _ Hr _ _ Ht) as [Hx _]. cbn in Hx. destruct Hx as (t' & i & Hx).
      apply elem_home in Hx; [|eapply wf_log_reach; eauto]. destruct (I_fields_inv _ _ _ Hr _ _ H) as (_ & _ & _ & _ & Hh). congruence. }
    apply Hquiet; [wcbn; autorewrite with wsimp; reflexivity|..]; try reflexivity; try discriminate; auto.
    + intros v0 a Hin. apply elem_of_app in Hin as [Hin|Hin]; [rewrite !elem_of_cons, elem_of_nil in Hin; destruct_or?; subst; try contradiction; discriminate|].
      apply elem_of_app in Hin as [Hin|Hin]; [apply moved_in in Hin as (l1 & -> & _); discriminate|]. apply elem_of_list_singleton in Hin as ->. discriminate.
    + intros _ s1 v1 Hc. right. revert Hc. crits.
    + intros a Hin. apply elem_of_app in Hin as [Hin|Hin]; [rewrite !elem_of_cons, elem_of_nil in Hin; destruct Hin as [->|[->|[]]]; cbn|].
      * exists s, r0, v. split; [auto|]. split; [auto|]. split; [auto|]. left. split; [right; eauto|]. eapply lookup_lt_Some; eauto.
      * left. exists s, r0. auto.
      * eapply moved_may; eauto; [left|reflexivity].
  - (* remmiss *) cbn [body_acts]. rewrite H, H0, app_nil_r.
    destruct (Hcrit _ s v (elem_of_list_here _ _) eq_refl) as (r0 & Ho & Hl & Hv).
    assert (Hsg : sl_sig r = s).
    { pose proof (fr_rem_inv _ _ _ Hr _ _ Ht) as [Hx _]. cbn in Hx. destruct Hx as (t' & i & Hx).
      apply elem_home in Hx; [|eapply wf_log_reach; eauto]. destruct (I_fields_inv _ _ _ Hr _ _ H) as (_ & _ & _ & _ & Hh). congruence. }
    apply Hquiet; try reflexivity; try discriminate; auto.
    + intros v0 a Hin. rewrite !elem_of_cons, elem_of_nil in Hin; destruct_or?; subst; try contradiction; discriminate.
    + intros _ s1 v1 Hc. right. revert Hc. crits.
    + intros a Hin. rewrite !elem_of_cons, elem_of_nil in Hin; destruct Hin as [->|[->|[]]]; cbn.
      * exists s, r0, v. split; [auto|]. split; [auto|]. split; [auto|]. left. split; [right; eauto|]. eapply lookup_lt_Some; eauto.
      * left. exists s, r0. auto.
  - (* erase *) cbn [body_acts]. destruct (Hcrit _ s v (elem_of_list_here _ _) eq_refl) as (r0 & Ho & Hl & Hv).
    apply Hquiet; try reflexivity; try discriminate; auto.
    all: try (intros v0 a Hin; apply elem_of_list_singleton in Hin as ->; discriminate).
    all: try (intros a Hin; apply elem_of_list_singleton in Hin as ->; left; exists s, r0; auto).
    all: try (intros _ s1 v1 Hc; right; revert Hc; crits).
  - (* unlock *) destruct (Hsec (FUnlock s o) s (elem_of_list_here _ _) eq_refl) as (r & [Hs Ha] & Hl).
    change (blk t [Rel (YLock s)]) with [(t, Rel (YLock s))].
    eapply (inv_sync sw uses w w' tr t _ (D ++ FRet o :: st)); eauto; try discriminate.
    + rewrite Esg, alter_length. auto.
    + rewrite Evc. auto.
    + rewrite Esl. auto.
    + intros s1 r1 [Hs1 Ha1]. rewrite Esg, alter_lookup in Hs1. case_decide as E.
      * subst s1. rewrite Hs in Hs1. cbn in Hs1. injection Hs1 as <-. exists r. split; [split; auto|]. split; [destruct r; auto|].
        intros i Hi. unfold sealed in *. rewrite Hl in Hi. destruct r; cbn. apply known_publ. auto.
      * exists r1. split; [split; auto|]. split; [auto|]. intros. apply sealed_mono. auto.
    + intros s1 r1 [Hs1 Ha1]. destruct (decide (s1 = s)) as [->|Hn].
      * rewrite Hs in Hs1. injection Hs1 as <-. exists (sg_set_lock None r). split; [split|split].
        -- rewrite Esg, alter_lookup, decide_True, Hs by auto. reflexivity.
        -- destruct r; auto.
        -- destruct r; auto.
        -- intros i Hi. unfold sealed in *. rewrite Hl in Hi. destruct r; cbn. apply known_publ. auto.
      * exists r1. split; [split; auto; rewrite Esg, alter_lookup, decide_False by auto; auto|]. split; [auto|]. intros. apply sealed_mono. auto.
    + intros s1 l Hh. apply Hh1 in Hh.
      destruct (home_sub e ps w t _ _ _ s1 l Hr Ht (T_unlock e w t s o st) ltac:(discriminate) Hh) as [?|(_ & v & i & st0 & E)]; [auto|discriminate].
    + intros v. frames HD. auto.
    + intros v. frames HD. auto.
    + intros f s1 v Hf Hc. assert (Hx : exists g, g ∈ D ++ FRet o :: st /\ crit_vec g = Some (s1, v)) by eauto.
      revert Hx. frames HD. auto.
  - (* erase end *) destruct (Hcrit _ s v (elem_of_list_here _ _) eq_refl) as (r0 & Ho & Hl & Hv).
    apply Hquiet; try reflexivity; try discriminate; auto.
    all: try (intros v0 a Hin; apply elem_of_list_singleton in Hin as ->; discriminate).
    all: try (intros a Hin; apply elem_of_list_singleton in Hin as ->; left; exists s, r0; auto).
    all: try (intros _ s1 v1 Hc; right; revert Hc; crits).
  - (* erase cmp *) destruct (Hcrit _ s v (elem_of_list_here _ _) eq_refl) as (r0 & Ho & Hl & Hv).
    apply Hquiet; try reflexivity; try discriminate; auto.
    all: try (intros v0 a Hin; apply elem_of_list_singleton in Hin as ->; discriminate).
    all: try (intros a Hin; apply elem_of_list_singleton in Hin as ->; left; exists s, r0; auto).
    all: try (intros _ s1 v1 Hc; right; revert Hc; crits).
  - (* cmp true *) destruct (Hcrit _ s v (elem_of_list_further _ _ _ (elem_of_list_here _ _)) eq_refl) as (r0 & Ho & Hl & Hv).
    apply Hquiet; [wcbn; autorewrite with wsimp; reflexivity|..]; try reflexivity; try discriminate; auto.
    + intros v0 a Hin. apply elem_of_app in Hin as [Hin|Hin]; [apply moved_in in Hin as (l1 & -> & _); discriminate|]. apply elem_of_list_singleton in Hin as ->. discriminate.
    + intros a Hin. eapply moved_may; eauto; [right; left|reflexivity].
  - (* cmp exn *) apply Hnone; try reflexivity; try discriminate; auto.
    + intros a Ha. inversion Ha.
    + intros s' v'. crits.
  - (* emitret *) unfold drop_vec. rewrite blk_app. change (blk t [Acq (YCount v); Rel (YCount v)]) with (blk t [Acq (YCount v)] ++ [(t, Rel (YCount v))]).
    rewrite (app_assoc tr). set (tr1 := tr ++ blk t [Acq (YCount v)]).
    assert (Hem : emitting w t v).
    { do 2 eexists. split; [eauto|]. split; [right; left|]. cbn. rewrite bool_decide_true; auto. }
    assert (Hvl : v < length (w_vecs w)) by (eapply emitting_bound; eauto).
    assert (HI1 : Inv w tr1).
    { eapply inv_ext; eauto; intros; apply elem_of_list_singleton in H as ->; [discriminate|exact I]. }
    assert (HI2 : Inv w' (tr1 ++ [(t, Rel (YCount v))])).
    { eapply (inv_sync sw uses w w' tr1 t _ (D ++ FRet o :: st)); eauto; try (rewrite ?Esg, ?Evc, ?Esl; auto; fail).
      - intros v0 E. injection E as <-. rewrite Evc. split; [auto|].
        intros u x f s1 Hx Hf Hc. assert (Hx' : exists y g, w_thr w !! u = Some y /\ g ∈ y /\ crit_vec g = Some (s1, v)).
        { rewrite Ethr, list_lookup_insert_Some in Hx. destruct Hx as [(-> & <- & _)|[Hn Hx]]; [|eauto].
          exists (FRet o :: FEmit s eid v args :: st). assert (Hg : exists g, g ∈ D ++ FRet o :: st /\ crit_vec g = Some (s1, v)) by eauto.
          revert Hg. rewrite crit_is_ex, existsb_app, (existsb_dtor _ _ HD) by reflexivity. intros Hg.
          assert (Hg' : exists g, g ∈ FRet o :: FEmit s eid v args :: st /\ crit_vec g = Some (s1, v)) by (apply crit_is_ex; exact Hg).
          destruct Hg' as (g & Hg1 & Hg2). eauto. }
        destruct Hx' as (y & g & Hy & Hg & Hcg). pose proof (I_crit_inv _ _ _ Hr _ _ Hy) as HF. rewrite Forall_forall in HF. specialize (HF _ Hg).
        unfold fr_crit in HF. rewrite Hcg in HF. destruct HF as [_ HF].
        pose proof (frame_counts _ _ _ (FEmit s eid v args) v Ht ltac:(right; left) ltac:(cbn; rewrite bool_decide_true; auto)). lia.
      - intros s1 r1 [Hs1 Ha1]. rewrite Esg in Hs1. exists r1. split; [split; auto|]. split; [auto|]. intros. apply sealed_mono. auto.
      - intros s1 r1 [Hs1 Ha1]. rewrite <- Esg in Hs1. exists r1. split; [split; auto|]. split; [auto|]. intros. apply sealed_mono. auto.
      - intros s1 l Hh. apply Hh1 in Hh. exact Hh.
      - intros v0. frames HD. intros Hx. left. change (existsb (frame_owns v0) st = true) in Hx. cbn [frame_owns orb]. rewrite Hx. apply orb_true_r.
      - intros v0. frames HD. cbn [frame_owns orb]. destruct (bool_decide (v = v0)) eqn:E; [|auto]. apply bool_decide_eq_true in E as <-. auto.
      - intros f s1 v1 Hf Hc. assert (Hx : exists g, g ∈ D ++ FRet o :: st /\ crit_vec g = Some (s1, v1)) by eauto.
        revert Hx. frames HD. auto. }
    destruct (Nat.leb_spec (use_count w v) 1) as [Hc|Hc]; [|rewrite app_nil_r; exact HI2].
    pose proof Hc as Hc'. rewrite use_count_emits in Hc'.
    pose proof (frame_counts _ _ _ (FEmit s eid v args) v Ht ltac:(right; left) ltac:(cbn; rewrite bool_decide_true; auto)) as H1.
    apply inv_kill; auto.
    + rewrite Evc. auto.
    + intros s1 r1 [Hs1 Ha1] Hv1. rewrite Esg in Hs1. assert (Hin : r1 ∈ filter (fun r => sig_owns v r) (w_sigs w)).
      { apply elem_of_list_filter. split; [|eapply elem_of_list_lookup_2; eauto].
        unfold sig_owns. rewrite Ha1, Hv1, bool_decide_true by auto. exact I. }
      destruct (filter _ _); [inversion Hin|cbn in Hc'; lia].
    + intros u (x & f & Hx & Hf & Hfo). pose proof (frame_counts _ _ _ _ _ Hx Hf Hfo) as H2.
      pose proof (wt_insert (emits v) _ _ _ (D ++ FRet o :: st) Ht) as E. rewrite <- Ethr, swt_app, (emits_dtorish v D HD), !swt_cons in E.
      assert (E1 : emits v (FEmit s eid v args) = 1) by (unfold emits; cbn; rewrite bool_decide_true; auto).
      change (emits v (FRet o)) with 0 in E. lia.
    + intros i b Hi. change [(t, Rel (YCount v))] with (blk t [Rel (YCount v)]) in *. apply (acc_app sw) in Hi as [Hi|[Hin _]].
      * apply known_mono. apply (acc_app sw) in Hi as [Hi|[Hin _]].
        -- eapply last_owner_emit; eauto. left.
        -- apply elem_of_list_singleton in Hin. destruct b; discriminate.
      * apply elem_of_list_singleton in Hin. destruct b; discriminate.
Qed.

Lemma inv_init ps : Inv (init ps) [].
Proof.
  assert (Hno : forall i l b, ~ accesses [] i l b) by (intros i l b (t & Hi); discriminate).
  assert (Hp : forall o i, ~ publ [] o i) by (intros o i (k & u & Hk & _); discriminate).
  split; intros; try (exfalso; eapply Hno; eauto; fail); try (exfalso; eapply Hp; eauto; fail); try discriminate.
  intros i j l a b _ Hi. exfalso. eapply Hno; eauto.
Qed.

Lemma traced_inv e ps w tr : traced e ps w tr -> reachable e ps w /\ Inv w tr.
Proof.
  induction 1 as [|w tr t fail st w' Htr [Hr HI] Ht Hst]; [split; [exists []; reflexivity|apply inv_init]|].
  split; [eapply reachable_step; eauto|eapply step_keeps; eauto].
Qed.
End step.

(** These actions are not about the life of slots. *)
Lemma acts_off w t st w' x : match x with LSlot _ | LObj _ => True | _ => False end -> Rd x ∉ acts w t st w' /\ Wr x ∉ acts w t st w'.
Proof.
  unfold acts, write_acts, body_acts, slot_acts, vop_acts, drop_vec, moved_slot.
  intros Hx. split; intros H; repeat case_match; rewrite ?elem_of_app, ?elem_of_cons, ?elem_of_nil in H; destruct_or?; simplify_eq; contradiction.
Qed.
Lemma acts_slot w t st w' l : Rd (LSlot l) ∉ acts w t st w' /\ Wr (LSlot l) ∉ acts w t st w'.
Proof. apply acts_off. exact I. Qed.
