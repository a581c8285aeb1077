(** * Threads that only emit do not disturb each other *)
From Verif Require Export SpecAlone.
From Verif Require Import Reach InvLock InvVec InvSig InvOp OpCalls OpDeath InvUse TestsProof.

(** ** Frames without the numbers that depend on others *)
Definition fplain (f : frame) : frame :=
  match f with
  | FEmit s _ v args => FEmit s 0 v args
  | FSlot r g args pin eid _ => FSlot r g args pin ((fun _ => 0) <$> eid) 0
  | f => f
  end.
Notation splain := (map fplain).

(** The frames that occur in a thread that only looks, relative to the state [w0] at the start. *)
Definition ok_frame (w0 : world) (f : frame) : Prop :=
  match f with
  | FRet _ => True
  | FProg p => only_looks p
  | FWait k | FDeref k _ _ => forall r, only_looks (k r)
  | FTmp l => slot_alive w0 l = true
  | FLock _ (KRead _) => True
  | FWrite s (KRead _) => exists r, w_sigs w0 !! s = Some r /\ sg_alive r = true
  | FEmit _ _ v _ => exists s r, w_sigs w0 !! s = Some r /\ sg_alive r = true /\ sg_vec r = Some v
  | FSlot r g _ pin _ _ =>
      (forall o, pin = Some o -> default false (v_objs (w_vars w0) !! o) = true) /\
      match g with
      | SBlk | SExp => True
      | SDead => False
      | _ => forall i, get_ref w0 r = Some i -> expired w0 (im_c i) = false
      end
  | _ => False
  end.
Definition same_sigs (w0 w : world) : Prop := sg_set_lock None <$> w_sigs w = sg_set_lock None <$> w_sigs w0.
Definition calm (w0 w : world) : Prop :=
  same_sigs w0 w /\ w_vecs w = w_vecs w0 /\ w_slots w = w_slots w0 /\ w_vars w = w_vars w0 /\
  forall t st, w_thr w !! t = Some st -> Forall (ok_frame w0) st.

Lemma same_sig w0 w s : same_sigs w0 w -> sg_set_lock None <$> w_sigs w !! s = sg_set_lock None <$> w_sigs w0 !! s.
Proof. intros H. rewrite <- !list_lookup_fmap. unfold same_sigs in H. rewrite H. reflexivity. Qed.
Lemma same_sig_some w0 w s r : same_sigs w0 w -> w_sigs w !! s = Some r ->
  exists r0, w_sigs w0 !! s = Some r0 /\ sg_alive r = sg_alive r0 /\ sg_vec r = sg_vec r0 /\ sg_blocked r = sg_blocked r0 /\ sg_comb r = sg_comb r0.
Proof.
  intros H Hs. pose proof (same_sig _ _ s H) as E. rewrite Hs in E. destruct (w_sigs w0 !! s) as [r0|]; [|discriminate].
  exists r0. split; [reflexivity|]. destruct r, r0. cbn in E. injection E as -> -> -> ->. auto.
Qed.
Lemma same_sigs_sym w0 w : same_sigs w0 w -> same_sigs w w0.
Proof. unfold same_sigs. congruence. Qed.
Lemma same_sigs_trans w0 w1 w2 : same_sigs w0 w1 -> same_sigs w1 w2 -> same_sigs w0 w2.
Proof. unfold same_sigs. congruence. Qed.
Lemma same_sigs_lock w s x : same_sigs w (w_alter_sig w s (sg_set_lock x)).
Proof.
  unfold same_sigs. cbn. apply list_eq. intros i. rewrite !list_lookup_fmap, alter_lookup.
  case_decide; destruct (w_sigs w !! i) as [[]|]; reflexivity.
Qed.

(** Before anything runs slots are alive through signals only. *)
Definition still (w0 : world) : Prop := forall t st, w_thr w0 !! t = Some st -> looker st.
Lemma looker_keeps w l st : looker st -> existsb (frame_keeps w l) st = false.
Proof. intros [(o & ->)|(p & -> & _)]; reflexivity. Qed.
Lemma looker_pins o st : looker st -> existsb (frame_pins_obj o) st = false.
Proof. intros [(o' & ->)|(p & -> & _)]; reflexivity. Qed.
Lemma existsb_none {A} (p : A -> bool) (xs : list A) : (forall t x, xs !! t = Some x -> p x = false) -> existsb p xs = false.
Proof. induction xs as [|x xs IH]; intros H; cbn; [reflexivity|]. rewrite (H 0 x eq_refl). apply IH. intros t y Hy. apply (H (S t)). exact Hy. Qed.
Lemma still_alive w0 l : still w0 -> slot_alive w0 l = existsb (sig_keeps w0 l) (w_sigs w0).
Proof. intros H. unfold slot_alive. rewrite (existsb_none (existsb (frame_keeps w0 l))); [apply orb_false_r|]. intros t st Hst. apply looker_keeps. eauto. Qed.
Lemma still_obj w0 o : still w0 -> obj_alive w0 o = default false (v_objs (w_vars w0) !! o).
Proof. intros H. unfold obj_alive. rewrite (existsb_none (existsb (frame_pins_obj o))); [apply orb_false_r|]. intros t st Hst. apply looker_pins. eauto. Qed.

Lemma existsb_sub {A} (p : A -> bool) (xs : list A) b : (forall x, x ∈ xs -> p x = true -> b = true) -> existsb p xs || b = b.
Proof.
  intros H. destruct (existsb p xs) eqn:E; [|reflexivity]. apply existsb_exists in E as (x & Hx & Hp). cbn. symmetry. eapply H; eauto. apply elem_of_list_In. exact Hx.
Qed.
Lemma sig_keeps_same w0 w l : same_sigs w0 w -> w_vecs w = w_vecs w0 -> existsb (sig_keeps w l) (w_sigs w) = existsb (sig_keeps w0 l) (w_sigs w0).
Proof.
  intros Hs Hv. assert (H : forall w x, existsb (sig_keeps w x) (w_sigs w) = existsb (sig_keeps w x) (sg_set_lock None <$> w_sigs w)).
  { intros w1 x. induction (w_sigs w1) as [|r rs IH]; cbn; [reflexivity|]. rewrite IH. destruct r. reflexivity. }
  rewrite (H w), (H w0). unfold same_sigs in Hs. rewrite Hs. apply existsb_ext'. intros r. unfold sig_keeps, vec_of. rewrite Hv. reflexivity.
Qed.
Lemma calm_alive w0 w l : still w0 -> calm w0 w -> slot_alive w l = slot_alive w0 l.
Proof.
  intros H0 (Hs & Hv & _ & _ & Hf). rewrite (still_alive w0) by auto. unfold slot_alive. rewrite (sig_keeps_same w0 w) by auto. rewrite orb_comm. apply existsb_sub.
  intros st Hst Hk. apply elem_of_list_lookup in Hst as [t Ht]. specialize (Hf _ _ Ht). apply existsb_exists in Hk as (f & Hin & Hk).
  rewrite Forall_forall in Hf. apply elem_of_list_In in Hin. specialize (Hf _ Hin).
  destruct f; cbn in Hk, Hf; try discriminate; try contradiction.
  - apply bool_decide_eq_true in Hk. subst. rewrite still_alive in Hf; auto.
  - apply bool_decide_eq_true in Hk. destruct Hf as (s1 & r & Hr & Ha & Hvec). apply existsb_exists. exists r. split; [apply elem_of_list_In, elem_of_list_lookup; eauto|].
    unfold sig_keeps. rewrite Ha, Hvec. cbn. apply bool_decide_eq_true. unfold vec_of in *. rewrite <- Hv. exact Hk.
Qed.
Lemma calm_obj w0 w o : still w0 -> calm w0 w -> obj_alive w o = obj_alive w0 o.
Proof.
  intros H0 (Hs & Hv & _ & Hx & Hf). rewrite (still_obj w0) by auto. unfold obj_alive. rewrite Hx, orb_comm. apply existsb_sub.
  intros st Hst Hk. apply elem_of_list_lookup in Hst as [t Ht]. specialize (Hf _ _ Ht). apply existsb_exists in Hk as (f & Hin & Hk).
  rewrite Forall_forall in Hf. apply elem_of_list_In in Hin. specialize (Hf _ Hin).
  destruct f; cbn in Hk, Hf; try discriminate; try contradiction. destruct pin as [o'|]; [|discriminate]. apply bool_decide_eq_true in Hk. subst. apply Hf. reflexivity.
Qed.
Lemma calm_expired w0 w c : still w0 -> calm w0 w -> expired w c = expired w0 c.
Proof. intros H0 Hc. unfold expired. destruct (c_kind c); auto. f_equal. apply calm_obj; auto. Qed.
Lemma calm_ref w0 w r : calm w0 w -> get_ref w r = get_ref w0 r.
Proof. intros (_ & _ & Hs & Hx & _). destruct r; cbn; [rewrite Hs|rewrite Hx]; reflexivity. Qed.
Lemma calm_ref_ok w0 w r : still w0 -> calm w0 w -> ref_ok w r = ref_ok w0 r.
Proof. intros H0 Hc. destruct r; cbn; [apply calm_alive; auto|]. destruct Hc as (_ & _ & _ & -> & _). reflexivity. Qed.

(** ** One step *)
Definition lock_of (w : world) (s : sid) : option tid := w_sigs w !! s ≫= sg_lock.
Definition little (w w1 : world) : Prop :=
  same_sigs w w1 /\ w_vecs w1 = w_vecs w /\ w_slots w1 = w_slots w /\ w_vars w1 = w_vars w /\ w_thr w1 = w_thr w.
Definition follows (e : env) (w0 w wt : world) (t : tid) (st' : list frame) (r : lres) : Prop :=
  match r with
  | LOk w1 st1 => exists w1' st1' n1 n1', lstep e wt t MOk st' = LOk w1' st1' /\ splain st1 = splain st1' /\
      Forall (ok_frame w0) st1 /\ Forall (ok_frame w0) st1' /\ little w w1 /\ little wt w1' /\
      w_log w1 = n1 ++ w_log w /\ w_log w1' = n1' ++ w_log wt /\ map unnumbered n1 = map unnumbered n1' /\
      Forall (fun ev => thread_of ev = Some t) n1 /\ Forall (fun ev => thread_of ev = Some t) n1' /\
      (forall s, lock_of w1 s = Some t <-> lock_of w1' s = Some t) /\ (forall s t', lock_of w1' s = Some t' -> t' = t) /\
      (forall s t', t' <> t -> lock_of w1 s = Some t' <-> lock_of w s = Some t')
  | LBlocked => True
  | LDone => lstep e wt t MOk st' = LDone
  | LUB u => lstep e wt t MOk st' = LUB u
  end.

Lemma little_same w w1 : w_sigs w1 = w_sigs w -> w_vecs w1 = w_vecs w -> w_slots w1 = w_slots w -> w_vars w1 = w_vars w -> w_thr w1 = w_thr w -> little w w1.
Proof. intros H. repeat split; auto. unfold same_sigs. rewrite H. reflexivity. Qed.
Lemma lock_same w w1 s : w_sigs w1 = w_sigs w -> lock_of w1 s = lock_of w s.
Proof. unfold lock_of. intros ->. reflexivity. Qed.

Section sim.
Context (e : env) (w0 w wt : world) (t : tid).
Hypothesis Hcl : looking_client e.
Hypothesis H0 : still w0.
Hypothesis Hc : calm w0 w.
Hypothesis Hct : calm w0 wt.
Hypothesis Hag : forall s, lock_of w s = Some t <-> lock_of wt s = Some t.
Hypothesis Hsolo : forall s t', lock_of wt s = Some t' -> t' = t.

(** A step that does not touch the mutex. *)
Lemma follows_ok w1 w1' st' st1 st1' n1 n1' : lstep e wt t MOk st' = LOk w1' st1' -> splain st1 = splain st1' ->
  Forall (ok_frame w0) st1 -> Forall (ok_frame w0) st1' ->
  w_sigs w1 = w_sigs w -> w_vecs w1 = w_vecs w -> w_slots w1 = w_slots w -> w_vars w1 = w_vars w -> w_thr w1 = w_thr w ->
  w_sigs w1' = w_sigs wt -> w_vecs w1' = w_vecs wt -> w_slots w1' = w_slots wt -> w_vars w1' = w_vars wt -> w_thr w1' = w_thr wt ->
  w_log w1 = n1 ++ w_log w -> w_log w1' = n1' ++ w_log wt -> map unnumbered n1 = map unnumbered n1' ->
  Forall (fun ev => thread_of ev = Some t) n1 -> Forall (fun ev => thread_of ev = Some t) n1' ->
  follows e w0 w wt t st' (LOk w1 st1).
Proof.
  intros. exists w1', st1', n1, n1'. do 4 (split; [assumption|]). split; [apply little_same; auto|]. split; [apply little_same; auto|].
  do 5 (split; [assumption|]). split; [|split].
  - intros s. rewrite (lock_same w w1), (lock_same wt w1') by auto. apply Hag.
  - intros s t'. rewrite (lock_same wt w1') by auto. apply Hsolo.
  - intros s t' _. rewrite (lock_same w w1) by auto. reflexivity.
Qed.

Lemma vec_same v : vec_of w v = vec_of w0 v /\ vec_of wt v = vec_of w0 v.
Proof. unfold vec_of. destruct Hc as (_ & -> & _), Hct as (_ & -> & _). auto. Qed.

Lemma looks_exec v : looks (OVar v) -> exec_vop w t v = exec_vop wt t v /\
  ((exists u, exec_vop w t v = VBad u) \/ exists o ef, exec_vop w t v = VOk (w_vars w) o ef /\
     (ef = EfNone \/ exists ev, ef = EfLog ev /\ thread_of ev = Some t /\ held w ev = held wt ev /\ Forall (ok_frame w0) (held w ev))).
Proof.
  intros Hl. assert (Ha : forall l, slot_alive w l = slot_alive wt l) by (intros l; rewrite (calm_alive w0 w), (calm_alive w0 wt); auto).
  assert (Hx : w_vars w = w_vars wt) by (destruct Hc as (_ & _ & _ & -> & _), Hct as (_ & _ & _ & -> & _); reflexivity).
  assert (Hsl : w_slots w = w_slots wt) by (destruct Hc as (_ & _ & -> & _), Hct as (_ & _ & -> & _); reflexivity).
  assert (Hcn : forall l, slot_connected w l = slot_connected wt l).
  { intros l. unfold slot_connected, impl_connected. rewrite Hsl. destruct (w_slots wt !! l); [|reflexivity]. rewrite (calm_expired w0 w), (calm_expired w0 wt) by auto. reflexivity. }
  assert (Hbl : forall l, slot_blocked w l = slot_blocked wt l) by (intros l; unfold slot_blocked; rewrite Hsl; reflexivity).
  assert (Hh : forall ev, held w ev = held wt ev /\ Forall (ok_frame w0) (held w ev)).
  { intros ev. destruct (held_cases w ev) as [E|(l & E & El)].
    - rewrite E. split; [|constructor]. destruct ev; cbn in E |- *; auto; rewrite <- Ha; destruct (slot_alive w l); auto; discriminate.
    - rewrite E. split.
      + destruct ev; cbn in E |- *; try discriminate; rewrite <- Ha; auto.
      + repeat constructor. cbn. rewrite <- (calm_alive w0 w) by auto. exact El. }
  destruct v; cbn in Hl; try contradiction; unfold exec_vop; cbv zeta; rewrite <- Hx.
  - destruct (get_conn (w_vars w) c) as [r|]; [|eauto]. destruct (cn_slot r) as [l|]; [|eauto 7]. rewrite <- Ha. split; [reflexivity|]. right. eexists _, _. split; [reflexivity|]. right. eexists. split; [reflexivity|]. split; [reflexivity|]. apply Hh.
  - destruct (get_conn (w_vars w) c) as [r|]; [|eauto]. destruct (cn_slot r) as [l|]; [|eauto 7]. rewrite <- Ha, <- Hcn. split; [reflexivity|]. right. eexists _, _. split; [reflexivity|]. right. eexists. split; [reflexivity|]. split; [reflexivity|]. apply Hh.
  - destruct (get_conn (w_vars w) c) as [r|]; [|eauto]. destruct (cn_slot r) as [l|]; [|eauto 7]. rewrite <- Ha, <- Hbl. split; [reflexivity|]. right. eexists _, _. split; [reflexivity|]. right. eexists. split; [reflexivity|]. split; [reflexivity|]. apply Hh.
  - destruct (v_store (w_vars w) !! a); eauto 7.
Qed.

Lemma sig_same s : match get_sig w s with
  | Some r => exists r', get_sig wt s = Some r' /\ sg_vec r' = sg_vec r /\ sg_blocked r' = sg_blocked r /\ sg_comb r' = sg_comb r /\
      exists r0, w_sigs w0 !! s = Some r0 /\ sg_alive r0 = true /\ sg_vec r0 = sg_vec r
  | None => get_sig wt s = None
  end.
Proof.
  assert (Hs : same_sigs w wt) by (eapply same_sigs_trans; [apply same_sigs_sym|]; [apply Hc|apply Hct]).
  assert (Hs0 : same_sigs w0 w) by apply Hc.
  unfold get_sig. pose proof (same_sig _ _ s Hs) as E. pose proof (same_sig _ _ s Hs0) as E0.
  destruct (w_sigs w !! s) as [r|], (w_sigs wt !! s) as [r'|]; try discriminate; auto.
  destruct (w_sigs w0 !! s) as [r0|]; [|discriminate].
  destruct r, r', r0. cbn in E, E0 |- *. injection E as -> -> -> ->. injection E0 as -> -> -> ->.
  destruct sg_alive1; [|reflexivity]. eexists. split; [reflexivity|]. cbn. repeat (split; [reflexivity|]). eexists. split; [reflexivity|]. auto.
Qed.

Lemma olv_looks n i best : only_looks (olv n i best).
Proof.
  revert i best. induction n as [|n IH]; intros i best; cbn; [constructor|]. constructor; [exact I|]. intros r.
  destruct r as [| | | | |[z|]| | |]; first [apply IH|constructor].
Qed.
Lemma comb_looks k n : only_looks (combiner e k n).
Proof. destruct k; cbn; [apply Hcl|apply olv_looks]. Qed.


Lemma sim_deliver o f f' r r' : fplain f = fplain f' -> splain r = splain r' -> Forall (ok_frame w0) (f :: r) -> Forall (ok_frame w0) (f' :: r') ->
  follows e w0 w wt t (FRet o :: f' :: r') (deliver e w t o f r).
Proof.
  intros Hf Hr Hok Hok'. pose proof (Forall_inv Hok) as H1. pose proof (Forall_inv Hok') as H1'. pose proof (Forall_inv_tail Hok) as H2. pose proof (Forall_inv_tail Hok') as H2'.
  destruct f; cbn in H1; try contradiction; destruct f'; cbn in Hf; try discriminate Hf; try (reflexivity).
  - (* FWait *) injection Hf as ->. cbn [deliver]. eapply follows_ok with (n1 := []) (n1' := []); [reflexivity|..]; cbn; auto; try (constructor; cbn; auto). congruence.
  - (* FDeref *) injection Hf as -> -> ->. cbn [deliver]. destruct o; try reflexivity.
    destruct r as [|g r]; destruct r' as [|g' r']; try discriminate Hr; [reflexivity|]. cbn in Hr. injection Hr as Hg Hr.
    pose proof (Forall_inv H2) as H3. pose proof (Forall_inv H2') as H3'. pose proof (Forall_inv_tail H2) as H4. pose proof (Forall_inv_tail H2') as H4'.
    destruct g; cbn in H3; try contradiction; destruct g'; cbn in Hg; try discriminate Hg; try reflexivity.
    injection Hg as -> -> _. eapply follows_ok with (n1 := [_]) (n1' := [_]); [reflexivity|..]; cbn; auto; try reflexivity; try (repeat constructor; cbn; auto). congruence.
  - (* FTmp *) injection Hf as ->. cbn [deliver]. eapply follows_ok with (n1 := []) (n1' := []); [reflexivity|..]; cbn; auto; try (constructor; cbn; auto). congruence.
  - (* FEmit *) injection Hf as -> -> ->. cbn [deliver]. eapply follows_ok with (n1 := [_]) (n1' := [_]); [reflexivity|..]; cbn; auto; try reflexivity; try (repeat constructor; cbn; auto). congruence.
  - (* FSlot *) injection Hf as -> -> -> -> He. cbn [deliver]. destruct g0; try reflexivity.
    destruct (wrap e o) as [o'|] eqn:Ew; [|cbn; rewrite Ew; reflexivity].
    eapply follows_ok with (n1 := [_]) (n1' := [_]); [cbn; rewrite Ew; reflexivity|..]; cbn; auto; try reflexivity; try (repeat constructor; cbn; auto); congruence.
Qed.

Lemma sim_start m o k r r' : looks o -> (forall x, only_looks (k x)) -> splain r = splain r' -> Forall (ok_frame w0) r -> Forall (ok_frame w0) r' ->
  follows e w0 w wt t (FProg (Do o k) :: r') (start_op e w t m o k r).
Proof.
  intros Hl Hk Hr Hok Hok'. destruct o; try contradiction.
  - (* variables *) destruct (looks_exec v Hl) as (E & H). cbn [start_op]. destruct H as [(u & Hu)|(x & ef & Hx & He)].
    + rewrite Hu. cbn. rewrite <- E, Hu. reflexivity.
    + rewrite Hx. assert (Hv : w_vars w = w_vars wt) by (destruct Hc as (_ & _ & _ & -> & _), Hct as (_ & _ & _ & -> & _); reflexivity).
      destruct He as [->|(ev & -> & Ht & Hh & Hf)].
      * eapply follows_ok with (n1 := []) (n1' := []); [cbn; rewrite <- E, Hx; reflexivity|..]; cbn; auto; try (repeat constructor; cbn; auto). congruence.
      * eapply follows_ok with (n1 := [ev]) (n1' := [ev]); [cbn; rewrite <- E, Hx; reflexivity|..]; cbn; auto.
        -- rewrite <- Hh, !map_app. cbn. congruence.
        -- constructor; [exact I|]. apply Forall_app. split; [assumption|constructor; assumption].
        -- constructor; [exact I|]. rewrite <- Hh. apply Forall_app. split; [assumption|constructor; assumption].
  - (* emit *) cbn [start_op]. pose proof (sig_same s) as Hs. destruct (get_sig w s) as [g|] eqn:Eg.
    + destruct Hs as (g' & Eg' & _ & Hb & _). destruct (sg_blocked g) eqn:Eb.
      * eapply follows_ok with (n1 := []) (n1' := []); [cbn; rewrite Eg', Hb; reflexivity|..]; cbn; auto; try (repeat constructor; cbn; auto). congruence.
      * eapply follows_ok with (n1 := []) (n1' := []); [cbn; rewrite Eg', Hb; reflexivity|..]; cbn; auto; try (repeat constructor; cbn; auto). congruence.
    + cbn. rewrite Hs. reflexivity.
  - (* deref *) cbn [start_op]. destruct r as [|g r]; destruct r' as [|g' r']; try discriminate Hr; [reflexivity|]. pose proof Hr as Hr0. cbn in Hr. injection Hr as Hg Hr.
    pose proof (Forall_inv Hok) as H3. destruct g; cbn in H3; try contradiction; destruct g'; cbn in Hg; try discriminate Hg; try reflexivity.
    injection Hg as -> -> ->. destruct (vec_same v0) as (Hv1 & Hv2). rewrite Hv1. destruct (vec_of w0 v0 !! pos) as [l|] eqn:El.
    + eapply follows_ok with (n1 := []) (n1' := []); [cbn; rewrite Hv2, El; reflexivity|..]; auto; try reflexivity.
      * cbn. congruence.
      * constructor; [cbn; split; [discriminate|exact I]|]. constructor; [exact Hk|assumption].
      * constructor; [cbn; split; [discriminate|exact I]|]. constructor; [exact Hk|assumption].
    + cbn. rewrite Hv2, El. reflexivity.
Qed.

Lemma lock_alter w1 s x s' : lock_of (w_alter_sig w1 s (sg_set_lock x)) s' = if decide (s = s') then (w_sigs w1 !! s ≫= fun _ => x) else lock_of w1 s'.
Proof. unfold lock_of. cbn. rewrite alter_lookup. repeat case_decide; subst; try congruence. destruct (w_sigs w1 !! s') as [[]|]; reflexivity. Qed.
Lemma lock_of_sig w1 s r : get_sig w1 s = Some r -> lock_of w1 s = sg_lock r /\ w_sigs w1 !! s = Some r.
Proof. unfold get_sig, lock_of. destruct (w_sigs w1 !! s) as [r1|]; [|discriminate]. destruct (sg_alive r1); [|discriminate]. intros E. injection E as ->. auto. Qed.

Lemma sim_lock m s args r r' : splain r = splain r' -> Forall (ok_frame w0) r -> Forall (ok_frame w0) r' ->
  follows e w0 w wt t (FLock s (KRead args) :: r') (lstep e w t m (FLock s (KRead args) :: r)).
Proof.
  intros Hr Hok Hok'. cbn [lstep]. pose proof (sig_same s) as Hs. destruct (get_sig w s) as [g|] eqn:Eg; [|cbn; rewrite Hs; reflexivity].
  destruct Hs as (g' & Eg' & _ & _ & _ & r0 & Hr0 & Hal & _). destruct (lock_of_sig _ _ _ Eg) as [Hl Hsg]. destruct (lock_of_sig _ _ _ Eg') as [Hl' Hsg'].
  specialize (Hag s) as Ha. specialize (Hsolo s) as Hso. rewrite Hl, Hl' in Ha. rewrite Hl' in Hso.
  destruct (sg_lock g) as [t1|] eqn:El.
  - destruct (Nat.eqb_spec t t1) as [->|Hn]; [|exact I]. cbn. rewrite Eg'. rewrite (proj1 Ha eq_refl), Nat.eqb_refl. reflexivity.
  - assert (El' : sg_lock g' = None). { destruct (sg_lock g') as [t1|]; [|reflexivity]. specialize (Hso _ eq_refl). subst. pose proof (proj2 Ha eq_refl). discriminate. }
    exists (w_alter_sig wt s (sg_set_lock (Some t))), (FWrite s (KRead args) :: r'), [], []. split; [cbn; rewrite Eg', El'; reflexivity|].
    split; [cbn; congruence|]. split; [constructor; cbn; eauto|]. split; [constructor; cbn; eauto|].
    split; [repeat split; auto; apply same_sigs_lock|]. split; [repeat split; auto; apply same_sigs_lock|].
    do 5 (split; [cbn; auto; constructor|]). split; [|split].
    + intros s'. rewrite !lock_alter, Hsg, Hsg'. case_decide; [cbn; tauto|apply Hag].
    + intros s' t'. rewrite lock_alter, Hsg'. case_decide; [cbn; congruence|apply Hsolo].
    + intros s' t' Ht. rewrite lock_alter, Hsg. case_decide; [|reflexivity]. subst. rewrite Hl. cbn. split; congruence.
Qed.

Lemma sim_write m s args r r' : splain r = splain r' -> Forall (ok_frame w0) (FWrite s (KRead args) :: r) -> Forall (ok_frame w0) (FWrite s (KRead args) :: r') ->
  lock_of w s = Some t -> follows e w0 w wt t (FWrite s (KRead args) :: r') (lstep e w t m (FWrite s (KRead args) :: r)).
Proof.
  intros Hr Hok Hok' Hlk. pose proof (Forall_inv Hok) as (r0 & Hr0 & Hal). pose proof (Forall_inv_tail Hok) as H2. pose proof (Forall_inv_tail Hok') as H2'.
  pose proof (sig_same s) as Hs. assert (Hlk' : lock_of wt s = Some t) by (apply Hag; auto).
  cbn [lstep]. unfold step_write. destruct (w_sigs w !! s) as [g|] eqn:Eg; [|unfold lock_of in Hlk; rewrite Eg in Hlk; discriminate].
  assert (Ega : sg_alive g = true). { destruct (same_sig_some w0 w s g) as (r1 & Hr1 & Ea & _); [apply Hc|auto|]. congruence. }
  unfold get_sig in Hs. rewrite Eg, Ega in Hs. destruct Hs as (g' & Eg' & Hv & _ & Hcb & r1 & Hr1 & _ & Hv1).
  destruct (w_sigs wt !! s) as [g1|] eqn:Eg1; [|discriminate]. destruct (sg_alive g1); [|discriminate]. injection Eg' as ->.
  destruct (sg_vec g) as [v|] eqn:Ev; [|cbn; unfold step_write; rewrite Eg1, Hv; reflexivity].
  destruct (vec_same v) as (E1 & E2). rewrite E1.
  exists (w_add_log (w_set_neid (w_alter_sig wt s (sg_set_lock None)) (S (w_neid wt))) (EEmit t (w_neid wt) s args (vec_of w0 v))),
    (FProg (combiner e (sg_comb g) (length (vec_of w0 v))) :: FEmit s (w_neid wt) v args :: r'), [EEmit t (w_neid w) s args (vec_of w0 v)], [EEmit t (w_neid wt) s args (vec_of w0 v)].
  split; [cbn; unfold step_write; rewrite Eg1, Hv, E2, Hcb; reflexivity|].
  split; [cbn; congruence|].
  assert (Hok2 : forall n, Forall (ok_frame w0) [FProg (combiner e (sg_comb g) (length (vec_of w0 v))); FEmit s n v args]).
  { intros n. constructor; [apply comb_looks|]. constructor; [|constructor]. cbn. exists s, r1. split; [auto|]. split; congruence. }
  split; [apply (Forall_app _ [_; _]); split; auto|]. split; [apply (Forall_app _ [_; _]); split; auto|].
  split; [repeat split; auto; apply (same_sigs_lock w s None)|]. split; [repeat split; auto; apply (same_sigs_lock wt s None)|].
  do 5 (split; [cbn; auto; repeat constructor|]).
  assert (HL : forall w1 n ev s', lock_of (w_add_log (w_set_neid (w_alter_sig w1 s (sg_set_lock None)) n) ev) s' = if decide (s = s') then None else lock_of w1 s').
  { intros w1 n ev s'. change (lock_of (w_alter_sig w1 s (sg_set_lock None)) s' = if decide (s = s') then None else lock_of w1 s'). rewrite lock_alter. case_decide; auto. destruct (w_sigs w1 !! s); auto. }
  split; [|split].
  - intros s'. rewrite !HL. case_decide; [tauto|apply Hag].
  - intros s' t'. rewrite HL. case_decide; [discriminate|apply Hsolo].
  - intros s' t' Ht. rewrite HL. case_decide; [|reflexivity]. subst. rewrite Hlk. split; congruence.
Qed.

Lemma sim_slot m sr g args pin eid eid' n n' r r' : (fun _ => 0) <$> eid = (fun _ => 0) <$> eid' -> splain r = splain r' ->
  Forall (ok_frame w0) (FSlot sr g args pin eid n :: r) -> Forall (ok_frame w0) (FSlot sr g args pin eid' n' :: r') ->
  follows e w0 w wt t (FSlot sr g args pin eid' n' :: r') (lstep e w t m (FSlot sr g args pin eid n :: r)).
Proof.
  intros He Hr Hok Hok'. pose proof (Forall_inv Hok) as (Hp & Hg). pose proof (Forall_inv_tail Hok) as H2. pose proof (Forall_inv_tail Hok') as H2'.
  assert (E : lstep e wt t MOk (FSlot sr g args pin eid' n' :: r') = step_slot e wt t sr g args pin eid' n' r') by reflexivity.
  cbn [lstep]. unfold step_slot in *. rewrite (calm_ref_ok w0 w) by auto. rewrite (calm_ref_ok w0 wt) in E by auto.
  rewrite (calm_ref w0 w) by auto. rewrite (calm_ref w0 wt) in E by auto.
  assert (Hsk : lstep e wt t MOk (FSlot sr g args pin eid' n' :: r') = skip wt t sr eid' n' args r' -> follows e w0 w wt t (FSlot sr g args pin eid' n' :: r') (skip w t sr eid n args r)).
  { intros Ek. eapply follows_ok with (n1 := [_]) (n1' := [_]); [exact Ek|..]; cbn; auto; try reflexivity; try (repeat constructor; cbn; auto); congruence. }
  destruct (ref_ok w0 sr); [|exact E]. destruct (get_ref w0 sr) as [i|] eqn:Ei; [|auto]. rewrite <- Ei in Hg. cbv zeta in *.
  rewrite (calm_expired w0 w) by auto. rewrite (calm_expired w0 wt) in E by auto.
  rewrite (calm_obj w0 w) by auto. rewrite (calm_obj w0 wt) in E by auto.
  assert (Hgo : forall g2 pin2, lstep e wt t MOk (FSlot sr g args pin eid' n' :: r') = LOk wt (FSlot sr g2 args pin2 eid' n' :: r') ->
    (forall eid n, ok_frame w0 (FSlot sr g2 args pin2 eid n)) ->
    follows e w0 w wt t (FSlot sr g args pin eid' n' :: r') (LOk w (FSlot sr g2 args pin2 eid n :: r))).
  { intros g2 pin2 Ek Hf. eapply follows_ok with (n1 := []) (n1' := []); [exact Ek|..]; auto; try reflexivity. cbn. congruence. }
  assert (Hq : forall g2, match g2 with SBlk | SExp | SDead => False | _ => True end -> expired w0 (im_c i) = false ->
    match g2 with SBlk | SExp => True | SDead => False | _ => forall j, get_ref w0 sr = Some j -> expired w0 (im_c j) = false end).
  { intros g2 Hg2 Hx. destruct g2; auto; intros j Hj; congruence. }
  destruct g.
  - destruct (im_blk i); [auto|]. apply Hgo; [exact E|]. intros. cbn. auto.
  - destruct (expired w0 (im_c i)) eqn:Ex; [auto|]. apply Hgo; [exact E|]. intros. split; [auto|]. apply (Hq SConn); auto.
  - destruct (im_conn i); [|auto]. apply Hgo; [exact E|]. intros. split; auto.
  - specialize (Hg _ Ei) as Hx. destruct (c_kind (im_c i)) eqn:Ek.
    + apply Hgo; [exact E|]. intros. split; auto.
    + apply Hgo; [exact E|]. intros. split; auto.
    + unfold expired in Hx. rewrite Ek in Hx. apply negb_false_iff in Hx. rewrite Hx in *. apply Hgo; [exact E|]. intros. split; [|apply Hg].
      intros o Ho. injection Ho as <-. rewrite still_obj in Hx; auto.
  - contradiction.
  - destruct (im_conn i); [|auto]. apply Hgo; [exact E|]. intros. split; auto.
  - eapply follows_ok with (n1 := [_]) (n1' := [_]); [exact E|..]; auto; try reflexivity.
    + cbn. congruence.
    + constructor; [cbn; apply Hcl|]. constructor; [|auto]. split; auto.
    + constructor; [cbn; apply Hcl|]. constructor; [|auto]. split; auto.
    + cbn. congruence.
  - exact E.
Qed.

Lemma sim_lstep m st st' : splain st = splain st' -> Forall (ok_frame w0) st -> Forall (ok_frame w0) st' ->
  (forall s k r, st = FWrite s k :: r -> lock_of w s = Some t) -> follows e w0 w wt t st' (lstep e w t m st).
Proof.
  intros Hst Hok Hok' Hw. destruct st as [|f r]; destruct st' as [|f' r']; try discriminate Hst; [reflexivity|].
  cbn in Hst. injection Hst as Hf Hr. pose proof (Forall_inv Hok) as H1. pose proof (Forall_inv_tail Hok) as H2. pose proof (Forall_inv_tail Hok') as H2'.
  destruct f; cbn in H1; try contradiction; destruct f'; cbn in Hf; try discriminate Hf; try reflexivity.
  - (* FRet *) injection Hf as ->. destruct r as [|g r]; destruct r' as [|g' r']; try discriminate Hr; [reflexivity|]. cbn in Hr. injection Hr as Hg Hr. apply sim_deliver; auto.
  - (* FProg *) injection Hf as ->. destruct p0 as [o|o k].
    + eapply follows_ok with (n1 := []) (n1' := []); [reflexivity|..]; auto; try reflexivity.
      * cbn. congruence.
      * constructor; [exact I|auto].
      * constructor; [exact I|auto].
    + inversion H1; subst. apply sim_start; auto.
  - (* FLock *) injection Hf as -> ->. destruct k0; try contradiction. apply sim_lock; auto.
  - (* FWrite *) injection Hf as -> ->. destruct k0; try contradiction. apply sim_write; auto. eapply Hw. reflexivity.
  - (* FSlot *) injection Hf as -> -> -> -> He. apply sim_slot; auto.
Qed.
End sim.

(** ** Runs *)
Lemma calm_step w0 w w1 t st1 : calm w0 w -> little w w1 -> Forall (ok_frame w0) st1 -> calm w0 (w_set_stack w1 t st1).
Proof.
  intros (H1 & H2 & H3 & H4 & H5) (L1 & L2 & L3 & L4 & L5) Hf. split; [exact (same_sigs_trans _ _ _ H1 L1)|]. cbn. repeat (split; [congruence|]).
  intros t' st. rewrite L5. intros Ht. destruct (decide (t = t')) as [->|Hn].
  - apply list_lookup_insert_Some in Ht as [(_ & -> & _)|(Hn & _)]; [auto|congruence].
  - rewrite list_lookup_insert_ne in Ht by auto. eauto.
Qed.
Lemma filter_none {A} (p : A -> Prop) `{forall x, Decision (p x)} xs : (forall x, ~ p x) -> filter p xs = [].
Proof. intros Hp. induction xs as [|x xs IH]; [reflexivity|]. rewrite filter_cons_False by auto. exact IH. Qed.
Lemma calm_reap e w0 w w1 t st1 : still w0 -> calm w0 w -> little w w1 -> Forall (ok_frame w0) st1 -> reap e w w1 t st1 = w_set_stack w1 t st1.
Proof.
  intros H0 Hc Hl Hf. pose proof (calm_step _ _ _ t _ Hc Hl Hf) as Hc1. unfold reap.
  assert (Hd : dead_slots w (w_set_stack w1 t st1) = []).
  { unfold dead_slots. apply filter_none. intros l. rewrite (calm_alive w0 w), (calm_alive w0 (w_set_stack w1 t st1)) by auto. destruct (slot_alive w0 l); intros Hx; cbn in Hx; first [discriminate Hx|destruct Hx]. }
  assert (Ho : dead_objs w (w_set_stack w1 t st1) = []).
  { unfold dead_objs. apply filter_none. intros l. rewrite (calm_obj w0 w), (calm_obj w0 (w_set_stack w1 t st1)) by auto. destruct (obj_alive w0 l); intros Hx; cbn in Hx; first [discriminate Hx|destruct Hx]. }
  unfold dead. rewrite Hd, Ho. reflexivity.
Qed.

Definition alike (w0 : world) (t : tid) (w wt : world) : Prop :=
  calm w0 wt /\ (exists st st', w_thr w !! t = Some st /\ w_thr wt !! t = Some st' /\ splain st = splain st') /\
  (forall s, lock_of w s = Some t <-> lock_of wt s = Some t) /\ (forall s t', lock_of wt s = Some t' -> t' = t) /\
  exists new new', w_log w = new ++ w_log w0 /\ w_log wt = new' ++ w_log w0 /\ map unnumbered (mine t new) = map unnumbered (mine t new').
(** [ns t]: how many steps thread [t] has made. *)
Definition all_alike (e : env) (w0 : world) (ns : tid -> nat) (w : world) : Prop :=
  calm w0 w /\ length (w_thr w) = length (w_thr w0) /\
  (exists new, w_log w = new ++ w_log w0 /\ Forall (fun ev => exists t, t < length (w_thr w0) /\ thread_of ev = Some t) new) /\
  forall t st0, w_thr w0 !! t = Some st0 -> exists wt, run e w0 (alone t (ns t)) = inl wt /\ alike w0 t w wt.

Lemma alone_snoc t n : alone t (S n) = alone t n ++ [(t, MOk)].
Proof. unfold alone. induction n as [|n IH]; cbn in *; [reflexivity|]. rewrite <- IH. reflexivity. Qed.
Lemma alone_step e w0 t n w : run e w0 (alone t n) = inl w -> run e w0 (alone t (S n)) = match step e w t MOk with SOk w' => inl w' | SBlocked | SDone => inl w | SUB u => inr u end.
Proof. intros H. rewrite alone_snoc, run_app, H. cbn. destruct (step e w t MOk); reflexivity. Qed.

Lemma mine_all t n1 : Forall (fun ev => thread_of ev = Some t) n1 -> mine t n1 = n1.
Proof. induction 1 as [|ev n1 H1 _ IH]; [reflexivity|]. rewrite mine_cons by auto. congruence. Qed.
Lemma mine_others t t' n1 : t' <> t -> Forall (fun ev => thread_of ev = Some t) n1 -> mine t' n1 = [].
Proof. intros Hn. induction 1 as [|ev n1 H1 _ IH]; [reflexivity|]. rewrite mine_skip; [exact IH|]. congruence. Qed.

Lemma write_holds e ps w t s k r : reachable e ps w -> w_thr w !! t = Some (FWrite s k :: r) -> lock_of w s = Some t.
Proof.
  intros Hr Ht. destruct (hold_unique w t (FWrite s k) r s (I_lock_inv _ _ _ Hr) Ht) as (_ & _ & g & Hg & Hl); [cbn; rewrite decide_True; auto|].
  unfold lock_of. rewrite Hg. exact Hl.
Qed.

Definition one_more (t : tid) (ns : tid -> nat) (t' : tid) : nat := if decide (t' = t) then S (ns t) else ns t'.
Lemma all_alike_step e ps w0 ns w t m : looking_client e -> still w0 -> reachable e ps w -> all_alike e w0 ns w ->
  match step e w t m with
  | SOk w' => all_alike e w0 (one_more t ns) w' /\ exists wt w1, run e w0 (alone t (ns t)) = inl wt /\ step e wt t MOk = SOk w1
  | SBlocked => True
  | SDone => forall st0, w_thr w0 !! t = Some st0 -> exists wt, run e w0 (alone t (ns t)) = inl wt /\ alike w0 t w wt /\ step e wt t MOk = SDone
  | SUB u => exists n, run e w0 (alone t n) = inr u
  end.
Proof.
  intros Hcl H0 Hre (Hc & Hlen & (new0 & Hn0 & Hth0) & Hall). unfold step. destruct (w_thr w !! t) as [st|] eqn:Est.
  2:{ intros st0 Est0. apply lookup_lt_Some in Est0. rewrite <- Hlen in Est0. apply lookup_ge_None in Est. lia. }
  destruct (lookup_lt_is_Some_2 (w_thr w0) t) as [st0 Est0]; [rewrite <- Hlen; eapply lookup_lt_Some; eauto|].
  destruct (Hall _ _ Est0) as (wt & Hrun & Hct & (st2 & st' & E2 & Est' & Hpl) & Hag & Hso & new & new' & Hn & Hn' & Hev).
  rewrite Est in E2. injection E2 as <-.
  assert (Hal : alike w0 t w wt) by (split; [exact Hct|]; split; [eauto 6|]; split; [exact Hag|]; split; [exact Hso|]; eauto 6).
  assert (Hf : Forall (ok_frame w0) st) by (destruct Hc as (_ & _ & _ & _ & Hc5); eauto).
  assert (Hf' : Forall (ok_frame w0) st') by (destruct Hct as (_ & _ & _ & _ & Hc5); eauto).
  assert (Hw : forall s k r, st = FWrite s k :: r -> lock_of w s = Some t) by (intros s k r ->; eapply write_holds; eauto).
  pose proof (sim_lstep e w0 w wt t Hcl H0 Hc Hct Hag Hso m st st' Hpl Hf Hf' Hw) as Hfo.
  destruct (lstep e w t m st) as [w1 st1| | |u].
  2: exact I.
  2:{ intros st1 _. exists wt. split; [exact Hrun|]. split; [exact Hal|]. rewrite Est'. cbn in Hfo. rewrite Hfo. reflexivity. }
  - destruct Hfo as (w1' & st1' & n1 & n1' & El & Hp1 & Hf1 & Hf1' & Hl & Hl' & Lg & Lg' & Hm & Ht1 & Ht1' & Hag1 & Hso1 & Hoth).
    rewrite (calm_reap e w0) by auto. pose proof (calm_step _ _ _ t _ Hc Hl Hf1) as Hc1.
    split; [|exists wt; eexists; split; [exact Hrun|]; rewrite Est', El; reflexivity]. split; [exact Hc1|].
    split; [cbn; rewrite insert_length; destruct Hl as (_ & _ & _ & _ & ->); exact Hlen|].
    split; [exists (n1 ++ new0); cbn; split; [rewrite Lg, Hn0; apply app_assoc|apply Forall_app; split; [|exact Hth0]; eapply Forall_impl; [exact Ht1|]; intros ev Hev1; exists t; split; [eapply lookup_lt_Some; eauto|exact Hev1]]|].
    intros t' st0' Hst0'. destruct (decide (t' = t)) as [->|Hne].
    + exists (w_set_stack w1' t st1'). unfold one_more. rewrite decide_True by reflexivity. split.
      { rewrite (alone_step _ _ _ _ _ Hrun). unfold step. rewrite Est', El, (calm_reap e w0) by auto. reflexivity. }
      split; [apply (calm_step _ wt); auto|]. split; [exists st1, st1'; cbn; destruct Hl as (_ & _ & _ & _ & ->), Hl' as (_ & _ & _ & _ & ->);
        rewrite !list_lookup_insert by (eapply lookup_lt_Some; eauto); auto|].
      split; [exact Hag1|]. split; [exact Hso1|]. exists (n1 ++ new), (n1' ++ new'). cbn. rewrite Lg, Lg', Hn, Hn', !mine_app, (mine_all t n1), (mine_all t n1'), !map_app, Hm, Hev by assumption.
      rewrite !app_assoc. auto.
    + destruct (Hall _ _ Hst0') as (wt2 & Hrun2 & Hct2 & (sta & stb & Ea & Eb & Hab) & Hag2 & Hso2 & newa & newb & Hna & Hnb & Hevab).
      exists wt2. unfold one_more. rewrite decide_False by auto. split; [exact Hrun2|]. split; [exact Hct2|]. split; [exists sta, stb; cbn; destruct Hl as (_ & _ & _ & _ & ->); rewrite list_lookup_insert_ne by auto; auto|].
      split; [|split; [exact Hso2|]].
      { intros s. change (lock_of (w_set_stack w1 t st1) s) with (lock_of w1 s). rewrite (Hoth s t') by auto. apply Hag2. }
      exists (n1 ++ newa), newb. cbn. rewrite Lg, Hna, mine_app, (mine_others t t' n1) by auto. rewrite app_assoc. auto.
  - exists (S (ns t)). rewrite (alone_step _ _ _ _ _ Hrun). unfold step. rewrite Est'. cbn in Hfo. rewrite Hfo. reflexivity.
Qed.

Lemma unlocked e ps w0 s g t : reachable e ps w0 -> still w0 -> w_sigs w0 !! s = Some g -> sg_lock g = Some t -> False.
Proof.
  intros Hr H0 Eg Hl. destruct (owner_exists _ _ _ Hr _ _ _ Eg Hl) as [st Hst]. destruct (proj1 (lock_iff _ _ _ _ _ s Hr Hst)) as (f & Hf & Hs); [eauto|].
  destruct (H0 _ _ Hst) as [(o & ->)|(p & -> & Hp)]; apply elem_of_list_singleton in Hf; subst; destruct Hs.
Qed.
Lemma all_alike_start e ps w0 : reachable e ps w0 -> still w0 -> all_alike e w0 (fun _ => 0) w0.
Proof.
  intros Hr H0. assert (Hc : calm w0 w0).
  { split; [reflexivity|]. repeat (split; [reflexivity|]). intros t st Ht. destruct (H0 _ _ Ht) as [(o & ->)|(p & -> & Hp)]; repeat constructor. exact Hp. }
  split; [exact Hc|]. split; [reflexivity|]. split; [exists []; auto|]. intros t st0 Ht.
  assert (Hno : forall s t', lock_of w0 s <> Some t').
  { intros s t' Hl. unfold lock_of in Hl. destruct (w_sigs w0 !! s) as [g|] eqn:Eg; [|discriminate]. cbn in Hl.
    exact (unlocked _ _ _ _ _ _ Hr H0 Eg Hl). }
  exists w0. split; [reflexivity|]. split; [exact Hc|]. split; [eauto|]. split; [tauto|]. split; [intros s t' Hl; destruct (Hno _ _ Hl)|]. exists [], []. auto.
Qed.

Lemma run_reachable e ps w0 sc w : reachable e ps w0 -> run e w0 sc = inl w -> reachable e ps w.
Proof. intros [sc0 H0] H. exists (sc0 ++ sc). rewrite run_app, H0. exact H. Qed.

Lemma all_alike_run e ps w0 sc : looking_client e -> reachable e ps w0 -> all_lookers w0 ->
  match run e w0 sc with
  | inl w => exists ns, all_alike e w0 ns w
  | inr u => exists t n, run e w0 (alone t n) = inr u
  end.
Proof.
  intros Hcl Hr H0. induction sc as [|[t m] sc IH] using rev_ind; [cbn; eexists; eapply all_alike_start; eauto|].
  rewrite run_app. destruct (run e w0 sc) as [w|u] eqn:E; [|exact IH]. destruct IH as [ns IH].
  pose proof (all_alike_step e ps w0 ns w t m Hcl H0 (run_reachable _ _ _ _ _ Hr E) IH) as Hs. cbn. destruct (step e w t m); eauto. destruct Hs as [Hs _]. eauto.
Qed.

Lemma ret_plain st o : splain st = [FRet o] -> st = [FRet o].
Proof. destruct st as [|f [|g st]]; cbn; try discriminate. destruct f; cbn; try discriminate; congruence. Qed.

Lemma as_if_alone e ps w0 sc w t st0 : looking_client e -> reachable e ps w0 -> all_lookers w0 -> w_thr w0 !! t = Some st0 -> run e w0 sc = inl w ->
  exists n wt evs, run e w0 (alone t n) = inl wt /\ done_by t w0 w evs /\ done_by t w0 wt evs /\ forall o, finished_with w t o <-> finished_with wt t o.
Proof.
  intros Hcl Hr H0 Ht Hrun. pose proof (all_alike_run e ps w0 sc Hcl Hr H0) as Ha. rewrite Hrun in Ha. destruct Ha as (ns & _ & _ & _ & Ha).
  destruct (Ha _ _ Ht) as (wt & Hn & _ & (st & st' & E & E' & Hp) & _ & _ & new & new' & Hl & Hl' & Hm).
  exists (ns t), wt, (map unnumbered (mine t new)). split; [exact Hn|]. split; [exists new; auto|]. split; [exists new'; split; auto|].
  intros o. unfold finished_with. rewrite E, E'. split; intros [= ->]; f_equal; [symmetry in Hp|]; apply ret_plain in Hp; auto.
Qed.
Lemma undefined_alone e ps w0 sc u : looking_client e -> reachable e ps w0 -> all_lookers w0 -> run e w0 sc = inr u -> exists t n, run e w0 (alone t n) = inr u.
Proof. intros Hcl Hr H0 Hrun. pose proof (all_alike_run e ps w0 sc Hcl Hr H0) as Ha. rewrite Hrun in Ha. exact Ha. Qed.
Lemma events_of_threads e ps w0 sc w : looking_client e -> reachable e ps w0 -> all_lookers w0 -> run e w0 sc = inl w ->
  exists new, w_log w = new ++ w_log w0 /\ Forall (fun ev => exists t, t < length (w_thr w0) /\ thread_of ev = Some t) new.
Proof. intros Hcl Hr H0 Hrun. pose proof (all_alike_run e ps w0 sc Hcl Hr H0) as Ha. rewrite Hrun in Ha. destruct Ha as (ns & Ha). apply Ha. Qed.
