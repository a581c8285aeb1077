(** * One thread: no object dies in the middle of a call *)
From Verif Require Import InvFault InvDeath.
From Verif Require Export QuietNeat.

Definition one_thread (w : world) : Prop := length (w_thr w) = 1.
Lemma one_thread_inv e ps w : length ps = 1 -> reachable e ps w -> one_thread w.
Proof.
  intros Hp. apply (reach_ind e ps one_thread); unfold one_thread.
  - cbn. rewrite map_length. exact Hp.
  - clear w. intros w t st w' st' Hr HI Ht Htr _. destruct (reap_spec e w w' t st') as (D & L & HD & HL & Hre & _). rewrite Hre. wcbn. rewrite insert_length, (trans_thr _ _ _ _ _ _ Htr). exact HI.
Qed.
Lemma one_only w t t' st st' : one_thread w -> w_thr w !! t = Some st -> w_thr w !! t' = Some st' -> t = t' /\ st = st'.
Proof. unfold one_thread. intros H H1 H2. apply lookup_lt_Some in H1 as Ha. apply lookup_lt_Some in H2 as Hb. assert (t = 0) by lia. assert (t' = 0) by lia. subst. split; congruence. Qed.

(** A call that is past the check of its object finds it alive. *)
Definition top_ok (w : world) (st : list frame) : Prop :=
  match st with
  | FSlot r g _ _ _ _ :: _ => g <> SDead /\ (g = SConn \/ g = SDisp -> forall i, get_ref w r = Some i -> expired w (im_c i) = false)
  | _ => True
  end.
Definition add_conn_ok (f : frame) : Prop :=
  match f with FLock _ (KAdd i) | FWrite _ (KAdd i) | FBody _ _ (KAdd i) => im_conn i = true | _ => True end.
Definition us_conn (r : usv) : Prop := forall i, us_impl r = Some i -> im_conn i = true.
Record I_one (w : world) : Prop := {
  o_top : forall t st, w_thr w !! t = Some st -> top_ok w st;
  o_us : Forall us_conn (v_us (w_vars w));
  o_add : AF add_conn_ok w }.

Lemma us_get x u r : Forall us_conn (v_us x) -> get_us x u = Some r -> us_conn r.
Proof. intros HF. unfold get_us. destruct (v_us x !! u) as [r'|] eqn:E; [|discriminate]. destruct (us_live r'); [|discriminate]. intros [= <-]. rewrite Forall_lookup in HF. eauto. Qed.
Lemma us_alter f u xs : Forall us_conn xs -> (forall r, us_conn r -> us_conn (f r)) -> Forall us_conn (alter f u xs).
Proof. intros HF Hf. apply Forall_alter; [exact HF|]. intros x _ Hx. auto. Qed.
Lemma us_put u i xs : Forall us_conn xs -> (forall j, i = Some j -> im_conn j = true) -> Forall us_conn (alter (fun r => UsV (us_live r) i) u xs).
Proof. intros HF Hi. apply us_alter; [exact HF|]. intros r _ j Hj. cbn in Hj. auto. Qed.
Lemma us_vop w t v x o f : exec_vop w t v = VOk x o f -> Forall us_conn (v_us (w_vars w)) -> Forall us_conn (v_us x).
Proof.
  intros Hx HF.
  assert (HG := fun u r => us_get (w_vars w) u r HF).
  destruct v; unfold exec_vop, blk_eff, disc_res in Hx; cbv zeta in Hx; repeat case_match; simplify_eq; cbn; auto;
    repeat match goal with H : get_us _ _ = Some _ |- _ => apply HG in H end;
    unfold put_us, kill_us; cbn; try (case_bool_decide; [exact HF|]); cbn;
    try (apply Forall_app; split; [|repeat constructor]); try (apply us_put); try (apply us_put); auto;
    try (intros i Hi; cbn in Hi; simplify_eq; eauto; fail);
    try (intros i Hi; cbn in Hi; destruct (us_impl _) eqn:E; cbn in Hi; simplify_eq; cbn; eauto; fail);
    try (apply us_alter; [exact HF|]; intros r _ i Hi; discriminate Hi).
Qed.

Lemma one_pins o st f g D : (forall o, frame_pins_obj o f = frame_pins_obj o g) -> existsb (frame_pins_obj o) (f :: st) = true -> existsb (frame_pins_obj o) (D ++ g :: st) = true.
Proof. intros H. rewrite existsb_app. cbn. rewrite H. intros ->. apply orb_true_r. Qed.
Lemma pins_upd o st st' (ss : list (list frame)) t : ss !! t = Some st -> (existsb (frame_pins_obj o) st = true -> existsb (frame_pins_obj o) st' = true) ->
  existsb (existsb (frame_pins_obj o)) ss = true -> existsb (existsb (frame_pins_obj o)) (<[t := st']> ss) = true.
Proof.
  intros Ht Hs. rewrite !existsb_exists. intros (x & Hx & Hp). apply elem_of_list_In, elem_of_list_lookup in Hx as [t0 Hx]. destruct (decide (t0 = t)) as [->|Hn].
  - exists st'. split; [|apply Hs; congruence]. apply elem_of_list_In, elem_of_list_lookup. exists t. apply list_lookup_insert. eapply lookup_lt_Some; eauto.
  - exists x. split; [|exact Hp]. apply elem_of_list_In, elem_of_list_lookup. exists t0. rewrite list_lookup_insert_ne by congruence. exact Hx.
Qed.

Section one.
Context (e : env) (ps : list prog).
Hypothesis Hone : length ps = 1.
Lemma I_one_inv w : reachable e ps w -> I_one w.
Proof.
  intros Hr0. revert w Hr0. apply (reach_ind e ps I_one).
  - split; [|constructor|apply AF_init; intros; exact I].
    intros t st Ht. cbn in Ht. rewrite list_lookup_fmap in Ht. destruct (ps !! t); cbn in Ht; simplify_eq. exact I.
  - intros w t st w' st' Hr [HT HU HA] Ht Htr Hr'.
    pose proof (one_thread_inv e ps w Hone Hr) as Hw1.
    destruct (reap_spec e w w' t st') as (D & L & HD & HL & Hre & _). pose proof (trans_thr _ _ _ _ _ _ Htr) as Hthr.
    assert (Hst : forall t0 x, w_thr (reap e w w' t st') !! t0 = Some x -> t0 = t /\ x = D ++ st').
    { intros t0 x Hx. assert (Hme : w_thr (reap e w w' t st') !! t = Some (D ++ st')).
      { rewrite Hre. wcbn. apply list_lookup_insert. rewrite ?insert_length, Hthr. eapply lookup_lt_Some; eauto. }
      pose proof (one_thread_inv e ps _ Hone Hr') as H1. destruct (one_only _ _ _ _ _ H1 Hx Hme) as [-> ->]. auto. }
    specialize (HT _ _ Ht). specialize (HA _ _ Ht). split.
    + intros t0 x Hx. destruct (Hst _ _ Hx) as [-> ->]. destruct D as [|d D].
      2:{ apply Forall_cons in HD as [[[? ->]|[p ->]] _]; exact I. }
      cbn [app] in *. destruct Htr; try exact I; try (split; [discriminate|]; intros [H'|H']; discriminate H').
      * (* adv *) pose proof (I_call_inv _ _ _ Hr _ _ Ht) as HC. rewrite Forall_cons in HC. destruct HC as [HC _].
        cbn [top_ok] in HT |- *. destruct HT as [HT1 HT2].
        assert (Hmono : forall o, pin = pin' -> obj_alive w o = true -> obj_alive (reap e w w t (FSlot r g' args pin' eid start :: st)) o = true).
        { intros o <-. rewrite Hre. unfold obj_alive. wcbn. rewrite !orb_true_iff. intros [H2|H2]; [left; exact H2|right]. eapply pins_upd; [exact Ht| |exact H2].
          intros H3. exact H3. }
        assert (Hexp : forall c, pin = pin' -> expired w c = false -> expired (reap e w w t (FSlot r g' args pin' eid start :: st)) c = false).
        { intros c Hp. unfold expired. destruct (c_kind c); auto. rewrite !negb_false_iff. apply Hmono. exact Hp. }
        assert (Hget : forall j, get_ref (reap e w w t (FSlot r g' args pin' eid start :: st)) r = Some j -> j = i).
        { intros j. rewrite Hre. destruct r; wcbn; cbn in *; wcbn; congruence. }
        destruct H1; (split; [try discriminate|intros [H'|H']; try discriminate H'; intros j Hj; apply Hget in Hj as ->; apply Hexp; auto]).
        exfalso. specialize (HT2 (or_intror eq_refl) i H0). unfold expired in HT2. rewrite H1, H2 in HT2. discriminate.
      * (* dtor *) destruct st as [|[] st]; try exact I. assert (Hg : g = SRun).
        { assert (Hd : g = SRun \/ g <> SRun) by (destruct g; auto; right; discriminate). destruct Hd as [|Hg]; [assumption|]. pose proof (slot_top _ _ _ _ _ [FRet o; FDtor d] r g args pin eid start st Hr Ht eq_refl Hg). discriminate. }
        subst g. split; [discriminate|]. intros [H'|H']; discriminate H'.
    + rewrite Hre. wcbn. destruct Htr; wcbn; autorewrite with wsimp; auto; try (eapply us_vop; eauto; fail).
      * erewrite exec_us_do by eauto. exact HU.
      * erewrite exec_us_do by eauto. exact HU.
      * destruct r; wcbn; [exact HU|]. apply us_alter; [exact HU|]. intros r Hc i Hi. cbn in Hi. destruct (us_impl r) eqn:E; [|discriminate]. injection Hi as <-. cbn. eauto.
      * destruct HT as [HT _]. congruence.
    + intros t0 x Hx. destruct (Hst _ _ Hx) as [-> ->]. apply Forall_app. split; [eapply Forall_impl; [exact HD|]; intros f [[? ->]|[p ->]]; exact I|].
      clear Hst Hx Hre HT. destruct Htr; rewrite ?Forall_cons in HA; repeat first [rewrite Forall_cons | rewrite Forall_app];
        destruct_and?; repeat (match goal with |- _ /\ _ => split end); auto; try exact I.
      * apply vop_after in H. eapply Forall_impl; [exact H|]. intros []; cbn; auto; contradiction.
      * apply vop_after in H. eapply Forall_impl; [exact H|]. intros []; cbn; auto; contradiction.
      * destruct H; cbn; auto. apply us_get in H; [|exact HU]. apply H. reflexivity.
      * apply begins_fr in H. eapply Forall_impl; [exact H|]. intros []; cbn; auto; contradiction.
Qed.
Lemma one_born w l : reachable e ps w -> ~ born_disconnected (w_log w) l.
Proof.
  intros Hr (i & Hi & Hc). apply conn0_elem in Hi as (t & s & Hin). apply elem_of_list_split in Hin as (a & b & Hl).
  assert (HL : log_all (fun ev pre => match ev with EConn t s l i => im_conn i = true | _ => True end) (w_log w)).
  { clear Hl. revert Hr. apply log_all_hist; [intros []; cbn; auto; discriminate|].
    clear w. intros w t0 st w' st' ev pre Hr Ht Htr Hlg. destruct ev; auto. pose proof (o_add _ (I_one_inv w Hr) _ _ Ht) as HA. logs_inv Htr Hlg.
    apply Forall_cons in HA as [HA _]. exact HA. }
  pose proof (HL _ _ _ Hl) as H. cbn in H. congruence.
Qed.
(** With one thread a slot in a list that is not just being disconnected has its flag set. *)
Theorem one_listed w s l : reachable e ps w -> none_inside w l -> l ∈ slots_of w s -> spec_flag (w_log w) l = true.
Proof.
  intros Hr Hn Hl. destruct (listed_settled e ps (fun _ _ => False) w s l) as [H|[H|H]]; auto.
  - intros w0 t l0 args pin eid start st Hr0 Ht. pose proof (o_top _ (I_one_inv w0 Hr0) _ _ Ht) as HT. destruct HT as [HT _]. congruence.
  - destruct (one_born w l Hr H).
Qed.
Theorem one_at_rest w s l : reachable e ps w -> all_finished w -> (forall t s l, EErased t s l ∉ w_log w) -> (forall s1 s2, EMoveSig s1 s2 ∉ w_log w) ->
  l ∈ slots_of w s <-> spec_home (w_log w) l = Some s /\ spec_flag (w_log w) l = true.
Proof.
  intros Hr Hf Hne Hnm. split.
  - intros Hl. assert (H : spec_flag (w_log w) l = true).
    { apply (one_listed w s l Hr); [|exact Hl]. intros t st Ht Hin. destruct (Hf _ _ Ht) as (o & Ho). rewrite Ht in Ho. injection Ho as ->. apply elem_of_list_singleton in Hin. discriminate. }
    split; [|exact H]. destruct (connected_listed e ps w l Hr Hne H) as (s0 & Hs0 & s' & Hl' & [-> |[s2 Hm]]); [|destruct (Hnm _ _ Hm)].
    change slots_of with cur in Hl, Hl'. destruct (I_list_inv _ _ _ Hr) as (_ & _ & Hd & _). rewrite <- (Hd _ _ _ Hl' Hl). exact Hs0.
  - intros [Hh H]. destruct (connected_listed e ps w l Hr Hne H) as (s0 & Hs0 & s' & Hl' & [-> |[s2 Hm]]); [|destruct (Hnm _ _ Hm)]. congruence.
Qed.
End one.
