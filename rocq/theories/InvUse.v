(** * Clients whose operator== and destructors take no mutex: nobody waits in a circle *)
From Verif Require Export SpecUse InvOp.

Definition inner (r : list frame) : bool := match r with FEraseCmp _ _ _ _ _ _ :: _ | FDtor (inl _) :: _ => true | _ => false end.
Section loc.
Context (e : env).
Definition plainish (f : frame) : Prop :=
  match f with
  | FRet _ => True
  | FProg p => lockless e p
  | FWait k => forall o, lockless e (k o)
  | _ => False
  end.
(** The last part: the destructor of a tracked object is not inside one of a functor or operator==. *)
Definition loc (f : frame) (r : list frame) : Prop :=
  (inner r = true -> plainish f) /\
  match r with FWait _ :: r' => inner r' = true -> (exists o, f = FRet o) \/ exists l, f = FTmp l | _ => True end /\
  match f with FDtor (inr _) => calm r | _ => True end.

Lemma lockless_after w t v x l after : lockless_var e v -> exec_vop w t v <> VDo x l after.
Proof.
  unfold exec_vop. intros Hl H. destruct v; try contradiction; try discriminate; repeat (dm H; try discriminate).
Qed.
Lemma lockless_inv o k : lockless e (Do o k) -> lockless_op e o /\ forall x, lockless e (k x).
Proof. intros H. inversion H; subst. auto. Qed.

Lemma lockless_slot_eq a b : lockless_env e -> lockless e (slot_eq e a b).
Proof.
  intros [He _]. assert (Ht : forall ty x y, lockless e (try_equals e ty x y)).
  { intros. unfold try_equals. case_match; [auto|constructor]. }
  assert (Hb : forall p f, lockless e p -> (forall o, lockless e (f o)) -> lockless e (bindp p f)).
  { intros p f Hp Hf. induction Hp; cbn; [auto|]. constructor; auto. }
  destruct a as [a|], b as [b|]; try constructor. unfold slot_eq, impl_eq.
  repeat case_match; try constructor; auto; apply Hb; auto; intros o; repeat case_match; try constructor; auto.
Qed.

Lemma loc_slots w ds st : lockless_env e -> is_active st -> AT loc st ->
  AT loc (flat_map (dtor_frames e w) (map inl ds) ++ st) /\ is_active (flat_map (dtor_frames e w) (map inl ds) ++ st).
Proof.
  intros [_ He] Ha HA. induction ds as [|d ds [IA IB]]; cbn; [auto|].
  unfold dtor_frames at 1 3. unfold dtor_prog at 1 2. destruct (w_slots w !! d) as [r|]; [|auto]. destruct (e_dtor e _) as [p|] eqn:Hd; [|auto]. cbn.
  split; [|reflexivity]. split; [|split; [|exact IA]].
  - split; [intros _; cbn; eauto|split; exact I].
  - destruct (flat_map (dtor_frames e w) (map inl ds) ++ st) as [|g r']; [contradiction|]. cbn in IB. split.
    + destruct g; discriminate || (cbn; discriminate).
    + split; [|exact I]. destruct g; try exact I. discriminate.
Qed.
Lemma loc_objs w os st : is_active st -> calm st -> AT loc st ->
  AT loc (flat_map (dtor_frames e w) (map inr os) ++ st) /\ is_active (flat_map (dtor_frames e w) (map inr os) ++ st) /\
  calm (flat_map (dtor_frames e w) (map inr os) ++ st).
Proof.
  intros Ha Hc HA. induction os as [|d ds (IA & IB & IC)]; cbn; [auto|].
  unfold dtor_frames at 1 3 5. destruct (dtor_prog e w (inr d)) as [p|]; [|auto]. cbn.
  split; [|split; [reflexivity|]].
  - split; [split; [discriminate|split; exact I]|]. split; [|exact IA].
    destruct (flat_map (dtor_frames e w) (map inr ds) ++ st) as [|g r']; [contradiction|]. cbn in IB. split.
    + destruct g; discriminate || (cbn; discriminate).
    + split; [|exact IC]. destruct g; try exact I. discriminate.
  - intros f Hf. repeat (apply elem_of_cons in Hf as [->|Hf]; [exact I|]). apply IC, Hf.
Qed.
Lemma no_odtors w os st : (forall o, o ∈ os -> e_odtor e o = None) -> flat_map (dtor_frames e w) (map inr os) ++ st = st.
Proof.
  intros H. induction os as [|o os IH]; [reflexivity|]. cbn [map flat_map]. unfold dtor_frames at 1. cbn [dtor_prog].
  rewrite H by apply elem_of_list_here. apply IH. intros o' Ho. apply H, elem_of_list_further, Ho.
Qed.

Definition I_loc (w : world) : Prop := forall t st, w_thr w !! t = Some st -> AT loc st.

Definition neutral (r : list frame) : Prop := inner r = false /\ match r with FWait _ :: r' => inner r' = false | _ => True end.
Lemma neutral_loc f r : neutral r -> match f with FDtor _ => False | _ => True end -> loc f r.
Proof. intros [H1 H2] Hf. split; [congruence|]. split; [|destruct f; auto; contradiction]. destruct r as [|[] r]; auto. congruence. Qed.
Lemma loc_neutral f r : loc f r -> match f with FRet _ | FProg _ | FWait _ | FTmp _ => False | _ => True end -> neutral r.
Proof.
  intros (H1 & H2 & _) Hf. split.
  - destruct (inner r); [|auto]. specialize (H1 eq_refl). destruct f; contradiction.
  - destruct r as [|[] r]; auto. destruct (inner r); [|auto]. destruct (H2 eq_refl) as [[o ->]|[l ->]]; contradiction.
Qed.
Lemma loc_op o k r : loc (FProg (Do o k)) r -> ~ lockless_op e o -> neutral (FWait k :: r).
Proof.
  intros (H1 & _) Hn. split; [reflexivity|]. destruct (inner r); [|auto]. destruct Hn. destruct (lockless_inv _ _ (H1 eq_refl)); auto.
Qed.

Lemma AT_suffix (P : frame -> list frame -> Prop) a b : AT P (a ++ b) -> AT P b.
Proof. induction a as [|f a IH]; [auto|]. intros [_ H]. auto. Qed.
(** When a tracked object is destroyed. *)
Lemma obj_dies_cases ps w t st w' st' : reachable e ps w -> w_thr w !! t = Some st -> trans e w t st w' st' ->
  dead_objs w (mid w' t st') = [] \/
  (dead_slots w (mid w' t st') = [] /\ exists o r, st' = FRet o :: r /\
     ((exists x k r0, st = FProg (Do (OVar (VResetObj x)) k) :: r0 /\ r = FWait k :: r0 /\ forall o', o' ∈ dead_objs w (mid w' t st') -> o' = x) \/
      match r with FDeref _ _ _ :: _ | FCallRet :: _ => True | _ => False end)).
Proof.
  intros Hr Ht Htr. pose proof (keeps_objs_dead _ _ _ _ _ _ _ Hr Ht Htr) as Hk. pose proof (trans_thr _ _ _ _ _ _ Htr) as Hthr.
  destruct (I_adj_inv _ _ _ Hr _ _ Ht) as [HA _].
  assert (Hsl : w_sigs w' = w_sigs w -> w_vecs w' = w_vecs w -> (forall f, f ∈ st -> f ∈ st' \/ forall l, frame_keeps w l f = false) -> dead_slots w (mid w' t st') = []).
  { intros Hs Hv Hf. apply (kills_sub w w' t st st' Ht Hthr); [..|exact Hf].
    - intros v l. rewrite (vec_of_ext w w') by auto. auto.
    - intros s r v H1 H2 H3. exists s, r, v. rewrite Hs. split; [auto|]. split; [auto|]. split; [auto|]. intros l. rewrite (vec_of_ext w w') by auto. auto. }
  assert (Hslot : forall r0 g args pin eid start r, AT adj (FSlot r0 g args pin eid start :: r) -> match r with FDeref _ _ _ :: _ | FCallRet :: _ => True | _ => False end).
  { intros r0 g args pin eid start r [H _]. cbn in H. destruct r0, eid; try contradiction; destruct r as [|[] r]; try contradiction; exact I. }
  assert (Hcases : keeps_objs st \/ ~ keeps_objs st).
  { destruct st as [|[] st]; cbn; auto.
    - destruct st as [|[] st]; auto.
    - destruct p as [|[]]; auto. destruct v; auto.
    - destruct g; auto. }
  destruct Hcases as [Hyes|Hno]; [left; auto|].
  destruct Htr; cbn [keeps_objs] in Hno; try (destruct Hno; exact I).
  all: try (match goal with v : vop, H : exec_vop _ _ _ = _ |- _ => destruct v; try (destruct Hno; exact I) end).
  all: try (match goal with H : begins _ _ _ _ _ |- _ => destruct H; destruct Hno; exact I end).
  all: try (match goal with H : exec_vop _ _ (VResetObj _) = _ |- _ => unfold exec_vop in H; repeat (dm H; try discriminate); fail end).
  all: try (match goal with H : exec_vop _ _ (VResetObj _) = VOk _ _ (EfLog _) |- _ => unfold exec_vop in H; cbv zeta in H; repeat (dm H; try discriminate); injection H as <- <- <- end).
  - right. split.
    + apply Hsl; [reflexivity|reflexivity|]. intros f Hf. apply elem_of_cons in Hf as [->|Hf]; [right; reflexivity|left].
      do 2 apply elem_of_list_further. exact Hf.
    + eexists _, _. split; [reflexivity|]. left. eexists _, _, _. split; [reflexivity|]. split; [reflexivity|].
      intros o' Ho. apply dead_objs_elem in Ho as (H1 & H2 & _). destruct (decide (o' = o0)) as [|Hne]; [assumption|exfalso].
      apply not_true_iff_false in H2. apply H2. apply obj_alive_iff in H1 as [Hs|(t0 & x & f & Hx & Hf & Hp)]; apply obj_alive_iff.
      * left. wcbn. cbn. rewrite list_lookup_insert_ne by auto. exact Hs.
      * right. wcbn. destruct (decide (t0 = t)) as [->|Hn].
        -- rewrite Ht in Hx. injection Hx as <-. apply elem_of_cons in Hf as [->|Hf]; [discriminate|].
           exists t, (FRet OutUnit :: FWait k :: st), f. rewrite list_lookup_insert by (eapply lookup_lt_Some; eauto).
           split; [reflexivity|]. split; [do 2 apply elem_of_list_further; exact Hf|exact Hp].
        -- exists t0, x, f. rewrite list_lookup_insert_ne by auto. auto.
  - discriminate.
  - match goal with H : can_oom ?o |- _ => destruct o; try destruct H; destruct Hno; exact I end.
  - right. split.
    + apply Hsl; [reflexivity|reflexivity|]. intros f Hf. apply elem_of_cons in Hf as [->|Hf]; [right; reflexivity|left].
      apply elem_of_list_further. exact Hf.
    + eexists _, _. split; [reflexivity|]. right. eapply Hslot, HA.
  - left. eapply advance_objs; eauto.
  - left. eapply no_dead_objs; [exact Ht|reflexivity|auto|]. intros f o Hf Hp. apply elem_of_cons in Hf as [->|Hf].
    + eexists. split; [apply elem_of_list_further, elem_of_list_here|exact Hp].
    + exists f. split; [do 2 apply elem_of_list_further; exact Hf|exact Hp].
  - right. split.
    + apply Hsl; [reflexivity|reflexivity|]. intros f Hf. do 2 (apply elem_of_cons in Hf as [->|Hf]; [right; reflexivity|]). left.
      apply elem_of_list_further. exact Hf.
    + eexists _, _. split; [reflexivity|]. right. eapply Hslot, HA.
Qed.

(** ** A thread about to lock holds nothing *)
Definition local_top (st : list frame) : bool :=
  match st with
  | FProg _ :: r | FWait _ :: r => inner r
  | FRet _ :: r => inner r || match r with FWait _ :: r' | FTmp _ :: FWait _ :: r' => inner r' | _ => false end
  | FTmp _ :: FWait _ :: r => inner r
  | _ => false
  end.
Lemma loc_calm f r : AT adj (f :: r) -> AT loc (f :: r) -> match f with FEraseCmp _ _ _ _ _ _ | FDtor _ => False | _ => True end ->
  local_top (f :: r) = false -> calm (f :: r).
Proof.
  revert f. induction r as [|g r IH]; intros f HA HL Hf Hl h Hh.
  - apply elem_of_list_singleton in Hh. subst. destruct f; auto; contradiction.
  - apply elem_of_cons in Hh as [->|Hh]; [destruct f; auto; contradiction|].
    destruct HA as [HA1 HA2]. destruct HL as [(Ho1 & Ho2 & _) HL2].
    assert (Hin : inner (g :: r) = false).
    { destruct (inner (g :: r)) eqn:Hi; [|auto]. specialize (Ho1 eq_refl). destruct f; try contradiction;
        cbn [local_top] in Hl; rewrite Hi in Hl; discriminate. }
    assert (Hgd : (exists x, g = FDtor x) \/ forall x, g <> FDtor x) by (destruct g; eauto; right; discriminate).
    destruct Hgd as [[[l|x] ->]|Hgd].
    { discriminate Hin. }
    { apply elem_of_cons in Hh as [->|Hh]; [exact I|]. destruct r as [|g' r]; [inversion Hh|]. destruct HL2 as [(_ & _ & Hc) _]. apply Hc, Hh. }
    apply (IH g); auto.
    + destruct g; cbn in Hin; try discriminate; try exact I. edestruct Hgd; reflexivity.
    + destruct (local_top (g :: r)) eqn:Hg; [|auto]. exfalso.
      destruct g; try discriminate Hg.
      * destruct f; cbn in HA1, Hf; try contradiction; try discriminate;
          try (destruct k; contradiction || discriminate);
          try (destruct HA1 as [HA1|[HA1|HA1]]; cbn in HA1; contradiction || discriminate);
          try (repeat (case_match; try contradiction)).
      * destruct f; cbn in HA1, Hf; try contradiction; try discriminate;
          try (destruct k; contradiction || discriminate);
          try (destruct HA1 as [HA1|[HA1|HA1]]; cbn in HA1; contradiction || discriminate);
          try (repeat (case_match; try contradiction)).
      * cbn in Hg. destruct (Ho2 Hg) as [[o ->]|[l ->]]; cbn in Hl; rewrite Hg in Hl; discriminate.
      * destruct r as [|[] r]; try discriminate Hg. cbn in Hg. destruct f; cbn in HA1, Hf; try contradiction; try discriminate;
          try (match goal with k : crit |- _ => destruct k; contradiction || discriminate end);
          try (repeat (case_match; try contradiction)).
        cbn in Hl. rewrite Hg in Hl. discriminate.
Qed.

Lemma I_loc_inv ps w : lockless_env e -> reachable e ps w -> I_loc w.
Proof.
  intros He. apply reach_ind.
  - intros t st Ht. cbn in Ht. rewrite list_lookup_fmap in Ht. destruct (ps !! t); cbn in Ht; simplify_eq. cbn.
    split; [split; [discriminate|split; exact I]|exact I].
  - clear w. intros w t st w' st' Hr HI Ht Htr Hrw.
    destruct (reap_spec e w w' t st') as (D & L & HD & HL & Hreap & HDeq & _).
    pose proof (trans_thr _ _ _ _ _ _ Htr) as Hthr. rewrite Hreap.
    intros t' x Hx. wcbn_in Hx. rewrite Hthr in Hx.
    destruct (thr_upd _ _ _ _ _ _ Ht Hx) as [[-> ->]|[Hn Hx']]; [|eauto].
    destruct (I_adj_inv _ _ _ Hr _ _ Ht) as [HA Hac]. specialize (HI _ _ Ht).
    enough (Hst' : AT loc st' /\ is_active st').
    { destruct Hst' as [HL' Hac']. subst D. unfold dead. rewrite flat_map_app, <- app_assoc.
      destruct (loc_slots (mid w' t st') (dead_slots w (mid w' t st')) st' He Hac' HL') as [H1 H2].
      destruct (obj_dies_cases _ _ _ _ _ _ Hr Ht Htr) as [Hno|[Hno (o & r & -> & Hlt)]]; [rewrite Hno; exact H1|].
      rewrite Hno. cbn [map flat_map app].
      assert (Hadj : AT adj (FRet o :: r)).
      { pose proof (I_adj_inv _ _ _ Hrw) as Hn. rewrite Hreap in Hn. specialize (Hn t). wcbn_in Hn. rewrite Hthr in Hn.
        rewrite list_lookup_insert in Hn by (eapply lookup_lt_Some; eauto). destruct (Hn _ eq_refl) as [Hn' _]. apply AT_suffix in Hn'. exact Hn'. }
      destruct Hlt as [(x & k & r0 & -> & -> & Hall)|Hlt].
      - destruct (e_odtor e x) as [p|] eqn:Hx0.
        + apply loc_objs; auto. apply loc_calm; auto. cbn [local_top inner orb].
          destruct HI as [HI _]. apply loc_op in HI; [|cbn; congruence]. apply HI.
        + rewrite no_odtors; [exact HL'|]. intros o' Ho'. rewrite (Hall _ Ho'). exact Hx0.
      - apply loc_objs; auto. apply loc_calm; auto. destruct r as [|[] r]; try contradiction; reflexivity. }
    subst D. split; [|].
    2:{ clear - HA Htr. destruct Htr; cbn [AT adj] in HA; destruct_and?; cbn; auto.
      match goal with H : advances _ _ _ _ _ _ _ |- _ => destruct H; reflexivity end. }
    { clear Hx HD HL Hreap Hrw L Ht Hthr.
      assert (Hdo : forall o k r, loc (FProg (Do o k)) r -> loc (FWait k) r).
      { intros o k r (H1 & H2 & _). split; [intros Hi o'; destruct (lockless_inv _ _ (H1 Hi)); auto|]. split; [|exact I].
        destruct r as [|[] r]; auto. intros Hi. destruct (H2 Hi) as [[? ?]|[? ?]]; discriminate. }
      assert (Htmp : forall l k r, loc (FTmp l) (FWait k :: r)) by (intros l0 k0 r0; split; [discriminate|split; [intros _; eauto|exact I]]).
      assert (Hret3 : forall o r, loc (FRet o) r).
      { intros o r. split; [intros _; exact I|]. split; [|exact I]. destruct r as [|[] r]; eauto. }
      destruct Htr; cbn [AT] in HI, HA |- *; destruct_and?;
        repeat (match goal with |- _ /\ _ => split end); eauto.
      all: try (match goal with H : AT loc ?s |- AT loc ?s => exact H end).
      all: try (apply neutral_loc; [|exact I]; eapply loc_neutral; [eassumption|exact I]).
      all: try (apply neutral_loc; [|exact I]; eapply loc_op; [eassumption|cbn; tauto]; fail).
      all: try (apply neutral_loc; [|exact I]; split; [reflexivity|exact I]; fail).
      all: try (match goal with H : exec_vop _ _ _ = VDo _ _ _, Hl : loc (FProg (Do (OVar _) _)) _ |- _ =>
                  assert (Hnl : neutral (FWait k :: st)) by (eapply loc_op; [exact Hl|cbn; intros Hll; exact (lockless_after _ _ _ _ _ _ Hll H)]);
                  destruct (vop_after' _ _ _ _ _ _ H) as [->|[(d & m & ->)|[(d & s & ->)| ->]]] end;
                cbn [app AT]; repeat (match goal with |- _ /\ _ => split end); eauto;
                first [apply neutral_loc; [|exact I]; exact Hnl|apply neutral_loc; [|exact I]; split; [reflexivity|exact I]]; fail).
      * match goal with H : begins _ _ _ _ _, Hl : loc (FProg (Do _ _)) _ |- _ =>
          assert (Hnl : neutral (FWait k :: st)) by (eapply loc_op; [exact Hl|destruct H; cbn; tauto]); destruct H end;
          cbn [app]; (apply neutral_loc; [|exact I]); first [exact Hnl|split; [reflexivity|exact I]].
      * match goal with H : begins _ _ _ _ _, Hl : loc (FProg (Do _ _)) _ |- _ =>
          assert (Hnl : neutral (FWait k :: st)) by (eapply loc_op; [exact Hl|destruct H; cbn; tauto]); destruct H end;
          cbn [app AT]; repeat (match goal with |- _ /\ _ => split end); eauto;
          (apply neutral_loc; [|exact I]); exact Hnl.
      * split; [|split; exact I]. intros _. cbn [plainish]. apply lockless_slot_eq. auto.
      * match goal with H : loc (FWait k) st |- _ => destruct H as (Hx1 & Hx2 & _) end. split; [intros Hi; exact (Hx1 Hi o)|].
        split; [|exact I]. destruct st as [|[] st]; auto. intros Hi. destruct (Hx2 Hi) as [[? ?]|[? ?]]; discriminate. }
Qed.

End loc.

Lemma lock_holds_nothing e ps w t s k st : lockless_env e -> reachable e ps w -> w_thr w !! t = Some (FLock s k :: st) ->
  forall s', ~ owns w t s'.
Proof.
  intros He Hr Ht s' (r & Hs & Hl). destruct (I_adj_inv _ _ _ Hr _ _ Ht) as [HA _].
  pose proof (I_loc_inv _ _ _ He Hr _ _ Ht) as HL.
  eapply no_lock_in_callbacks; [exact Hr|exact Ht| | |exact Hs|exact Hl].
  - apply (loc_calm e); auto.
  - intros s'' Hi. exact Hi.
Qed.

Lemma owner_exists e ps w : reachable e ps w -> forall s r t, w_sigs w !! s = Some r -> sg_lock r = Some t -> exists st, w_thr w !! t = Some st.
Proof.
  revert w. apply (reach_ind2 e ps (fun w => forall s r t, w_sigs w !! s = Some r -> sg_lock r = Some t -> exists st, w_thr w !! t = Some st)).
  - intros s r t H. cbn in H. discriminate.
  - intros w t0 st w' st' Hr HI Ht Htr s r t Hs Hl. wcbn_in Hs. wcbn. rewrite (trans_thr _ _ _ _ _ _ Htr).
    assert (H : t = t0 \/ exists st, w_thr w !! t = Some st).
    { destruct (trans_sigs _ _ _ _ _ _ _ _ Htr Hs); cbn in Hl; try discriminate; try (right; eapply HI; eassumption).
      left. congruence. }
    destruct H as [->|[x Hx]].
    + exists st'. apply list_lookup_insert. eapply lookup_lt_Some; eauto.
    + destruct (decide (t = t0)) as [->|Hn]; [exists st'; apply list_lookup_insert; eapply lookup_lt_Some; eauto|].
      exists x. rewrite list_lookup_insert_ne; auto.
  - intros w t0 st D L HI Ht _ _ s r t Hs Hl. wcbn_in Hs. wcbn. destruct (HI _ _ _ Hs Hl) as [x Hx].
    destruct (decide (t = t0)) as [->|Hn]; [eexists; apply list_lookup_insert; eapply lookup_lt_Some; eauto|].
    exists x. rewrite list_lookup_insert_ne; auto.
Qed.

Ltac nores H := try discriminate; repeat (dm H; try discriminate).
Lemma blocked_on e w t fail : step e w t fail = SBlocked ->
  exists s k st r t', w_thr w !! t = Some (FLock s k :: st) /\ w_sigs w !! s = Some r /\ sg_lock r = Some t' /\ t' <> t.
Proof.
  unfold step. destruct (w_thr w !! t) as [st|]; [|discriminate]. destruct (lstep e w t fail st) eqn:Hl; try discriminate. intros _.
  destruct st as [|f st]; [discriminate|]. destruct f; cbn in Hl; try discriminate.
  - destruct st as [|g st]; [discriminate|]. unfold deliver in Hl. destruct g; nores Hl.
  - destruct p as [|o k]; [discriminate|]. unfold start_op in Hl. destruct o; nores Hl.
  - nores Hl.
  - unfold get_sig in Hl. destruct (w_sigs w !! s) as [r|] eqn:Hs; [|discriminate]. destruct (sg_alive r); [|discriminate].
    destruct (sg_lock r) as [t'|] eqn:Hlk; [|discriminate]. destruct (Nat.eqb t t') eqn:He; [discriminate|]. apply Nat.eqb_neq in He.
    exists s, k, st, r, t'. split; [auto|]. split; [auto|]. split; [auto|]. congruence.
  - unfold step_write in Hl. nores Hl.
  - unfold step_body in Hl. nores Hl.
  - nores Hl.
  - unfold step_slot, skip in Hl. nores Hl.
Qed.

Lemma done_stack e w t fail st : step e w t fail = SDone -> w_thr w !! t = Some st -> st = [] \/ exists o, st = [FRet o].
Proof.
  unfold step. intros H Ht. rewrite Ht in H. destruct (lstep e w t fail st) eqn:Hl; try discriminate. clear H.
  destruct st as [|f st]; [auto|]. right. destruct f; cbn in Hl; try discriminate.
  - destruct st as [|g st]; [eauto|]. unfold deliver in Hl. destruct g; nores Hl.
  - destruct p as [|o k]; [discriminate|]. unfold start_op in Hl. destruct o; nores Hl.
  - nores Hl.
  - nores Hl.
  - unfold step_write in Hl. nores Hl.
  - unfold step_body in Hl. nores Hl.
  - nores Hl.
  - unfold step_slot, skip in Hl. nores Hl.
Qed.

Lemma owner_moves e ps w t s : lockless_env e -> reachable e ps w -> owns w t s -> can_move e w t.
Proof.
  intros He Hr (r & Hs & Hl) fail. destruct (owner_exists _ _ _ Hr _ _ _ Hs Hl) as [st Ht].
  destruct (proj1 (lock_iff _ _ _ _ _ s Hr Ht)) as (f & Hf & Hi); [eauto|]. split; intros Hstep.
  - destruct (blocked_on _ _ _ _ Hstep) as (s' & k & st' & _ & _ & Ht' & _). 
    eapply lock_holds_nothing; [exact He|exact Hr|exact Ht'|]. exists r. eauto.
  - destruct (done_stack _ _ _ _ _ Hstep Ht) as [->|[o ->]]; [inversion Hf|].
    apply elem_of_list_singleton in Hf. subst. contradiction.
Qed.

Lemma blocked_by e ps w t fail : lockless_env e -> reachable e ps w -> step e w t fail = SBlocked ->
  exists t' s, t' <> t /\ owns w t' s /\ can_move e w t'.
Proof.
  intros He Hr Hs. destruct (blocked_on _ _ _ _ Hs) as (s & k & st & r & t' & Ht & Hsg & Hl & Hn).
  exists t', s. split; [auto|]. assert (Ho : owns w t' s) by (exists r; auto). split; [auto|]. eapply owner_moves; eauto.
Qed.

Lemma no_stuck e ps w : lockless_env e -> reachable e ps w ->
  (forall t st, w_thr w !! t = Some st -> finished w t) \/ exists t, can_move e w t.
Proof.
  intros He Hr.
  assert (H : forall n, (forall t st, t < n -> w_thr w !! t = Some st -> finished w t) \/ exists t, can_move e w t).
  { induction n as [|n [IH|IH]]; [left; lia| |auto].
    destruct (w_thr w !! n) as [st|] eqn:Ht.
    2:{ left. intros t st Hlt Hst. destruct (decide (t = n)) as [->|]; [congruence|]. eapply IH; eauto. lia. }
    destruct (step e w n MOk) eqn:Hs.
    - right. exists n. intros fail. split; intros Hf.
      + destruct (blocked_on _ _ _ _ Hf) as (s & k & st' & r & t' & Ht' & Hsg & Hl & Hn).
        unfold step in Hs. rewrite Ht' in Hs. cbn in Hs. unfold get_sig in Hs. rewrite Hsg in Hs. destruct (sg_alive r); [|discriminate].
        rewrite Hl in Hs. destruct (Nat.eqb n t') eqn:Hq; [apply Nat.eqb_eq in Hq; congruence|discriminate].
      + destruct (done_stack _ _ _ _ _ Hf Ht) as [->|[o ->]]; unfold step in Hs; rewrite Ht in Hs; discriminate.
    - right. destruct (blocked_by _ _ _ _ _ He Hr Hs) as (t' & s & _ & _ & Hm). eauto.
    - left. intros t st' Hlt Hst. destruct (decide (t = n)) as [->|]; [|eapply IH; eauto; lia].
      destruct (done_stack _ _ _ _ _ Hs Ht) as [->|[o ->]].
      + destruct (I_adj_inv _ _ _ Hr _ _ Ht) as [_ []].
      + exists o. auto.
    - right. exists n. intros fail. split; intros Hf.
      + destruct (blocked_on _ _ _ _ Hf) as (s & k & st' & r & t' & Ht' & Hsg & Hl & Hn).
        unfold step in Hs. rewrite Ht' in Hs. cbn in Hs. unfold get_sig in Hs. rewrite Hsg in Hs. destruct (sg_alive r) eqn:Hal.
        * rewrite Hl in Hs. destruct (Nat.eqb n t') eqn:Hq; [apply Nat.eqb_eq in Hq; congruence|discriminate].
        * rewrite (proj2 (proj2 (proj2 (I_bound_inv _ _ _ Hr))) _ _ _ Hsg Hl) in Hal. discriminate.
      + destruct (done_stack _ _ _ _ _ Hf Ht) as [->|[o ->]]; unfold step in Hs; rewrite Ht in Hs; discriminate. }
  destruct (H (length (w_thr w))) as [Ha|Ha]; [left|auto]. intros t st Ht. eapply Ha; eauto using lookup_lt_Some.
Qed.

Lemma vop_bad w t v u : exec_vop w t v = VBad u -> u = UClient \/ u = UNullSlot.
Proof.
  unfold exec_vop, disc_res. cbv zeta. intros H. destruct v; nores H; injection H as <-; auto.
Qed.
Lemma no_self_lock e ps w t fail : lockless_env e -> reachable e ps w -> step e w t fail <> SUB ULockSelf.
Proof.
  intros He Hr Hs. unfold step in Hs. destruct (w_thr w !! t) as [st|] eqn:Ht; [|discriminate].
  destruct (lstep e w t fail st) as [| | |u] eqn:Hl; try discriminate. injection Hs as ->.
  assert (Hlock : exists s k st' r, st = FLock s k :: st' /\ w_sigs w !! s = Some r /\ sg_lock r = Some t).
  { destruct st as [|f st]; [discriminate|]. destruct f; cbn in Hl; try discriminate.
    - destruct st as [|g st]; [discriminate|]. unfold deliver in Hl. destruct g; nores Hl.
    - destruct p as [|o k]; [discriminate|]. unfold start_op in Hl. destruct o; nores Hl.
      injection Hl as ->. match goal with H : exec_vop _ _ _ = VBad _ |- _ => destruct (vop_bad _ _ _ _ H); discriminate end.
    - nores Hl.
    - unfold get_sig in Hl. destruct (w_sigs w !! s) as [r|] eqn:Hsg; [|discriminate]. destruct (sg_alive r); [|discriminate].
      destruct (sg_lock r) as [t'|] eqn:Hlk; [|discriminate]. destruct (Nat.eqb t t') eqn:Hq; [|discriminate]. apply Nat.eqb_eq in Hq. subst.
      exists s, k, st, r. auto.
    - unfold step_write in Hl. nores Hl.
    - unfold step_body in Hl. nores Hl.
    - nores Hl.
    - unfold step_slot, skip in Hl. nores Hl. }
  destruct Hlock as (s & k & st' & r & -> & Hsg & Hlk). eapply lock_holds_nothing; [exact He|exact Hr|exact Ht|]. exists r. eauto.
Qed.
