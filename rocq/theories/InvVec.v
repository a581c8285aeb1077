(** * Ownership of the vectors *)
From Verif Require Export InvLock.

Definition AF (P : frame -> Prop) (w : world) : Prop :=
  forall t st, w_thr w !! t = Some st -> Forall P st.

Lemma AF_init (P : frame -> Prop) ps : (forall p, P (FProg p)) -> AF P (init ps).
Proof.
  intros HP t st H. cbn in H. rewrite list_lookup_fmap in H.
  destruct (ps !! t); cbn in H; simplify_eq. repeat constructor; auto.
Qed.

Lemma AF_dtor (P : frame -> Prop) w t st D L :
  AF P w -> w_thr w !! t = Some st -> dtorish D -> (forall d, P (FDtor d)) -> (forall p, P (FProg p)) ->
  AF P (w_add_events (w_set_stack w t (D ++ st)) L).
Proof.
  intros HA Ht HD H1 H2 t' x Hx. cbn in Hx.
  destruct (thr_upd _ _ _ _ _ _ Ht Hx) as [[-> ->]|[Hn Hx']]; [|eauto].
  apply Forall_app; split; [|eauto].
  eapply Forall_impl; [exact HD|]. intros f [[d ->]|[p ->]]; auto.
Qed.

Lemma AF_pres (P P' : frame -> Prop) w w' t st st' :
  AF P w -> w_thr w !! t = Some st -> w_thr w' = w_thr w ->
  (forall t' x, t' <> t -> w_thr w !! t' = Some x -> Forall P x -> Forall P' x) ->
  (Forall P st -> Forall P' st') -> AF P' (mid w' t st').
Proof.
  intros HA Ht Hth Ho Hs t' x Hx. cbn in Hx. rewrite Hth in Hx.
  destruct (thr_upd _ _ _ _ _ _ Ht Hx) as [[-> ->]|[Hn Hx']]; eauto.
Qed.

Lemma Forall_varish (P : frame -> Prop) fs : Forall varish fs -> (forall x, varish x -> P x) -> Forall P fs.
Proof. intros H HP. eapply Forall_impl; eauto. Qed.

(** ** Bounds *)
Definition frame_vec (f : frame) : option vid :=
  match f with
  | FBody _ v _ | FErase _ v _ _ _ _ | FEraseCmp _ v _ _ _ _ | FEmit _ _ v _ => Some v
  | _ => None
  end.
Definition fr_bound (n : nat) (f : frame) : Prop :=
  match frame_vec f with Some v => v < n | None => True end.

Definition I_bound (w : world) : Prop :=
  (forall s r v, w_sigs w !! s = Some r -> sg_vec r = Some v -> v < length (w_vecs w)) /\
  AF (fr_bound (length (w_vecs w))) w /\
  (forall s1 s2 r1 r2 v, w_sigs w !! s1 = Some r1 -> w_sigs w !! s2 = Some r2 ->
     sg_vec r1 = Some v -> sg_vec r2 = Some v -> s1 = s2) /\
  (forall s r t, w_sigs w !! s = Some r -> sg_lock r = Some t -> sg_alive r = true).

Lemma fr_bound_mono n m f : n <= m -> fr_bound n f -> fr_bound m f.
Proof. unfold fr_bound. destruct (frame_vec f); [lia|auto]. Qed.

Lemma trans_len_vecs e w t st w' st' :
  trans e w t st w' st' -> length (w_vecs w) <= length (w_vecs w').
Proof.
  destruct 1; cbn; autorewrite with wsimp; rewrite ?app_length, ?insert_length; cbn; try lia.
Qed.

Ltac wcbn := cbn [w_sigs w_vecs w_slots w_vars w_neid w_log w_thr mid w_set_stack w_set_thr
  w_add_log w_set_sigs w_set_vecs w_set_slots w_set_vars w_set_neid
  w_alter_sig w_alter_slot w_set_vec w_add_events].
Ltac wcbn_in H := cbn [w_sigs w_vecs w_slots w_vars w_neid w_log w_thr mid w_set_stack w_set_thr
  w_add_log w_set_sigs w_set_vecs w_set_slots w_set_vars w_set_neid
  w_alter_sig w_alter_slot w_set_vec w_add_events] in H.

(** How a step can change the record of a signal. *)
Inductive sig_change (w : world) (t : tid) (st : list frame) (w' : world) (s : sid) : sigrec -> Prop :=
| SC_same r : w_sigs w !! s = Some r -> sig_change w t st w' s r
| SC_destroy r k st0 :
    st = FProg (Do (ODestroySignal s) k) :: st0 -> w_sigs w !! s = Some r -> sg_lock r = None ->
    sg_alive r = true -> sig_change w t st w' s (sg_set_alive false r)
| SC_lock r k st0 :
    st = FLock s k :: st0 -> w_sigs w !! s = Some r -> sg_lock r = None ->
    sg_alive r = true -> sig_change w t st w' s (sg_set_lock (Some t) r)
| SC_move_from r st0 :
    st = FWrite s KMove :: st0 -> w_sigs w !! s = Some r -> sig_change w t st w' s (sg_set_vec None r)
| SC_read r a st0 :
    st = FWrite s (KRead a) :: st0 -> w_sigs w !! s = Some r -> sig_change w t st w' s (sg_set_lock None r)
| SC_unlock r o st0 :
    st = FUnlock s o :: st0 -> w_sigs w !! s = Some r -> sig_change w t st w' s (sg_set_lock None r)
| SC_detach r k v st0 :
    st = FWrite s k :: st0 -> w_sigs w !! s = Some r -> writes k -> sg_vec r = Some v ->
    w_vecs w' = w_vecs w ++ [vec_of w v] -> w_slots w' = w_slots w -> w_log w' = w_log w ->
    sig_change w t st w' s (sg_set_vec (Some (length (w_vecs w))) r)
| SC_new c k st0 :
    s = length (w_sigs w) -> st = FProg (Do (ONewSignal c) k) :: st0 -> w_vecs w' = w_vecs w ++ [[]] ->
    sig_change w t st w' s (SigRec true None (Some (length (w_vecs w))) false c)
| SC_move_to s0 r st0 :
    s = length (w_sigs w) -> st = FWrite s0 KMove :: st0 -> w_sigs w !! s0 = Some r ->
    w_sigs w' !! s0 = Some (sg_set_vec None r) -> w_vecs w' = w_vecs w ->
    sig_change w t st w' s (SigRec true None (sg_vec r) (sg_blocked r) (sg_comb r)).

Lemma trans_sigs e w t st w' st' s r' :
  trans e w t st w' st' -> w_sigs w' !! s = Some r' -> sig_change w t st w' s r'.
Proof.
  intros Htr Hs. destruct Htr; wcbn_in Hs; autorewrite with wsimp in Hs;
    try (apply SC_same; exact Hs).
  - apply snoc_lookup in Hs as [[Hs _]|[-> ->]]; [apply SC_same; auto|].
    eapply SC_new; reflexivity.
  - apply get_sig_Some in H as [Hr Ha]. rewrite alter_lookup in Hs.
    destruct (decide (s0 = s)) as [->|Hn]; [|apply SC_same; auto].
    rewrite Hr in Hs. cbn in Hs. simplify_eq. eapply SC_destroy; eauto.
  - apply get_sig_Some in H as [Hr Ha]. rewrite alter_lookup in Hs.
    destruct (decide (s0 = s)) as [->|Hn]; [|apply SC_same; auto].
    rewrite Hr in Hs. cbn in Hs. simplify_eq. eapply SC_lock; eauto.
  - apply snoc_lookup in Hs as [[Hs _]|[-> ->]].
    + rewrite alter_lookup in Hs. destruct (decide (s0 = s)) as [->|Hn]; [|apply SC_same; auto].
      rewrite H in Hs. cbn in Hs. simplify_eq. eapply SC_move_from; eauto.
    + rewrite alter_length. eapply SC_move_to; eauto. wcbn.
      rewrite lookup_app_l by (rewrite alter_length; eapply lookup_lt_Some; eauto).
      rewrite list_lookup_alter, H. reflexivity.
  - rewrite alter_lookup in Hs. destruct (decide (s0 = s)) as [->|Hn]; [|apply SC_same; auto].
    rewrite H in Hs. cbn in Hs. simplify_eq. eapply SC_read; eauto.
  - rewrite alter_lookup in Hs. destruct (decide (s0 = s)) as [->|Hn]; [|apply SC_same; auto].
    rewrite H in Hs. cbn in Hs. simplify_eq. eapply SC_detach; eauto.
  - rewrite alter_lookup in Hs. destruct (decide (s0 = s)) as [->|Hn]; [|apply SC_same; auto].
    destruct (w_sigs w !! s) as [r|] eqn:Hr; cbn in Hs; [|discriminate]. simplify_eq.
    eapply SC_unlock; eauto.
Qed.

Lemma trans_sigs_len e w t st w' st' s r :
  trans e w t st w' st' -> w_sigs w !! s = Some r -> exists r', w_sigs w' !! s = Some r'.
Proof.
  intros Htr Hs. apply lookup_lt_Some in Hs. apply lookup_lt_is_Some.
  destruct Htr; wcbn; autorewrite with wsimp; rewrite ?app_length, ?alter_length; cbn; lia.
Qed.

Lemma trans_top_write e w t st w' st' s k :
  trans e w t (FWrite s k :: st) w' st' -> exists f, st' = f :: st \/ exists g, st' = g :: f :: st.
Proof. inversion 1; subst; eauto. Qed.

Lemma I_bound_inv e ps w : reachable e ps w -> I_bound w.
Proof.
  apply reach_ind2.
  - split; [|split; [|split]]; [intros ? ? ? H; cbn in H; discriminate | | intros ? ? ? ? ? H; cbn in H; discriminate
      | intros ? ? ? H; cbn in H; discriminate].
    apply AF_init. intros; exact I.
  - clear w. intros w t st w' st' Hr (H1 & H2 & H3 & H4) Ht Htr.
    pose proof (trans_len_vecs _ _ _ _ _ _ Htr) as Hlen.
    pose proof (trans_thr _ _ _ _ _ _ Htr) as Hthr.
    assert (H1' : forall s r v, w_sigs w' !! s = Some r -> sg_vec r = Some v -> v < length (w_vecs w')).
    { intros s r v Hs Hv.
      destruct (trans_sigs _ _ _ _ _ _ _ _ Htr Hs); cbn in Hv; try discriminate;
        try (match goal with H : w_sigs w !! _ = Some _ |- _ => pose proof (H1 _ _ _ H Hv); lia end).
      - simplify_eq. match goal with H : w_vecs w' = _ |- _ => rewrite H, app_length end. cbn. lia.
      - simplify_eq. match goal with H : w_vecs w' = _ |- _ => rewrite H, app_length end. cbn. lia. }
    split; [|split; [|split]].
    + exact H1'.
    + eapply AF_pres; eauto.
      * intros t' x _ _ HF. eapply Forall_impl; [exact HF|]. intros f Hf. eapply fr_bound_mono; eauto.
      * wcbn. intros HF. assert (HF' : Forall (fr_bound (length (w_vecs w'))) st)
          by (eapply Forall_impl; [exact HF|]; intros f Hf; eapply fr_bound_mono; eauto).
        clear HF Ht. destruct Htr; wcbn; wcbn_in HF'; autorewrite with wsimp in HF';
          rewrite ?Forall_cons, ?Forall_app in HF'; rewrite ?Forall_cons, ?Forall_app, ?Forall_cons;
          destruct_and?; autorewrite with wsimp;
          repeat split; try assumption; try exact I;
          try (unfold fr_bound in *; cbn in *; lia).
        -- apply vop_after in H as Ha. eapply Forall_varish; eauto. intros []; cbn; auto; contradiction.
        -- apply vop_after in H as Ha. eapply Forall_varish; eauto. intros []; cbn; auto; contradiction.
        -- apply begins_fr in H. eapply Forall_varish; eauto. intros []; cbn; auto; contradiction.
        -- unfold fr_bound; cbn. eauto.
        -- unfold fr_bound; cbn. rewrite app_length. cbn. lia.
        -- unfold fr_bound; cbn. eauto.
    + intros s1 s2 r1 r2 v Hs1 Hs2 Hv1 Hv2. wcbn_in Hs1. wcbn_in Hs2.
      assert (Hgen : forall s r, w_sigs w' !! s = Some r -> sg_vec r = Some v ->
         (exists r0, w_sigs w !! s = Some r0 /\ sg_vec r0 = Some v)
         \/ v = length (w_vecs w) \/ (exists s0 r0, s = length (w_sigs w) /\ w_sigs w !! s0 = Some r0 /\ sg_vec r0 = Some v /\
              w_sigs w' !! s0 = Some (sg_set_vec None r0))).
      { intros s r Hs Hv. destruct (trans_sigs _ _ _ _ _ _ _ _ Htr Hs); cbn in Hv; try discriminate; eauto.
        - simplify_eq. auto.
        - simplify_eq. auto.
        - right. right. eauto 10. }
      assert (Hfresh : forall s r0, w_sigs w !! s = Some r0 -> sg_vec r0 = Some (length (w_vecs w)) -> False).
      { intros s r0 Ha Hb. pose proof (H1 _ _ _ Ha Hb). lia. }
      assert (Hnew : v = length (w_vecs w) -> s1 = s2).
      { intros ->.
        destruct (trans_sigs _ _ _ _ _ _ _ _ Htr Hs1); cbn in Hv1; try discriminate; try (exfalso; eauto; fail);
          destruct (trans_sigs _ _ _ _ _ _ _ _ Htr Hs2); cbn in Hv2; try discriminate; try (exfalso; eauto; fail);
          congruence. }
      destruct (Hgen _ _ Hs1 Hv1) as [(a & Ha & Hav)|[Hn|(s0 & a & -> & Ha & Hav & Hw0)]]; auto;
      destruct (Hgen _ _ Hs2 Hv2) as [(b & Hb & Hbv)|[Hn|(s0' & b & -> & Hb & Hbv & Hw0')]]; auto; eauto.
      * assert (s1 = s0') as -> by eauto. exfalso. rewrite Hs1 in Hw0'. simplify_eq.
      * assert (s2 = s0) as -> by eauto. exfalso. rewrite Hs2 in Hw0. simplify_eq.
    + intros s r t' Hs Hl. wcbn_in Hs. destruct (trans_sigs _ _ _ _ _ _ _ _ Htr Hs); cbn in Hl |- *; try discriminate; eauto.
      congruence.
  - clear w. intros w t st D L (H1 & H2 & H3 & H4) Ht HD HL.
    split; [exact H1|]. split; [|split; [exact H3|exact H4]].
    apply AF_dtor; auto; intros; exact I.
Qed.

(** ** Critical sections own an unshared vector *)
Lemma hold_unique w t f st s :
  I_lock w -> w_thr w !! t = Some (f :: st) -> holds s f = 1 ->
  Forall (fun g => holds s g = 0) st /\
  (forall t' x, t' <> t -> w_thr w !! t' = Some x -> Forall (fun g => holds s g = 0) x) /\
  (exists r, w_sigs w !! s = Some r /\ sg_lock r = Some t).
Proof.
  intros HI Ht Hf. pose proof (HI _ _ s Ht) as H. rewrite swt_cons, Hf in H.
  unfold lockw in H. destruct (w_sigs w !! s) as [r|] eqn:Hr; [|lia].
  destruct (decide (sg_lock r = Some t)) as [Hl|]; [|lia].
  split; [|split].
  - apply Forall_forall. apply swt_zero. lia.
  - intros t' x Hn Hx. apply Forall_forall. apply swt_zero.
    rewrite (HI _ _ s Hx). unfold lockw. rewrite Hr, decide_False by congruence. reflexivity.
  - eauto.
Qed.

Lemma hold_none w s r :
  I_lock w -> w_sigs w !! s = Some r -> sg_lock r = None ->
  forall t x, w_thr w !! t = Some x -> Forall (fun g => holds s g = 0) x.
Proof.
  intros HI Hr Hl t x Hx. apply Forall_forall. apply swt_zero.
  rewrite (HI _ _ s Hx). unfold lockw. rewrite Hr, decide_False by congruence. reflexivity.
Qed.

Definition own (w : world) (s : sid) (v : vid) : Prop :=
  exists r, w_sigs w !! s = Some r /\ sg_alive r = true /\ sg_vec r = Some v.
Definition crit_vec (f : frame) : option (sid * vid) :=
  match f with
  | FBody s v _ | FErase s v _ _ _ _ | FEraseCmp s v _ _ _ _ => Some (s, v)
  | _ => None
  end.
Definition emits (v : vid) (f : frame) : nat := if frame_owns v f then 1 else 0.

Definition fr_crit (w : world) (f : frame) : Prop :=
  match crit_vec f with
  | Some (s, v) => own w s v /\ wt (emits v) (w_thr w) = 0
  | None => True
  end.

Definition I_crit (w : world) : Prop := AF (fr_crit w) w.

Lemma use_count_emits w v :
  use_count w v = length (filter (fun r => sig_owns v r) (w_sigs w)) + wt (emits v) (w_thr w).
Proof.
  unfold use_count. f_equal. unfold wt, swt.
  assert (Hs : forall st, length (filter (fun f => frame_owns v f) st) = sum_list_with (emits v) st).
  { induction st as [|f st IH]; [reflexivity|]. rewrite filter_cons. simpl. unfold emits at 1.
    rewrite <- IH. destruct (frame_owns v f); simpl; reflexivity. }
  induction (w_thr w) as [|st thr IH]; [reflexivity|]. simpl. rewrite Hs, IH. reflexivity.
Qed.

Lemma use_count_no_emits w s v :
  own w s v -> use_count w v <= 1 -> wt (emits v) (w_thr w) = 0.
Proof.
  intros (r & Hr & Ha & Hv) Hu. rewrite use_count_emits in Hu.
  assert (1 <= length (filter (fun r => sig_owns v r) (w_sigs w))); [|lia].
  assert (Hin : r ∈ filter (fun r => sig_owns v r) (w_sigs w)).
  { apply elem_of_list_filter. split; [|eapply elem_of_list_lookup_2; eauto].
    unfold sig_owns. rewrite Ha, Hv, bool_decide_true by auto. exact I. }
  destruct (filter _ _); [inversion Hin|cbn; lia].
Qed.

Lemma crit_holds f s v : crit_vec f = Some (s, v) -> holds s f = 1.
Proof. destruct f; cbn; intros; simplify_eq; rewrite decide_True by auto; reflexivity. Qed.

Lemma emits_dtorish v D : dtorish D -> swt (emits v) D = 0.
Proof. intros. apply swt_dtorish; auto. Qed.

(** The number of emissions over [v] never grows except by [T_read]. *)
Lemma trans_emits e w t st w' st' v :
  trans e w t st w' st' ->
  swt (emits v) st' <= swt (emits v) st \/
  exists s a r st0, st = FWrite s (KRead a) :: st0 /\ w_sigs w !! s = Some r /\ sg_vec r = Some v.
Proof.
  intros Htr. destruct Htr; try (left; rewrite ?swt_cons, ?swt_app, ?swt_cons; cbn; lia).
  - left. apply vop_after in H as Ha. rewrite !swt_cons, swt_app, swt_cons.
    rewrite (swt_varish _ after) by (auto; intros []; cbn; auto; contradiction). cbn. lia.
  - left. apply vop_after in H as Ha. rewrite !swt_cons, swt_app, swt_cons.
    rewrite (swt_varish _ after) by (auto; intros []; cbn; auto; contradiction). cbn. lia.
  - left. apply begins_fr in H. rewrite !swt_cons, swt_app, swt_cons.
    rewrite (swt_varish _ fr) by (auto; intros []; cbn; auto; contradiction). cbn. lia.
  - destruct (decide (v0 = v)) as [->|Hn].
    + right. exists s, args, r, st. auto.
    + left. rewrite !swt_cons. unfold emits at 2. cbn. rewrite bool_decide_false by auto. cbn. lia.
  - left. rewrite !swt_cons. unfold emits. cbn. lia.
Qed.

Lemma I_crit_inv e ps w : reachable e ps w -> I_crit w.
Proof.
  apply reach_ind2.
  - apply AF_init. intros; exact I.
  - clear w. intros w t st w' st' Hr HI Ht Htr.
    pose proof (I_lock_inv _ _ _ Hr) as HL.
    pose proof (I_bound_inv _ _ _ Hr) as (Hb1 & Hb2 & Hb3 & Hb4).
    pose proof (trans_thr _ _ _ _ _ _ Htr) as Hthr.
    (* a frame that stays keeps its signal and vector *)
    assert (Hkeep : forall g s v, crit_vec g = Some (s, v) -> own w s v ->
       wt (emits v) (w_thr w) = 0 ->
       (exists t' x, t' <> t /\ w_thr w !! t' = Some x /\ g ∈ x) \/ g ∈ drop 1 st \/ (g ∈ st /\ forall f, st !! 0 = Some f -> forall k, f <> FWrite s k) ->
       own w' s v /\ wt (emits v) (<[t := st']> (w_thr w)) = 0).
    { intros g s v Hg Ho Hw Hpos.
      assert (Hh : forall f st0, st = f :: st0 -> holds s f = 1 -> (forall k, f = FWrite s k -> False) \/ False).
      { intros f st0 -> Hf. left. intros k ->.
        destruct (hold_unique _ _ _ _ _ HL Ht Hf) as (Ha & Hb & _).
        assert (Hg0 : holds s g = 0).
        { destruct Hpos as [(t' & x & Hn & Hx & Hgx)|[Hgx|[Hgx Hno]]].
          - specialize (Hb _ _ Hn Hx). rewrite Forall_forall in Hb. auto.
          - rewrite Forall_forall in Ha. auto.
          - exfalso. eapply Hno; cbn; eauto. }
        rewrite (crit_holds _ _ _ Hg) in Hg0. discriminate. }
      assert (Hnw : forall k st0, st <> FWrite s k :: st0).
      { intros k st0 ->. destruct (Hh _ _ eq_refl) as [Hx|[]]; [cbn; rewrite decide_True by auto; reflexivity|]. eapply Hx; eauto. }
      split.
      - destruct Ho as (r & Hs & Ha & Hv).
        destruct (trans_sigs_len _ _ _ _ _ _ _ _ Htr Hs) as [r' Hs'].
        destruct (trans_sigs _ _ _ _ _ _ _ _ Htr Hs') as
          [r0 Hr0|r0 k st0 He Hr0 Hl Hal|r0 k st0 He Hr0 Hl Hal|r0 st0 He Hr0|r0 a st0 He Hr0|r0 o st0 He Hr0
          |r0 k v0 st0 He Hr0 Hk Hv0 Hvec|c k st0 He|s0 r0 st0 He];
          simplify_eq; try (eexists; split; [eassumption|]; cbn; auto; fail);
          try (exfalso; eapply Hnw; eauto; fail).
        + exfalso. assert (Hg0 : holds s g = 0).
          { destruct Hpos as [(t' & x & Hn & Hx & Hgx)|[Hgx|[Hgx Hno]]].
            - pose proof (hold_none _ _ _ HL Hs Hl _ _ Hx) as HF. rewrite Forall_forall in HF. auto.
            - pose proof (hold_none _ _ _ HL Hs Hl _ _ Ht) as HF. rewrite Forall_forall in HF. apply HF.
              cbn in Hgx. set_solver.
            - pose proof (hold_none _ _ _ HL Hs Hl _ _ Ht) as HF. rewrite Forall_forall in HF. auto. }
          rewrite (crit_holds _ _ _ Hg) in Hg0. discriminate.
        + apply lookup_lt_Some in Hs. lia.
        + apply lookup_lt_Some in Hs. lia.
      - pose proof (wt_insert (emits v) _ _ _ st' Ht) as Hwt.
        destruct (trans_emits _ _ _ _ _ _ v Htr) as [Hle|(s0 & a & r & st0 & -> & Hr0 & Hv0)]; [lia|].
        exfalso. destruct Ho as (r' & Hs & Ha & Hv).
        assert (s0 = s) as -> by eauto. eapply Hnw; eauto. }
    eapply (AF_pres (fr_crit w)); eauto.
    + intros t' x Hn Hx HF. apply Forall_forall. intros g Hg. rewrite Forall_forall in HF. specialize (HF g Hg).
      unfold fr_crit in *. destruct (crit_vec g) as [[s v]|] eqn:Hc; [|auto]. destruct HF as [Ho Hw].
      wcbn. rewrite Hthr. apply (Hkeep g s v); auto. left; eauto.
    + intros HF.
      assert (HF' : Forall (fr_crit (mid w' t st')) (drop 1 st)).
      { apply Forall_forall. intros g Hg. assert (Hg' : g ∈ st) by (destruct st; [inversion Hg|cbn in Hg; set_solver]).
        rewrite Forall_forall in HF. specialize (HF g Hg').
        unfold fr_crit in *. destruct (crit_vec g) as [[s v]|] eqn:Hc; [|auto]. destruct HF as [Ho Hw].
        wcbn. rewrite Hthr. apply (Hkeep g s v); auto. }
      assert (Hcur : forall f st0 s v g, st = f :: st0 -> crit_vec f = Some (s, v) -> crit_vec g = Some (s, v) ->
                 fr_crit (mid w' t st') g).
      { intros f st0 s v g -> Hf Hg. unfold fr_crit. rewrite Hg. rewrite Forall_cons in HF. destruct HF as [Hf1 _].
        unfold fr_crit in Hf1. rewrite Hf in Hf1. destruct Hf1 as [Ho Hw]. wcbn. rewrite Hthr.
        apply (Hkeep f s v); auto. right. right. split; [set_solver|]. cbn. intros f0 Hf0 k ->. simplify_eq. }
      clear Hkeep. destruct Htr; cbn [drop] in HF'; rewrite ?drop_0 in HF'; rewrite ?Forall_cons, ?Forall_app, ?Forall_cons in HF'; rewrite ?Forall_cons, ?Forall_app, ?Forall_cons;
        destruct_and?; repeat (match goal with |- _ /\ _ => split end); try assumption; try exact I;
        try (eapply Hcur; [reflexivity|reflexivity|reflexivity]).
      * apply vop_after in H as Ha. eapply Forall_varish; eauto. intros []; cbn; auto; contradiction.
      * apply vop_after in H as Ha. eapply Forall_varish; eauto. intros []; cbn; auto; contradiction.
      * apply begins_fr in H. eapply Forall_varish; eauto. intros []; cbn; auto; contradiction.
      * (* detach *)
        split.
        { eexists. split; [wcbn; rewrite list_lookup_alter, H; reflexivity|]. cbn. split; [|reflexivity].
        destruct (hold_unique _ _ _ _ s HL Ht) as (_ & _ & r0 & Hr0 & Hl0); [cbn; rewrite decide_True by auto; reflexivity|].
        simplify_eq. eauto. }
        wcbn. apply wt_zero. intros t' x Hx. apply swt_zero. intros g Hg.
        destruct (frame_owns (length (w_vecs w)) g) eqn:Hgo; [|unfold emits; rewrite Hgo; reflexivity].
        exfalso. destruct g; cbn in Hgo; try discriminate. apply bool_decide_eq_true in Hgo. subst v0.
        destruct (thr_upd _ _ _ _ _ _ Ht Hx) as [[-> ->]|[Hn Hx']].
        -- apply elem_of_cons in Hg as [Hg|Hg]; [discriminate|].
           pose proof (Hb2 _ _ Ht) as HB. rewrite Forall_cons in HB. destruct HB as [_ HB].
           rewrite Forall_forall in HB. specialize (HB _ Hg). unfold fr_bound in HB. cbn in HB. lia.
        -- pose proof (Hb2 _ _ Hx') as HB. rewrite Forall_forall in HB. specialize (HB _ Hg).
           unfold fr_bound in HB. cbn in HB. lia.
      * (* nodetach *)
        split.
        { wcbn.
        destruct (hold_unique _ _ _ _ s HL Ht) as (_ & _ & r0 & Hr0 & Hl0); [cbn; rewrite decide_True by auto; reflexivity|].
        simplify_eq. eexists; eauto. }
        wcbn. destruct (hold_unique _ _ _ _ s HL Ht) as (_ & _ & r0 & Hr0 & Hl0); [cbn; rewrite decide_True by auto; reflexivity|].
        simplify_eq. assert (Hz : wt (emits v) (w_thr w) = 0).
        { eapply use_count_no_emits; eauto. eexists; eauto. }
        pose proof (wt_insert (emits v) _ _ _ (FBody s v k :: st) Ht) as Hwt. rewrite !swt_cons in Hwt. cbn in Hwt.
        pose proof (wt_ge (emits v) _ _ _ Ht) as Hge. rewrite swt_cons in Hge. cbn in Hge. lia.
  - clear w. intros w t st D L HI Ht HD HL t' x Hx. cbn in Hx.
    assert (Hg : forall g, fr_crit w g -> fr_crit (w_add_events (w_set_stack w t (D ++ st)) L) g).
    { intros g. unfold fr_crit. destruct (crit_vec g) as [[s v]|]; [|auto]. intros [Ho Hw]. split; [exact Ho|].
      wcbn. pose proof (wt_insert (emits v) _ _ _ (D ++ st) Ht) as Hwt. rewrite swt_app, (emits_dtorish _ D HD) in Hwt. lia. }
    destruct (thr_upd _ _ _ _ _ _ Ht Hx) as [[-> ->]|[Hn Hx']].
    + apply Forall_app; split.
      * eapply Forall_impl; [exact HD|]. intros f [[? ->]|[p ->]]; exact I.
      * eapply Forall_impl; [exact (HI _ _ Ht)|]. exact Hg.
    + eapply Forall_impl; [exact (HI _ _ Hx')|]. exact Hg.
Qed.
