(** * Signals: mutexes, lists, lifetime *)
From Verif Require Export SpecState InvRem Emission.

(** What a step does, after the destructors it runs are accounted for. *)
Lemma step_inv e w t fail w' st : step e w t fail = SOk w' -> w_thr w !! t = Some st ->
  exists w1 st1 D L, trans e w t st w1 st1 /\ lstep e w t fail st = LOk w1 st1 /\ dtorish D /\ deadish L /\
    w_sigs w' = w_sigs w1 /\ w_vecs w' = w_vecs w1 /\ w_slots w' = w_slots w1 /\ w_vars w' = w_vars w1 /\
    w_log w' = L ++ w_log w1 /\ w_thr w' = <[t := D ++ st1]> (w_thr w).
Proof.
  intros Hs Ht. destruct (step_trans _ _ _ _ _ Hs) as (st0 & w1 & st1 & Ht0 & Htr & -> & Hl). simplify_eq.
  destruct (reap_spec e w w1 t st1) as (D & L & HD & HL & -> & _). exists w1, st1, D, L.
  repeat (split; [first [assumption|reflexivity]|]). wcbn. rewrite (trans_thr _ _ _ _ _ _ Htr). reflexivity.
Qed.

Lemma existsb_ext' {A} (p q : A -> bool) (xs : list A) : (forall x, p x = q x) -> existsb p xs = existsb q xs.
Proof. intros H. induction xs as [|x xs IH]; cbn; [reflexivity|]. rewrite H, IH. reflexivity. Qed.
Lemma filter_nil {A} (p : A -> bool) (xs : list A) : (forall x, ~ Is_true (p x)) -> filter (fun x => p x) xs = [].
Proof. intros H. induction xs as [|x xs IH]; [reflexivity|]. rewrite filter_cons, decide_False by auto. auto. Qed.

(** ** Mutexes *)
Lemma lock_iff e ps w t st s : reachable e ps w -> w_thr w !! t = Some st ->
  ((exists r, w_sigs w !! s = Some r /\ sg_lock r = Some t) <-> exists f, f ∈ st /\ in_section s f).
Proof.
  intros Hr Ht. pose proof (I_lock_inv _ _ _ Hr _ _ s Ht) as HL.
  assert (Hh : forall f, in_section s f <-> holds s f = 1).
  { intros f. destruct f; cbn; try (split; [tauto|discriminate]); case_decide; naive_solver. }
  split.
  - intros (r & Hs & Hl). unfold lockw in HL. rewrite Hs, decide_True in HL by auto.
    assert (Hex : forall st, 1 <= swt (holds s) st -> exists f, f ∈ st /\ in_section s f).
    { clear. induction st as [|f st IH]; [cbn; lia|]. rewrite swt_cons. intros H.
      destruct (decide (1 <= swt (holds s) st)) as [H1|H1].
      - destruct (IH H1) as (g & Hg & Hi). exists g. split; [apply elem_of_list_further|]; auto.
      - exists f. split; [apply elem_of_list_here|]. destruct f; cbn in *; try lia; case_decide; auto; lia. }
    apply Hex. lia.
  - intros (f & Hf & Hi). apply Hh in Hi. pose proof (swt_elem (holds s) _ _ Hf) as Hle.
    unfold lockw in HL. destruct (w_sigs w !! s) as [r|]; [|lia]. case_decide; [eauto|lia].
Qed.

Lemma adj_calm f st : AT adj (f :: st) -> AT odt (f :: st) -> calm (f :: st) -> forall g s, g ∈ st -> ~ in_section s g.
Proof.
  revert f. induction st as [|g0 st IH]; intros f HA HO HQ g s Hg; [inversion Hg|].
  destruct HA as [Hf HA]. destruct HO as [Ho HO]. pose proof (IH g0 HA HO) as IH'.
  assert (HQ' : calm (g0 :: st)) by (intros h Hh; apply HQ; apply elem_of_list_further; auto).
  apply elem_of_cons in Hg as [->|Hg]; [|eauto].
  intros Hi. specialize (HQ f ltac:(apply elem_of_list_here)). specialize (HQ' g0 ltac:(apply elem_of_list_here)).
  destruct g0; cbn in Hi; try contradiction;
    destruct f; cbn in Hf, HQ, HQ', Ho; try contradiction; try discriminate;
    try (match goal with x : (lid + oid)%type |- _ => destruct x; contradiction end);
    try (unfold crit_below in Hf; destruct k; destruct k0; contradiction || discriminate);
    try (destruct k; cbn in Hf; contradiction || discriminate);
    try (destruct Hf as [Hf|[Hf|Hf]]; cbn in Hf; contradiction || discriminate).
  all: destruct r, eid; contradiction.
Qed.

Lemma no_lock_in_callbacks e ps w t f st : reachable e ps w -> w_thr w !! t = Some (f :: st) -> calm (f :: st) ->
  (forall s, ~ in_section s f) -> forall s r, w_sigs w !! s = Some r -> sg_lock r <> Some t.
Proof.
  intros Hr Ht HQ Hf s r Hs Hl.
  destruct (proj1 (lock_iff _ _ _ _ _ s Hr Ht)) as (g & Hg & Hi); [eauto|].
  apply elem_of_cons in Hg as [->|Hg]; [eapply Hf; eauto|].
  eapply adj_calm; [apply (I_adj_inv _ _ _ Hr _ _ Ht)|exact (odt_inv _ _ _ Hr _ _ Ht)|exact HQ|exact Hg|exact Hi].
Qed.

Lemma emission_end e ps w t fail w' o s eid v a st : reachable e ps w ->
  w_thr w !! t = Some (FRet o :: FEmit s eid v a :: st) -> step e w t fail = SOk w' ->
  w_sigs w' = w_sigs w /\ w_vecs w' = w_vecs w /\ w_slots w' = w_slots w /\
  (exists D, dtorish D /\ w_thr w' !! t = Some (D ++ FRet o :: st)) /\
  (forall s', (exists r, w_sigs w' !! s' = Some r /\ sg_lock r = Some t) <-> exists f, f ∈ st /\ in_section s' f).
Proof.
  intros Hr Ht Hs. destruct (step_inv _ _ _ _ _ _ Hs Ht) as (w1 & st1 & D & L & Htr & Hl & HD & HL & -> & -> & -> & _ & _ & Hthr).
  cbn in Hl. simplify_eq. cbn. repeat (split; [reflexivity|]). split.
  - exists D. split; [auto|]. rewrite Hthr. apply list_lookup_insert. eapply lookup_lt_Some; eauto.
  - intros s'. rewrite (lock_iff _ _ _ _ _ s' Hr Ht). split.
    + intros (f & Hf & Hi). repeat (apply elem_of_cons in Hf as [->|Hf]; [contradiction|]). eauto.
    + intros (f & Hf & Hi). exists f. split; [|auto]. do 2 apply elem_of_list_further. auto.
Qed.

(** ** Signals are never blocked *)
Lemma never_blocked e ps w s r : reachable e ps w -> w_sigs w !! s = Some r -> sg_blocked r = false.
Proof. intros Hr Hs. apply (proj1 (I_sig_inv _ _ _ Hr) _ _ Hs). Qed.

Lemma emit_starts e ps w t fail s args k st : reachable e ps w ->
  w_thr w !! t = Some (FProg (Do (OEmit s args) k) :: st) ->
  (exists r, w_sigs w !! s = Some r /\ sg_alive r = true) ->
  exists w' D, step e w t fail = SOk w' /\ dtorish D /\ w_thr w' !! t = Some (D ++ FLock s (KRead args) :: FWait k :: st).
Proof.
  intros Hr Ht (r & Hs & Ha). pose proof (never_blocked _ _ _ _ _ Hr Hs) as Hb.
  assert (Hg : get_sig w s = Some r) by (apply get_sig_Some; auto).
  assert (Hl : lstep e w t fail (FProg (Do (OEmit s args) k) :: st) = LOk w (FLock s (KRead args) :: FWait k :: st)).
  { cbn. rewrite Hg, Hb. reflexivity. }
  assert (Hst : exists w', step e w t fail = SOk w') by (unfold step; rewrite Ht, Hl; eauto).
  destruct Hst as [w' Hst]. destruct (step_inv _ _ _ _ _ _ Hst Ht) as (w1 & st1 & D & L & _ & Hl' & HD & _ & _ & _ & _ & _ & _ & Hthr).
  exists w', D. split; [auto|]. split; [auto|]. rewrite Hthr, list_lookup_insert by (eapply lookup_lt_Some; eauto). congruence.
Qed.

(** ** Modifications of lists *)
Lemma vec_modified e ps w t fail w' v xs : reachable e ps w -> step e w t fail = SOk w' ->
  w_vecs w !! v = Some xs -> w_vecs w' !! v <> Some xs ->
  (forall t' st s eid a, w_thr w !! t' = Some st -> FEmit s eid v a ∉ st) /\
  exists s r, w_sigs w !! s = Some r /\ sg_lock r = Some t /\ sg_alive r = true /\ sg_vec r = Some v.
Proof.
  intros Hr Hs Hv Hv'. destruct (step_trans _ _ _ _ _ Hs) as (st & _ & _ & Ht & _).
  destruct (step_inv _ _ _ _ _ _ Hs Ht) as (w1 & st1 & D & L & Htr & Hl & HD & HL & _ & Hvs & _).
  rewrite Hvs in Hv'. clear Hvs.
  assert (Hold : forall ys, (w_vecs w ++ [ys]) !! v = Some xs).
  { intros ys. rewrite lookup_app_l; [auto|]. eapply lookup_lt_Some; eauto. }
  pose proof (I_crit_inv _ _ _ Hr _ _ Ht) as HC.
  assert (Hcase : exists s, (exists f st0, st = f :: st0 /\ crit_vec f = Some (s, v)) \/ (exists o f st0, st = FRet o :: f :: st0 /\ crit_vec f = Some (s, v))).
  { destruct Htr; wcbn_in Hv'; autorewrite with wsimp in Hv'; try (exfalso; apply Hv'; auto; fail).
    - exists s. left. destruct (decide (v0 = v)) as [->|Hn]; [eexists _, _; split; reflexivity|].
      unfold w_set_vec in Hv'. cbn in Hv'. rewrite list_lookup_insert_ne in Hv' by auto. contradiction.
    - exists s. left. destruct (decide (v0 = v)) as [->|Hn]; [eexists _, _; split; reflexivity|].
      unfold do_swap_pop in Hv'. destruct (last (vec_of w v0)); cbn in Hv'; [|contradiction].
      rewrite list_lookup_insert_ne in Hv' by auto. contradiction.
    - exists s. right. destruct (decide (v0 = v)) as [->|Hn]; [eexists _, _, _; split; reflexivity|].
      unfold do_swap_pop in Hv'. destruct (last (vec_of w v0)); cbn in Hv'; [|contradiction].
      rewrite list_lookup_insert_ne in Hv' by auto. contradiction. }
  assert (Hf : exists s f, f ∈ st /\ crit_vec f = Some (s, v)).
  { destruct Hcase as (s & [(f & st0 & -> & Hf)|(o & f & st0 & -> & Hf)]); exists s, f; split; auto; set_solver. }
  clear Hcase. destruct Hf as (s & f & Hf & Hcv). rewrite Forall_forall in HC. specialize (HC _ Hf).
  unfold fr_crit in HC. rewrite Hcv in HC. destruct HC as ((r & Hsr & Ha & Hsv) & Hz). split.
  - intros t' st' s' eid a Ht' Hin. pose proof (wt_ge (emits v) _ _ _ Ht') as H1. pose proof (swt_elem (emits v) _ _ Hin) as H2.
    cbn in H2. unfold emits in H2 at 1. cbn in H2. rewrite bool_decide_true in H2 by auto. lia.
  - destruct (proj2 (lock_iff _ _ _ _ _ s Hr Ht)) as (r0 & Hr0 & Hl0).
    + exists f. split; [auto|]. destruct f; cbn in Hcv; simplify_eq; reflexivity.
    + simplify_eq. eauto 10.
Qed.

(** A step that changes a list holds the mutex of the signal. *)
Lemma list_modified e ps w t fail w' s : reachable e ps w -> step e w t fail = SOk w' ->
  s < length (w_sigs w) -> cur w' s <> cur w s ->
  (exists r, w_sigs w !! s = Some r /\ sg_lock r = Some t) /\
  exists st f, w_thr w !! t = Some st /\ f ∈ st /\ in_section s f.
Proof.
  intros Hr Hs Hlt Hne. destruct (step_trans _ _ _ _ _ Hs) as (st & _ & _ & Ht & _).
  destruct (step_inv _ _ _ _ _ _ Hs Ht) as (w1 & st1 & D & L & Htr & Hl & HD & HL & Hsg & Hvs & _).
  enough (Hg : exists f, f ∈ st /\ in_section s f).
  { split; [|destruct Hg as (f & Hf & Hi); exists st, f; auto]. apply (lock_iff _ _ _ _ _ s Hr Ht). auto. }
  assert (Hne' : cur w1 s <> cur w s).
  { intros H. apply Hne. rewrite <- H. apply cur_ext; auto. }
  clear Hne Hsg Hvs Hs Hl. pose proof (I_crit_inv _ _ _ Hr _ _ Ht) as HC.
  destruct (trans_cur _ _ _ _ _ _ _ Hr Ht Htr) as [Hs _ _ _|s0 st0 Hst Hs0 _ Hcur _|s0 v i st0 Hst _ _ Hcur _|s0 v i l x _ _ Hst Hcur _];
    [rewrite Hs in Hne'; contradiction| | |]; rewrite Hcur in Hne'.
  - rewrite decide_False in Hne' by lia. case_decide; [|contradiction]. subst.
    eexists. split; [apply elem_of_list_here|reflexivity].
  - case_decide; [|contradiction]. subst. eexists. split; [apply elem_of_list_here|reflexivity].
  - case_decide; [|contradiction]. subst. destruct Hst as [(r & st0 & -> & _)|(tgt & n & xs0 & st0 & -> & _)].
    + eexists. split; [apply elem_of_list_here|reflexivity].
    + eexists. split; [apply elem_of_list_further, elem_of_list_here|reflexivity].
Qed.

(** How a thread gets to a section of [s]: an operation on [s], or a disconnect
    of a slot that was connected to [s]. *)
Lemma section_entered e ps w t fail w' st st' s : reachable e ps w -> step e w t fail = SOk w' ->
  w_thr w !! t = Some st -> w_thr w' !! t = Some st' ->
  (forall f, f ∈ st' -> in_section s f -> (exists g, g ∈ st /\ in_section s g) \/ exists k, FLock s k ∈ st) /\
  (forall k, FLock s k ∈ st' -> FLock s k ∈ st \/
     (exists o k' st0, st = FProg (Do o k') :: st0 /\ op_sig o = Some s) \/
     (exists l st0, st = FDisc l :: st0 /\ spec_home (w_log w) l = Some s)).
Proof.
  intros Hr Hs Ht Ht'. destruct (step_inv _ _ _ _ _ _ Hs Ht) as (w1 & st1 & D & L & Htr & Hl & HD & HL & _ & _ & _ & _ & _ & Hthr).
  rewrite Hthr, list_lookup_insert in Ht' by (eapply lookup_lt_Some; eauto). simplify_eq. clear Hs Hthr Hl.
  assert (HD1 : forall f, f ∈ D -> ~ in_section s f /\ forall k, f <> FLock s k).
  { intros f Hf. unfold dtorish in HD. rewrite Forall_forall in HD. destruct (HD _ Hf) as [[? ->]|[p ->]]; cbn; split; auto; discriminate. }
  assert (HV : forall fr, Forall varish fr -> forall f, f ∈ fr -> ~ in_section s f /\ forall k, f <> FLock s k).
  { intros fr Hf f Hin. rewrite Forall_forall in Hf. specialize (Hf _ Hin). destruct f; cbn in *; try contradiction; split; auto; discriminate. }
  split.
  - intros f Hf Hi. apply elem_of_app in Hf as [Hf|Hf]; [apply HD1 in Hf as [Hf _]; contradiction|].
    assert (Hdec : (exists g, g ∈ st /\ in_section s g) \/ (exists k, FLock s k ∈ st) \/ f ∈ st); [|naive_solver].
    destruct Htr; repeat (apply elem_of_cons in Hf as [->|Hf]; [try contradiction; cbn in Hi; subst;
        try (left; eexists; split; [apply elem_of_list_here|reflexivity]; fail);
        try (left; eexists; split; [apply elem_of_list_further, elem_of_list_here|reflexivity]; fail);
        eauto using elem_of_list_here|]);
      try (right; right; repeat apply elem_of_list_further; assumption).
    + apply elem_of_app in Hf as [Hf|Hf]; [apply HV in Hf as [Hf _]; [contradiction|eapply vop_after; eauto]|].
      apply elem_of_cons in Hf as [->|Hf]; [contradiction|]. right. right. apply elem_of_list_further; auto.
    + apply elem_of_app in Hf as [Hf|Hf]; [apply HV in Hf as [Hf _]; [contradiction|eapply vop_after; eauto]|].
      apply elem_of_cons in Hf as [->|Hf]; [contradiction|]. right. right. apply elem_of_list_further; auto.
    + apply elem_of_app in Hf as [Hf|Hf]; [apply HV in Hf as [Hf _]; [contradiction|eapply begins_fr; eauto]|].
      apply elem_of_cons in Hf as [->|Hf]; [contradiction|]. right. right. apply elem_of_list_further; auto.
  - intros k Hf. apply elem_of_app in Hf as [Hf|Hf]; [apply HD1 in Hf as [_ Hf]; naive_solver|].
    destruct Htr; try (left; repeat (apply elem_of_cons in Hf as [Hf|Hf]; [discriminate|]);
      repeat (try assumption; apply elem_of_list_further); fail).
    + apply elem_of_cons in Hf as [Hf|Hf]; [discriminate|].
      apply elem_of_app in Hf as [Hf|Hf]; [apply HV in Hf as [_ Hf]; [naive_solver|eapply vop_after; eauto]|].
      apply elem_of_cons in Hf as [Hf|Hf]; [discriminate|]. left. apply elem_of_list_further; auto.
    + apply elem_of_cons in Hf as [Hf|Hf]; [discriminate|].
      apply elem_of_app in Hf as [Hf|Hf]; [apply HV in Hf as [_ Hf]; [naive_solver|eapply vop_after; eauto]|].
      apply elem_of_cons in Hf as [Hf|Hf]; [discriminate|]. left. apply elem_of_list_further; auto.
    + apply elem_of_cons in Hf as [Hf|Hf].
      * simplify_eq. right. left. eexists _, _, _. split; [reflexivity|]. match goal with H : begins _ _ _ _ _ |- _ => inversion H; subst; reflexivity end.
      * apply elem_of_app in Hf as [Hf|Hf]; [apply HV in Hf as [_ Hf]; [naive_solver|eapply begins_fr; eauto]|].
        apply elem_of_cons in Hf as [Hf|Hf]; [discriminate|]. left. apply elem_of_list_further; auto.
    + apply elem_of_cons in Hf as [Hf|Hf].
      * simplify_eq. right. right. eexists _, _. split; [reflexivity|].
        match goal with H : w_slots w !! _ = Some _ |- _ => apply (I_fields_inv _ _ _ Hr _ _ H) end.
      * apply elem_of_cons in Hf as [Hf|Hf]; [discriminate|]. left. apply elem_of_list_further; auto.
Qed.

(** ** Moving *)
Lemma move_list e ps w t fail w' s st : reachable e ps w -> w_thr w !! t = Some (FWrite s KMove :: st) -> step e w t fail = SOk w' ->
  let s2 := length (w_sigs w) in
  (exists r2, w_sigs w' !! s2 = Some r2 /\ sg_alive r2 = true) /\ slots_of w' s2 = slots_of w s /\ slots_of w' s = [] /\
  (forall s', s' <> s -> s' <> s2 -> slots_of w' s' = slots_of w s') /\ w_slots w' = w_slots w /\
  exists D, dtorish D /\ w_thr w' !! t = Some (D ++ FUnlock s (OutId s2) :: st).
Proof.
  intros Hr Ht Hs s2. destruct (step_inv _ _ _ _ _ _ Hs Ht) as (w1 & st1 & D & L & Htr & Hl & HD & HL & Hsg & Hvs & Hsl & _ & _ & Hthr).
  change slots_of with cur. assert (He : forall s', cur w' s' = cur w1 s') by (intros; apply cur_ext; auto). rewrite !He, Hsl.
  setoid_rewrite He. cbn in Hl. unfold step_write in Hl. destruct (w_sigs w !! s) as [r|] eqn:Hsr; [|discriminate].
  pose proof (lookup_lt_Some _ _ _ Hsr) as Hlt. simplify_eq.
  assert (Hcur : forall s', cur (w_add_log (w_set_sigs w (alter (sg_set_vec None) s (w_sigs w) ++
       [SigRec true None (sg_vec r) (sg_blocked r) (sg_comb r)])) (EMoveSig s (length (w_sigs w)))) s' =
    if decide (s' = s2) then cur w s else if decide (s' = s) then [] else cur w s').
  { intros s0. unfold cur, s2. wcbn. destruct (decide (s0 = length (w_sigs w))) as [->|Hn].
    + rewrite lookup_app_r by (rewrite alter_length; lia). rewrite alter_length, Nat.sub_diag. cbn.
      rewrite Hsr. reflexivity.
    + destruct (decide (s0 < length (w_sigs w))) as [Hl|Hl].
      * rewrite lookup_app_l by (rewrite alter_length; auto). rewrite alter_lookup.
        destruct (decide (s = s0)) as [->|Hne].
        -- rewrite Hsr. cbn. rewrite decide_True by auto. reflexivity.
        -- rewrite (decide_False (P := s0 = s)) by auto. reflexivity.
      * rewrite (lookup_ge_None_2 (_ ++ _)) by (rewrite app_length, alter_length; cbn; lia).
        rewrite (lookup_ge_None_2 (w_sigs w)) by lia. destruct (decide (s0 = s)); reflexivity. }
  split.
  { exists (SigRec true None (sg_vec r) (sg_blocked r) (sg_comb r)). rewrite Hsg. wcbn. split; [|reflexivity].
    rewrite lookup_app_r by (rewrite alter_length; lia). rewrite alter_length. unfold s2. rewrite Nat.sub_diag. reflexivity. }
  split; [rewrite Hcur, decide_True by auto; reflexivity|].
  split; [rewrite Hcur, decide_False, decide_True by (unfold s2; auto; lia); reflexivity|].
  split; [intros s' H1 H2; rewrite Hcur, !decide_False by auto; reflexivity|]. split; [reflexivity|].
  exists D. split; [auto|]. rewrite Hthr, list_lookup_insert by (eapply lookup_lt_Some; eauto). reflexivity.
Qed.

Lemma moved_use_ub e ps w t fail s s2 k st : reachable e ps w -> EMoveSig s s2 ∈ w_log w ->
  w_thr w !! t = Some (FWrite s k :: st) -> k <> KMove -> step e w t fail = SUB UNullVec.
Proof.
  intros Hr Hm Ht Hk. destruct (I_sig_inv _ _ _ Hr) as (HS & _ & Hb). destruct (Hb _ _ Hm) as [Hlt _].
  apply lookup_lt_is_Some in Hlt as [r Hs]. destruct (HS _ _ Hs) as (_ & _ & Hv & _). specialize (Hv _ Hm).
  unfold step. rewrite Ht. cbn. unfold step_write. rewrite Hs, Hv. destruct k; congruence || reflexivity.
Qed.

Lemma destroyed_use_ub e ps w t fail s k st : reachable e ps w -> EDestroySig s ∈ w_log w ->
  w_thr w !! t = Some (FLock s k :: st) -> step e w t fail = SUB UDangling.
Proof.
  intros Hr Hd Ht. destruct (I_sig_inv _ _ _ Hr) as (HS & Hb & _). specialize (Hb _ Hd).
  apply lookup_lt_is_Some in Hb as [r Hs]. destruct (HS _ _ Hs) as (_ & Hal & _ & _). apply Hal in Hd.
  unfold step. rewrite Ht. cbn. unfold get_sig. rewrite Hs, Hd. reflexivity.
Qed.

Lemma move_assign_ub e w t fail a b k st : w_thr w !! t = Some (FProg (Do (OMoveAssignSignal a b) k) :: st) ->
  step e w t fail = SUB UNoReturn.
Proof. intros Ht. unfold step. rewrite Ht. reflexivity. Qed.

(** ** Steps that destroy nothing *)
Lemma existsb_upd {A} (p : A -> bool) (xss : list (list A)) t st st' : xss !! t = Some st -> existsb p st' = existsb p st ->
  existsb (existsb p) (<[t := st']> xss) = existsb (existsb p) xss.
Proof.
  revert t. induction xss as [|x xss IH]; intros t Ht He; [reflexivity|]. destruct t as [|t]; cbn in *; simplify_eq.
  - rewrite He. reflexivity.
  - f_equal. apply IH; auto.
Qed.

Lemma reap_nothing e w w1 t st st1 : w_thr w !! t = Some st -> w_thr w1 = w_thr w ->
  (forall l, existsb (sig_keeps w1 l) (w_sigs w1) = existsb (sig_keeps w l) (w_sigs w)) ->
  w_vecs w1 = w_vecs w -> (forall l, existsb (frame_keeps w l) st1 = existsb (frame_keeps w l) st) ->
  v_objs (w_vars w1) = v_objs (w_vars w) -> (forall o, existsb (frame_pins_obj o) st1 = existsb (frame_pins_obj o) st) ->
  reap e w w1 t st1 = w_set_stack w1 t st1.
Proof.
  intros Ht Hthr Hsg Hv Hk Ho Hp. unfold reap.
  assert (Hsa : forall l, slot_alive (w_set_stack w1 t st1) l = slot_alive w l).
  { intros l. unfold slot_alive. f_equal.
    - rewrite <- Hsg. reflexivity.
    - cbn. rewrite Hthr. assert (Hfk : frame_keeps (w_set_stack w1 t st1) l = frame_keeps w l \/ True) by auto.
      transitivity (existsb (existsb (frame_keeps w l)) (<[t:=st1]> (w_thr w))).
      + apply existsb_ext'. intros st0. apply existsb_ext'. intros f. unfold frame_keeps, vec_of. cbn. rewrite Hv. reflexivity.
      + apply existsb_upd with st; auto. }
  assert (Hoa : forall o, obj_alive (w_set_stack w1 t st1) o = obj_alive w o).
  { intros o. unfold obj_alive. cbn. rewrite Ho, Hthr. f_equal. apply existsb_upd with st; auto. }
  assert (Hd : dead_slots w (w_set_stack w1 t st1) = []).
  { unfold dead_slots. apply filter_nil. intros l. rewrite Hsa. destruct (slot_alive w l); cbn; auto. }
  assert (Hd' : dead_objs w (w_set_stack w1 t st1) = []).
  { unfold dead_objs. apply filter_nil. intros l. rewrite Hoa. destruct (obj_alive w l); cbn; auto. }
  unfold dead. rewrite Hd, Hd'. cbn. unfold w_add_events, w_set_stack, w_set_thr. cbn. reflexivity.
Qed.

(** ** Plain connection objects *)
Lemma plain_exec w t v : plain_op (w_vars w) v ->
  (exists u, exec_vop w t v = VBad u) \/
  exists cs o, exec_vop w t v = VOk (set_conns (w_vars w) cs) o EfNone.
Proof.
  intros Hp.
  assert (Hpl : forall d r, get_conn (w_vars w) d = Some r -> (forall r, v_conns (w_vars w) !! d = Some r -> cn_scoped r = false) -> cn_scoped r = false).
  { intros d r Hg H. unfold get_conn in Hg. destruct (v_conns (w_vars w) !! d) eqn:Hd; [|discriminate]. repeat case_match; simplify_eq. auto. }
  assert (Hx : forall o, exists cs o', VOk (w_vars w) o EfNone = VOk (set_conns (w_vars w) cs) o' EfNone).
  { intros o. exists (v_conns (w_vars w)), o. destruct (w_vars w). reflexivity. }
  destruct v; cbn in Hp; try contradiction; unfold exec_vop; cbv zeta.
  - right. eexists _, _. reflexivity.
  - destruct (get_conn (w_vars w) c); [right; eexists _, _; reflexivity|left; eauto].
  - destruct (get_conn (w_vars w) c); [right; eexists _, _; reflexivity|left; eauto].
  - destruct (get_conn (w_vars w) d) as [rd|] eqn:Hd; [|left; eauto]. destruct (get_conn (w_vars w) s); [|left; eauto].
    rewrite (Hpl _ _ Hd Hp). right. eexists _, _. reflexivity.
  - destruct (get_conn (w_vars w) d) as [rd|] eqn:Hd; [|left; eauto]. destruct (get_conn (w_vars w) s); [|left; eauto].
    rewrite (Hpl _ _ Hd Hp). right. case_bool_decide; [apply Hx|eexists _, _; reflexivity].
  - destruct (get_conn (w_vars w) c); [|left; eauto]. destruct (get_conn (w_vars w) d); [|left; eauto]. right. eexists _, _. reflexivity.
  - destruct (get_conn (w_vars w) c) as [rd|] eqn:Hd; [|left; eauto]. rewrite (Hpl _ _ Hd Hp). right. eexists _, _. reflexivity.
  - destruct (get_conn (w_vars w) c); [right; eexists _, _; reflexivity|left; eauto].
Qed.

Lemma plain_step e w t fail v k st w' : w_thr w !! t = Some (FProg (Do (OVar v) k) :: st) -> plain_op (w_vars w) v ->
  step e w t fail = SOk w' ->
  w_sigs w' = w_sigs w /\ w_vecs w' = w_vecs w /\ w_slots w' = w_slots w /\ w_log w' = w_log w /\
  (exists cs, w_vars w' = set_conns (w_vars w) cs) /\ (exists o, w_thr w' = <[t := FRet o :: FWait k :: st]> (w_thr w)).
Proof.
  intros Ht Hp Hs. unfold step in Hs. rewrite Ht in Hs. cbn in Hs.
  destruct (plain_exec w t v Hp) as [(u & Hx)|(cs & o & Hx)]; rewrite Hx in Hs; [discriminate|].
  rewrite (reap_nothing e w _ t _ _ Ht) in Hs; try reflexivity. simplify_eq. cbn.
  repeat (split; [reflexivity|]). split; eauto.
Qed.

(** ** After the signal is gone *)
Lemma dead_after_destroy e ps w l : reachable e ps w ->
  (forall s, l ∈ slots_of w s -> EDestroySig s ∈ w_log w) -> not_in_use w l -> slot_alive w l = false.
Proof.
  intros Hr Hd Hu. destruct (slot_alive w l) eqn:Ha; [|reflexivity]. exfalso. unfold slot_alive in Ha.
  apply orb_true_iff in Ha as [Ha|Ha].
  - apply existsb_exists in Ha as (r & Hin & Hk). apply elem_of_list_In, elem_of_list_lookup in Hin as [s Hs].
    unfold sig_keeps in Hk. apply andb_true_iff in Hk as [Hal Hk]. destruct (sg_vec r) as [v|] eqn:Hv; [|discriminate].
    apply bool_decide_eq_true in Hk. destruct (I_sig_inv _ _ _ Hr) as (HS & _). destruct (HS _ _ Hs) as (_ & Hde & _).
    assert (Hl : l ∈ slots_of w s) by (unfold slots_of; rewrite Hs, Hv; auto). apply Hd in Hl. apply Hde in Hl. congruence.
  - apply existsb_exists in Ha as (st & Hin & Hk). apply elem_of_list_In, elem_of_list_lookup in Hin as [t Ht].
    apply existsb_exists in Hk as (f & Hf & Hk). apply elem_of_list_In in Hf. specialize (Hu _ _ _ Ht Hf).
    destruct f; cbn in Hk, Hu; try discriminate; apply bool_decide_eq_true in Hk; auto.
Qed.

Lemma list_destroyed e ps w l t s i : reachable e ps w -> EConn t s l i ∈ w_log w -> EDestroySig s ∈ w_log w ->
  (forall s2, EMoveSig s s2 ∉ w_log w) -> forall s', l ∈ slots_of w s' -> EDestroySig s' ∈ w_log w.
Proof.
  intros Hr Hc Hd Hm s' Hl. change slots_of with cur in Hl. rewrite (proj1 (list_spec _ _ _ s' Hr)) in Hl.
  destruct (where_reach _ _ _ _ _ _ _ Hr Hc) as [[_ Ho]|(_ & s1 & Hs1 & [->|[s2 Hs2]])].
  - exfalso. eapply Ho; eauto.
  - destruct (I_list_inv _ _ _ Hr) as (_ & _ & Hdj & Hls). rewrite <- !Hls in *. rewrite (Hdj _ _ _ Hl Hs1). auto.
  - exfalso. eapply Hm; eauto.
Qed.

(** Queries and disconnect through a handle of a dead slot. *)
Lemma dead_handle e ps w t fail c r l v k st : reachable e ps w ->
  w_thr w !! t = Some (FProg (Do (OVar v) k) :: st) -> v = VValid c \/ v = VConnected c \/ v = VBlocked c \/ v = VDisc c ->
  v_conns (w_vars w) !! c = Some r -> cn_live r = true -> cn_slot r = Some l -> slot_alive w l = false ->
  exists w' ev, step e w t fail = SOk w' /\ w_sigs w' = w_sigs w /\ w_vecs w' = w_vecs w /\ w_slots w' = w_slots w /\
    w_vars w' = w_vars w /\ w_log w' = ev :: w_log w /\
    w_thr w' = <[t := FRet (OutBool false) :: FWait k :: st]> (w_thr w).
Proof.
  intros Hr Ht Hv Hc Hlv Hl Ha.
  assert (Hg : get_conn (w_vars w) c = Some r) by (unfold get_conn; rewrite Hc, Hlv; reflexivity).
  assert (Hlst : exists ev, lstep e w t fail (FProg (Do (OVar v) k) :: st) =
    LOk (w_add_log (w_set_vars w (w_vars w)) ev) (FRet (OutBool false) :: FWait k :: st)).
  { destruct Hv as [->|[->|[->| ->]]]; unfold lstep, start_op, exec_vop, disc_res, held; cbv zeta; rewrite Hg, Hl, ?Ha; eexists; reflexivity. }
  destruct Hlst as [ev Hlst]. eexists _, ev. unfold step. rewrite Ht, Hlst. split; [reflexivity|].
  rewrite (reap_nothing e w _ t _ _ Ht) by reflexivity. repeat (split; [reflexivity|]). reflexivity.
Qed.

(** ** The machinery of an emission never fails *)
Lemma emit_machinery e ps w t fail st : reachable e ps w -> w_thr w !! t = Some st -> machinery w st ->
  exists w', step e w t fail = SOk w'.
Proof.
  intros Hr Ht Hm. unfold step. rewrite Ht.
  enough (exists w1 st1, lstep e w t fail st = LOk w1 st1) as (w1 & st1 & ->) by eauto.
  pose proof (proj1 (I_adj_inv _ _ _ Hr _ _ Ht)) as HA. pose proof (I_adj_inv _ _ _ Hr _ _ Ht) as [_ Hact].
  destruct st as [|f st]; [contradiction|]. destruct f; cbn in Hm; try contradiction.
  - destruct st as [|g st]; [contradiction|]. destruct g; try contradiction.
    + destruct HA as [HA HA']. cbn in HA. destruct HA as [HA|[HA|(r & a & -> & _)]]; try discriminate; try contradiction.
      cbn in HA'. destruct st as [|[] st]; cbn; try (destruct HA' as [HA' _]; contradiction). eauto.
    + cbn. eauto.
  - destruct p as [o|o k0]; cbn; [eauto|]. destruct o; try contradiction. destruct st as [|[] st]; try contradiction.
    apply lookup_lt_is_Some in Hm as [l Hl]. cbn. rewrite Hl. eauto.
  - destruct r as [l|u]; [|contradiction]. destruct eid as [eid|]; [|contradiction].
    assert (Hal : slot_alive w l = true) by (eapply slot_frame_alive; eauto using elem_of_list_here).
    cbn. unfold step_slot, skip. cbn [ref_ok]. rewrite Hal. repeat case_match; eauto. discriminate.
Qed.

Lemma default_in_range e ps w t p s eid v a st a0 xs : reachable e ps w ->
  w_thr w !! t = Some (FProg p :: FEmit s eid v a :: st) -> began (w_log w) t eid s a0 xs None ->
  machinery w (FProg p :: FEmit s eid v a :: st).
Proof.
  intros Hr Ht Hb. pose proof (I_em_inv _ _ _ Hr _ _ Ht) as HE. destruct HE as [HE _]. cbn in HE.
  destruct HE as (s' & a1 & xs' & c & Hb' & Hst & _).
  destruct (began_unique _ _ _ _ _ _ _ _ _ _ _ _ _ _ Hr Hb Hb') as (_ & -> & -> & -> & ->). cbn [combiner] in Hst.
  destruct (I_emitvec_inv _ _ _ Hr _ _ _ _ _ _ Ht ltac:(apply elem_of_list_further, elem_of_list_here)) as (a2 & c2 & Hb2).
  destruct (began_unique _ _ _ _ _ _ _ _ _ _ _ _ _ _ Hr Hb Hb2) as (_ & _ & _ & Hxs & _). cbn. rewrite Hxs.
  destruct (olv_esteps _ _ _ _ _ _ _ _ Hst) as [(n & z & _ & Hle & ->)|(n & z & l & c & args & start & x & evs0 & _ & _ & _ & ->)]; [|exact I].
  destruct (length xs - n) as [|m] eqn:Hm; cbn; [exact I|]. lia.
Qed.

(** ** Scoped connections *)
Definition fr_scoped (t : tid) (log : list event) (f : frame) (r : list frame) : Prop :=
  match f with
  | FRet _ => match r with
              | FUnit l :: _ | FAssign _ _ l :: _ | FAssignMv _ _ l :: _ => exists b, EDisc t l b ∈ log
              | _ => True
              end
  | _ => True
  end.

Lemma fr_scoped_inv e ps w : reachable e ps w -> forall t st, w_thr w !! t = Some st -> AT (fr_scoped t (w_log w)) st.
Proof.
  apply AT_log_inv.
  - intros t L log f r. unfold fr_scoped. destruct f; auto. destruct r as [|[] r]; auto; intros [b H]; exists b; apply elem_of_app; auto.
  - intros; exact I.
  - intros; exact I.
  - clear w. intros w t st w' st' Hr Ht Htr Ha HA.
    assert (Hvar : forall fr r, Forall varish fr -> AT (fr_scoped t (w_log w')) r -> AT (fr_scoped t (w_log w')) (fr ++ r)).
    { clear. intros fr r Hf HA. induction Hf as [|f fr Hv _ IH]; cbn; [auto|]. split; [|auto]. destruct f; cbn in *; auto; contradiction. }
    destruct Htr; cbn [AT app adj fr_scoped] in *; destruct_and?; repeat (match goal with |- _ /\ _ => split end); auto;
      try (match goal with st : list frame |- match ?st with _ => _ end => destruct st as [|[] st]; cbn in *; auto; try discriminate; try contradiction end; fail).
    + apply Hvar; [eapply vop_after; eauto|cbn; auto].
    + destruct (vop_after' _ _ _ _ _ _ H) as [->|[(d & m & ->)|[(d & s & ->)| ->]]]; cbn; auto; eexists; apply elem_of_list_here.
    + apply Hvar; [eapply vop_after; eauto|cbn; auto].
    + apply Hvar; [eapply begins_fr; eauto|cbn; auto].
    + destruct r, eid, st as [|[] st]; try contradiction; auto.
    + destruct r, eid, st as [|[] st]; try contradiction; auto.
    + destruct st as [|[] st]; cbn in *; auto; try contradiction; subst; eexists; apply elem_of_list_here.
    + destruct st as [|[] st]; cbn in *; auto; try contradiction; subst; eexists; apply elem_of_list_here.
    + destruct r, eid, st as [|[] st]; try contradiction; auto.
Qed.

Lemma scoped_disc e ps w : reachable e ps w ->
  log_all (fun ev pre => match ev with EScoped t l => exists b, EDisc t l b ∈ pre | _ => True end) (w_log w).
Proof.
  apply log_all_hist; [intros []; cbn; auto; discriminate|].
  clear w. intros w t st w' st' ev pre Hr Ht Htr Hlg. destruct ev; auto.
  pose proof (fr_scoped_inv _ _ _ Hr _ _ Ht) as HS. logs_inv Htr Hlg; apply HS.
Qed.

Lemma no_call_after_scoped e ps w : reachable e ps w ->
  log_all (fun ev pre => match ev with
    | ECall _ (RSlot l) _ _ _ start => start <= length pre /\ forall t, EScoped t l ∉ older start pre
    | EScoped t l => spec_connected pre l = false
    | _ => True end) (w_log w).
Proof.
  intros Hr. pose proof (no_call_after_disc _ _ _ Hr) as H1. pose proof (scoped_disc _ _ _ Hr) as H2.
  pose proof (disc_gone _ _ _ Hr) as H3. pose proof (wf_log_reach _ _ _ Hr) as Hw.
  intros post ev pre Hl. destruct ev; auto.
  - specialize (H2 _ _ _ Hl). destruct H2 as [b Hb]. rewrite Hl in H3, Hw. apply log_all_pre in H3.
    assert (Hw' : wf_log pre) by (eapply log_all_pre; exact Hw).
    destruct (gone_after _ _ _ H3 Hb) as (post' & pre' & Hp & Hk & Hg). cbn in Hk, Hg. subst pre.
    unfold spec_connected. replace (post' ++ EDisc t l b :: pre') with ((post' ++ [EDisc t l b]) ++ pre') in Hw' |- * by (rewrite <- app_assoc; reflexivity).
    destruct Hg as [Hg|Hg].
    + rewrite (flag_app _ _ _ Hw' Hk Hg). rewrite andb_false_r. reflexivity.
    + rewrite (dead_app _ _ _ Hw' Hk Hg). reflexivity.
  - specialize (H1 _ _ _ Hl). cbn in H1. destruct r as [l|]; [|auto]. destruct H1 as [Hle Hn]. split; [auto|].
    intros t' Hin. rewrite Hl in H2. apply log_all_pre, (log_all_older _ start) in H2.
    destruct (gone_after _ _ _ H2 Hin) as (post' & pre' & Hp & b & Hb). apply (Hn t' b). rewrite Hp.
    apply elem_of_app. right. apply elem_of_list_further. auto.
Qed.

Lemma scoped_starts e ps w t fail c r l k st w' : reachable e ps w ->
  w_thr w !! t = Some (FProg (Do (OVar (VDestroyConn c)) k) :: st) ->
  v_conns (w_vars w) !! c = Some r -> cn_live r = true -> cn_scoped r = true -> cn_slot r = Some l ->
  step e w t fail = SOk w' ->
  exists D f, dtorish D /\ (f = FDisc l \/ f = FRet (OutBool false)) /\ w_thr w' !! t = Some (D ++ f :: FUnit l :: FWait k :: st).
Proof.
  intros Hr Ht Hc Hlv Hsc Hl Hs. destruct (step_inv _ _ _ _ _ _ Hs Ht) as (w1 & st1 & D & L & Htr & Hls & HD & HL & _ & _ & _ & _ & _ & Hthr).
  assert (Hg : get_conn (w_vars w) c = Some r) by (unfold get_conn; rewrite Hc, Hlv; reflexivity).
  unfold lstep, start_op, exec_vop, disc_res in Hls. cbv zeta in Hls. rewrite Hg, Hsc, Hl in Hls.
  rewrite Hthr, list_lookup_insert by (eapply lookup_lt_Some; eauto).
  destruct (slot_alive w l); simplify_eq; eexists _, _; (split; [exact HD|]); (split; [|reflexivity]); auto.
Qed.

(** ** Expired slots stay in the list *)
Lemma stays_in_list post pre l s : log_all (fun ev pre => is_dead ev = false -> ev_lists ev pre) (post ++ pre) ->
  l ∈ spec_list pre s -> (forall ev, ev ∈ post -> ~ takes_out l ev) -> (forall s2, EMoveSig s s2 ∉ post) -> l ∈ spec_list (post ++ pre) s.
Proof.
  induction post as [|ev post IH]; intros HL Hl Ho Hm; [auto|]. cbn [app] in *. apply log_all_cons in HL as [Hev HL].
  assert (Hin : l ∈ spec_list (post ++ pre) s).
  { apply IH; auto; intros; [apply Ho; apply elem_of_list_further; auto|].
    intros Hx. eapply Hm. apply elem_of_list_further. eauto. }
  specialize (Ho ev ltac:(apply elem_of_list_here)).
  destruct ev; cbn [spec_list]; auto; cbn in Ho.
  - destruct (Hev eq_refl) as (_ & _ & _ & He & _). case_decide; [subst; rewrite He in Hin; inversion Hin|].
    case_decide; [|auto]. subst. exfalso. eapply Hm. apply elem_of_list_here.
  - case_decide; auto. apply elem_of_app. auto.
  - case_decide; auto. apply swap_remove_elem; auto.
  - case_decide; auto. apply swap_remove_elem; auto.
Qed.

Lemma expired_stays e ps w post o pre l s : reachable e ps w -> w_log w = post ++ EObjDead o :: pre ->
  spec_tracks pre l = Some o -> 
  (forall t eid c args start, ECall t (RSlot l) eid c args start ∉ post) /\
  (forall t b, EConnd t l b ∈ post -> b = false) /\
  (l ∈ spec_list pre s -> (forall ev, ev ∈ post -> ~ takes_out l ev) -> (forall s2, EMoveSig s s2 ∉ post) -> l ∈ spec_list (w_log w) s).
Proof.
  intros Hr Hl Htk. pose proof (wf_objs_reach _ _ _ Hr) as Hwo. pose proof (wf_log_reach _ _ _ Hr) as Hw.
  pose proof (death_once _ _ _ Hr _ _ _ Hl) as Hal. cbn in Hal.
  assert (Hnew : ENewObj o ∈ pre).
  { clear -Hal. induction pre as [|ev pre IH]; [discriminate|]. cbn in Hal.
    assert (Hi : spec_obj pre o = true -> ENewObj o ∈ ev :: pre) by (intros; apply elem_of_list_further; auto).
    destruct ev; auto; case_decide; auto; [subst; apply elem_of_list_here|discriminate]. }
  assert (Hd : forall a ev b, post = a ++ ev :: b -> spec_obj (b ++ EObjDead o :: pre) o = false /\ spec_tracks (b ++ EObjDead o :: pre) l = Some o).
  { intros a ev b ->. rewrite <- app_assoc in Hl. cbn in Hl. rewrite Hl in Hwo, Hw.
    apply log_all_pre in Hwo, Hw. split.
    - apply obj_dead_app; auto; [apply elem_of_list_further; auto|]. cbn. rewrite decide_True by auto. reflexivity.
    - apply tracks_app; auto. }
  split; [|split].
  - intros t eid c args start Hin. apply elem_of_list_split in Hin as (a & b & Hab). destruct (Hd _ _ _ Hab) as [Ho Hk].
    rewrite Hab, <- app_assoc in Hl. pose proof (tracked_safe _ _ _ Hr _ _ _ Hl) as Hs. assert (true = false); [|discriminate]. rewrite <- Ho. symmetry. exact (Hs _ Hk).
  - intros t b Hin. apply elem_of_list_split in Hin as (a & b' & Hab). destruct (Hd _ _ _ Hab) as [Ho Hk].
    rewrite Hab, <- app_assoc in Hl. pose proof (connd_spec _ _ _ Hr _ _ _ Hl) as Hs.
    assert (Hs' : b = spec_connected (b' ++ EObjDead o :: pre) l) by exact Hs. rewrite Hs'. unfold spec_connected. rewrite Hk, Ho. apply andb_false_r.
  - intros Hin Ho Hm. pose proof (lists_ok _ _ _ Hr) as HL. rewrite Hl in *.
    apply (stays_in_list post); auto.
Qed.
