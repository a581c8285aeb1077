(** * Destructors of tracked objects: proofs *)
From Verif Require Import Reach InvObj InvSlot InvStack InvUse InvSig InvDeath Facts OpDeath AloneProof.
From Verif Require Export SpecObject SpecCall.

Lemma resets e w t st w' st' o : trans e w t st w' st' -> w_log w' = EReset o :: w_log w -> exists k r, st = FProg (Do (OVar (VResetObj o)) k) :: r.
Proof.
  assert (Hno : forall (x : event) l, l = x :: l -> False) by (intros x l H; apply (f_equal length) in H; cbn in H; lia).
  assert (Hv : forall v x out, exec_vop w t v = VOk x out (EfLog (EReset o)) -> v = VResetObj o).
  { intros v x out H. destruct v; try (exfalso; revert H; unfold exec_vop, disc_res, blk_eff; cbv zeta; repeat case_match; intros H'; discriminate H').
    unfold exec_vop in H; cbv zeta in H. repeat case_match; try discriminate H. injection H as _ _ ->. reflexivity. }
  intros Htr H. destruct Htr; wcbn_in H; autorewrite with wsimp in H; try (injection H; discriminate); try (exfalso; eapply Hno; exact H; fail).
  all: try (exfalso; revert H; unfold clear_conn; repeat case_match; cbn; intros H; first [discriminate H|eapply Hno; exact H|injection H; intros; discriminate]; fail).
  all: injection H as ->; match goal with H : exec_vop _ _ _ = _ |- _ => rewrite (Hv _ _ _ H) end; eauto.
Qed.

Lemma unpins e w t st w' st' o f : trans e w t st w' st' -> f ∈ st -> frame_pins_obj o f = true ->
  (exists g, g ∈ st' /\ frame_pins_obj o g = true) \/
  (exists x g a eid n r, st = FSlot x g a (Some o) eid n :: r) \/
  (exists v x g a eid n r, st = FRet v :: FSlot x g a (Some o) eid n :: r).
Proof.
  intros Htr Hf Hp. destruct f; try discriminate Hp. destruct pin as [o'|]; [|discriminate Hp]. cbn in Hp. apply bool_decide_eq_true in Hp. subst o'.
  assert (Hk : forall st0 : list frame, FSlot r g args (Some o) eid start ∈ st0 -> exists g : frame, g ∈ st0 /\ frame_pins_obj o g = true).
  { intros st0 H. eexists. split; [exact H|]. cbn. apply bool_decide_eq_true. reflexivity. }
  destruct Htr; repeat (apply elem_of_cons in Hf as [Hf|Hf]; [try discriminate Hf|]);
    try (left; apply Hk; rewrite ?elem_of_cons, ?elem_of_app, ?elem_of_cons; tauto);
    try (injection Hf as <- <- <- <- <- <-; eauto 12; fail).
Qed.

(** ** When an object is destroyed *)
Lemma obj_given_up e ps w t fail st w' new o : reachable e ps w -> w_thr w !! t = Some st -> step e w t fail = SOk w' -> w_log w' = new ++ w_log w ->
  EObjDead o ∈ new -> gives_up o st.
Proof.
  intros Hr Ht Hst Hnew Hin. destruct (step_trans _ _ _ _ _ Hst) as (st0 & w1 & st1 & Ht0 & Htr & -> & _). rewrite Ht in Ht0. injection Ht0 as <-.
  destruct (reap_spec e w w1 t st1) as (D & L & _ & _ & Hre & _ & HLeq). rewrite Hre in Hnew. wcbn_in Hnew.
  destruct (trans_log_app _ _ _ _ _ _ Htr) as [new1 Hnew1]. rewrite Hnew1, app_assoc in Hnew. apply app_inv_tail in Hnew. subst new.
  pose proof (trans_deaths _ _ _ _ _ _ _ Htr Hnew1) as Hd.
  assert (Ho : o ∈ dead_objs w (mid w1 t st1)).
  { apply elem_of_app in Hin as [Hin|Hin].
    - rewrite HLeq in Hin. apply elem_of_app in Hin as [Hin|Hin]; apply elem_of_list_fmap in Hin as (y & E & Hy); [injection E as ->; exact Hy|discriminate].
    - exfalso. assert (Hx : inr o ∈ deaths new1) by (unfold deaths; apply elem_of_list_omap; exists (EObjDead o); auto). rewrite Hd in Hx. inversion Hx. }
  apply dead_objs_elem in Ho as (H1 & H2 & _). apply not_true_iff_false in H2. pose proof (trans_thr _ _ _ _ _ _ Htr) as Hthr.
  assert (Hpin : forall g, g ∈ st1 -> frame_pins_obj o g = true -> False).
  { intros g Hg Hp. apply H2. apply obj_alive_iff. right. exists t, st1, g. wcbn. rewrite Hthr, list_lookup_insert by (eapply lookup_lt_Some; eauto). auto. }
  apply obj_alive_iff in H1 as [Hs|(t0 & x & f & Hx & Hf & Hp)].
  - destruct (trans_objs _ _ _ _ _ _ Htr) as [[He _]|[[He _]|(ob & Hob & He & Hl)]].
    + exfalso. apply H2. apply obj_alive_iff. left. wcbn. rewrite He. exact Hs.
    + exfalso. apply H2. apply obj_alive_iff. left. wcbn. rewrite He. apply lookup_app_l_Some. exact Hs.
    + destruct (decide (ob = o)) as [->|Hn]; [left; eapply resets; eauto|].
      exfalso. apply H2. apply obj_alive_iff. left. wcbn. rewrite He, list_lookup_insert_ne by auto. exact Hs.
  - destruct (decide (t0 = t)) as [->|Hn].
    + rewrite Ht in Hx. injection Hx as <-. destruct (unpins _ _ _ _ _ _ _ _ Htr Hf Hp) as [(g & Hg & Hp')|[H|H]]; [exfalso; eauto|right; left; exact H|right; right; exact H].
    + exfalso. apply H2. apply obj_alive_iff. right. exists t0, x, f. wcbn. rewrite Hthr, list_lookup_insert_ne by auto. auto.
Qed.

(** ** Once *)
Definition dt (o : oid) (f : frame) : nat := if is_odtor o f then 1 else 0.
Lemma dt_len o st : length (List.filter (is_odtor o) st) = swt (dt o) st.
Proof. induction st as [|f st IH]; [reflexivity|]. rewrite swt_cons. unfold dt at 1. cbn. destruct (is_odtor o f); cbn; lia. Qed.
Lemma dt_all o w : destructors_of o w = wt (dt o) (w_thr w).
Proof.
  unfold destructors_of, wt. induction (w_thr w) as [|st thr IH]; [reflexivity|]. cbn [map list_sum foldr sum_list_with]. rewrite dt_len. f_equal. exact IH.
Qed.
Lemma trans_dt e w t st w' st' o : trans e w t st w' st' -> swt (dt o) st' <= swt (dt o) st.
Proof.
  intros H. destruct H; rewrite ?swt_cons, ?swt_app, ?swt_cons; cbn [dt is_odtor]; try lia.
  all: try (match goal with H : begins _ _ _ _ _ |- _ => destruct H end; cbn; lia).
  all: try (match goal with H : exec_vop _ _ _ = VDo _ _ _ |- _ => apply vop_after' in H as [-> |[(? & ? & ->)|[(? & ? & ->)| ->]]] end; cbn; lia).
Qed.
Lemma dt_dtors e w ds o : NoDup ds -> swt (dt o) (flat_map (dtor_frames e w) ds) <= if decide (inr o ∈ ds) then 1 else 0.
Proof.
  induction ds as [|d ds IH]; intros Hn; [cbn; lia|]. apply NoDup_cons in Hn as [Hd Hn]. specialize (IH Hn). cbn [flat_map]. rewrite swt_app.
  assert (H1 : swt (dt o) (dtor_frames e w d) <= if decide (d = inr o) then 1 else 0).
  { unfold dtor_frames. destruct (dtor_prog e w d); [|cbn; lia]. rewrite !swt_cons. unfold dt. cbn. destruct d as [l|o']; cbn; [lia|].
    destruct (decide (inr o' = inr o)) as [E|E]; case_bool_decide; subst; cbn; try lia. congruence. }
  destruct (decide (d = inr o)) as [->|Hne].
  - rewrite decide_True by apply elem_of_list_here. rewrite decide_False in IH by exact Hd. lia.
  - destruct (decide (inr o ∈ ds)) as [Hi|Hi]; [rewrite decide_True by (apply elem_of_list_further; exact Hi); lia|]. lia.
Qed.
Lemma dead_NoDup w w1 : NoDup (dead w w1).
Proof.
  unfold dead. apply NoDup_app. split; [|split].
  - apply (NoDup_fmap_2 _), filter_seq_NoDup.
  - intros x H1 H2. apply elem_of_list_fmap in H1 as (a & -> & _). apply elem_of_list_fmap in H2 as (b & E & _). discriminate.
  - apply (NoDup_fmap_2 _), filter_seq_NoDup.
Qed.
Lemma odead_map o ls : NoDup ls -> ecount (is_odead o) (map EObjDead ls) = if decide (o ∈ ls) then 1 else 0.
Proof.
  induction ls as [|x ls IH]; intros Hn; [reflexivity|]. apply NoDup_cons in Hn as [Hx Hn]. cbn [map]. rewrite ecount_cons, (IH Hn). cbn.
  case_bool_decide; subst.
  - rewrite decide_False by exact Hx. rewrite decide_True by apply elem_of_list_here. reflexivity.
  - destruct (decide (o ∈ ls)) as [Hi|Hi]; [rewrite decide_True by (apply elem_of_list_further; exact Hi); reflexivity|].
    rewrite decide_False; [reflexivity|]. rewrite elem_of_cons. intuition congruence.
Qed.
Lemma odead_slots o ls : ecount (is_odead o) (map ESlotDead ls) = 0.
Proof. apply ecount_zero. intros ev H. apply elem_of_list_fmap in H as (y & -> & _). reflexivity. Qed.

Definition I_od (w : world) : Prop := forall o,
  (length (v_objs (w_vars w)) <= o -> ecount (is_odead o) (w_log w) = 0) /\
  ecount (is_odead o) (w_log w) + (if spec_obj (w_log w) o then 1 else 0) <= 1 /\
  wt (dt o) (w_thr w) <= ecount (is_odead o) (w_log w).
Lemma I_od_inv e ps w : reachable e ps w -> I_od w.
Proof.
  apply reach_ind.
  - intros o. split; [reflexivity|]. split; [cbn; lia|]. replace (wt (dt o) (w_thr (init ps))) with 0; [lia|]. symmetry. apply wt_zero. intros t st Ht.
    cbn in Ht. rewrite list_lookup_fmap in Ht. destruct (ps !! t); cbn in Ht; simplify_eq. reflexivity.
  - clear w. intros w t st w' st' Hr HI Ht Htr Hr' o. destruct (HI o) as (H1 & H2 & H3).
    destruct (reap_spec e w w' t st') as (D & L & HD & HL & Hre & HDe & HLe). rewrite Hre. wcbn.
    destruct (trans_log_app _ _ _ _ _ _ Htr) as [new Hnew]. pose proof (trans_deaths _ _ _ _ _ _ _ Htr Hnew) as Hdn.
    assert (Hz : ecount (is_odead o) new = 0).
    { apply ecount_zero. intros ev Hev. destruct ev; try reflexivity. exfalso. assert (Hx : inr o0 ∈ deaths new) by (unfold deaths; apply elem_of_list_omap; exists (EObjDead o0); auto). rewrite Hdn in Hx. inversion Hx. }
    rewrite Hnew, !ecount_app, Hz. cbn [plus].
    assert (HeL : ecount (is_odead o) L = if decide (o ∈ dead_objs w (mid w' t st')) then 1 else 0).
    { rewrite HLe, ecount_app, odead_slots, odead_map by apply filter_seq_NoDup. lia. }
    assert (HdD : swt (dt o) D <= ecount (is_odead o) L).
    { rewrite HeL, HDe. pose proof (dt_dtors e (mid w' t st') (dead w (mid w' t st')) o (dead_NoDup _ _)) as Hx.
      destruct (decide (inr o ∈ dead w (mid w' t st'))) as [Hi|Hi]; [|lia]. unfold dead in Hi. apply elem_of_app in Hi as [Hi|Hi]; apply elem_of_list_fmap in Hi as (y & E & Hi); [|discriminate].
      injection E as ->. rewrite decide_True by exact Hi. exact Hx. }
    rewrite HeL in HdD |- *. pose proof (proj1 (I_obj_inv _ _ _ Hr) o) as Hao.
    assert (Hdead : o ∈ dead_objs w (mid w' t st') -> spec_obj (w_log w) o = true /\ o < length (v_objs (w_vars w))).
    { intros H. apply dead_objs_elem in H as (Ha & _ & Hlt). rewrite <- Hao. auto. }
    assert (Hlen : length (v_objs (w_vars w)) <= length (v_objs (w_vars w'))).
    { destruct (trans_objs _ _ _ _ _ _ Htr) as [[He _]|[[He _]|(ob & _ & He & _)]]; rewrite He, ?app_length, ?insert_length; cbn; lia. }
    split; [|split].
    + intros Hle. rewrite H1 by lia. case_decide as Hi; [|lia]. destruct (Hdead Hi). lia.
    + rewrite (spec_obj_reap L (dead_objs w (mid w' t st')) (dead_slots w (mid w' t st')) (new ++ w_log w) o HLe).
      case_decide as Hi; [destruct (Hdead Hi) as [Hs _]; rewrite Hs in H2; lia|].
      destruct (trans_objs _ _ _ _ _ _ Htr) as [[_ He]|[[_ He]|(ob & _ & _ & He)]]; rewrite <- Hnew.
      * rewrite He. lia.
      * rewrite He. cbn. case_decide as Ho; [|lia]. subst o. rewrite H1 by lia. lia.
      * rewrite He. cbn. lia.
    + pose proof (wt_insert (dt o) _ _ _ (D ++ st') Ht) as Hw. rewrite (trans_thr _ _ _ _ _ _ Htr). rewrite swt_app in Hw.
      pose proof (trans_dt _ _ _ _ _ _ o Htr). lia.
Qed.
Lemma destroyed_once e ps w o : reachable e ps w -> destructors_of o w <= ecount (is_odead o) (w_log w) /\ ecount (is_odead o) (w_log w) <= 1.
Proof. intros Hr. destruct (I_od_inv _ _ _ Hr o) as (_ & H2 & H3). rewrite dt_all. lia. Qed.

(** ** Never called back *)
Lemma odead_forever e ps w o : reachable e ps w -> EObjDead o ∈ w_log w -> spec_obj (w_log w) o = false.
Proof.
  intros Hr Hin. destruct (I_od_inv _ _ _ Hr o) as (_ & H2 & _). destruct (spec_obj (w_log w) o); [|reflexivity]. exfalso.
  assert (ecount (is_odead o) (w_log w) <> 0); [|lia]. rewrite ecount_zero. intros H. specialize (H _ Hin). cbn in H. rewrite bool_decide_eq_true_2 in H by reflexivity. discriminate.
Qed.
Lemma odtor_dead e ps w t st o : reachable e ps w -> w_thr w !! t = Some st -> FDtor (inr o) ∈ st -> EObjDead o ∈ w_log w.
Proof.
  intros Hr Ht Hin. destruct (I_od_inv _ _ _ Hr o) as (_ & _ & H3). pose proof (wt_ge (dt o) _ _ _ Ht) as Hg.
  assert (Hs : 1 <= swt (dt o) st).
  { apply elem_of_list_split in Hin as (a & b & ->). rewrite swt_app, swt_cons. unfold dt at 2. cbn. rewrite bool_decide_eq_true_2 by reflexivity. lia. }
  destruct (decide (ecount (is_odead o) (w_log w) = 0)) as [H0|H0]; [lia|].
  destruct (decide (EObjDead o ∈ w_log w)) as [H|H]; [exact H|]. exfalso. apply H0, ecount_zero. intros ev Hev. destruct ev; try reflexivity. cbn.
  apply bool_decide_eq_false. intros ->. contradiction.
Qed.
Lemma not_called_back e ps w t st o sc w' new t' l eid c args n : reachable e ps w -> w_thr w !! t = Some st -> FDtor (inr o) ∈ st ->
  run e w sc = inl w' -> since w w' new -> ECall t' (RSlot l) eid c args n ∈ new -> spec_tracks (w_log w') l <> Some o.
Proof.
  intros Hr Ht Hin Hrun Hs Hc Htk. pose proof (run_reachable _ _ _ _ _ Hr Hrun) as Hr'. pose proof (odtor_dead _ _ _ _ _ _ Hr Ht Hin) as Hd.
  unfold since in Hs. apply elem_of_list_split in Hc as (a & b & ->). rewrite <- app_assoc in Hs. cbn in Hs.
  pose proof (tracked_safe _ _ _ Hr' _ _ _ Hs) as Hl. cbn in Hl. specialize (Hl o).
  pose proof (wf_objs_reach _ _ _ Hr') as Hw. rewrite Hs in Hw. apply log_all_pre in Hw.
  assert (Hnew : ENewObj o ∈ w_log w).
  { apply elem_of_list_split in Hd as (x & y & Hxy). pose proof (death_once _ _ _ Hr _ _ _ Hxy) as Hal. cbn in Hal. rewrite Hxy. apply elem_of_app. right. apply elem_of_list_further.
    clear -Hal. induction y as [|ev y IH]; [discriminate|]. cbn in Hal.
    assert (Hi : spec_obj y o = true -> ENewObj o ∈ ev :: y) by (intros; apply elem_of_list_further; auto).
    destruct ev; auto; case_decide; auto; [subst; apply elem_of_list_here|discriminate]. }
  rewrite (obj_dead_app b (w_log w) o Hw Hnew (odead_forever _ _ _ _ Hr Hd)) in Hl.
  assert (Hk : spec_tracks (b ++ w_log w) l = Some o); [|specialize (Hl Hk); discriminate].
  pose proof (call_facts _ _ _ Hr' _ _ _ Hs) as (_ & (i & Hi & _) & _). pose proof (wf_log_reach _ _ _ Hr') as Hwl.
  assert (Hi' : spec_conn0 (w_log w') l = Some i).
  { rewrite Hs in Hwl |- *. change (ECall t' (RSlot l) eid c args n :: b ++ w_log w) with ([ECall t' (RSlot l) eid c args n] ++ b ++ w_log w) in Hwl |- *.
    rewrite app_assoc in Hwl |- *. apply conn0_app; assumption. }
  unfold spec_tracks in Htk |- *. rewrite Hi' in Htk. rewrite Hi. exact Htk.
Qed.

(** ** No mutex is held *)
Lemma odtor_unlocked e ps w t p o st : lockless_env e -> reachable e ps w -> w_thr w !! t = Some (FProg p :: FDtor (inr o) :: st) ->
  forall s, ~ owns w t s.
Proof.
  intros Hll Hr Ht s (r & Hs & Hl). pose proof (I_loc_inv e ps w Hll Hr _ _ Ht) as HL. destruct HL as [_ [(_ & _ & Hc) _]].
  eapply (no_lock_in_callbacks e ps w t (FProg p) (FDtor (inr o) :: st) Hr Ht); [|intros s' H; exact H|exact Hs|exact Hl].
  intros f Hf. apply elem_of_cons in Hf as [->|Hf]; [exact I|]. apply elem_of_cons in Hf as [->|Hf]; [exact I|]. apply Hc. exact Hf.
Qed.
