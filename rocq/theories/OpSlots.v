(** * Slot objects: comparison, what changes them and the slots in lists *)
From Verif Require Export CallRun.

(** ** operator==(slot, slot) *)
Section sloteq.
  Context (e : env) (ps : list prog) (t : tid) (u1 u2 : uid) (k : out -> prog) (st : list frame) (w0 : world).
  Definition eq_out (o : out) : Prop := exists i1 i2, v_us (w_vars w0) !! u1 = Some (UsV true i1) /\ v_us (w_vars w0) !! u2 = Some (UsV true i2) /\
    compares_opt e (im_c <$> i1) (im_c <$> i2) o.
  Inductive eq_ph : list frame -> list event -> Prop :=
  | EQ_prog p new : (forall o, may_ret p o -> eq_out o) -> eq_ph [FProg p] new
  | EQ_wait k' new : (forall r o, may_ret (k' r) o -> eq_out o) -> eq_ph [FWait k'] new
  | EQ_ret o new : eq_out o -> eq_ph [FRet o] new.
  Lemma sloteq_returns w o : reachable e ps w0 -> in_call e t (OSlotEq u1 u2) k st w0 w -> returned t k st w o -> eq_out o.
  Proof.
    intros Hr Hc Hret.
    assert (Ht : w_thr w0 !! t = Some (FProg (Do (OSlotEq u1 u2) k) :: st)) by (clear Hret; induction Hc; auto).
    destruct (call_returned e ps t (OSlotEq u1 u2) k st w0 eq_ph (fun _ => True)) with (w := w) (o := o) as (new & _ & Hp); auto.
    - intros c L new _ _ H. inversion H; subst; constructor; auto.
    - intros c L new _ _ H. inversion H; subst; constructor; auto.
    - intros s eid v args args' c new H. inversion H.
    - intros w' st' new _ Htr _. inversion Htr; subst; try (match goal with H : can_oom _ |- _ => destruct H end); try (match goal with H : begins _ _ _ _ _ |- _ => inversion H; fail end).
      eexists [], _, []. split; [reflexivity|]. split; [|auto]. constructor. intros o' Ho'.
      match goal with H1 : get_us _ u1 = Some _, H2 : get_us _ u2 = Some _ |- _ => apply get_us_Some in H1; apply get_us_Some in H2; eexists _, _; split; [exact H1|]; split; [exact H2|] end.
      apply slot_eq_gives. auto.
    - intros w1 f c new w' st' new' Hr1 Hl Ht1 HA Hph Hn Htr Hnew. inversion Hph; subst; cbn [app] in *.
      + destruct p as [o'|op' k'].
        * inversion Htr; subst. eexists [], _, []. split; [reflexivity|]. split; [|auto]. constructor. match goal with H : forall o, may_ret _ o -> _ |- _ => apply H end. constructor.
        * assert (exists b, st' = b ++ FWait k' :: FWait k :: st) as (b & ->).
          { inversion Htr; subst; try (eexists [_]; reflexivity); try (eexists [_; _]; reflexivity);
            [eexists (FDisc l :: after)|eexists (FRet (OutBool false) :: after)|eexists (FLock s kk :: fr)]; cbn; reflexivity. }
          exists b, (FWait k'), []. split; [reflexivity|]. split; [|auto]. constructor. intros r o' Ho'. match goal with H : forall o, may_ret _ o -> _ |- _ => apply H end.
          econstructor; eauto.
      + inversion Htr.
      + edestruct Hn; reflexivity.
    - intros w1 o' f c new w' st' new' Hr1 Hl Ht1 HA Hph Htr Hnew. inversion Hph; subst; cbn [app] in *; inversion Htr; subst.
      eexists [], _, []. split; [reflexivity|]. split; [|auto]. constructor. intros; eauto.
    - inversion Hp; subst; auto.
  Qed.
End sloteq.

(** ** Slot equality as a relation *)
Definition eqb_equivalence (eqb : nat -> nat -> nat -> bool) : Prop :=
  forall ty, (forall x, eqb ty x x = true) /\ (forall x y, eqb ty x y = true -> eqb ty y x = true) /\
    (forall x y z, eqb ty x y = true -> eqb ty y z = true -> eqb ty x z = true).
Lemma same_type_refl a : same_type a a.
Proof. unfold same_type. destruct (c_kind a); auto. Qed.
Lemma same_type_sym a b : same_type a b -> same_type b a.
Proof. unfold same_type. intros (Hk & Hf & Hp). rewrite Hk in *. split; [auto|]. split; [auto|]. destruct (c_kind b); auto. Qed.
Lemma same_type_trans a b c : same_type a b -> same_type b c -> same_type a c.
Proof.
  unfold same_type. intros (Hk & Hf & Hp) (Hk' & Hf' & Hp'). rewrite Hk in *. split; [congruence|]. split; [congruence|]. destruct (c_kind b); congruence.
Qed.
Lemma eqb_sym eqb ty x y : eqb_equivalence eqb -> eqb ty x y = eqb ty y x.
Proof.
  intros H. destruct (H ty) as (_ & Hs & _). destruct (eqb ty x y) eqn:E1, (eqb ty y x) eqn:E2; auto; [apply Hs in E1|apply Hs in E2]; congruence.
Qed.
Lemma callable_eq_sym e eqb a b : eqb_equivalence eqb -> callable_eq e eqb a b = callable_eq e eqb b a.
Proof.
  intros H. unfold callable_eq, member_eq. destruct (decide (same_type a b)) as [Hs|Hs].
  - rewrite decide_True by (apply same_type_sym; auto). destruct Hs as (Hk & Hf & Hp). rewrite <- Hk, <- Hf.
    rewrite (eqb_sym eqb _ (c_fv a)) by auto. destruct (c_kind a); [reflexivity| |]; rewrite <- Hp;
      rewrite (eqb_sym eqb _ (c_pv a)) by auto; reflexivity.
  - rewrite decide_False; [reflexivity|]. intros H'. apply Hs, same_type_sym. auto.
Qed.
Lemma slot_same_refl e eqb a : eqb_equivalence eqb -> slot_same e eqb a a <> Some false.
Proof.
  intros H. destruct a as [a|]; cbn; [|congruence]. unfold callable_eq, member_eq. rewrite decide_True by apply same_type_refl.
  destruct (H (ft_base (c_fty a))) as (Hr & _). destruct (H (ft_base (c_pty a))) as (Hr' & _).
  rewrite Hr, Hr'. destruct (c_kind a); destruct (e_cmp e (ft_base (c_fty a))), (e_cmp e (ft_base (c_pty a))); congruence.
Qed.
Lemma slot_same_sym e eqb a b : eqb_equivalence eqb -> slot_same e eqb a b = slot_same e eqb b a.
Proof. intros H. destruct a, b; cbn; auto. apply callable_eq_sym. auto. Qed.
Lemma callable_true e eqb a b : callable_eq e eqb a b = Some true <->
  same_type a b /\ e_cmp e (ft_base (c_fty a)) = true /\ eqb (ft_base (c_fty a)) (c_fv a) (c_fv b) = true /\
  (c_kind a <> KFunc -> e_cmp e (ft_base (c_pty a)) = true /\ eqb (ft_base (c_pty a)) (c_pv a) (c_pv b) = true).
Proof.
  unfold callable_eq, member_eq. destruct (decide (same_type a b)) as [Hs|Hs]; [|split; [discriminate|intros [? _]; contradiction]].
  destruct (c_kind a), (e_cmp e (ft_base (c_fty a))), (e_cmp e (ft_base (c_pty a))), (eqb (ft_base (c_pty a)) (c_pv a) (c_pv b)),
    (eqb (ft_base (c_fty a)) (c_fv a) (c_fv b)); split; intros; try discriminate; intuition congruence.
Qed.
Lemma slot_same_trans e eqb a b c : eqb_equivalence eqb -> slot_same e eqb a b = Some true -> slot_same e eqb b c = Some true ->
  slot_same e eqb a c = Some true.
Proof.
  intros H. destruct a as [a|], b as [b|], c as [c|]; cbn; try discriminate; auto. rewrite !callable_true.
  intros (Hs & Hc & He & Hp) (Hs' & Hc' & He' & Hp'). pose proof Hs as (Hk & Hf & Hpt). rewrite <- Hk, <- Hf in *.
  split; [eapply same_type_trans; eauto|]. split; [auto|]. split; [eapply H; eauto|]. intros Hn. destruct (Hp Hn) as [H1 H2]. destruct (Hp' Hn) as [H3 H4].
  split; [auto|]. assert (Hbase : ft_base (c_pty a) = ft_base (c_pty b)) by (destruct (c_kind a); [congruence|congruence|auto]).
  rewrite Hbase in *. eapply H; eauto.
Qed.
Lemma slot_same_none e eqb a b : slot_same e eqb a b = None <-> exists x y, a = Some x /\ b = Some y /\ same_type x y /\
  match c_kind x with
  | KFunc => e_cmp e (ft_base (c_fty x)) = false
  | _ => e_cmp e (ft_base (c_pty x)) = false \/
         (e_cmp e (ft_base (c_pty x)) = true /\ eqb (ft_base (c_pty x)) (c_pv x) (c_pv y) = true /\ e_cmp e (ft_base (c_fty x)) = false)
  end.
Proof.
  destruct a as [a|], b as [b|]; cbn; try (split; [discriminate|intros (x & y & ? & ? & _); discriminate]).
  unfold callable_eq, member_eq. destruct (decide (same_type a b)) as [Hs|Hs].
  - split.
    + intros H. exists a, b. split; [auto|]. split; [auto|]. split; [auto|].
      destruct (c_kind a), (e_cmp e (ft_base (c_fty a))), (e_cmp e (ft_base (c_pty a))), (eqb (ft_base (c_pty a)) (c_pv a) (c_pv b)); try discriminate; auto.
    + intros (x & y & [= <-] & [= <-] & _ & H).
      destruct (c_kind a), (e_cmp e (ft_base (c_fty a))), (e_cmp e (ft_base (c_pty a))), (eqb (ft_base (c_pty a)) (c_pv a) (c_pv b)); try discriminate; auto; intuition congruence.
  - split; [discriminate|]. intros (x & y & [= <-] & [= <-] & ? & _). contradiction.
Qed.

(** ** What changes a slot in a list *)
Lemma conn_not_again new l i log : wf_log (new ++ log) -> spec_conn0 log l = Some i -> forall t s i', EConn t s l i' ∉ new.
Proof.
  induction new as [|ev new IH]; intros Hw Hc t s i' Hin; [inversion Hin|]. cbn in Hw.
  apply elem_of_cons in Hin as [<-|Hin]; [|eapply (IH (wf_tail _ _ Hw)); eauto].
  apply wf_conn in Hw. apply Hw. apply conn0_known in Hc as (t' & s' & Hin). exists (EConn t' s' l i). split; [apply elem_of_app; auto|].
  cbn. apply elem_of_list_here.
Qed.
Lemma flag_kept new log l : (forall t s i, EConn t s l i ∉ new) -> (forall ev, ev ∈ new -> ~ sets_flag l ev) -> spec_flag (new ++ log) l = spec_flag log l.
Proof.
  induction new as [|ev new IH]; intros H1 H2; [reflexivity|].
  assert (IH' : spec_flag (new ++ log) l = spec_flag log l).
  { apply IH; [intros t s i Hin; eapply H1; apply elem_of_list_further; eauto|intros ev' Hin; apply H2; apply elem_of_list_further; auto]. }
  assert (Hh := H2 ev (elem_of_list_here _ _)). destruct ev; cbn; auto.
  - rewrite decide_False; [auto|]. intros ->. eapply H1. apply elem_of_list_here.
  - rewrite decide_False; [auto|]. intros ->. apply Hh. reflexivity.
Qed.
Lemma blk_kept new log l : (forall t s i, EConn t s l i ∉ new) -> (forall ev, ev ∈ new -> ~ sets_blk l ev) -> spec_blk (new ++ log) l = spec_blk log l.
Proof.
  induction new as [|ev new IH]; intros H1 H2; [reflexivity|].
  assert (IH' : spec_blk (new ++ log) l = spec_blk log l).
  { apply IH; [intros t s i Hin; eapply H1; apply elem_of_list_further; eauto|intros ev' Hin; apply H2; apply elem_of_list_further; auto]. }
  assert (Hh := H2 ev (elem_of_list_here _ _)). destruct ev; cbn; auto.
  - rewrite decide_False; [auto|]. intros ->. eapply H1. apply elem_of_list_here.
  - rewrite decide_False; [auto|]. intros ->. apply Hh. eexists. reflexivity.
Qed.
Lemma st_kept new log l : (forall t s i, EConn t s l i ∉ new) -> (forall ev, ev ∈ new -> ~ sets_st l ev) -> spec_st (new ++ log) l = spec_st log l.
Proof.
  induction new as [|ev new IH]; intros H1 H2; [reflexivity|].
  assert (IH' : spec_st (new ++ log) l = spec_st log l).
  { apply IH; [intros t s i Hin; eapply H1; apply elem_of_list_further; eauto|intros ev' Hin; apply H2; apply elem_of_list_further; auto]. }
  assert (Hh := H2 ev (elem_of_list_here _ _)). destruct ev; cbn; auto.
  - rewrite decide_False; [auto|]. intros ->. eapply H1. apply elem_of_list_here.
  - destruct r; [|auto]. rewrite decide_False; [auto|]. intros ->. apply Hh. eexists _, _. reflexivity.
Qed.
Lemma slot_changes e ps w0 w new l r0 r : reachable e ps w0 -> reachable e ps w -> since w0 w new ->
  w_slots w0 !! l = Some r0 -> w_slots w !! l = Some r ->
  im_c (sl_impl r) = im_c (sl_impl r0) /\
  (im_conn (sl_impl r) <> im_conn (sl_impl r0) -> exists ev, ev ∈ new /\ sets_flag l ev) /\
  (im_blk (sl_impl r) <> im_blk (sl_impl r0) -> exists ev, ev ∈ new /\ sets_blk l ev) /\
  (im_st (sl_impl r) <> im_st (sl_impl r0) -> exists ev, ev ∈ new /\ sets_st l ev).
Proof.
  intros Hr0 Hr Hs H0 H. unfold since in Hs.
  destruct (I_fields_inv _ _ _ Hr0 _ _ H0) as ((i0 & Hc0 & Hi0) & Hf0 & Hb0 & Hst0 & _).
  destruct (I_fields_inv _ _ _ Hr _ _ H) as ((i1 & Hc1 & Hi1) & Hf1 & Hb1 & Hst1 & _).
  pose proof (wf_log_reach _ _ _ Hr) as Hw. rewrite Hs in *.
  pose proof (conn_not_again _ _ _ _ Hw Hc0) as Hno. pose proof (conn0_app _ _ _ _ Hw Hc0) as Hc2.
  assert (Hex : forall P : event -> Prop, (forall ev, Decision (P ev)) -> ~ (forall ev, ev ∈ new -> ~ P ev) -> exists ev, ev ∈ new /\ P ev).
  { intros P HP Hn. destruct (decide (Exists P new)) as [He|He].
    - apply Exists_exists in He. auto.
    - exfalso. apply Hn. intros ev Hin Hp. apply He, Exists_exists. eauto. }
  split; [congruence|]. split; [|split].
  - intros Hn. apply Hex; [intros ev; unfold sets_flag; apply _|]. intros Hq. apply Hn. rewrite Hf1, Hf0. apply flag_kept; auto.
  - intros Hn. apply Hex; [intros ev; unfold sets_blk; destruct ev; try (right; intros [? ?]; discriminate)|].
    + destruct (decide (l0 = l)) as [->|]; [left; eexists; reflexivity|right; intros [? ?]; congruence].
    + intros Hq. apply Hn. rewrite Hb1, Hb0. apply blk_kept; auto.
  - intros Hn. apply Hex; [intros ev; unfold sets_st; destruct ev; try (right; intros (? & ? & ?); discriminate)|].
    + destruct (decide (r1 = RSlot l)) as [->|]; [left; eexists _, _; reflexivity|right; intros (? & ? & ?); congruence].
    + intros Hq. apply Hn. rewrite Hst1, Hst0. apply st_kept; auto.
Qed.

(** ** What changes a slot object *)
Lemma exec_us w t v x o ef u : exec_vop w t v = VOk x o ef -> v_us x !! u <> v_us (w_vars w) !! u -> u < length (v_us (w_vars w)) ->
  on_slot u (OVar v).
Proof.
  intros Hx Hne Hlt.
  destruct v; unfold exec_vop, blk_eff, disc_res in Hx; cbv zeta in Hx; repeat case_match; simplify_eq; cbn in Hne; try congruence;
    try (rewrite lookup_app_l in Hne by (rewrite ?alter_length; lia)); try congruence;
    unfold put_us, kill_us in Hne; cbn in Hne; try (case_bool_decide); cbn;
    rewrite ?alter_lookup in Hne; repeat case_decide; auto; try congruence.
Qed.
Lemma exec_us_do w t v x l after : exec_vop w t v = VDo x l after -> v_us x = v_us (w_vars w).
Proof.
  intros Hx. destruct v; unfold exec_vop, blk_eff, disc_res in Hx; cbv zeta in Hx; repeat case_match; simplify_eq; reflexivity.
Qed.
Lemma slot_object_changes e w t fail w' u : step e w t fail = SOk w' -> u < length (v_us (w_vars w)) ->
  v_us (w_vars w') !! u <> v_us (w_vars w) !! u ->
  (exists o k st, w_thr w !! t = Some (FProg (Do o k) :: st) /\ on_slot u o) \/
  (exists g args pin eid start st, w_thr w !! t = Some (FSlot (RUser u) g args pin eid start :: st)).
Proof.
  intros Hs Hlt Hne. destruct (step_trans _ _ _ _ _ Hs) as (st & _ & _ & Ht & _).
  destruct (step_inv _ _ _ _ _ _ Hs Ht) as (w1 & st1 & D & L & Htr & _ & _ & _ & _ & _ & _ & Hv & _ & _).
  rewrite Hv in Hne. clear Hv Hs. 
  inversion Htr; subst; try (exfalso; apply Hne; reflexivity); cbn in Hne; try congruence;
    try (left; eexists _, _, _; split; [exact Ht|]; eapply exec_us; eauto; fail);
    try (exfalso; apply Hne; erewrite exec_us_do by eauto; reflexivity).
  - left. eexists _, _, _. split; [exact Ht|]. destruct r as [l|u']; cbn in Hne; [congruence|]. rewrite alter_lookup in Hne.
    case_decide; [|congruence]. cbn. auto.
  - right. destruct r as [l|u']; [exfalso; apply Hne; unfold clear_conn; repeat case_match; reflexivity|].
    unfold clear_conn in Hne. cbn in Hne. rewrite alter_lookup in Hne. case_decide; [subst; eauto 10|congruence].
  - exfalso. apply Hne. autorewrite with wsimp. reflexivity.
  - exfalso. apply Hne. autorewrite with wsimp. reflexivity.
Qed.

(** ** connect *)
Lemma in_call_reachable e ps t op k st w0 w : reachable e ps w0 -> in_call e t op k st w0 w -> reachable e ps w.
Proof. intros Hr Hc. induction Hc; eapply reachable_step; eauto. Qed.
Lemma mine_none_in t ev new : mine t new = [] -> ev ∈ new -> thread_of ev <> Some t.
Proof.
  intros Hm Hin Ht. assert (Hx : ev ∈ mine t new) by (unfold mine; apply elem_of_list_filter; auto). rewrite Hm in Hx. inversion Hx.
Qed.
Lemma connect_throws e ps t s src sc k st w0 w x : reachable e ps w0 -> in_call e t (OConnect s src sc) k st w0 w -> returned t k st w (OutExn x) ->
  x = BadAlloc /\ exists new, since w0 w new /\ mine t new = [] /\
    ((forall ev, ev ∈ new -> thread_of ev <> Some t -> ~ touches s ev) -> slots_of w s = slots_of w0 s).
Proof.
  intros Hr Hc Ho. destruct (connect_returns _ _ _ _ _ _ _ _ _ _ _ Hr Hc Ho) as (new & Hs & [[[= ->] Hm]|(l & c & i & ? & _)]); [|discriminate].
  split; [auto|]. exists new. split; [auto|]. split; [auto|]. intros Hq.
  assert (Hrw : reachable e ps w) by (eapply in_call_reachable; eauto).
  change slots_of with cur. rewrite (proj1 (list_spec _ _ _ s Hr)), (proj1 (list_spec _ _ _ s Hrw)). unfold since in Hs. rewrite Hs.
  apply list_untouched. intros ev Hin. apply Hq; auto. eapply mine_none_in; eauto.
Qed.
Lemma mine_split t new a b : mine t new = [a; b] -> exists n1 n2 n3, new = n1 ++ a :: n2 ++ b :: n3 /\ mine t n1 = [] /\ mine t n2 = [] /\ mine t n3 = [].
Proof.
  assert (H1 : forall new x r, mine t new = x :: r -> exists n1 n2, new = n1 ++ x :: n2 /\ mine t n1 = [] /\ mine t n2 = r).
  { clear. induction new as [|ev new IH]; intros x r; [discriminate|]. destruct (decide (thread_of ev = Some t)) as [Hd|Hd].
    - rewrite mine_cons by auto. intros [= -> <-]. exists [], new. auto.
    - rewrite mine_skip by auto. intros H. destruct (IH _ _ H) as (n1 & n2 & -> & Ha & Hb). exists (ev :: n1), n2. rewrite mine_skip by auto. auto. }
  intros H. apply H1 in H as (n1 & n2' & -> & Ha & Hb). apply H1 in Hb as (n2 & n3 & -> & Hb & Hc). eauto 10.
Qed.
Lemma connect_done e ps t s src sc k st w0 w c : reachable e ps w0 -> in_call e t (OConnect s src sc) k st w0 w -> returned t k st w (OutId c) ->
  exists new l i, since w0 w new /\ connects w0 src i /\ mine t new = [EHandle t l c; EConn t s l i] /\
    (forall ev, ev ∈ w_log w0 -> l ∉ ev_slots ev) /\
    ((forall ev, ev ∈ new -> thread_of ev <> Some t -> ~ touches s ev) -> slots_of w s = slots_of w0 s ++ [l]).
Proof.
  intros Hr Hc Ho. destruct (connect_returns _ _ _ _ _ _ _ _ _ _ _ Hr Hc Ho) as (new & Hs & [[? _]|(l & c' & i & [= <-] & Hcn & Hm)]); [discriminate|].
  assert (Hrw : reachable e ps w) by (eapply in_call_reachable; eauto).
  exists new, l, i. split; [auto|]. split; [auto|]. split; [auto|]. unfold since in Hs.
  destruct (mine_split _ _ _ _ Hm) as (n1 & n2 & n3 & Hn & H1 & H2 & H3). split.
  - pose proof (wf_log_reach _ _ _ Hrw) as Hw. rewrite Hs, Hn in Hw. intros ev Hin.
    specialize (Hw (n1 ++ EHandle t l c :: n2) (EConn t s l i) (n3 ++ w_log w0)). cbn in Hw. apply Hw; [rewrite <- !app_assoc; cbn; rewrite <- !app_assoc; reflexivity|].
    apply elem_of_app. auto.
  - intros Hq. change slots_of with cur. rewrite (proj1 (list_spec _ _ _ s Hr)), (proj1 (list_spec _ _ _ s Hrw)), Hs, Hn.
    assert (Hnone : forall n, mine t n = [] -> (forall ev, ev ∈ n -> ev ∈ new) -> forall ev, ev ∈ n -> ~ touches s ev).
    { intros n Hmn Hsub ev Hin. apply Hq; [auto|]. eapply mine_none_in; eauto. }
    rewrite <- app_assoc. rewrite (list_untouched n1) by (apply Hnone; [auto|]; intros; rewrite Hn; apply elem_of_app; auto).
    cbn [app spec_list]. rewrite <- app_assoc. rewrite (list_untouched n2) by (apply Hnone; [auto|]; intros; rewrite Hn; apply elem_of_app; right; apply elem_of_list_further, elem_of_app; auto).
    cbn [app spec_list]. rewrite decide_True by auto. f_equal. apply list_untouched. apply Hnone; [auto|].
    intros; rewrite Hn; apply elem_of_app; right; apply elem_of_list_further, elem_of_app; right; apply elem_of_list_further; auto.
Qed.

(** ** Variables: operations of one step *)
Lemma vop_step e w t fail v k st x o : w_thr w !! t = Some (FProg (Do (OVar v) k) :: st) -> exec_vop w t v = VOk x o EfNone ->
  v_objs x = v_objs (w_vars w) -> step e w t fail = SOk (w_set_stack (w_set_vars w x) t (FRet o :: FWait k :: st)).
Proof.
  intros Ht Hx Hobj. unfold step. rewrite Ht. cbn [lstep start_op]. rewrite Hx.
  rewrite (reap_nothing e w _ t _ _ Ht); try reflexivity. exact Hobj.
Qed.

(** ** Scoped connections *)
Lemma get_conn_live x c r : v_conns x !! c = Some r -> cn_live r = true -> get_conn x c = Some r.
Proof. intros H1 H2. unfold get_conn. rewrite H1, H2. reflexivity. Qed.
Lemma move_gives e w t fail v c sc r k st : w_thr w !! t = Some (FProg (Do (OVar v) k) :: st) ->
  v = VMoveConn c sc \/ (v = VRelease c /\ sc = false) -> v_conns (w_vars w) !! c = Some r -> cn_live r = true ->
  let n := length (v_conns (w_vars w)) in
  exists w', step e w t fail = SOk w' /\ completes w w' t k st (OutId n) /\ w_log w' = w_log w /\ only_conns w w' [c] /\
    v_conns (w_vars w') !! n = Some (ConnV true sc (cn_slot r)) /\ v_conns (w_vars w') !! c = Some (ConnV true (cn_scoped r) None).
Proof.
  intros Ht Hv Hc Hl n. pose proof (get_conn_live _ _ _ Hc Hl) as Hg.
  assert (Hx : exec_vop w t v = VOk (add_conn (put_conn (w_vars w) c None) (ConnV true sc (cn_slot r))) (OutId n) EfNone).
  { destruct Hv as [->|[-> ->]]; unfold exec_vop; cbv zeta; rewrite Hg; reflexivity. }
  eexists. split; [eapply (vop_step e w t fail v k st); [exact Ht|exact Hx|reflexivity]|].
  split; [reflexivity|]. split; [reflexivity|]. split.
  - split; [reflexivity|]. split; [reflexivity|]. split; [reflexivity|]. split; [eexists; reflexivity|].
    intros c' Hlt Hne. cbn. rewrite lookup_app_l by (rewrite alter_length; auto). rewrite alter_lookup. rewrite decide_False; [auto|].
    intros ->. apply Hne. apply elem_of_list_here.
  - cbn. split.
    + rewrite lookup_app_r by (rewrite alter_length; auto). rewrite alter_length, Nat.sub_diag. reflexivity.
    + rewrite lookup_app_l by (rewrite alter_length; eapply lookup_lt_Some; eauto). rewrite alter_lookup, decide_True by auto. rewrite Hc. cbn. rewrite Hl. reflexivity.
Qed.
Lemma move_assign_empty e w t fail d s rd rs k st : w_thr w !! t = Some (FProg (Do (OVar (VAssignMove d s)) k) :: st) -> d <> s ->
  v_conns (w_vars w) !! d = Some rd -> cn_live rd = true -> v_conns (w_vars w) !! s = Some rs -> cn_live rs = true ->
  cn_scoped rd = false \/ cn_slot rd = None ->
  exists w', step e w t fail = SOk w' /\ completes w w' t k st OutUnit /\ w_log w' = w_log w /\ only_conns w w' [d; s] /\
    v_conns (w_vars w') !! d = Some (ConnV true (cn_scoped rd) (cn_slot rs)) /\ v_conns (w_vars w') !! s = Some (ConnV true (cn_scoped rs) None).
Proof.
  intros Ht Hds Hd Hld Hs Hls Hor. pose proof (get_conn_live _ _ _ Hd Hld) as Hgd. pose proof (get_conn_live _ _ _ Hs Hls) as Hgs.
  assert (Hx : exec_vop w t (VAssignMove d s) = VOk (put_conn (put_conn (w_vars w) s None) d (cn_slot rs)) OutUnit EfNone).
  { unfold exec_vop; cbv zeta. rewrite Hgd, Hgs. rewrite bool_decide_eq_false_2 by auto. unfold disc_res.
    destruct Hor as [->| ->]; [reflexivity|]. destruct (cn_scoped rd), (cn_scoped rs); reflexivity. }
  eexists. split; [eapply (vop_step e w t fail _ k st); [exact Ht|exact Hx|reflexivity]|].
  split; [reflexivity|]. split; [reflexivity|]. split.
  - split; [reflexivity|]. split; [reflexivity|]. split; [reflexivity|]. split; [eexists; reflexivity|].
    intros c' Hlt Hne. cbn. rewrite !alter_lookup, !decide_False; [auto|..]; intros ->; apply Hne; rewrite !elem_of_cons; auto.
  - cbn. rewrite !alter_lookup. rewrite (decide_True (P := d = d)), (decide_True (P := s = s)) by auto. rewrite !decide_False by auto.
    rewrite Hd, Hs. cbn. rewrite Hld, Hls. auto.
Qed.
Lemma move_assign_starts e w t fail d s rd rs l k st w' : w_thr w !! t = Some (FProg (Do (OVar (VAssignMove d s)) k) :: st) ->
  v_conns (w_vars w) !! d = Some rd -> cn_live rd = true -> v_conns (w_vars w) !! s = Some rs -> cn_live rs = true ->
  cn_scoped rd = true -> cn_scoped rs = true -> cn_slot rd = Some l -> step e w t fail = SOk w' ->
  w_vars w' = w_vars w /\
  exists D f, dtorish D /\ (f = FDisc l \/ f = FRet (OutBool false)) /\ w_thr w' !! t = Some (D ++ f :: FAssignMv d s l :: FWait k :: st).
Proof.
  intros Ht Hd Hld Hs Hls Hsd Hss Hl Hst. destruct (step_inv _ _ _ _ _ _ Hst Ht) as (w1 & st1 & D & L & Htr & Hls' & HD & HL & _ & _ & _ & Hv & _ & Hthr).
  pose proof (get_conn_live _ _ _ Hd Hld) as Hgd. pose proof (get_conn_live _ _ _ Hs Hls) as Hgs.
  unfold lstep, start_op, exec_vop, disc_res in Hls'. cbv zeta in Hls'. rewrite Hgd, Hgs, Hsd, Hss, Hl in Hls'.
  rewrite Hthr, list_lookup_insert by (eapply lookup_lt_Some; eauto).
  destruct (slot_alive w l); simplify_eq; (split; [rewrite Hv; destruct w; reflexivity|]); eexists _, _; (split; [exact HD|]); (split; [|reflexivity]); auto.
Qed.
Lemma move_assign_ends e w t fail d s rd rs l o st w' : w_thr w !! t = Some (FRet o :: FAssignMv d s l :: st) -> d <> s ->
  v_conns (w_vars w) !! d = Some rd -> cn_live rd = true -> v_conns (w_vars w) !! s = Some rs -> cn_live rs = true ->
  step e w t fail = SOk w' ->
  only_conns w w' [d; s] /\
  v_conns (w_vars w') !! d = Some (ConnV true (cn_scoped rd) (cn_slot rs)) /\ v_conns (w_vars w') !! s = Some (ConnV true (cn_scoped rs) None) /\
  exists D, dtorish D /\ w_thr w' !! t = Some (D ++ FRet OutUnit :: st).
Proof.
  intros Ht Hds Hd Hld Hs Hls Hst. destruct (step_inv _ _ _ _ _ _ Hst Ht) as (w1 & st1 & D & L & Htr & Hls' & HD & HL & H1 & H2 & H3 & Hv & _ & Hthr).
  inversion Htr; subst; [congruence|]. simplify_eq. wcbn_in H1. wcbn_in H2. wcbn_in H3. wcbn_in Hv.
  split.
  - split; [exact H1|]. split; [exact H2|]. split; [exact H3|]. split; [exists (alter (λ r0 : connv, ConnV (cn_live r0) (cn_scoped r0) (cn_slot rs)) d
        (alter (λ r0 : connv, ConnV (cn_live r0) (cn_scoped r0) None) s (v_conns (w_vars w)))); rewrite Hv; reflexivity|].
    intros c' Hlt Hne. rewrite Hv. cbn. rewrite !alter_lookup, !decide_False; [auto|..]; intros ->; apply Hne; rewrite !elem_of_cons; auto.
  - rewrite Hv. cbn. rewrite !alter_lookup. rewrite (decide_True (P := d = d)), (decide_True (P := s = s)) by auto. rewrite !decide_False by auto.
    rewrite Hd, Hs. cbn. rewrite Hld, Hls. split; [auto|]. split; [auto|]. exists D. split; [auto|].
    rewrite Hthr, list_lookup_insert by (eapply lookup_lt_Some; eauto). reflexivity.
Qed.
Lemma empty_does_nothing e w t fail v c r k st : w_thr w !! t = Some (FProg (Do (OVar v) k) :: st) ->
  v = VDestroyConn c \/ v = VDisc c -> v_conns (w_vars w) !! c = Some r -> cn_live r = true -> cn_slot r = None ->
  exists w' o, step e w t fail = SOk w' /\ completes w w' t k st o /\ w_log w' = w_log w /\ only_conns w w' [c].
Proof.
  intros Ht Hv Hc Hl Hn. pose proof (get_conn_live _ _ _ Hc Hl) as Hg.
  assert (exists m o, exec_vop w t v = VOk (set_conns (w_vars w) m) o EfNone /\ forall c', c' <> c -> m !! c' = v_conns (w_vars w) !! c') as (m & o & Hx & Hm).
  { destruct Hv as [->| ->]; unfold exec_vop; cbv zeta; rewrite Hg, Hn; cbn.
    - exists (v_conns (kill_conn (w_vars w) c)), OutUnit. split; [destruct (cn_scoped r); reflexivity|].
      intros c' Hne. cbn. rewrite alter_lookup, decide_False by auto. reflexivity.
    - exists (v_conns (w_vars w)), (OutBool false). split; [destruct (w_vars w); reflexivity|]. reflexivity. }
  eexists _, o. split; [eapply (vop_step e w t fail v k st); [exact Ht|exact Hx|reflexivity]|].
  split; [reflexivity|]. split; [reflexivity|]. split; [reflexivity|]. split; [reflexivity|]. split; [reflexivity|]. split; [eexists; reflexivity|].
  intros c' Hlt Hne. cbn. apply Hm. intros ->. apply Hne, elem_of_list_here.
Qed.
(** ** slot::disconnect on a client's slot *)
Lemma slot_disc_nothing e w t fail u i k st : w_thr w !! t = Some (FProg (Do (OVar (VSlotDisc u)) k) :: st) ->
  v_us (w_vars w) !! u = Some (UsV true i) ->
  exists w', step e w t fail = SOk w' /\ completes w w' t k st (OutBool false) /\ w_log w' = w_log w /\
    w_vars w' = w_vars w /\ w_sigs w' = w_sigs w /\ w_vecs w' = w_vecs w /\ w_slots w' = w_slots w.
Proof.
  intros Ht Hu. eexists. split; [eapply (vop_step e w t fail _ k st); [exact Ht|unfold exec_vop, get_us; cbv zeta; rewrite Hu; reflexivity|reflexivity]|].
  repeat (split; [reflexivity|]). reflexivity.
Qed.
(** Connecting an empty slot. *)
Lemma connect_empty_ub e w t s u sc k st r : w_thr w !! t = Some (FProg (Do (OConnect s (SrcSlot u) sc) k) :: st) ->
  v_us (w_vars w) !! u = Some (UsV true None) -> w_sigs w !! s = Some r -> sg_alive r = true -> step e w t MOk = SUB UNullSlot.
Proof.
  intros Ht Hu Hs Ha. unfold step. rewrite Ht. cbn. unfold get_us, get_sig. rewrite ?Hu, ?Hs. cbn. rewrite ?Ha. reflexivity.
Qed.

Lemma connect_result e ps t s src sc k st w0 w o : reachable e ps w0 -> in_call e t (OConnect s src sc) k st w0 w -> returned t k st w o ->
  o = OutExn BadAlloc \/ exists c, o = OutId c.
Proof.
  intros Hr Hc Ho. destruct (connect_returns _ _ _ _ _ _ _ _ _ _ _ Hr Hc Ho) as (new & Hs & [[-> _]|(l & c & i & -> & _)]); eauto.
Qed.
Lemma connect_slot_copies e ps t s u sc k st w0 w c : reachable e ps w0 -> in_call e t (OConnect s (SrcSlot u) sc) k st w0 w -> returned t k st w (OutId c) ->
  exists new l i i0, since w0 w new /\ v_us (w_vars w0) !! u = Some (UsV true (Some i0)) /\ mine t new = [EHandle t l c; EConn t s l i] /\
    im_c i = im_c i0 /\ im_conn i = im_conn i0 /\ im_blk i = im_blk i0 /\ im_st i = im_st i0.
Proof.
  intros Hr Hc Ho. destruct (connect_done _ _ _ _ _ _ _ _ _ _ _ Hr Hc Ho) as (new & l & i & Hs & (i0 & Hu & H) & Hm & _).
  exists new, l, i, i0. auto.
Qed.
Lemma connects_distinct e ps w : reachable e ps w ->
  log_all (fun ev pre => match ev with
    | EConn t s l i => forall t' s' i', EConn t' s' l i' ∉ pre
    | _ => True end) (w_log w).
Proof.
  intros Hr post ev pre Hl. destruct ev; auto.
  pose proof (wf_log_reach _ _ _ Hr post _ _ Hl) as Hw. cbn in Hw. intros t' s' i' Hin. apply Hw in Hin. apply Hin. apply elem_of_list_here.
Qed.
Lemma slots_independent e ps w0 w new l r0 r : reachable e ps w0 -> reachable e ps w -> since w0 w new ->
  w_slots w0 !! l = Some r0 -> w_slots w !! l = Some r -> (forall ev, ev ∈ new -> ~ sets_flag l ev /\ ~ sets_blk l ev /\ ~ sets_st l ev) ->
  im_c (sl_impl r) = im_c (sl_impl r0) /\ im_conn (sl_impl r) = im_conn (sl_impl r0) /\ im_blk (sl_impl r) = im_blk (sl_impl r0) /\
  im_st (sl_impl r) = im_st (sl_impl r0).
Proof.
  intros Hr0 Hr Hs H0 H Hn. destruct (slot_changes _ _ _ _ _ _ _ _ Hr0 Hr Hs H0 H) as (H1 & H2 & H3 & H4). split; [auto|].
  split; [|split].
  - destruct (decide (im_conn (sl_impl r) = im_conn (sl_impl r0))) as [|Hd]; [auto|]. destruct (H2 Hd) as (ev & Hin & He). destruct (Hn _ Hin) as (? & _ & _). contradiction.
  - destruct (decide (im_blk (sl_impl r) = im_blk (sl_impl r0))) as [|Hd]; [auto|]. destruct (H3 Hd) as (ev & Hin & He). destruct (Hn _ Hin) as (_ & ? & _). contradiction.
  - destruct (decide (im_st (sl_impl r) = im_st (sl_impl r0))) as [|Hd]; [auto|]. destruct (H4 Hd) as (ev & Hin & He). destruct (Hn _ Hin) as (_ & _ & ?). contradiction.
Qed.
Lemma rem_own e ps w : reachable e ps w ->
  log_all (fun ev pre => match ev with
    | ERem t s l l' => ~ out_of_list pre l -> l' = l
    | _ => True end) (w_log w).
Proof. intros Hr post ev pre Hl. pose proof (rem_facts _ _ _ Hr post ev pre Hl) as H. destruct ev; auto. apply H. Qed.
