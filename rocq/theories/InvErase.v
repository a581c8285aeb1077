(** * signal::disconnect(f) *)
From Verif Require Export InvSig SpecErase.

(** ** Comparison *)
Lemma may_ret_bind p f o : may_ret (bindp p f) o -> exists o1, may_ret p o1 /\ may_ret (f o1) o.
Proof.
  revert o. induction p as [o1|op k IH]; cbn; intros o H.
  - exists o1. split; [constructor|auto].
  - inversion H as [|? ? x ? Hx]; subst. destruct (IH _ _ Hx) as (o1 & Ha & Hb). exists o1. split; [econstructor; eauto|auto].
Qed.
Lemma vcat_eqb_spec a b : vcat_eqb a b = true <-> a = b.
Proof. destruct a, b; cbn; split; intros; auto; discriminate. Qed.
Lemma ftype_eqb_spec a b : ftype_eqb a b = true <-> a = b.
Proof.
  unfold ftype_eqb. destruct a, b; cbn. rewrite andb_true_iff, Nat.eqb_eq, vcat_eqb_spec. split; [intros [-> ->]; auto|intros H; simplify_eq; auto].
Qed.
Lemma ckind_eqb_spec a b : ckind_eqb a b = true <-> a = b.
Proof. destruct a, b; cbn; split; intros; auto; discriminate. Qed.
Lemma same_dyn_spec a b : same_dyn_type a b = true <-> same_type a b.
Proof.
  unfold same_dyn_type, same_type. rewrite !andb_true_iff, ckind_eqb_spec, ftype_eqb_spec.
  destruct (c_kind a); rewrite ?ftype_eqb_spec, ?Nat.eqb_eq; tauto.
Qed.
Lemma member_spec e ty x y o : may_ret (try_equals e ty x y) o -> member e ty x y o.
Proof. unfold try_equals, member. destruct (e_cmp e ty); [auto|]. inversion 1; auto. Qed.
Lemma slot_eq_gives e a b o : may_ret (slot_eq e a b) o -> compares_opt e a b o.
Proof.
  unfold slot_eq, compares_opt. destruct a as [a|], b as [b|]; try (inversion 1; auto; fail).
  unfold impl_eq, compares. destruct (same_dyn_type a b) eqn:Hs.
  - apply same_dyn_spec in Hs. intros H. right. split; [auto|].
    assert (Hb : may_ret (bindp (try_equals e (ft_base (c_pty a)) (c_pv a) (c_pv b)) (fun o =>
             match o with OutBool true => try_equals e (ft_base (c_fty a)) (c_fv a) (c_fv b) | o => Ret o end)) o ->
             exists o1, member e (ft_base (c_pty a)) (c_pv a) (c_pv b) o1 /\
            ((o1 = OutBool true /\ member e (ft_base (c_fty a)) (c_fv a) (c_fv b) o) \/ (o1 <> OutBool true /\ o = o1))).
    { intros Hb. apply may_ret_bind in Hb as (o1 & H1 & H2). exists o1. split; [apply member_spec; auto|].
      assert (Hd : o1 = OutBool true \/ o1 <> OutBool true) by (destruct o1 as [|[]| | | | | | |]; auto; right; congruence).
      destruct Hd as [->|Hn]; [left; split; [auto|apply member_spec; auto]|right; split; [auto|]].
      destruct o1 as [|[]| | | | | | |]; try congruence; inversion H2; auto. }
    destruct (c_kind a); [apply member_spec; auto|auto..].
  - intros H. left. inversion H; subst. split; [|auto]. intros Hx. apply same_dyn_spec in Hx. congruence.
Qed.

(** ** What changes a list *)
Lemma list_untouched L log s : (forall ev, ev ∈ L -> ~ touches s ev) -> spec_list (L ++ log) s = spec_list log s.
Proof.
  induction L as [|ev L IH]; intros H; [reflexivity|].
  assert (Hev : ~ touches s ev) by (apply H; apply elem_of_list_here).
  assert (IH' : spec_list (L ++ log) s = spec_list log s) by (apply IH; intros; apply H; apply elem_of_list_further; auto).
  destruct ev; cbn in *; rewrite ?decide_False by (intros ->; auto); auto.
Qed.
Lemma erased_untouched L log s : (forall ev, ev ∈ L -> ~ touches s ev) -> erased_of s (L ++ log) = erased_of s log.
Proof.
  induction L as [|ev L IH]; intros H; [reflexivity|].
  assert (Hev : ~ touches s ev) by (apply H; apply elem_of_list_here).
  assert (IH' : erased_of s (L ++ log) = erased_of s log) by (apply IH; intros; apply H; apply elem_of_list_further; auto).
  destruct ev; cbn in *; rewrite ?decide_False by (intros ->; auto); auto.
Qed.

Definition top_touch (st : list frame) : option sid :=
  match st with
  | FBody s _ (KAdd _) :: _ | FBody s _ (KRem _) :: _ | FWrite s KMove :: _ => Some s
  | FRet (OutBool true) :: FEraseCmp s _ _ _ _ _ :: _ => Some s
  | _ => None
  end.

Lemma trans_touch e w t st w' st' new ev s : trans e w t st w' st' -> w_log w' = new ++ w_log w -> ev ∈ new -> touches s ev ->
  s < length (w_sigs w) -> top_touch st = Some s.
Proof.
  intros Htr Hnew Hin Hto Hs.
  destruct (trans_log _ _ _ _ _ _ Htr) as [He|[(ev1 & He)|(l0 & args & pin & eid & start & st0 & i0 & _ & _ & _ & He)]].
  - rewrite He in Hnew. apply (app_inv_tail _ [] new) in Hnew. subst. inversion Hin.
  - rewrite He in Hnew. apply (app_inv_tail _ [ev1] new) in Hnew. subst. apply elem_of_list_singleton in Hin. subst ev1.
    assert (Hlg : logs e w t st w' st' ev (w_log w)) by (apply L_one; auto). clear He.
    destruct ev; cbn in Hto; try contradiction; subst; logs_inv Htr Hlg; cbn; auto.
    destruct Hto as [->| <-]; [auto|lia].
  - rewrite He in Hnew. apply (app_inv_tail _ [_; _] new) in Hnew. subst.
    apply elem_of_cons in Hin as [->|Hin]; [contradiction|]. apply elem_of_list_singleton in Hin. subst. contradiction.
Qed.

Lemma top_touch_holds st s : top_touch st = Some s -> 1 <= swt (holds s) st.
Proof.
  unfold top_touch. repeat case_match; intros; simplify_eq; rewrite !swt_cons; cbn [holds]; rewrite decide_True by auto; lia.
Qed.

(** ** The invariant *)
Definition ers (e : env) (t : tid) (log : list event) (s : sid) (tgt : option callable) (i n : nat) (xs0 : list lid) : Prop :=
  exists ys, erasing t s xs0 ys (spec_list log s) log /\ length ys = n /\
    Forall (fun l => slot_gives e log tgt l (OutBool true)) ys /\
    Forall (fun l => slot_gives e log tgt l (OutBool false)) (take i (spec_list log s)).
Definition cmp_ok (e : env) (c : callable) (tgt : option callable) (f : frame) : Prop :=
  match f with
  | FProg p => forall o, may_ret p o -> compares_opt e (Some c) tgt o
  | FRet o => compares_opt e (Some c) tgt o
  | FWait k => forall x o, may_ret (k x) o -> compares_opt e (Some c) tgt o
  | _ => True
  end.
Definition er_ok (e : env) (t : tid) (log : list event) (f : frame) (r : list frame) : Prop :=
  match f with
  | FErase s v tgt i n xs0 | FEraseCmp s v tgt i n xs0 => ers e t log s tgt i n xs0
  | _ => True
  end /\
  match r with
  | FEraseCmp s v tgt i n xs0 :: _ =>
      exists l c, spec_list log s !! i = Some l /\ spec_callee log l = Some c /\ cmp_ok e c tgt f
  | _ => True
  end.
Definition I_er (e : env) (w : world) : Prop :=
  forall t st, w_thr w !! t = Some st -> AT (er_ok e t (w_log w)) st.

Lemma callee_app L log l c : wf_log (L ++ log) -> spec_callee log l = Some c -> spec_callee (L ++ log) l = Some c.
Proof.
  unfold spec_callee. intros Hw H. destruct (spec_conn0 log l) as [i|] eqn:Hi; [|discriminate].
  rewrite (conn0_app _ _ _ _ Hw Hi). exact H.
Qed.
Lemma gives_app e L log tgt l o : wf_log (L ++ log) -> slot_gives e log tgt l o -> slot_gives e (L ++ log) tgt l o.
Proof. intros Hw (c & Hc & Ho). exists c. split; [apply callee_app; auto|auto]. Qed.
Lemma ers_app e t L log s tgt i n xs0 : wf_log (L ++ log) -> (forall ev, ev ∈ L -> ~ touches s ev) ->
  ers e t log s tgt i n xs0 -> ers e t (L ++ log) s tgt i n xs0.
Proof.
  intros Hw Hn (ys & (during & before & Heq & Hb & _ & Hy & Hev & Hp) & Hl & Ht & Hf).
  exists ys. rewrite (list_untouched _ _ _ Hn). split; [|split; [auto|split]].
  - exists (L ++ during), before. split; [rewrite <- app_assoc, <- Heq; reflexivity|]. split; [auto|].
    split; [apply list_untouched; auto|]. split; [rewrite erased_untouched by auto; auto|]. split; [|auto].
    intros ev Hin Hto. apply elem_of_app in Hin as [Hin|Hin]; [destruct (Hn _ Hin Hto)|eauto].
  - eapply Forall_impl; [exact Ht|]. intros l. apply gives_app. auto.
  - eapply Forall_impl; [exact Hf|]. intros l. apply gives_app. auto.
Qed.
Definition erases (s : sid) (f : frame) : Prop := exists v, crit_vec f = Some (s, v).
Lemma er_ok_app e t L log f r : wf_log (L ++ log) ->
  (forall s g, g ∈ f :: r -> erases s g -> forall ev, ev ∈ L -> ~ touches s ev) ->
  er_ok e t log f r -> er_ok e t (L ++ log) f r.
Proof.
  intros Hw Hn [H1 H2]. split.
  - destruct f; auto; apply ers_app; auto; (eapply (Hn s); [apply elem_of_list_here|eexists; reflexivity]).
  - destruct r as [|[] r]; auto. destruct H2 as (l & c & Hl & Hc & Ho). exists l, c.
    rewrite list_untouched; [split; [auto|split; [apply callee_app; auto|auto]]|].
    eapply (Hn s); [apply elem_of_list_further, elem_of_list_here|eexists; reflexivity].
Qed.
Lemma er_plain e t log f r : (forall s v, crit_vec f <> Some (s, v)) -> (forall s v tgt i n xs0 r', r <> FEraseCmp s v tgt i n xs0 :: r') -> er_ok e t log f r.
Proof.
  intros H1 H2. split.
  - destruct f; auto; exfalso; eapply H1; reflexivity.
  - destruct r as [|[] r]; auto. exfalso. eapply H2. reflexivity.
Qed.

Lemma take_swap_pop xs i x : xs !! i = Some x -> take i (swap_pop xs i) = take i xs.
Proof.
  intros Hi. destruct xs as [|y a _] using rev_ind; [discriminate|].
  assert (Hle : i <= length a) by (apply lookup_lt_Some in Hi; rewrite app_length in Hi; cbn in Hi; lia).
  rewrite swap_pop_snoc by auto. rewrite take_insert by lia. rewrite take_app_le by lia. reflexivity.
Qed.

Lemma ers_step e t log s tgt i n xs0 l : wf_log (EErased t s l :: log) -> NoDup (spec_list log s) ->
  spec_list log s !! i = Some l -> slot_gives e log tgt l (OutBool true) ->
  ers e t log s tgt i n xs0 -> ers e t (EErased t s l :: log) s tgt i (S n) xs0.
Proof.
  intros Hw Hnd Hi Hg (ys & (during & before & Heq & Hb & _ & Hy & Hev & Hp) & Hl & Ht & Hf).
  assert (Hsl : spec_list (EErased t s l :: log) s = swap_pop (spec_list log s) i).
  { cbn. rewrite decide_True by auto. symmetry. apply swap_pop_remove; auto. }
  exists (l :: ys). rewrite Hsl. split; [|split; [cbn; auto|split]].
  - exists (EErased t s l :: during), before. split; [rewrite Heq; reflexivity|]. split; [auto|]. split; [auto|].
    split; [cbn; rewrite decide_True by auto; congruence|]. split.
    + intros ev Hin Hto. apply elem_of_cons in Hin as [->|Hin]; eauto.
    + rewrite Hp. rewrite (swap_pop_perm _ _ _ Hi) at 1. cbn. apply Permutation_middle.
  - constructor; [apply (gives_app _ [_]); auto|]. eapply Forall_impl; [exact Ht|]. intros. apply (gives_app _ [_]); auto.
  - rewrite (take_swap_pop _ _ _ Hi). eapply Forall_impl; [exact Hf|]. intros. apply (gives_app _ [_]); auto.
Qed.

Lemma er_active e t log p st : is_active st -> er_ok e t log (FProg p) st.
Proof. destruct st as [|f st]; [contradiction|]. intros H. split; [exact I|]. destruct f; try exact I. discriminate H. Qed.
Lemma AT_er_dtorish e t log D st : dtorish D -> is_active st -> AT (er_ok e t log) st -> AT (er_ok e t log) (D ++ st).
Proof.
  intros HD Ha HA. induction HD as [|f D Hf HD IH]; cbn; [auto|]. split; [|auto].
  assert (Hd : match D ++ st with FEraseCmp _ _ _ _ _ _ :: _ => False | _ => True end).
  { destruct HD as [|g D [[? ->]|[q ->]] HD]; cbn; try exact I. destruct st as [|[] st]; try exact I. discriminate Ha. }
  split; [destruct Hf as [[? ->]|[p ->]]; exact I|]. destruct (D ++ st) as [|[] ?]; auto. contradiction.
Qed.
Lemma er_adj e t log f r : adj f r -> active f = true -> match f with FProg _ | FRet _ | FErase _ _ _ _ _ _ => False | _ => True end -> er_ok e t log f r.
Proof.
  intros Ha Hc Hf. split; [destruct f; try exact I; try discriminate Hc; contradiction|].
  destruct f; try discriminate; try contradiction; cbn in Ha; destruct r as [|[] r]; auto; try discriminate; try contradiction;
    try (destruct k; try discriminate; contradiction);
    repeat case_match; try contradiction; try discriminate.
Qed.
Lemma er_waits e t log f r : waits r = true -> (forall s v, crit_vec f <> Some (s, v)) -> er_ok e t log f r.
Proof. intros Ha Hf. apply er_plain; auto. intros. intros ->. discriminate Ha. Qed.
Lemma er_ret e t log o r : er_ok e t log (FProg (Ret o)) r -> er_ok e t log (FRet o) r.
Proof.
  intros [_ H]. split; [exact I|]. destruct r as [|[] r]; auto. destruct H as (l & c & H1 & H2 & H3). exists l, c.
  split; [auto|split; [auto|]]. apply H3. constructor.
Qed.
Lemma er_do e t log op k r : er_ok e t log (FProg (Do op k)) r -> er_ok e t log (FWait k) r.
Proof.
  intros [_ H]. split; [exact I|]. destruct r as [|[] r]; auto. destruct H as (l & c & H1 & H2 & H3). exists l, c.
  split; [auto|split; [auto|]]. intros x o Ho. apply H3. econstructor; eauto.
Qed.
Lemma er_wait e t log o k r : er_ok e t log (FWait k) r -> er_ok e t log (FProg (k o)) r.
Proof.
  intros [_ H]. split; [exact I|]. destruct r as [|[] r]; auto. destruct H as (l & c & H1 & H2 & H3). exists l, c.
  split; [auto|split; [auto|]]. intros x. apply H3.
Qed.
Lemma holds_swt s v a f r : crit_vec f = Some (s, v) -> 1 <= swt (holds s) (a ++ f :: r).
Proof. intros H. apply crit_holds in H. rewrite swt_app, swt_cons. lia. Qed.
Lemma er_old_ne e t log f r g r' : er_ok e t log f (g :: r) -> (forall s v tgt i n xs0, g <> FEraseCmp s v tgt i n xs0) -> er_ok e t log f (g :: r').
Proof. intros [H _] Hg. split; [auto|]. destruct g; auto. edestruct Hg; reflexivity. Qed.

Lemma I_er_step e ps w t st w' st' : reachable e ps w -> I_er e w -> w_thr w !! t = Some st -> trans e w t st w' st' ->
  AT adj st' -> wf_log (w_log w') -> I_er e (mid w' t st').
Proof.
  intros Hr HI Ht Htr HA' Hwf t' x Hx. wcbn_in Hx. rewrite (trans_thr _ _ _ _ _ _ Htr) in Hx.
  change (w_log (mid w' t st')) with (w_log w').
  destruct (I_adj_inv _ _ _ Hr _ _ Ht) as [HA Hact].
  destruct (trans_log_app _ _ _ _ _ _ Htr) as [new Hnew].
  pose proof (I_lock_inv _ _ _ Hr) as HL.
  pose proof (I_crit_inv _ _ _ Hr) as HC.
  assert (Hbd : forall t0 st0 s g, w_thr w !! t0 = Some st0 -> g ∈ st0 -> erases s g -> s < length (w_sigs w)).
  { intros t0 st0 s g H0 Hg (v & Hv). pose proof (HC _ _ H0) as HF. rewrite Forall_forall in HF. specialize (HF _ Hg).
    unfold fr_crit in HF. rewrite Hv in HF. destruct HF as [(r & Hl & _) _]. eapply lookup_lt_Some; eauto. }
  assert (Hone : forall t0 st0 s, w_thr w !! t0 = Some st0 -> swt (holds s) st0 <= 1).
  { intros t0 st0 s H0. rewrite (HL _ _ s H0). unfold lockw. repeat case_match; lia. }
  assert (Hkeep : forall t0 a tail, w_thr w !! t0 = Some (a ++ tail) ->
    (forall s, top_touch st = Some s -> swt (holds s) tail = 0) -> AT (er_ok e t0 (w_log w')) tail).
  { intros t0 a tail Ht0 Hz. specialize (HI _ _ Ht0). apply AT_app in HI. eapply AT_in_impl; [|exact HI].
    intros f r b Heq. rewrite Hnew. apply er_ok_app; [rewrite <- Hnew; auto|].
    intros s g Hg Hs ev Hev Hto.
    assert (Hin : g ∈ tail) by (rewrite Heq; apply elem_of_app; auto).
    assert (Hlt : s < length (w_sigs w)) by (eapply Hbd; [exact Ht0| |exact Hs]; apply elem_of_app; auto).
    pose proof (trans_touch _ _ _ _ _ _ _ _ _ Htr Hnew Hev Hto Hlt) as Htt. specialize (Hz _ Htt).
    apply elem_of_list_split in Hin as (b1 & b2 & ->). destruct Hs as [v Hv]. pose proof (holds_swt s v b1 g b2 Hv). lia. }
  destruct (thr_upd _ _ _ _ _ _ Ht Hx) as [[-> ->]|[Hn Hx']].
  2:{ eapply (Hkeep _ []); [exact Hx'|]. intros s Hti. apply top_touch_holds in Hti.
      pose proof (HL _ _ s Hx') as H1. pose proof (HL _ _ s Ht) as H2. unfold lockw in H1, H2.
      destruct (w_sigs w !! s); [|lia]. repeat case_decide; try lia. congruence. }
  clear Hx.
  assert (Hself : top_touch st = None -> AT (er_ok e t (w_log w')) st).
  { intros Hti. eapply (Hkeep t []); [exact Ht|]. intros s. congruence. }
  assert (Hbelow : forall a tail, st = a ++ tail -> (forall s, top_touch st = Some s -> 1 <= swt (holds s) a) -> AT (er_ok e t (w_log w')) tail).
  { intros a tail -> Hs. eapply Hkeep; [exact Ht|]. intros s Hti. specialize (Hs _ Hti). specialize (Hone _ _ s Ht). rewrite swt_app in Hone. lia. }
  clear Hkeep.
  pose proof (HI _ _ Ht) as Her.
  assert (Hlist : forall s v, own w s v -> spec_list (w_log w) s = vec_of w v).
  { intros s v Ho. rewrite <- (proj1 (list_spec _ _ _ s Hr)). apply cur_own. auto. }
  pose proof (HC _ _ Ht) as HF.
  assert (Hnt : forall o f rest, st = FRet o :: f :: rest -> (forall s v, crit_vec f <> Some (s, v)) -> top_touch st = None).
  { intros o f rest -> Hf. destruct o as [|[]| | | | | | |]; try reflexivity. destruct f; try reflexivity. edestruct Hf; reflexivity. }
  assert (Hshape : forall f r, match r with FEraseCmp _ _ _ _ _ _ :: _ => False | _ => True end -> (forall s v, crit_vec f <> Some (s, v)) ->
     er_ok e t (w_log w') f r).
  { intros f r Hr0 Hf. apply er_plain; [auto|]. intros. intros ->. contradiction. }
  destruct Htr; cbn [AT] in HA';
    try (first [specialize (Hself eq_refl)|specialize (Hself (Hnt _ _ _ eq_refl ltac:(intros; discriminate)))]; cbn [AT] in Hself |- *; destruct Hself as [Hs1 Hs2]).
  all: cbn [AT app] in *; destruct_and?.
  all: try (match goal with H : er_ok _ _ (w_log ?a) (FProg (Do _ _)) _ |- AT (er_ok _ _ (w_log ?a)) _ => apply er_do in H
            | H : er_ok _ _ (w_log ?a) (FProg (Do _ _)) _ |- er_ok _ _ (w_log ?a) _ _ /\ _ => apply er_do in H end).
  all: repeat (match goal with |- _ /\ _ => split end); auto; try (apply er_adj; auto; fail); try (apply er_waits; auto; fail);
    try (apply er_plain; [intros; discriminate|intros; discriminate]; fail).
  - (* ret *) apply er_ret; auto.
  - (* vdo *) destruct (vop_after' _ _ _ _ _ _ H) as [->|[(d & m & ->)|[(d & s & ->)| ->]]]; cbn [app AT];
      repeat (match goal with |- _ /\ _ => split end); auto; apply Hshape; try exact I; intros; discriminate.
  - (* vdead *) apply Hshape; [|intros; discriminate].
    destruct (vop_after' _ _ _ _ _ _ H) as [->|[(d & m & ->)|[(d & s & ->)| ->]]]; exact I.
  - destruct (vop_after' _ _ _ _ _ _ H) as [->|[(d & m & ->)|[(d & s & ->)| ->]]]; cbn [app AT];
      repeat (match goal with |- _ /\ _ => split end); auto; apply Hshape; try exact I; intros; discriminate.
  - (* begin *) match goal with H : begins _ _ _ _ _ |- _ => destruct H end; cbn [app AT];
      repeat (match goal with |- _ /\ _ => split end); auto; apply Hshape; try exact I; intros; discriminate.
  - (* skip *) apply Hshape; [|intros; discriminate]. repeat case_match; auto; try contradiction; cbn in *; repeat case_match; simplify_eq; contradiction.
  - (* dead *) apply Hshape; [|intros; discriminate]. repeat case_match; auto; try contradiction; cbn in *; repeat case_match; simplify_eq; contradiction.
  - (* disc false *) apply Hshape; [|intros; discriminate]. repeat case_match; auto; contradiction.
  - (* move *) eapply (Hbelow [_]); [reflexivity|]. intros ? [= <-]. rewrite swt_cons. cbn [holds]. rewrite decide_True by auto. lia.
  - (* add *) eapply (Hbelow [_]); [reflexivity|]. intros ? [= <-]. rewrite swt_cons. cbn [holds]. rewrite decide_True by auto. lia.
  - (* rem *) eapply (Hbelow [_]); [reflexivity|]. intros ? [= <-]. rewrite swt_cons. cbn [holds]. rewrite decide_True by auto. lia.
  - (* remmiss *) eapply (Hbelow [_]); [reflexivity|]. intros ? [= <-]. rewrite swt_cons. cbn [holds]. rewrite decide_True by auto. lia.
  - (* erase *) apply Forall_cons in HF as [[Ho _] _]. split.
    + exists []. rewrite (Hlist _ _ Ho). split; [|split; [reflexivity|split; constructor]].
      exists [], (w_log w). split; [reflexivity|]. split; [apply Hlist; auto|]. split; [apply Hlist; auto|]. split; [reflexivity|].
      split; [intros ev Hin; inversion Hin|]. rewrite app_nil_r. reflexivity.
    + repeat case_match; auto. discriminate.
  - (* unlock *) apply Hshape; [|intros; discriminate]. repeat case_match; auto; contradiction.
  - (* cmp *) apply Forall_cons in HF as [[Ho _] _]. split; [exact I|].
    destruct (I_fields_inv _ _ _ Hr _ _ H0) as ((i0 & Hc & Hi) & _). exists l, (im_c i0).
    split; [rewrite (Hlist _ _ Ho); auto|]. split; [unfold spec_callee; rewrite Hc; reflexivity|].
    cbn [cmp_ok]. rewrite <- Hi. intros o. apply slot_eq_gives.
  - (* wait *) apply er_wait. auto.
  - (* remret *) apply Hshape; [|intros; discriminate]. repeat case_match; auto; contradiction.
  - (* erased *) apply Forall_cons in HF as [_ HF]. apply Forall_cons in HF as [[Ho _] _].
    split; [|repeat case_match; auto; discriminate].
    match goal with H : er_ok _ _ _ (FRet _) _ |- _ => destruct H as [_ (l1 & c1 & Hl1 & Hc1 & Hcmp)] end.
    rewrite (Hlist _ _ Ho) in Hl1. assert (l1 = l) by congruence. subst l1.
    wcbn. autorewrite with wsimp. wcbn_in Hwf. autorewrite with wsimp in Hwf.
    apply ers_step; auto.
    + apply (list_spec _ _ _ s Hr).
    + rewrite (Hlist _ _ Ho). auto.
    + exists c1. split; auto.
    + match goal with H : er_ok _ _ _ (FEraseCmp _ _ _ _ _ _) _ |- _ => apply H end.
  - (* erased, rest *) eapply (Hbelow [_; _]); [reflexivity|]. intros ? [= <-]. rewrite !swt_cons. cbn [holds]. rewrite decide_True by auto. lia.
  - (* kept *) apply Forall_cons in HF as [_ HF]. apply Forall_cons in HF as [[Ho _] _].
    split; [|repeat case_match; auto; discriminate].
    match goal with H : er_ok _ _ _ (FRet _) _ |- _ => destruct H as [_ (l1 & c1 & Hl1 & Hc1 & Hcmp)] end.
    match goal with H : er_ok _ _ _ (FEraseCmp _ _ _ _ _ _) _ |- _ => destruct H as [(ys & Hy1 & Hy2 & Hy3 & Hy4) _] end.
    exists ys. split; [auto|]. split; [auto|]. split; [auto|]. rewrite (take_S_r _ _ _ Hl1). apply Forall_app. split; [auto|].
    apply Forall_singleton. exists c1. auto.
  - (* slotret *) apply Hshape; [|intros; discriminate]. repeat case_match; auto; try contradiction; cbn in *; repeat case_match; simplify_eq; contradiction.
Qed.

Lemma I_er_inv e ps w : reachable e ps w -> I_er e w.
Proof.
  apply reach_ind.
  - intros t st Ht. cbn in Ht. rewrite list_lookup_fmap in Ht. destruct (ps !! t); cbn in Ht; simplify_eq.
    cbn. split; [|exact I]. split; exact I.
  - clear w. intros w t st w' st' Hr HI Ht Htr Hr'.
    pose proof (wf_log_reach _ _ _ Hr') as Hwf.
    pose proof (I_adj_inv _ _ _ Hr') as HA'.
    destruct (reap_spec e w w' t st') as (D & L & HD & HL & Hre & HDeq & _). rewrite Hre in *. clear Hre.
    pose proof (trans_thr _ _ _ _ _ _ Htr) as Hthr.
    assert (Hlt : t < length (w_thr w)) by (eapply lookup_lt_Some; eauto).
    wcbn_in Hwf. assert (Hwf' : wf_log (w_log w')) by (eapply log_all_app; exact Hwf).
    assert (Hst : AT adj st').
    { assert (Hx : w_thr (w_add_events (w_set_stack w' t (D ++ st')) L) !! t = Some (D ++ st')).
      { wcbn. rewrite Hthr. apply list_lookup_insert. auto. }
      destruct (HA' _ _ Hx) as [Ha _]. eapply AT_app. exact Ha. }
    pose proof (I_er_step _ _ _ _ _ _ _ Hr HI Ht Htr Hst Hwf') as Hm.
    intros t' x Hx. wcbn_in Hx. wcbn.
    assert (Hext : forall t0 s0, AT (er_ok e t0 (w_log w')) s0 -> AT (er_ok e t0 (L ++ w_log w')) s0).
    { intros t0 s0. apply AT_impl. intros f r. apply er_ok_app; [auto|]. intros s g _ _ ev Hev.
      unfold deadish in HL. rewrite Forall_forall in HL. destruct (HL _ Hev) as [[? ->]|[? ->]]; intros []. }
    rewrite Hthr in Hx.
    destruct (thr_upd _ _ _ _ _ _ Ht Hx) as [[-> ->]|[Hn Hx']].
    + apply Hext. apply AT_er_dtorish; auto.
      * destruct (I_adj_inv _ _ _ Hr _ _ Ht) as [HA _]. eapply trans_active; eauto.
      * apply (Hm t st'). wcbn. rewrite Hthr. apply list_lookup_insert. auto.
    + apply Hext. apply (Hm t' x). wcbn. rewrite Hthr, list_lookup_insert_ne by auto. auto.
Qed.

(** ** What a call of disconnect(f) did *)
(** The events that report the end of one. *)
Definition ev_erase (e : env) (ev : event) (pre : list event) : Prop :=
  match ev with
  | EErase t s tgt xs0 xs1 n =>
      exists ys, erasing t s xs0 ys xs1 pre /\ length ys = n /\
        (forall l, l ∈ ys -> slot_gives e pre tgt l (OutBool true)) /\
        (forall l, l ∈ xs1 -> slot_gives e pre tgt l (OutBool false))
  | EEraseExn t s tgt xs0 xs1 x =>
      exists ys l, erasing t s xs0 ys xs1 pre /\
        (forall l, l ∈ ys -> slot_gives e pre tgt l (OutBool true)) /\
        l ∈ xs1 /\ slot_gives e pre tgt l (OutExn x)
  | EErased t s l => exists tgt, slot_gives e pre tgt l (OutBool true)
  | _ => True
  end.
Lemma erase_facts e ps w : reachable e ps w -> log_all (ev_erase e) (w_log w).
Proof.
  apply log_all_hist; [intros [] pre; cbn; intros; auto; discriminate|].
  clear w. intros w t st w' st' ev pre Hr Ht Htr Hlg.
  pose proof (I_er_inv _ _ _ Hr _ _ Ht) as Her.
  pose proof (I_crit_inv _ _ _ Hr _ _ Ht) as HF.
  assert (Hlist : forall s v, own w s v -> spec_list (w_log w) s = vec_of w v).
  { intros s v Ho. rewrite <- (proj1 (list_spec _ _ _ s Hr)). apply cur_own. auto. }
  destruct ev; try exact I; logs_inv Htr Hlg; cbn [AT] in Her; destruct_and?; cbn [ev_erase].
  - apply Forall_cons in HF as [_ HF]. apply Forall_cons in HF as [[Ho _] _].
    match goal with H : er_ok _ _ _ (FRet _) _ |- _ => destruct H as [_ (l1 & c1 & Hl1 & Hc1 & Hcmp)] end.
    rewrite (Hlist _ _ Ho) in Hl1. simplify_eq. exists tgt, c1. auto.
  - apply Forall_cons in HF as [[Ho _] _].
    match goal with H : er_ok _ _ _ (FErase _ _ _ _ _ _) _ |- _ => destruct H as [(ys & Hy1 & Hy2 & Hy3 & Hy4) _] end.
    rewrite (Hlist _ _ Ho) in Hy1, Hy4. exists ys. split; [auto|]. split; [auto|].
    rewrite Forall_forall in Hy3, Hy4. split; [auto|]. rewrite take_ge in Hy4 by (apply lookup_ge_None; auto). auto.
  - apply Forall_cons in HF as [_ HF]. apply Forall_cons in HF as [[Ho _] _].
    match goal with H : er_ok _ _ _ (FRet _) _ |- _ => destruct H as [_ (l1 & c1 & Hl1 & Hc1 & Hcmp)] end.
    match goal with H : er_ok _ _ _ (FEraseCmp _ _ _ _ _ _) _ |- _ => destruct H as [(ys & Hy1 & Hy2 & Hy3 & Hy4) _] end.
    rewrite (Hlist _ _ Ho) in Hy1, Hl1. exists ys, l1. split; [auto|]. rewrite Forall_forall in Hy3. split; [auto|].
    split; [eapply elem_of_list_lookup_2; eauto|]. exists c1. auto.
Qed.
