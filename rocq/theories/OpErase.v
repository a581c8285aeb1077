(** * disconnect(f): what the caller gets *)
From Verif Require Export OpCalls.

Lemma kills_log w w' t st st' : w_thr w !! t = Some st -> w_thr w' = w_thr w -> w_sigs w' = w_sigs w -> w_vecs w' = w_vecs w ->
  v_objs (w_vars w') = v_objs (w_vars w) ->
  (forall f, f ∈ st -> f ∈ st' \/ (forall l, frame_keeps w l f = false) /\ forall o, frame_pins_obj o f = false) -> kills_nothing w w' t st'.
Proof.
  intros Ht Hthr Hs Hv Ho Hf. unfold kills_nothing, dead.
  rewrite (no_dead_objs w w' t st st' Ht Hthr); [| |].
  - cbn [map app]. replace (dead_slots w (mid w' t st')) with (@nil lid); [reflexivity|]. symmetry.
    apply (kills_sub w w' t st st' Ht Hthr).
    + intros v l. rewrite (vec_of_ext w w') by auto. auto.
    + intros s r v H1 H2 H3. exists s, r, v. rewrite Hs. split; [auto|]. split; [auto|]. split; [auto|]. intros l. rewrite (vec_of_ext w w') by auto. auto.
    + intros f Hin. destruct (Hf _ Hin) as [?|[? _]]; auto.
  - intros o. rewrite Ho. auto.
  - intros f o Hin Hp. destruct (Hf _ Hin) as [Hin'|[_ Hno]]; [eauto|]. rewrite Hno in Hp. discriminate.
Qed.

(** Between two moments with the same list, if the list was only changed by disconnect(f), it was not changed. *)
Lemma erased_perm t s d log : log_all (fun ev pre => is_dead ev = false -> ev_lists ev pre) (d ++ log) ->
  (forall ev, ev ∈ d -> touches s ev -> exists l, ev = EErased t s l) ->
  spec_list log s ≡ₚ spec_list (d ++ log) s ++ erased_of s d.
Proof.
  induction d as [|ev d IH]; intros Hl Hev; [cbn; rewrite app_nil_r; reflexivity|]. cbn [app] in Hl. apply log_all_cons in Hl as [Hl1 Hl2].
  assert (IH' := IH Hl2 (fun ev' H => Hev ev' (elem_of_list_further _ _ _ H))). clear IH.
  assert (Hd : touches s ev \/ ~ touches s ev).
  { destruct ev; cbn; auto; try (destruct (decide (s0 = s)); auto; fail).
    match goal with |- (?a = s \/ ?b = s) \/ _ => destruct (decide (a = s)), (decide (b = s)); tauto end. }
  destruct Hd as [Hto|Hto].
  - destruct (Hev ev (elem_of_list_here _ _) Hto) as [l ->]. destruct Hl1 as (Hnd & _ & Hin); [reflexivity|].
    cbn. rewrite !decide_True by auto. rewrite IH'. apply elem_of_list_lookup in Hin as [i Hi].
    rewrite (swap_pop_perm _ _ _ Hi) at 1. rewrite (swap_pop_remove _ _ _ (Hnd s) Hi). cbn. apply Permutation_middle.
  - assert (Hun : forall ev', ev' ∈ [ev] -> ~ touches s ev') by (intros ev' He; apply elem_of_list_singleton in He; subst; auto).
    assert (H1 : spec_list ((ev :: d) ++ log) s = spec_list (d ++ log) s) by exact (list_untouched [ev] (d ++ log) s Hun).
    assert (H2 : erased_of s (ev :: d) = erased_of s d) by exact (erased_untouched [ev] d s Hun).
    rewrite H1, H2. exact IH'.
Qed.
Section erase.
  Context (e : env) (ps : list prog) (t : tid) (s : sid) (src : csrc) (k : out -> prog) (st : list frame) (w0 : world).
  (** The list was [xs0] at some moment since. *)
  Definition was (xs0 : list lid) (new : list event) : Prop :=
    exists d b, new = d ++ b /\ mine t b = [] /\ spec_list (b ++ w_log w0) s = xs0 /\
      forall ev, ev ∈ d -> touches s ev -> exists l, ev = EErased t s l.
  Definition er_out (o : out) (new : list event) : Prop :=
    exists a after ev pre xs0 xs1, given w0 src a /\ new = after ++ ev :: pre /\ mine t after = [] /\ was xs0 pre /\
      ((exists n, o = OutNat n /\ ev = EErase t s a xs0 xs1 n) \/ (exists x, o = OutExn x /\ ev = EEraseExn t s a xs0 xs1 x)).
  Inductive er_ph : list frame -> list event -> Prop :=
  | EP_lock a new : given w0 src a -> mine t new = [] -> er_ph [FLock s (KErase a)] new
  | EP_write a new : given w0 src a -> mine t new = [] -> er_ph [FWrite s (KErase a)] new
  | EP_body v a new : given w0 src a -> mine t new = [] -> er_ph [FBody s v (KErase a)] new
  | EP_unlock_oom new : mine t new = [] -> er_ph [FUnlock s oom] new
  | EP_ret_oom new : mine t new = [] -> er_ph [FRet oom] new
  | EP_erase v a i n xs0 new : given w0 src a -> was xs0 new -> er_ph [FErase s v a i n xs0] new
  | EP_cmp v a i n xs0 new : given w0 src a -> was xs0 new -> er_ph [FEraseCmp s v a i n xs0] new
  | EP_unlock o new : er_out o new -> er_ph [FUnlock s o] new
  | EP_ret o new : er_out o new -> er_ph [FRet o] new.
  Definition er_busy (c : list frame) : Prop :=
    match c with [FErase _ _ _ _ _ _] | [FEraseCmp _ _ _ _ _ _] => True | _ => False end.
  Lemma was_app xs0 L new : (forall ev, ev ∈ L -> touches s ev -> exists l, ev = EErased t s l) -> was xs0 new -> was xs0 (L ++ new).
  Proof.
    intros HL (d & b & -> & Hm & Hs & Hd). exists (L ++ d), b. rewrite app_assoc. split; [auto|]. split; [auto|]. split; [auto|].
    intros ev Hin. apply elem_of_app in Hin as [Hin|Hin]; auto.
  Qed.
  Lemma er_ph_other c L new : (forall ev, ev ∈ L -> thread_of ev <> Some t) ->
    (forall s f ev, f ∈ c -> erases s f -> ev ∈ L -> ~ touches s ev) -> er_ph c new -> er_ph c (L ++ new).
  Proof.
    intros HL HLs H.
    assert (Ho : forall o, er_out o new -> er_out o (L ++ new)).
    { intros o (a & after & ev & pre & xs0 & xs1 & Hg & -> & Hm & Hw & Hev). exists a, (L ++ after), ev, pre, xs0, xs1.
      split; [auto|]. split; [rewrite app_assoc; auto|]. split; [rewrite mine_none; auto|]. auto. }
    destruct H; try (econstructor; eauto; rewrite mine_none by auto; auto; fail);
      (econstructor; [auto|]; apply was_app; [|auto]; intros ev Hin Hto; edestruct (HLs s); eauto; [apply elem_of_list_here|eexists; reflexivity]).
  Qed.
  Lemma er_ph_busy c L new : er_busy c ->
    (forall s f ev, f ∈ c -> erases s f -> ev ∈ L -> ~ touches s ev) -> er_ph c new -> er_ph c (L ++ new).
  Proof.
    intros Hb HLs H. destruct H; try contradiction;
      (econstructor; [auto|]; apply was_app; [|auto]; intros ev Hin Hto; edestruct (HLs s); eauto; [apply elem_of_list_here|eexists; reflexivity]).
  Qed.
  Lemma er_start w' st' new : w_thr w0 !! t = Some (FProg (Do (OErase s src) k) :: st) -> reachable e ps w0 ->
    trans e w0 t (FProg (Do (OErase s src) k) :: st) w' st' ->
    w_log w' = new ++ w_log w0 ->
    exists b f c, st' = b ++ f :: c ++ FWait k :: st /\ er_ph (f :: c) new /\ ((b = [] /\ kills_nothing w0 w' t st') \/ er_busy (f :: c)).
  Proof.
    intros Ht Hr Htr Hnew. pose proof (quiet_trans _ _ _ _ _ _ _ Hr Ht Htr I) as Hk.
    inversion Htr; subst.
    - exists [], (FRet oom), []. split; [reflexivity|]. split; [|auto]. rewrite (app_log_same [] _ _ eq_refl _ Hnew). constructor. auto.
    - rewrite (app_log_same [] _ _ eq_refl _ Hnew). match goal with H : begins _ _ _ _ _ |- _ => inversion H; subst end.
      + eexists [], _, []. split; [reflexivity|]. split; [|auto]. constructor; [|auto].
        match goal with H : _ = src |- _ => rewrite <- H end. reflexivity.
      + eexists [], _, []. split; [reflexivity|]. split; [|auto]. constructor; [|auto].
        match goal with H : _ = src |- _ => rewrite <- H end.
        match goal with H : get_us _ _ = Some ?x |- _ => exists (us_impl x); apply get_us_Some in H; rewrite H end. auto.
  Qed.
  Lemma er_act w f c new w' st' new' : reachable e ps w -> w_log w = new ++ w_log w0 ->
    w_thr w !! t = Some (f :: c ++ FWait k :: st) -> AT adj (f :: c ++ FWait k :: st) ->
    er_ph (f :: c) new -> (forall o, f :: c <> [FRet o]) ->
    trans e w t (f :: c ++ FWait k :: st) w' st' -> w_log w' = new' ++ w_log w0 ->
    exists b' f' c', st' = b' ++ f' :: c' ++ FWait k :: st /\ er_ph (f' :: c') new' /\ ((b' = [] /\ kills_nothing w w' t st') \/ er_busy (f' :: c')).
  Proof.
    intros Hr Hlog Ht HA Hph Hn Htr Hnew.
    assert (Hsame : w_log w' = w_log w -> new' = new).
    { intros He. apply (app_log_same new (w_log w0) (w_log w')); congruence. }
    assert (Hone : forall ev, w_log w' = ev :: w_log w -> new' = ev :: new).
    { intros ev He. apply (app_log_same (ev :: new) (w_log w0) (w_log w')); [|congruence]. rewrite He, Hlog. reflexivity. }
    pose proof (quiet_trans _ _ _ _ _ _ _ Hr Ht Htr) as Hk.
    inversion Hph; subst; try (edestruct Hn; reflexivity); cbn [app] in *; inversion Htr; subst;
      first [specialize (Hsame eq_refl); subst new'|specialize (Hone _ eq_refl); subst new'];
      first [eexists [], _, []; split; [reflexivity|]|eexists [_], _, []; split; [reflexivity|]];
      (split; [|first [left; split; [reflexivity|exact (Hk I)]|right; exact I|left; split; [reflexivity|]]]);
      try (econstructor; eauto; fail).
    - (* erase starts *) constructor; [auto|]. exists [], new. split; [auto|]. split; [auto|]. split; [|intros ev Hin; inversion Hin]. rewrite <- Hlog.
      pose proof (I_crit_inv _ _ _ Hr _ _ Ht) as HF. apply Forall_cons in HF as [[Ho _] _].
      rewrite <- (proj1 (list_spec _ _ _ s Hr)). apply cur_own. auto.
    - (* erase ends *) apply EP_unlock. exists a, [], (EErase t s a xs0 (vec_of w v) n), new, xs0, (vec_of w v).
      split; [auto|]. split; [auto|]. split; [auto|]. split; [auto|]. left. eauto.
    - eapply kills_log; eauto; try reflexivity. intros f Hin. apply elem_of_cons in Hin as [->|Hin]; [right; split; reflexivity|].
      left. apply elem_of_cons. auto.
  Qed.
  Lemma er_ret' w o f c new w' st' new' : reachable e ps w -> w_log w = new ++ w_log w0 ->
    w_thr w !! t = Some (FRet o :: f :: c ++ FWait k :: st) -> AT adj (FRet o :: f :: c ++ FWait k :: st) ->
    er_ph (f :: c) new ->
    trans e w t (FRet o :: f :: c ++ FWait k :: st) w' st' -> w_log w' = new' ++ w_log w0 ->
    exists b' f' c', st' = b' ++ f' :: c' ++ FWait k :: st /\ er_ph (f' :: c') new' /\ ((b' = [] /\ kills_nothing w w' t st') \/ er_busy (f' :: c')).
  Proof.
    intros Hr Hlog Ht HA Hph Htr Hnew.
    assert (Hsame : w_log w' = w_log w -> new' = new).
    { intros He. apply (app_log_same new (w_log w0) (w_log w')); congruence. }
    assert (Hone : forall ev, w_log w' = ev :: w_log w -> new' = ev :: new).
    { intros ev He. apply (app_log_same (ev :: new) (w_log w0) (w_log w')); [|congruence]. rewrite He, Hlog. reflexivity. }
    inversion Hph; subst; cbn [app] in *; inversion Htr; subst.
    - assert (new' = EErased t s l :: new) as -> by (apply Hone; wcbn; autorewrite with wsimp; reflexivity).
      eexists [], _, []. split; [reflexivity|]. split; [|right; exact I]. constructor; [auto|].
      apply (was_app _ [_]); [|auto]. intros ev Hin _. apply elem_of_list_singleton in Hin. eauto.
    - specialize (Hsame eq_refl). subst new'. eexists [], _, []. split; [reflexivity|]. split; [|right; exact I]. constructor; auto.
    - specialize (Hone _ eq_refl). subst new'. eexists [], _, []. split; [reflexivity|]. split.
      + apply EP_unlock. eexists a, [], _, new, xs0, _. split; [auto|]. split; [reflexivity|]. split; [auto|]. split; [auto|]. right. eauto.
      + left. split; [reflexivity|]. eapply kills_log; eauto; try reflexivity. intros f Hin.
        apply elem_of_cons in Hin as [->|Hin]; [right; split; reflexivity|]. apply elem_of_cons in Hin as [->|Hin]; [right; split; reflexivity|].
        left. apply elem_of_cons. auto.
  Qed.
  Lemma erase_returns w o : reachable e ps w0 -> in_call e t (OErase s src) k st w0 w -> returned t k st w o ->
    exists new, since w0 w new /\
      ((o = OutExn BadAlloc /\ mine t new = []) \/
       exists a after ev during before, given w0 src a /\ new = after ++ ev :: during ++ before /\
         mine t after = [] /\ mine t before = [] /\ ~ touches s ev /\ erases_from e t s a (before ++ w_log w0) during o).
  Proof.
    intros Hr Hc Hret.
    assert (Ht : w_thr w0 !! t = Some (FProg (Do (OErase s src) k) :: st)) by (clear Hret; induction Hc; auto).
    assert (Hrw : reachable e ps w) by (clear Hret; induction Hc; eapply reachable_step; eauto).
    destruct (call_returned e ps t (OErase s src) k st w0 er_ph er_busy er_ph_other er_ph_busy) with (w := w) (o := o) as (new & Hs & Hp); auto.
    - contradiction.
    - intros. eapply er_start; eauto.
    - apply er_act.
    - apply er_ret'.
    - exists new. split; [auto|].
      assert (Hor : (o = oom /\ mine t new = []) \/ er_out o new) by (inversion Hp; subst; auto).
      clear Hp. destruct Hor as [Hor|Hor]; [left; exact Hor|right].
      destruct Hor as (a & after & ev & pre & xs0 & xs1 & Hg & -> & Hm & (d & b & -> & Hmb & Hxs & Hd) & Hev).
      unfold since in Hs.
      assert (Hl : w_log w = after ++ ev :: (d ++ b) ++ w_log w0) by (rewrite Hs, <- app_assoc; reflexivity).
      pose proof (lists_ok _ _ _ Hrw) as HL. rewrite Hl in HL. apply log_all_pre in HL.
      rewrite <- (app_assoc d b) in HL. pose proof (erased_perm t s d _ HL Hd) as Hp. rewrite Hxs in Hp.
      pose proof (erase_facts _ _ _ Hrw _ _ _ Hl) as Hf. rewrite <- (app_assoc d b) in Hf.
      exists a, after, ev, d, b. split; [auto|]. split; [auto|]. split; [auto|]. split; [auto|].
      split; [destruct Hev as [(n & _ & ->)|(x & _ & ->)]; intros []|].
      assert (Hys : forall ys, erasing t s xs0 ys xs1 (d ++ b ++ w_log w0) -> spec_list (d ++ b ++ w_log w0) s = xs1 /\ ys ≡ₚ erased_of s d).
      { intros ys (during & before & Heq & Hb & H1 & _ & _ & Hp'). split; [auto|]. rewrite Hp, H1 in Hp'. apply Permutation_app_inv_l in Hp'. symmetry. exact Hp'. }
      unfold erases_from. rewrite Hxs. split; [auto|]. split; [auto|].
      destruct Hev as [(n & -> & ->)|(x & -> & ->)]; cbn [ev_erase] in Hf.
      + destruct Hf as (ys & He & Hn & Ht1 & Hf1). destruct (Hys _ He) as [H1 H2]. split; [intros l Hl1; apply Ht1; rewrite H2; auto|].
        left. rewrite <- H2, Hn. split; [auto|]. rewrite H1. auto.
      + destruct Hf as (ys & l & He & Ht1 & Hf1 & Hf2). destruct (Hys _ He) as [H1 H2]. split; [intros l1 Hl1; apply Ht1; rewrite H2; auto|].
        right. exists x, l. rewrite H1. auto.
  Qed.
End erase.

(** ** Consequences *)
Lemma erase_calls e ps t s src k st w0 w o : reachable e ps w0 -> in_call e t (OErase s src) k st w0 w -> returned t k st w o ->
  exists new, since w0 w new /\
    ((o = OutExn BadAlloc /\ mine t new = []) \/
     exists a before during, given w0 src a /\ erase_call e t s a (w_log w0) new before during o).
Proof.
  intros Hr Hc Ho. destruct (erase_returns _ _ _ _ _ _ _ _ _ _ Hr Hc Ho) as (new & Hs & [H|H]); exists new; (split; [auto|]); [left; auto|right].
  destruct H as (a & after & ev & during & before & Hg & -> & Hm1 & Hm2 & Hev & Hf). exists a, before, during. split; [auto|].
  exists after, ev. split; [auto|]. split; [auto|]. split; [|auto]. intros ev' Hin Hto.
  assert (Hno : thread_of ev' <> Some t).
  { intros Ht. assert (Hx : ev' ∈ mine t after \/ ev' ∈ mine t before) by (unfold mine; destruct Hin; [left|right]; apply elem_of_list_filter; auto).
    rewrite Hm1, Hm2 in Hx. destruct Hx as [Hx|Hx]; inversion Hx. }
  destruct ev'; auto; cbn in Hno; congruence.
Qed.

Lemma pure_member e eqb ty x y o : pure_eq e eqb ->
  member e ty x y o <-> o = match member_eq e eqb ty x y with Some b => OutBool b | None => OutExn NotComparable end.
Proof.
  intros Hp. unfold member, member_eq. destruct (e_cmp e ty); [|reflexivity]. rewrite Hp. split; [inversion 1; auto|]. intros ->. constructor.
Qed.
Lemma pure_gives e eqb a b o : pure_eq e eqb ->
  compares_opt e a b o <-> o = match slot_same e eqb a b with Some b => OutBool b | None => OutExn NotComparable end.
Proof.
  intros Hp. unfold compares_opt, slot_same. destruct a as [a|], b as [b|]; try reflexivity.
  unfold compares, callable_eq. case_decide as Hs.
  - split.
    + intros [[? _]|[_ H]]; [contradiction|]. destruct (c_kind a).
      * apply (pure_member _ eqb) in H; auto.
      * destruct H as (o1 & H1 & H2). apply (pure_member _ eqb) in H1; [|auto]. subst o1.
        destruct (member_eq e eqb (ft_base (c_pty a)) (c_pv a) (c_pv b)) as [[]|]; destruct H2 as [[H2 H3]|[H2 H3]]; try congruence.
        apply (pure_member _ eqb) in H3; auto.
      * destruct H as (o1 & H1 & H2). apply (pure_member _ eqb) in H1; [|auto]. subst o1.
        destruct (member_eq e eqb (ft_base (c_pty a)) (c_pv a) (c_pv b)) as [[]|]; destruct H2 as [[H2 H3]|[H2 H3]]; try congruence.
        apply (pure_member _ eqb) in H3; auto.
    + intros ->. right. split; [auto|]. destruct (c_kind a).
      * apply (pure_member _ eqb); auto.
      * eexists. split; [apply (pure_member _ eqb); eauto|].
        destruct (member_eq e eqb (ft_base (c_pty a)) (c_pv a) (c_pv b)) as [[]|]; [left; split; [auto|apply (pure_member _ eqb); auto]|right..]; split; congruence.
      * eexists. split; [apply (pure_member _ eqb); eauto|].
        destruct (member_eq e eqb (ft_base (c_pty a)) (c_pv a) (c_pv b)) as [[]|]; [left; split; [auto|apply (pure_member _ eqb); auto]|right..]; split; congruence.
  - split; [intros [[_ H]|[? _]]; [auto|contradiction]|]. intros ->. left. auto.
Qed.

Lemma such_all log p xs : (forall l, l ∈ xs -> exists c, spec_callee log l = Some c /\ p c = true) -> such log p xs = xs.
Proof.
  intros H. unfold such. induction xs as [|l xs IH]; [reflexivity|]. destruct (H l) as (c & Hc & Hp); [apply elem_of_list_here|].
  rewrite filter_cons_True by (rewrite Hc; exact Hp). f_equal. apply IH. intros. apply H. apply elem_of_list_further. auto.
Qed.
Lemma such_none log p xs : (forall l, l ∈ xs -> exists c, spec_callee log l = Some c /\ p c = false) -> such log p xs = [].
Proof.
  intros H. unfold such. induction xs as [|l xs IH]; [reflexivity|]. destruct (H l) as (c & Hc & Hp); [apply elem_of_list_here|].
  rewrite filter_cons_False by (rewrite Hc; cbn; rewrite Hp; discriminate). apply IH. intros. apply H. apply elem_of_list_further. auto.
Qed.

Lemma such_app log p xs ys : such log p (xs ++ ys) = such log p xs ++ such log p ys.
Proof. apply filter_app. Qed.
Lemma such_perm log p xs ys : xs ≡ₚ ys -> such log p xs ≡ₚ such log p ys.
Proof. intros H. unfold such. rewrite H. reflexivity. Qed.

(** With an operator== that is a function. *)
Lemma erase_pure e eqb t s a pre0 during o : pure_eq e eqb -> erases_from e t s a pre0 during o ->
  let log := during ++ pre0 in
  (forall l, l ∈ spec_list pre0 s -> exists c, spec_callee log l = Some c /\ can_compare e eqb a c) ->
  erased_of s during ≡ₚ such log (is_eq e eqb a) (spec_list pre0 s) /\
  spec_list log s ≡ₚ such log (is_ne e eqb a) (spec_list pre0 s) /\
  o = OutNat (length (such log (is_eq e eqb a) (spec_list pre0 s))).
Proof.
  intros Hp (Hev & Hperm & Heq & Ho) log Hcmp.
  assert (Hgive : forall l b, slot_gives e log a l (OutBool b) -> exists c, spec_callee log l = Some c /\ slot_same e eqb (Some c) a = Some b).
  { intros l b (c & Hc & Hg). apply (pure_gives _ eqb) in Hg; [|auto]. exists c. split; [auto|]. destruct (slot_same e eqb (Some c) a); simplify_eq; auto. }
  destruct Ho as [[-> Hne]|(x & l & -> & Hl & c & Hc & Hg)].
  2:{ exfalso. apply (pure_gives _ eqb) in Hg; [|auto].
      destruct (Hcmp l) as (c' & Hc' & Hcc); [rewrite Hperm; apply elem_of_app; auto|]. fold log in Hc. assert (c' = c) by congruence. subst c'. unfold can_compare in Hcc.
      destruct (slot_same e eqb (Some c) a); simplify_eq. }
  assert (H1 : such log (is_eq e eqb a) (spec_list pre0 s) ≡ₚ erased_of s during).
  { rewrite (such_perm _ _ _ _ Hperm), such_app.
    fold log. rewrite such_none; [rewrite such_all; [reflexivity|]|].
    - intros l Hl. destruct (Hgive _ _ (Heq _ Hl)) as (c & Hc & Hs). exists c. split; [auto|]. unfold is_eq. rewrite Hs. auto.
    - intros l Hl. destruct (Hgive _ _ (Hne _ Hl)) as (c & Hc & Hs). exists c. split; [auto|]. unfold is_eq. rewrite Hs. auto. }
  assert (H2 : such log (is_ne e eqb a) (spec_list pre0 s) ≡ₚ spec_list log s).
  { rewrite (such_perm _ _ _ _ Hperm), such_app.
    fold log. rewrite such_all; [rewrite (such_none _ _ (erased_of s during)); [rewrite app_nil_r; reflexivity|]|].
    - intros l Hl. destruct (Hgive _ _ (Heq _ Hl)) as (c & Hc & Hs). exists c. split; [auto|]. unfold is_ne. rewrite Hs. auto.
    - intros l Hl. destruct (Hgive _ _ (Hne _ Hl)) as (c & Hc & Hs). exists c. split; [auto|]. unfold is_ne. rewrite Hs. auto. }
  split; [symmetry; auto|]. split; [symmetry; auto|]. rewrite H1. auto.
Qed.

(** When nothing was erased. *)
Lemma erased_nothing t s during pre0 : (forall ev, ev ∈ during -> touches s ev -> exists l, ev = EErased t s l) ->
  erased_of s during = [] -> spec_list (during ++ pre0) s = spec_list pre0 s.
Proof.
  intros Hev Hn. apply list_untouched. intros ev Hin Hto. destruct (Hev _ Hin Hto) as [l ->].
  clear Hev Hto. induction during as [|ev d IH]; [inversion Hin|]. apply elem_of_cons in Hin as [<-|Hin].
  - cbn in Hn. rewrite decide_True in Hn by auto. discriminate.
  - apply IH; auto. destruct ev; cbn in Hn; auto. destruct (decide _); [discriminate|auto].
Qed.
Lemma compares_true e c b : compares e c b (OutBool true) -> same_type c b /\ e_cmp e (ft_base (c_fty b)) = true /\
  (c_kind b <> KFunc -> e_cmp e (ft_base (c_pty b)) = true).
Proof.
  intros [[_ ?]|[Hs H]]; [discriminate|]. split; [auto|].
  assert (Hm : forall ty x y, member e ty x y (OutBool true) -> e_cmp e ty = true).
  { intros ty x y. unfold member. destruct (e_cmp e ty); congruence. }
  destruct Hs as (Hk & Hf & Hp). rewrite <- Hk, <- Hf. destruct (c_kind c).
  - split; [eauto|congruence].
  - rewrite <- Hp. destruct H as (o1 & H1 & [[-> H2]|[Hn Ho]]); [|congruence]. eauto.
  - rewrite <- Hp. destruct H as (o1 & H1 & [[-> H2]|[Hn Ho]]); [|congruence]. eauto.
Qed.
Lemma compares_nc e c b : eq_total e -> compares e c b (OutExn NotComparable) -> same_type c b /\
  (e_cmp e (ft_base (c_fty b)) = false \/ (c_kind b <> KFunc /\ e_cmp e (ft_base (c_pty b)) = false)).
Proof.
  intros Ht [[_ ?]|[Hs H]]; [discriminate|]. split; [auto|].
  assert (Hm : forall ty x y, member e ty x y (OutExn NotComparable) -> e_cmp e ty = false).
  { intros ty x y. unfold member. destruct (e_cmp e ty); [|auto]. intros H0. edestruct Ht; eauto. }
  destruct Hs as (Hk & Hf & Hp). rewrite <- Hk, <- Hf. destruct (c_kind c).
  - left. eauto.
  - rewrite <- Hp. destruct H as (o1 & H1 & [[-> H2]|[Hn <-]]); [left; eauto|right; split; [discriminate|eauto]].
  - rewrite <- Hp. destruct H as (o1 & H1 & [[-> H2]|[Hn <-]]); [left; eauto|right; split; [discriminate|eauto]].
Qed.
Lemma compares_tracked e c b o : c_kind b = KTracked -> same_type c b -> e_cmp e (ft_base (c_pty b)) = false ->
  compares e c b o -> o = OutExn NotComparable.
Proof.
  intros Hk Hs Hc [[? _]|[_ H]]; [contradiction|]. destruct Hs as (Hk' & _ & Hp). rewrite Hk' in *. rewrite Hk in *. rewrite <- Hp in Hc.
  unfold member in H. rewrite Hc in H. destruct H as (o1 & -> & [[? _]|[_ ->]]); [discriminate|auto].
Qed.

Lemma erase_not_comparable e t s a pre0 during : eq_total e -> erases_from e t s a pre0 during (OutExn NotComparable) ->
  erased_of s during = [] /\ spec_list (during ++ pre0) s = spec_list pre0 s.
Proof.
  intros Ht (Hev & Hperm & Heq & Ho). assert (Hn : erased_of s during = []).
  { destruct Ho as [[? _]|(x & l & [= <-] & Hl & c & Hc & Hg)]; [discriminate|].
    destruct (erased_of s during) as [|l' ys]; [auto|]. destruct (Heq l' (elem_of_list_here _ _)) as (c' & Hc' & Hg').
    exfalso. destruct a as [b|]; cbn in Hg, Hg'; [|discriminate].
    apply compares_true in Hg' as (Hs & H1 & H2). apply compares_nc in Hg as (Hs' & [H3|[H3 H4]]); [congruence| |auto].
    rewrite (H2 H3) in H4. discriminate. }
  split; [auto|]. eapply erased_nothing; eauto.
Qed.
Lemma erase_same_type e t s a pre0 during o l : erases_from e t s a pre0 during o -> l ∈ erased_of s during ->
  exists c b, spec_callee (during ++ pre0) l = Some c /\ a = Some b /\ same_type c b.
Proof.
  intros (Hev & Hperm & Heq & Ho) Hl. destruct (Heq _ Hl) as (c & Hc & Hg). destruct a as [b|]; [|discriminate].
  apply compares_true in Hg as (Hs & _). eauto.
Qed.
Lemma erase_other_type e t s a b pre0 during o l c : erases_from e t s a pre0 during o -> a = Some b ->
  l ∈ spec_list pre0 s -> spec_callee (during ++ pre0) l = Some c -> ~ same_type c b -> l ∈ spec_list (during ++ pre0) s.
Proof.
  intros H -> Hl Hc Hn. pose proof H as (_ & Hperm & _). rewrite Hperm in Hl. apply elem_of_app in Hl as [Hl|Hl]; [auto|].
  destruct (erase_same_type _ _ _ _ _ _ _ _ H Hl) as (c' & b' & Hc' & [= <-] & Hs). simplify_eq. contradiction.
Qed.
Lemma erase_tracked e t s b pre0 during o l c : erases_from e t s (Some b) pre0 during o -> c_kind b = KTracked ->
  e_cmp e (ft_base (c_pty b)) = false -> l ∈ spec_list pre0 s -> spec_callee (during ++ pre0) l = Some c -> same_type c b ->
  o = OutExn NotComparable /\ spec_list (during ++ pre0) s = spec_list pre0 s.
Proof.
  intros (Hev & Hperm & Heq & Ho) Hk He Hl Hc Hs.
  assert (Hn : erased_of s during = []).
  { destruct (erased_of s during) as [|l' ys]; [auto|]. destruct (Heq l' (elem_of_list_here _ _)) as (c' & Hc' & Hg'). exfalso.
    apply compares_true in Hg' as (_ & _ & H2). rewrite H2 in He; [discriminate|congruence]. }
  split; [|eapply erased_nothing; eauto].
  rewrite Hn, app_nil_r in Hperm. rewrite Hperm in Hl.
  destruct Ho as [[-> Hne]|(x & l' & -> & Hl' & c' & Hc' & Hg')].
  - destruct (Hne _ Hl) as (c' & Hc' & Hg'). simplify_eq. apply compares_tracked in Hg'; auto. discriminate.
  - destruct Hg' as [[? ?]|[Hs' Hg']]; [discriminate|]. apply (compares_tracked e c' b); auto. right. auto.
Qed.

(** The mutex is not kept. *)
Lemma returned_unlocked e ps t k st w o s r : reachable e ps w -> returned t k st w o -> w_sigs w !! s = Some r ->
  (forall f, f ∈ st -> ~ in_section s f) -> sg_lock r <> Some t.
Proof.
  intros Hr Ho Hs Hn Hl.
  assert (Hx : exists r, w_sigs w !! s = Some r /\ sg_lock r = Some t) by eauto.
  apply (lock_iff _ _ _ _ _ s Hr Ho) in Hx as (f & Hf & Hin).
  apply elem_of_cons in Hf as [->|Hf]; [contradiction|]. apply elem_of_cons in Hf as [->|Hf]; [contradiction|]. eapply Hn; eauto.
Qed.
