(** * What calls return and what they themselves did *)
From Verif Require Export SpecOwn OpSlots.

Lemma deeds_app a b : deeds (a ++ b) = deeds a ++ deeds b.
Proof. apply filter_app. Qed.
Lemma deeds_dead L : deadish L -> deeds L = [].
Proof.
  unfold deadish, deeds. induction 1 as [|ev L [[x ->]|[x ->]] _ IH]; [reflexivity|rewrite filter_cons_False by (cbn; discriminate); exact IH..].
Qed.
Lemma dtor_last e w ds : flat_map (dtor_frames e w) ds = [] \/ exists b d, flat_map (dtor_frames e w) ds = b ++ [FDtor d].
Proof.
  induction ds as [|d ds IH]; cbn; [auto|]. destruct IH as [->|(b & x & ->)].
  - rewrite app_nil_r. unfold dtor_frames. destruct (dtor_prog e w d); [|auto]. right. eexists [_], _. reflexivity.
  - right. eexists (_ ++ b), x. rewrite app_assoc. reflexivity.
Qed.
Lemma own_unique k st c c' : c ++ FWait k :: st = c' ++ FWait k :: st -> c = c'.
Proof. intros H. eapply app_inv_tail. exact H. Qed.

Definition client_ok (good : out -> Prop) (g : frame) : Prop :=
  match g with
  | FDtor _ => True
  | FProg p => forall o, may_ret p o -> good o
  | FWait k' => forall r o, may_ret (k' r) o -> good o
  | _ => False
  end.
Local Ltac cok := let G := fresh in let H1 := fresh in let H2 := fresh in intros ? H1 ? ? H2; cbn in H1; eapply H1; econstructor; exact H2.
(** A step with client code above [cc]. *)
Lemma trans_client e w t b g cc w' st' : client_frame g = true -> cc <> [] -> trans e w t ((b ++ [g]) ++ cc) w' st' ->
  (exists b' g', st' = (b' ++ [g']) ++ cc /\ client_frame g' = true /\ ((exists d, g = FDtor d) -> exists d, g' = FDtor d) /\
     forall good, client_ok good g -> client_ok good g') \/
  ((exists d, g = FDtor d) /\ st' = cc) \/
  (b = [] /\ exists o, g = FProg (Ret o) /\ st' = FRet o :: cc) \/
  (b = [] /\ exists pos k s eid v args c l start, g = FProg (Do (ODeref pos) k) /\ cc = FEmit s eid v args :: c /\
     st' = FSlot (RSlot l) SBlk args None (Some eid) start :: FDeref k pos l :: cc) .
Proof.
  intros Hg Hcc Htr. destruct b as [|f1 b].
  - cbn [app] in Htr. destruct g; try discriminate Hg.
    + destruct p as [o|o k].
      * inversion Htr; subst. right. right. left. split; [auto|]. eauto.
      * inversion Htr; subst;
          try (right; right; right; split; [auto|]; eexists _, _, _, _, _, _, _, _, _; split; [reflexivity|]; split; reflexivity);
          left; try (eexists [_], _; split; [reflexivity|]; split; [reflexivity|]; split; [intros [? ?]; discriminate|]; cok);
          try (eexists [_; _], _; split; [reflexivity|]; split; [reflexivity|]; split; [intros [? ?]; discriminate|]; cok).
        -- eexists (FDisc l :: after), _. split; [cbn; rewrite <- app_assoc; reflexivity|]. split; [reflexivity|]; split; [intros [? ?]; discriminate|]; cok.
        -- eexists (FRet (OutBool false) :: after), _. split; [cbn; rewrite <- app_assoc; reflexivity|]. split; [reflexivity|]; split; [intros [? ?]; discriminate|]; cok.
        -- eexists (FLock s kk :: fr), _. split; [cbn; rewrite <- app_assoc; reflexivity|]. split; [reflexivity|]; split; [intros [? ?]; discriminate|]; cok.
    + inversion Htr.
    + inversion Htr.
  - rewrite <- app_assoc in Htr. cbn [app] in Htr. 
    destruct (trans_above e w t (f1 :: b) g cc w' st' Htr) as [[b' ->]|[[o Hb]|(s & eid & v & args & args' & b' & -> & _)]]; [congruence| | |discriminate].
    + left. exists b', g. rewrite <- app_assoc. auto.
    + injection Hb as -> ->. cbn [app] in Htr. destruct g; try discriminate Hg; inversion Htr; subst.
      * left. eexists [], _. split; [reflexivity|]. split; [reflexivity|]. split; [intros [? ?]; discriminate|]. intros ? H1 ? H2. exact (H1 _ _ H2).
      * right. left. split; [eauto|reflexivity].
Qed.

Section own.
  Context (e : env) (ps : list prog) (t : tid) (op : op) (k : out -> prog) (st : list frame) (w0 : world).
  Variable ph : list frame -> list event -> Prop.
  (** What client code started by the call may return to it. *)
  Variable good : list frame -> list event -> out -> Prop.
  Hypothesis ph_nc : forall c evs f, ph c evs -> f ∈ c -> client_frame f = false.
  Hypothesis ph_start : forall w' st' new, reachable e ps w0 -> trans e w0 t (FProg (Do op k) :: st) w' st' ->
    w_log w' = new ++ w_log w0 ->
    exists b c, st' = b ++ c ++ FWait k :: st /\ ph c new /\ (b = [] \/ exists p, b = [FProg p] /\ forall o, may_ret p o -> good c new o) /\ deeds new = new.
  Hypothesis ph_step : forall w c evs w' st' new, reachable e ps w ->
    w_thr w !! t = Some (c ++ FWait k :: st) -> ph c evs -> (forall o, c <> [FRet o]) ->
    trans e w t (c ++ FWait k :: st) w' st' -> w_log w' = new ++ w_log w ->
    exists b c', st' = b ++ c' ++ FWait k :: st /\ ph c' (new ++ evs) /\ (b = [] \/ exists p, b = [FProg p] /\ forall o, may_ret p o -> good c' (new ++ evs) o) /\ deeds new = new.
  Hypothesis ph_ret : forall c evs o, good c evs o -> ph c evs -> ph (FRet o :: c) evs.
  Hypothesis ph_deref : forall s eid v args c evs l k' pos start, ph (FEmit s eid v args :: c) evs ->
    (forall r o, may_ret (k' r) o -> good (FEmit s eid v args :: c) evs o) ->
    ph (FSlot (RSlot l) SBlk args None (Some eid) start :: FDeref k' pos l :: FEmit s eid v args :: c) evs.
  Hypothesis not_deref : forall pos, op <> ODeref pos.

  Lemma own_inv w evs : reachable e ps w0 -> call_log e t op k st w0 w evs -> reachable e ps w /\
    exists b c, w_thr w !! t = Some (b ++ c ++ FWait k :: st) /\ ph c evs /\
      (b = [] \/ exists b' g, b = b' ++ [g] /\ client_frame g = true /\ client_ok (good c evs) g).
  Proof.
    intros Hr0 H.
    assert (HD : forall D w1 w2 t2 st2 b c evs, D = flat_map (dtor_frames e (mid w2 t2 st2)) (dead w1 (mid w2 t2 st2)) ->
              (b = [] \/ exists p, b = [FProg p] /\ forall o, may_ret p o -> good c evs o) ->
              D ++ b = [] \/ exists b' g, D ++ b = b' ++ [g] /\ client_frame g = true /\ client_ok (good c evs) g).
    { intros D w1 w2 t2 st2 b c evs0 HDeq Hb. destruct Hb as [->|(p & -> & Hb)].
      - rewrite app_nil_r. destruct (dtor_last e (mid w2 t2 st2) (dead w1 (mid w2 t2 st2))) as [Hd|(b' & x & Hd)]; rewrite <- HDeq in Hd; [left; exact Hd|].
        right. exists b', (FDtor x). split; [exact Hd|]. split; [reflexivity|exact I].
      - right. exists D, (FProg p). auto. }
    assert (HD0 : forall D w1 w2 t2 st2 c evs, D = flat_map (dtor_frames e (mid w2 t2 st2)) (dead w1 (mid w2 t2 st2)) ->
              D = [] \/ exists b' g, D = b' ++ [g] /\ client_frame g = true /\ client_ok (good c evs) g).
    { intros D w1 w2 t2 st2 c evs0 HDeq. specialize (HD D w1 w2 t2 st2 [] c evs0 HDeq (or_introl eq_refl)). rewrite app_nil_r in HD. exact HD. }
    induction H as [fail w new Ht Hs Hnew|t' fail w w' evs H [Hr IH] Hn Hs|fail w w' stk new evs H [Hr IH] Ht Ho Hn Hs Hnew].
    - split; [eapply reachable_step; eauto|].
      destruct (step_trans _ _ _ _ _ Hs) as (st0 & w1 & st1 & Ht0 & Htr & -> & _). simplify_eq.
      destruct (reap_spec e w0 w1 t st1) as (D & L & _ & HL & Hre & HDeq & _). rewrite Hre in *.
      destruct (trans_log_app _ _ _ _ _ _ Htr) as [new1 Hnew1].
      destruct (ph_start _ _ _ Hr0 Htr Hnew1) as (b & c & -> & Hph & Hb & Hd).
      assert (Hn : new = L ++ new1).
      { unfold since in Hnew. wcbn_in Hnew. rewrite Hnew1, app_assoc in Hnew. apply app_inv_tail in Hnew. auto. }
      exists (D ++ b), c. wcbn. rewrite (trans_thr _ _ _ _ _ _ Htr).
      rewrite list_lookup_insert by (eapply lookup_lt_Some; eauto). split; [rewrite <- app_assoc; reflexivity|].
      rewrite Hn, deeds_app, deeds_dead, Hd by auto. split; [exact Hph|]. eapply HD; eauto.
    - split; [eapply reachable_step; eauto|]. destruct IH as (b & c & Ht & Hph & Hb).
      destruct (step_trans _ _ _ _ _ Hs) as (st0 & w1 & st1 & Ht0 & Htr & -> & _).
      destruct (reap_spec e w w1 t' st1) as (D & L & _ & HL & -> & HDeq & _). 
      wcbn. rewrite (trans_thr _ _ _ _ _ _ Htr). destruct (decide (t' = t)) as [->|Hne].
      2:{ rewrite list_lookup_insert_ne by auto. eauto 10. }
      rewrite list_lookup_insert by (eapply lookup_lt_Some; eauto). rewrite Ht in Ht0. injection Ht0 as <-.
      assert (Hcc : c ++ FWait k :: st <> []) by (destruct c; discriminate).
      destruct Hb as [->|(b' & g & -> & Hg & Hgb)].
      { exfalso. apply (Hn eq_refl _ Ht). exists c. split; [reflexivity|]. eauto. }
      destruct (trans_client _ _ _ _ _ _ _ _ Hg Hcc Htr) as [(b2 & g2 & -> & Hg2 & Hgd & Hok)|[((dd0 & ->) & ->)|[(-> & o & -> & ->)|(-> & pos & k' & s & eid & v & args & cc & l & start & -> & Hcc' & ->)]]].
      + exists (D ++ b2 ++ [g2]), c. split; [rewrite <- !app_assoc; reflexivity|]. split; [exact Hph|]. right. exists (D ++ b2), g2.
        split; [rewrite app_assoc; reflexivity|]. split; [auto|]. apply Hok. exact Hgb.
      + exists D, c. split; [reflexivity|]. split; [exact Hph|]. eapply HD0; eauto.
      + exists D, (FRet o :: c). split; [reflexivity|]. split; [apply ph_ret; [apply Hgb; constructor|auto]|].
        eapply HD0; eauto.
      + destruct c as [|f c]; [discriminate Hcc'|]. injection Hcc' as -> Hcc'.
        eexists D, (FSlot _ _ _ _ _ _ :: FDeref _ _ _ :: FEmit s eid v args :: c). split; [reflexivity|]. split; [apply ph_deref; [auto|intros r o Hro; apply Hgb; econstructor; eauto]|].
        eapply HD0; eauto.
    - split; [eapply reachable_step; eauto|]. destruct IH as (b & c & Ht' & Hph & Hb). rewrite Ht in Ht'. injection Ht' as ->.
      destruct Ho as (c' & Hc' & Hnc). 
      assert (b = []) as ->.
      { destruct Hb as [->|(b' & g & -> & Hg & _)]; [reflexivity|]. exfalso. rewrite app_assoc in Hc'. apply own_unique in Hc'. subst c'.
        rewrite (Hnc g) in Hg; [discriminate|]. apply elem_of_app. left. apply elem_of_app. right. apply elem_of_list_singleton. reflexivity. }
      cbn [app] in *. clear Hb. 
      destruct (step_trans _ _ _ _ _ Hs) as (st0 & w1 & st1 & Ht0 & Htr & -> & _). rewrite Ht in Ht0. injection Ht0 as <-.
      destruct (reap_spec e w w1 t st1) as (D & L & _ & HL & Hre & HDeq & _). rewrite Hre in *.
      destruct (trans_log_app _ _ _ _ _ _ Htr) as [new1 Hnew1].
      assert (Hnr : forall o, c <> [FRet o]). { intros o ->. apply (Hn o). exact Ht. }
      destruct (ph_step _ _ _ _ _ _ Hr Ht Hph Hnr Htr Hnew1) as (b & c1 & -> & Hph' & Hb & Hd).
      assert (Hnn : new = L ++ new1).
      { unfold since in Hnew. wcbn_in Hnew. rewrite Hnew1, app_assoc in Hnew. apply app_inv_tail in Hnew. auto. }
      exists (D ++ b), c1. wcbn. rewrite (trans_thr _ _ _ _ _ _ Htr).
      rewrite list_lookup_insert by (eapply lookup_lt_Some; eauto). split; [rewrite <- app_assoc; reflexivity|].
      rewrite Hnn, deeds_app, (deeds_dead L), Hd by auto. split; [exact Hph'|]. eapply HD; eauto.
  Qed.
  Lemma own_returned w o evs : reachable e ps w0 -> call_log e t op k st w0 w evs -> returned t k st w o -> ph [FRet o] evs.
  Proof.
    intros Hr0 Hc Hret. destruct (own_inv w evs Hr0 Hc) as (Hr & b & c & Ht & Hph & Hb).
    unfold returned in Hret. rewrite Hret in Ht. injection Ht as Ht.
    change (FRet o :: FWait k :: st) with ([FRet o] ++ FWait k :: st) in Ht. rewrite app_assoc in Ht. apply own_unique in Ht.
    destruct Hb as [->|(b' & g & -> & Hg & _)]; [cbn in Ht; subst; exact Hph|]. exfalso. destruct b' as [|x b']; cbn in Ht.
    - injection Ht as <- _. discriminate.
    - injection Ht as _ Ht. destruct b'; discriminate.
  Qed.
End own.

(** Every call has such a list of events. *)
Lemma call_log_ex e ps t op k st w0 w : reachable e ps w0 -> (forall pos, op <> ODeref pos) -> in_call e t op k st w0 w ->
  exists evs, call_log e t op k st w0 w evs.
Proof.
  intros Hr0 Hnd H. induction H as [fail w Ht Hs|t' fail w w' H IH Hn Hs].
  - destruct (step_trans _ _ _ _ _ Hs) as (st0 & w1 & st1 & Ht0 & Htr & -> & _).
    destruct (reap_spec e w0 w1 t st1) as (D & L & _ & HL & Hre & HDeq & _). destruct (trans_log_app _ _ _ _ _ _ Htr) as [new Hnew].
    eexists. eapply (L_start _ _ _ _ _ _ fail _ (L ++ new)); [exact Ht|exact Hs|]. rewrite Hre. unfold since. wcbn. rewrite Hnew, app_assoc. reflexivity.
  - destruct IH as [evs IH]. destruct (in_call_stack _ _ _ _ _ _ _ _ Hr0 Hnd H) as (Hr & c & Hc & Ht).
    assert (Hdec : (t' <> t \/ exists f, f ∈ c /\ client_frame f = true) \/ (t' = t /\ forall f, f ∈ c -> client_frame f = false)).
    { destruct (decide (t' = t)) as [->|Hne]; [|auto]. destruct (existsb client_frame c) eqn:He.
      - left. right. apply existsb_exists in He as (f & Hf & Hcf). exists f. rewrite elem_of_list_In. auto.
      - right. split; [auto|]. intros f Hf. destruct (client_frame f) eqn:Hcf; [|auto]. exfalso.
        apply not_true_iff_false in He. apply He. apply existsb_exists. exists f. rewrite <- elem_of_list_In. auto. }
    destruct Hdec as [Hdec|[-> Hall]].
    + exists evs. eapply L_other; [exact IH| |exact Hs]. intros Heq stk Hstk (c' & Hc' & Hall). rewrite Ht in Hstk. injection Hstk as <-.
      apply own_unique in Hc'. subst c'. destruct Hdec as [Hne|(f & Hf & Hcf)]; [congruence|]. rewrite Hall in Hcf by auto. discriminate.
    + destruct (step_trans _ _ _ _ _ Hs) as (st0 & w1 & st1 & Ht0 & Htr & -> & _).
      destruct (reap_spec e w w1 t st1) as (D & L & _ & HL & Hre & HDeq & _). destruct (trans_log_app _ _ _ _ _ _ Htr) as [new Hnew].
      eexists. eapply (L_own _ _ _ _ _ _ fail _ _ _ (L ++ new)); [exact IH|exact Ht| | |exact Hs|].
      * exists c. auto.
      * intros o Ho. eapply (Hn eq_refl). exact Ho.
      * rewrite Hre. unfold since. wcbn. rewrite Hnew, app_assoc. reflexivity.
Qed.
Lemma call_log_in e t op k st w0 w evs : call_log e t op k st w0 w evs -> in_call e t op k st w0 w.
Proof.
  intros H. induction H as [fail w new Ht Hs Hnew|t' fail w w' evs H IH Hn Hs|fail w w' stk new evs H IH Ht Ho Hn Hs Hnew].
  - eapply C_start; eauto.
  - eapply C_step; [exact IH| |exact Hs]. intros -> o Ho. eapply (Hn eq_refl); [exact Ho|]. exists [FRet o]. split; [reflexivity|].
    intros f Hf. apply elem_of_list_singleton in Hf. subst. reflexivity.
  - eapply C_step; [exact IH| |exact Hs]. intros _ o Ho'. eapply Hn. exact Ho'.
Qed.
Lemma call_log_ready e t op k st w0 w evs : call_log e t op k st w0 w evs -> w_thr w0 !! t = Some (FProg (Do op k) :: st).
Proof. induction 1; auto. Qed.

Lemma log_same w w' (new : list event) : w_log w' = w_log w -> w_log w' = new ++ w_log w -> new = [].
Proof. intros H1 H2. rewrite H1 in H2. apply (app_inv_tail _ [] new) in H2. auto. Qed.
Lemma log_one w w' ev (new : list event) : w_log w' = ev :: w_log w -> w_log w' = new ++ w_log w -> new = [ev].
Proof. intros H1 H2. rewrite H1 in H2. apply (app_inv_tail _ [ev] new) in H2. auto. Qed.

(** ** connection::disconnect, and the assignments and destructor of scoped connections *)
Definition scoped_frame (l : lid) (f : frame) : Prop :=
  (exists d m, f = FAssign d m l) \/ (exists d s, f = FAssignMv d s l) \/ f = FUnit l.
Section disc.
  Context (e : env) (ps : list prog) (t : tid) (v : vop) (k : out -> prog) (st : list frame) (w0 : world).
  Context (x : vars) (l : lid) (after : list frame) (Hv : exec_vop w0 t v = VDo x l after).
  Context (Hafter : after = [] \/ exists f, after = [f] /\ scoped_frame l f).
  Definition rem_ev (ev : event) : Prop := exists s, ev = ERemMiss t s l \/ exists l', ev = ERem t s l l'.
  Inductive disc_ph : list frame -> list event -> Prop :=
  | DP_disc : disc_ph (FDisc l :: after) []
  | DP_lock s : disc_ph (FLock s (KRem l) :: FRemRet l :: after) [EFlag l]
  | DP_write s : disc_ph (FWrite s (KRem l) :: FRemRet l :: after) [EFlag l]
  | DP_body s vv : disc_ph (FBody s vv (KRem l) :: FRemRet l :: after) [EFlag l]
  | DP_unlock s ev : rem_ev ev -> disc_ph (FUnlock s OutUnit :: FRemRet l :: after) [ev; EFlag l]
  | DP_rem ev : rem_ev ev -> disc_ph (FRet OutUnit :: FRemRet l :: after) [ev; EFlag l]
  | DP_ret b evs : disc_deed t l b evs -> disc_ph (FRet (OutBool b) :: after) evs
  | DP_scoped f b evs : after = [f] -> disc_deed t l b evs -> disc_ph [FRet OutUnit] (EScoped t l :: evs).
  Lemma disc_nc c evs f : disc_ph c evs -> f ∈ c -> client_frame f = false.
  Proof.
    intros Hp Hf. assert (Ha : f ∈ after -> client_frame f = false).
    { destruct Hafter as [->|(g & -> & Hg)]; [intros Hx; inversion Hx|]. intros Hx. apply elem_of_list_singleton in Hx. subst g.
      destruct Hg as [(d & m & ->)|[(d & s & ->)| ->]]; reflexivity. }
    destruct Hp; rewrite ?elem_of_cons in Hf; destruct_or?; subst; auto; inversion Hf.
  Qed.
  Lemma disc_start w' st' new : reachable e ps w0 -> trans e w0 t (FProg (Do (OVar v) k) :: st) w' st' -> w_log w' = new ++ w_log w0 ->
    exists b c, st' = b ++ c ++ FWait k :: st /\ disc_ph c new /\ (b = [] \/ exists p, b = [FProg p] /\ forall o, may_ret p o -> False) /\ deeds new = new.
  Proof.
    intros _ Htr Hnew. inversion Htr; subst; try congruence; try (match goal with H : can_oom _ |- _ => destruct H end); try (match goal with H : begins _ _ _ _ _ |- _ => inversion H end).
    - replace after0 with after in * by congruence. replace l0 with l in * by congruence.
      apply log_same in Hnew; [|reflexivity]. subst new. eexists [], (FDisc l :: after). split; [reflexivity|]. split; [constructor|]. auto.
    - replace after0 with after in * by congruence. replace l0 with l in * by congruence.
      apply log_one with (ev := EDisc t l false) in Hnew; [|reflexivity]. subst new. eexists [], (FRet (OutBool false) :: after). split; [reflexivity|]. split; [|auto].
      constructor. left. auto.
  Qed.
  Lemma disc_step w c evs w' st' new : reachable e ps w -> w_thr w !! t = Some (c ++ FWait k :: st) -> disc_ph c evs -> (forall o, c <> [FRet o]) ->
    trans e w t (c ++ FWait k :: st) w' st' -> w_log w' = new ++ w_log w ->
    exists b c', st' = b ++ c' ++ FWait k :: st /\ disc_ph c' (new ++ evs) /\ (b = [] \/ exists p, b = [FProg p] /\ forall o, may_ret p o -> False) /\ deeds new = new.
  Proof.
    intros Hr Ht Hph Hn Htr Hnew. inversion Hph; subst; cbn [app] in *.
    - inversion Htr; subst; eapply log_one in Hnew; try reflexivity; subst new.
      + eexists [], (FLock _ (KRem l) :: FRemRet l :: after). split; [reflexivity|]. split; [constructor|]. auto.
      + eexists [], (FRet (OutBool false) :: after). split; [reflexivity|]. split; [constructor; left; auto|]. auto.
    - inversion Htr; subst. eapply log_same in Hnew; [|reflexivity]. subst new.
      eexists [], (FWrite _ (KRem l) :: FRemRet l :: after). split; [reflexivity|]. split; [constructor|]. auto.
    - inversion Htr; subst; eapply log_same in Hnew; try reflexivity; subst new; try (exfalso; match goal with H : forall l0, KRem _ <> KRem l0 |- _ => eapply H; reflexivity end);
      eexists [], (FBody _ _ (KRem l) :: FRemRet l :: after); (split; [reflexivity|]); (split; [constructor|]); auto.
    - inversion Htr; subst; eapply log_one in Hnew; try (wcbn; autorewrite with wsimp; reflexivity); subst new;
      eexists [], (FUnlock _ OutUnit :: FRemRet l :: after); (split; [reflexivity|]); (split; [constructor; eexists; eauto|]); auto.
    - inversion Htr; subst. eapply log_same in Hnew; [|reflexivity]. subst new.
      eexists [], (FRet OutUnit :: FRemRet l :: after). split; [reflexivity|]. split; [constructor; auto|]. auto.
    - inversion Htr; subst. eapply log_one in Hnew; [|reflexivity]. subst new.
      eexists [], (FRet (OutBool true) :: after). split; [reflexivity|]. split; [|auto]. constructor. right. split; [auto|].
      match goal with H : rem_ev _ |- _ => destruct H as (s & Hs) end. eexists s, _. split; [reflexivity|]. auto.
    - destruct Hafter as [Ha|(f & Ha & Hf)]; rewrite Ha in *; [edestruct Hn; reflexivity|]. cbn [app] in *.
      assert (st' = FRet OutUnit :: FWait k :: st /\ w_log w' = EScoped t l :: w_log w) as [-> Hw].
      { destruct Hf as [(d & m & ->)|[(d & s & ->)| ->]]; inversion Htr; subst; auto. }
      eapply log_one in Hnew; [|exact Hw]. subst new. eexists [], [FRet OutUnit]. split; [reflexivity|]. split; [|auto]. econstructor; eauto.
    - edestruct Hn; reflexivity.
  Qed.
  Lemma disc_returns w o evs : reachable e ps w0 -> call_log e t (OVar v) k st w0 w evs -> returned t k st w o ->
    (after = [] /\ exists b, o = OutBool b /\ disc_deed t l b evs) \/
    (after <> [] /\ o = OutUnit /\ exists b evs', evs = EScoped t l :: evs' /\ disc_deed t l b evs').
  Proof.
    intros Hr Hc Ho.
    assert (Hp : disc_ph [FRet o] evs).
    { eapply (own_returned e ps t (OVar v) k st w0 disc_ph (fun _ _ _ => False)); eauto using disc_nc, disc_start, disc_step; [contradiction|intros ? ? ? ? ? ? ? ? ? ? H _; inversion H]. }
    inversion Hp; subst; [left|right].
    - split; [auto|]. eauto.
    - match goal with H : after = _ |- _ => rewrite H end. split; [discriminate|]. eauto.
  Qed.
End disc.
