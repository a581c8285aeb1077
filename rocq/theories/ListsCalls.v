(** * What a call does to lists *)
From Verif Require Export ListsProof WaitProof OpEmit.

Lemma emission_quiet e t eid m : emission_deeds e t eid m -> lhistory m = [].
Proof.
  induction 1 as [|pos l start flag evs _ IH [->| ->]|]; cbn; auto.
Qed.
Lemma disconnect_lists e ps t op k st w0 w o evs l : reachable e ps w0 -> call_log e t op k st w0 w evs -> returned t k st w o -> disconnects w0 op l ->
  (history evs = [ADisconnect l true] /\ exists s, lhistory evs = [LMiss s l] \/ exists l', lhistory evs = [LTake s l l']) \/
  (history evs = [ADisconnect l false] /\ lhistory evs = []).
Proof.
  intros Hr Hc Ho Hd.
  assert (Hdeed : forall b evs', disc_deed t l b evs' -> history evs = history evs' -> lhistory evs = lhistory evs' ->
    (history evs = [ADisconnect l true] /\ exists s, lhistory evs = [LMiss s l] \/ exists l', lhistory evs = [LTake s l l']) \/ (history evs = [ADisconnect l false] /\ lhistory evs = [])).
  { intros b evs' H -> ->. destruct H as [[-> ->]|[-> (s & x & -> & [->|[l' ->]])]]; [right; auto| |]; left; split; try reflexivity; exists s; [left|right; exists l']; reflexivity. }
  assert (Hs : forall d v, (v = VDestroyConn d \/ (exists s, v = VAssignCopy d s) \/ (exists s, v = VAssignMove d s)) -> op = OVar v ->
    (exists r, v_conns (w_vars w0) !! d = Some r /\ cn_live r = true /\ cn_scoped r = true /\ cn_slot r = Some l) ->
    exists b evs', disc_deed t l b evs' /\ history evs = history evs' /\ lhistory evs = lhistory evs').
  { intros d v Hv -> (r & H1 & H2 & H3 & H4). destruct (scoped_returns _ _ _ _ _ _ _ _ _ _ _ _ Hr H1 H2 H3 Hv Hc Ho) as [_ H]. rewrite H4 in H.
    destruct H as (b & evs' & -> & H). exists b, evs'. auto. }
  destruct op as [v| | | | | | | | | | | |]; try contradiction. destruct v; try contradiction; cbn in Hd.
  all: try (edestruct Hs as (b & evs' & H1 & H2 & H3); [|reflexivity|exact Hd|]; [eauto 6|eapply Hdeed; eassumption]).
  destruct Hd as (r & H1 & H2 & H3). pose proof (disconnect_returns _ _ _ _ _ _ _ _ _ _ _ Hr H1 H2 Hc Ho) as H. rewrite H3 in H. destruct H as (b & -> & H). eauto.
Qed.

Lemma us_removes w u x : get_us (w_vars w) u = Some x -> removes w (SrcSlot u) (im_c <$> us_impl x).
Proof.
  unfold get_us. intros H. destruct (v_us (w_vars w) !! u) as [r|] eqn:Hu; [|discriminate]. destruct (us_live r) eqn:Hl; [|discriminate].
  injection H as ->. exists x. auto.
Qed.
Section erase.
  Context (e : env) (ps : list prog) (t : tid) (s : sid) (src : csrc) (k : out -> prog) (st : list frame) (w0 : world).
  Notation arg f := (removes w0 src f).
  Inductive er_ph : list frame -> list event -> Prop :=
  | EP_lock f : arg f -> er_ph [FLock s (KErase f)] []
  | EP_write f : arg f -> er_ph [FWrite s (KErase f)] []
  | EP_body f v : arg f -> er_ph [FBody s v (KErase f)] []
  | EP_erase f v i n xs evs : arg f -> lhistory evs = [] -> er_ph [FErase s v f i n xs] evs
  | EP_cmp f v i n xs evs : arg f -> lhistory evs = [] -> er_ph [FEraseCmp s v f i n xs] evs
  | EP_got f v i n xs evs o : arg f -> lhistory evs = [] -> er_ph [FRet o; FEraseCmp s v f i n xs] evs
  | EP_unlock f xs ys o evs : arg f -> lhistory evs = [LErase s f xs ys o] -> er_ph [FUnlock s o] evs
  | EP_ret f xs ys o evs : arg f -> lhistory evs = [LErase s f xs ys o] -> er_ph [FRet o] evs
  | EP_oom : er_ph [FUnlock s oom] []
  | EP_noret : er_ph [FRet oom] [].
  Definition er_good (c : list frame) (evs : list event) (o : out) : Prop := exists v f i n xs, c = [FEraseCmp s v f i n xs].
  Lemma erase_own w o evs : reachable e ps w0 -> call_log e t (OErase s src) k st w0 w evs -> returned t k st w o -> er_ph [FRet o] evs.
  Proof.
    intros Hr Hc Ho. eapply (own_returned e ps t (OErase s src) k st w0 er_ph er_good); eauto.
    - intros c evs' f Hp Hf. destruct Hp; rewrite ?elem_of_cons, ?elem_of_nil in Hf; destruct_or?; subst; try reflexivity; contradiction.
    - intros w' st' new _ Htr Hnew. inversion Htr; subst.
      + apply log_same in Hnew; [|reflexivity]. subst. eexists [], [FRet oom]. split; [reflexivity|]. split; [constructor|]. auto.
      + apply log_same in Hnew; [|reflexivity]. subst. match goal with H : begins _ _ _ _ _ |- _ => inversion H; subst end.
        all: eexists [], [_]; split; [reflexivity|]; split; [constructor|auto]. 
        all: match goal with H : _ = src |- _ => rewrite <- H end; try (cbn; reflexivity); eapply us_removes; eassumption.
    - intros w1 c evs' w' st' new _ _ Hph Hn Htr Hnew. inversion Hph; subst; cbn [app] in *; try (edestruct Hn; reflexivity); inversion Htr; subst.
      all: try (eapply log_same in Hnew; [|reflexivity]); try (eapply log_one in Hnew; [|reflexivity]); subst.
      all: try (eexists [], [_]; split; [reflexivity|]; split; [econstructor; eauto; cbn; congruence|auto]; fail).
      all: try (eexists [FProg _], [_]; split; [reflexivity|]; split; [econstructor; eauto; cbn; congruence|]; split; [right; eexists; split; [reflexivity|intros; repeat eexists]|reflexivity]; fail).
      + eexists [], [_]. split; [reflexivity|]. split; [eapply EP_unlock; [eassumption|]|auto]. cbn [app]. rewrite lhistory_cons, H0. reflexivity.
      + apply log_one with (ev := EErased t s l) in Hnew; [|wcbn; rewrite dsp_log; reflexivity]. subst. eexists [], [_]. split; [reflexivity|]. split; [eapply EP_erase; [eassumption|exact H0]|auto].
      + eexists [], [_]. split; [reflexivity|]. split; [eapply EP_unlock; [eassumption|]|auto]. cbn [app]. rewrite lhistory_cons, H0. reflexivity.
    - intros c evs' o' (v & f & i & n & xs & ->) Hp. inversion Hp; subst. econstructor; eauto.
    - intros ? ? ? ? ? ? ? ? ? ? H _. inversion H.
  Qed.
End erase.

Lemma list_ops e ps t p k st w0 w o evs : reachable e ps w0 -> call_log e t p k st w0 w evs -> returned t k st w o -> op_sig p <> None ->
  lperforms w0 p o (lhistory evs).
Proof.
  intros Hr Hc Ho Hp. destruct p; try (exfalso; apply Hp; reflexivity).
  - destruct (move_returns _ _ _ _ _ _ _ _ _ _ Hr Hc Ho) as (s2 & -> & ->). exists s2. auto.
  - pose proof (connect_own _ _ _ _ _ _ _ _ _ _ _ _ Hr Hc Ho) as H. inversion H; subst; [right; eexists; eauto|left; eauto].
  - pose proof (erase_own _ _ _ _ _ _ _ _ _ _ _ Hr Hc Ho) as H. inversion H; subst; [left; eauto 6|right; auto].
  - destruct (emit_returns _ _ _ _ _ _ _ _ _ _ _ Hr Hc Ho) as (eid & xs & m & -> & Hm). exists xs.
    rewrite lhistory_cons, lhistory_app, (emission_quiet _ _ _ _ Hm). reflexivity.
Qed.

(** ** Every act is that of a call *)
Lemma lact_frame e w t stk w' stk' new ev a : trans e w t stk w' stk' -> w_log w' = new ++ w_log w -> ev ∈ new -> lact_of ev = Some a ->
  exists f b, (stk = f :: b \/ exists o, stk = FRet o :: f :: b) /\ upper f = false /\ (forall o, f <> FRet o) /\ (forall k, f <> FWait k) /\
    (forall w0 p, fits w0 p f -> lpart w0 p a) /\ ~ fits w (OSelfGet (RUser 0)) f.
Proof.
  intros Htr Hnew Hin Ha.
  destruct (trans_log _ _ _ _ _ _ Htr) as [He|[(ev1 & He)|(l0 & args & pin & eid & start & st0 & i0 & Hs & Hg & Hc & He)]].
  - rewrite He in Hnew. apply (app_inv_tail _ [] new) in Hnew. subst. inversion Hin.
  - rewrite He in Hnew. apply (app_inv_tail _ [ev1] new) in Hnew. subst. apply elem_of_list_singleton in Hin. subst ev1.
    destruct Htr; wcbn_in He; autorewrite with wsimp in He; try (exfalso; symmetry in He; exact (cons_ne _ _ He)); simplify_eq; cbn in Ha; simplify_eq; try discriminate.
    all: try (match goal with H : exec_vop _ _ _ = VOk _ _ (EfLog _) |- _ => destruct (vop_ev _ _ _ _ _ _ H) as [(? & -> & _)|[(? & -> & _)|[(? & -> & _)|[(? & -> & _)|(? & -> & _)]]]] end; discriminate).
    all: try (eexists _, _; split; [left; reflexivity|]; split; [reflexivity|]; split; [discriminate|]; split; [discriminate|]; split;
      [intros w0 p Hf; cbn in Hf |- *; naive_solver|cbn; naive_solver]; fail).
    all: try (eexists _, _; split; [right; eexists; reflexivity|]; split; [reflexivity|]; split; [discriminate|]; split; [discriminate|]; split;
      [intros w0 p Hf; cbn in Hf |- *; naive_solver|cbn; naive_solver]; fail).
  - rewrite He in Hnew. apply (app_inv_tail _ [_; _] new) in Hnew. subst new stk.
    apply elem_of_cons in Hin as [->|Hin]; [discriminate|]. apply elem_of_list_singleton in Hin. subst ev. discriminate.
Qed.
Lemma lists_belong e ps w t fail w' new ev a : reachable e ps w -> step e w t fail = SOk w' -> since w w' new -> ev ∈ new -> lact_of ev = Some a ->
  exists op k st w0 evs, reachable e ps w0 /\ call_log e t op k st w0 w' evs /\ ev ∈ evs /\ lpart w0 op a.
Proof.
  intros Hr Hs Hnew Hin Ha. destruct (step_trans _ _ _ _ _ Hs) as (stk & w1' & st1' & Ht & _).
  destruct (step_inv _ _ _ _ _ _ Hs Ht) as (w1 & st1 & D & L & Htr & _ & HD & HL & _ & _ & _ & _ & Hlog & Hthr).
  assert (Hde : ev ∈ deeds new) by (apply elem_of_list_filter; split; [destruct ev; try reflexivity; discriminate|auto]).
  destruct (trans_log_app _ _ _ _ _ _ Htr) as [n1 Hn1].
  assert (Hin1 : ev ∈ n1).
  { unfold since in Hnew. rewrite Hnew, Hn1, app_assoc in Hlog. apply app_inv_tail in Hlog. subst new. apply elem_of_app in Hin as [Hin|Hin]; [|auto].
    unfold deadish in HL. rewrite Forall_forall in HL. destruct (HL _ Hin) as [[l ->]|[o ->]]; discriminate. }
  destruct (lact_frame _ _ _ _ _ _ _ _ _ Htr Hn1 Hin1 Ha) as (f & st0 & Hstk & Hu & Hnr & Hnw & Hf & Hno).
  pose proof (stands_reach _ _ _ Hr _ _ Ht) as Hst. inversion Hst as [b Hsh Hfi Heq|b k st op w0 Hsh Hfi Hr0 Hn Hc Hst' Heq].
  { subst b. exfalso. rewrite Forall_forall in Hfi. apply Hno. apply Hfi. destruct Hstk as [->|[o ->]]; [apply elem_of_list_here|apply elem_of_list_further, elem_of_list_here]. }
  assert (Hb0 : exists b0, b = f :: b0 \/ exists o, b = FRet o :: f :: b0).
  { destruct Hstk as [->|[o ->]].
    - destruct b as [|g b0]; cbn in Heq; injection Heq as Hg Heq; [exfalso; eapply Hnw; eauto|subst; eauto].
    - destruct b as [|g [|g' b0]]; cbn in Heq; [discriminate|injection Heq as _ Hg _; exfalso; eapply Hnw; eauto|injection Heq as -> -> _; eauto]. }
  assert (Hlib : (forall g, g ∈ b -> client_frame g = false) /\ fits w0 op f /\ forall o, b <> [FRet o]).
  { destruct Hb0 as (b0 & [->|[o ->]]); cbn in Hsh; rewrite Hu in Hsh; inversion Hfi; subst.
    - split; [intros g Hg; rewrite Forall_forall in Hsh; apply Hsh; auto|]. split; [auto|]. intros o [= -> _]. eapply Hnr; eauto.
    - split; [|split; [|discriminate]]. 
      + intros g Hg. apply elem_of_cons in Hg as [->|Hg]; [reflexivity|]. rewrite Forall_forall in Hsh. apply Hsh. auto.
      + match goal with H : Forall _ (f :: b0) |- _ => exact (Forall_inv H) end. }
  destruct Hlib as (Hlib & Hff & Hnret).
  destruct (call_log_ex _ _ _ _ _ _ _ _ Hr0 Hn Hc) as [evs Hcl].
  exists op, k, st, w0, (deeds new ++ evs). split; [auto|]. split; [|split; [apply elem_of_app; auto|auto]].
  eapply L_own; [exact Hcl|exact Ht| | |exact Hs|exact Hnew].
  - exists b. split; [congruence|auto].
  - intros o Ho. unfold returned in Ho. rewrite Ht in Ho. injection Ho as Ho. rewrite <- Heq in Ho. apply (app_inv_tail _ b [FRet o]) in Ho. eapply Hnret; eauto.
Qed.
(** ** Real time *)
Lemma lhistory_sublist a b : sublist a b -> sublist (lhistory a) (lhistory b).
Proof. induction 1; rewrite ?lhistory_cons; [constructor|..]; destruct (lact_of x); auto; constructor; auto. Qed.
Lemma lreal_time e t1 op1 k1 st1 w1 w1' evs1 a1 sc t2 op2 k2 st2 w2 w2' evs2 a2 :
  call_log e t1 op1 k1 st1 w1 w1' evs1 -> run e w1' sc = inl w2 -> call_log e t2 op2 k2 st2 w2 w2' evs2 ->
  a1 ∈ lhistory evs1 -> a2 ∈ lhistory evs2 ->
  exists x y z, lhistory (w_log w2') = x ++ a2 :: y ++ a1 :: z ++ lhistory (w_log w1).
Proof.
  intros H1 Hsc H2 Ha1 Ha2. destruct (call_log_since _ _ _ _ _ _ _ _ H1) as (n1 & Hn1 & Hs1).
  destruct (call_log_since _ _ _ _ _ _ _ _ H2) as (n2 & Hn2 & Hs2). destruct (run_since _ _ _ _ Hsc) as (m & Hm).
  apply lhistory_sublist in Hs1, Hs2. apply (sublist_elem _ _ _ Hs1) in Ha1. apply (sublist_elem _ _ _ Hs2) in Ha2.
  apply elem_of_list_split in Ha1 as (z1 & z2 & E1). apply elem_of_list_split in Ha2 as (x1 & x2 & E2).
  unfold since in *. rewrite Hn2, Hm, Hn1, !lhistory_app, E1, E2. exists x1, (x2 ++ lhistory m ++ z1), z2.
  repeat (rewrite <- !app_assoc; cbn). reflexivity.
Qed.
