(** * Induction over executions, weights of stacks *)
From Verif Require Export Trans Spec.

Global Arguments swap_pop : simpl never.
Global Arguments do_swap_pop : simpl never.
Global Arguments vec_of : simpl never.
Global Arguments clear_conn : simpl never.
Global Arguments exec_vop : simpl never.
Global Arguments get_sig : simpl never.
Global Arguments slot_alive : simpl never.
Global Arguments obj_alive : simpl never.
Global Arguments combiner : simpl never.
Global Arguments slot_eq : simpl never.
Global Arguments consume : simpl never.
Global Arguments use_count : simpl never.

(** ** Destructor frames and death events *)
Definition dtorish (D : list frame) : Prop :=
  Forall (fun f => (exists d, f = FDtor d) \/ exists p, f = FProg p) D.
Definition deadish (L : list event) : Prop :=
  Forall (fun ev => (exists l, ev = ESlotDead l) \/ (exists o, ev = EObjDead o)) L.

Definition mid (w : world) (t : tid) (st : list frame) : world := w_set_stack w t st.

Lemma dtorish_frames e w ds : dtorish (flat_map (dtor_frames e w) ds).
Proof.
  induction ds as [|d ds IH]; cbn; [constructor|].
  apply Forall_app; split; [|exact IH].
  unfold dtor_frames. destruct (dtor_prog e w d); [|constructor].
  apply Forall_cons; split; [eauto|]. apply Forall_cons; split; [eauto|]. constructor.
Qed.

Lemma deadish_events os ds : deadish (map EObjDead os ++ map ESlotDead ds).
Proof.
  apply Forall_app; split; apply Forall_forall; intros ev Hev.
  - apply elem_of_list_fmap in Hev as (x & -> & _); eauto.
  - apply elem_of_list_fmap in Hev as (x & -> & _); eauto.
Qed.

Lemma reap_spec e w w' t st' :
  exists D L, dtorish D /\ deadish L /\
    reap e w w' t st' = w_add_events (w_set_stack w' t (D ++ st')) L /\
    D = flat_map (dtor_frames e (mid w' t st')) (dead w (mid w' t st')) /\
    L = map EObjDead (dead_objs w (mid w' t st')) ++ map ESlotDead (dead_slots w (mid w' t st')).
Proof.
  eexists _, _. split; [apply dtorish_frames|]. split; [apply deadish_events|].
  split; [reflexivity|]. split; reflexivity.
Qed.

(** ** Reachability *)
Lemma run_app e w sc1 sc2 :
  run e w (sc1 ++ sc2) = match run e w sc1 with inl w' => run e w' sc2 | inr u => inr u end.
Proof.
  revert w; induction sc1 as [|[t f] sc1 IH]; intros w; cbn; [reflexivity|].
  destruct (step e w t f); auto.
Qed.

Lemma reachable_init e ps : reachable e ps (init ps).
Proof. exists []; reflexivity. Qed.

Lemma reachable_step e ps w t f w' :
  reachable e ps w -> step e w t f = SOk w' -> reachable e ps w'.
Proof.
  intros [sc H] Hs. exists (sc ++ [(t, f)]). rewrite run_app, H. cbn. rewrite Hs. reflexivity.
Qed.

Lemma step_trans e w t f w' :
  step e w t f = SOk w' ->
  exists st w1 st1, w_thr w !! t = Some st /\ trans e w t st w1 st1 /\ w' = reap e w w1 t st1 /\
    lstep e w t f st = LOk w1 st1.
Proof.
  unfold step. intros H. destruct (w_thr w !! t) as [st|] eqn:Ht; [|discriminate].
  destruct (lstep e w t f st) as [w1 st1| | |] eqn:Hl; try discriminate.
  simplify_eq. exists st, w1, st1. repeat split; auto. eapply lstep_trans; eauto.
Qed.

Lemma reach_ind_step e ps (I : world -> Prop) :
  I (init ps) ->
  (forall w t f w', reachable e ps w -> I w -> step e w t f = SOk w' -> I w') ->
  forall w, reachable e ps w -> I w.
Proof.
  intros H0 HS w [sc Hr]. revert w Hr.
  induction sc as [|[t f] sc IH] using rev_ind; intros w Hr; cbn in Hr.
  - simplify_eq. exact H0.
  - rewrite run_app in Hr. destruct (run e (init ps) sc) as [w0|u] eqn:H1; [|discriminate].
    assert (Hw0 : I w0) by auto.
    assert (Hre : reachable e ps w0) by (exists sc; auto).
    cbn in Hr. destruct (step e w0 t f) eqn:Hst; simplify_eq; auto.
    eapply HS; eauto.
Qed.

Lemma reach_ind e ps (I : world -> Prop) :
  I (init ps) ->
  (forall w t st w' st', reachable e ps w -> I w -> w_thr w !! t = Some st ->
      trans e w t st w' st' -> reachable e ps (reap e w w' t st') -> I (reap e w w' t st')) ->
  forall w, reachable e ps w -> I w.
Proof.
  intros H0 HS. apply reach_ind_step; [exact H0|].
  intros w t f w' Hr Hi Hs.
  destruct (step_trans _ _ _ _ _ Hs) as (st & w1 & st1 & Ht & Htr & -> & _).
  eapply HS; eauto. eapply reachable_step; eauto.
Qed.

(** The inductive step in two halves. *)
Lemma reach_ind2 e ps (I : world -> Prop) :
  I (init ps) ->
  (forall w t st w' st', reachable e ps w -> I w -> w_thr w !! t = Some st ->
      trans e w t st w' st' -> I (mid w' t st')) ->
  (forall w t st D L, I w -> w_thr w !! t = Some st -> dtorish D -> deadish L ->
      I (w_add_events (w_set_stack w t (D ++ st)) L)) ->
  forall w, reachable e ps w -> I w.
Proof.
  intros H0 HS HR. apply reach_ind; [exact H0|].
  intros w t st w' st' Hr Hi Ht Htr _.
  destruct (reap_spec e w w' t st') as (D & L & HD & HL & -> & _).
  assert (Hm : I (mid w' t st')) by eauto.
  assert (Hlt : t < length (w_thr w')).
  { replace (w_thr w') with (w_thr w).
    - eapply lookup_lt_Some; eauto.
    - destruct Htr; try reflexivity; unfold clear_conn, alter_ref, do_swap_pop;
        repeat case_match; reflexivity. }
  specialize (HR (mid w' t st') t st' D L Hm).
  cbn in HR. rewrite list_lookup_insert in HR by exact Hlt.
  specialize (HR eq_refl HD HL).
  replace (w_add_events (w_set_stack w' t (D ++ st')) L)
    with (w_add_events (w_set_stack (mid w' t st') t (D ++ st')) L); [exact HR|].
  unfold w_add_events, w_set_stack, mid, w_set_thr, w_set_stack, w_set_thr; cbn.
  rewrite list_insert_insert. reflexivity.
Qed.

Lemma trans_thr e w t st w' st' : trans e w t st w' st' -> w_thr w' = w_thr w.
Proof.
  intros H; destruct H; try reflexivity; unfold clear_conn, alter_ref, do_swap_pop;
    repeat case_match; reflexivity.
Qed.

(** ** Weights *)
Definition swt (f : frame -> nat) (st : list frame) : nat := sum_list_with f st.
Definition wt (f : frame -> nat) (thr : list (list frame)) : nat := sum_list_with (swt f) thr.

Lemma swt_app f a b : swt f (a ++ b) = swt f a + swt f b.
Proof. unfold swt. induction a as [|x a IH]; [reflexivity|]. simpl. lia. Qed.
Lemma swt_cons f x a : swt f (x :: a) = f x + swt f a.
Proof. reflexivity. Qed.
Lemma swt_dtorish f D : dtorish D -> (forall d, f (FDtor d) = 0) -> (forall p, f (FProg p) = 0) -> swt f D = 0.
Proof.
  intros HD Hd Hp. induction HD as [|x D [[d ->]|[p ->]] _ IH]; cbn; auto.
  - rewrite Hd. exact IH.
  - rewrite Hp. exact IH.
Qed.

Lemma wt_insert f thr t st st' :
  thr !! t = Some st -> wt f (<[t := st']> thr) + swt f st = wt f thr + swt f st'.
Proof.
  unfold wt. revert t; induction thr as [|x thr IH]; intros [|t] H; simpl in *; simplify_eq.
  - lia.
  - specialize (IH t H). lia.
Qed.

Lemma wt_ge f thr t st : thr !! t = Some st -> swt f st <= wt f thr.
Proof.
  unfold wt. revert t; induction thr as [|x thr IH]; intros [|t] H; simpl in *; simplify_eq.
  - lia.
  - specialize (IH t H). lia.
Qed.

Lemma wt_ge2 f thr t1 t2 st1 st2 : t1 <> t2 ->
  thr !! t1 = Some st1 -> thr !! t2 = Some st2 -> swt f st1 + swt f st2 <= wt f thr.
Proof.
  unfold wt. revert t1 t2; induction thr as [|x thr IH]; intros [|t1] [|t2] Hn H1 H2;
    simpl in *; simplify_eq; try lia.
  - pose proof (wt_ge f thr t2 st2 H2). unfold wt in *. lia.
  - pose proof (wt_ge f thr t1 st1 H1). unfold wt in *. lia.
  - assert (t1 <> t2) by congruence. specialize (IH t1 t2 H H1 H2). lia.
Qed.

Lemma wt_zero f thr : wt f thr = 0 <-> forall t st, thr !! t = Some st -> swt f st = 0.
Proof.
  split.
  - intros H t st Ht. pose proof (wt_ge f _ _ _ Ht). lia.
  - unfold wt. induction thr as [|x thr IH]; intros H; cbn; [reflexivity|].
    rewrite (H 0 x eq_refl), IH; [reflexivity|]. intros t st Ht. apply (H (S t) st Ht).
Qed.

Lemma swt_zero f st : swt f st = 0 <-> forall x, x ∈ st -> f x = 0.
Proof.
  split.
  - intros H x Hx. unfold swt in H. induction Hx; cbn in H; [lia|]. apply IHHx. lia.
  - intros H. induction st as [|y st IH]; cbn; [reflexivity|].
    rewrite (H y) by set_solver. apply IH. intros x Hx. apply H. set_solver.
Qed.

Lemma swt_elem f st x : x ∈ st -> f x <= swt f st.
Proof. unfold swt. induction 1; cbn; lia. Qed.

(** ** Lookups after a step *)
Lemma thr_upd (thr : list (list frame)) t st st' t' x :
  thr !! t = Some st -> <[t := st']> thr !! t' = Some x ->
  (t' = t /\ x = st') \/ (t' <> t /\ thr !! t' = Some x).
Proof.
  intros H H'. destruct (decide (t' = t)) as [->|Hn].
  - left. rewrite list_lookup_insert in H' by (eapply lookup_lt_Some; eauto). naive_solver.
  - right. rewrite list_lookup_insert_ne in H' by congruence. auto.
Qed.

Lemma alter_lookup {A} (f : A -> A) (l : list A) i j :
  alter f i l !! j = if decide (i = j) then f <$> l !! j else l !! j.
Proof.
  destruct (decide (i = j)) as [->|Hn].
  - apply list_lookup_alter.
  - apply list_lookup_alter_ne; auto.
Qed.

Lemma snoc_lookup {A} (l : list A) x j y :
  (l ++ [x]) !! j = Some y -> (l !! j = Some y /\ j < length l) \/ (j = length l /\ y = x).
Proof.
  intros H. apply lookup_app_Some in H as [H|[Hl H]].
  - left; split; auto. eapply lookup_lt_Some; eauto.
  - right. destruct (j - length l) eqn:E; cbn in H; simplify_eq.
    split; auto. lia.
Qed.

Lemma get_sig_Some w s r : get_sig w s = Some r <-> w_sigs w !! s = Some r /\ sg_alive r = true.
Proof.
  unfold get_sig. split.
  - intros H. destruct (w_sigs w !! s) as [r'|]; [|discriminate].
    destruct (sg_alive r') eqn:E; [|discriminate]. simplify_eq. auto.
  - intros [-> ->]. reflexivity.
Qed.

(** [do_swap_pop] touches one vector and one slot. *)
Lemma dsp_sigs w v i : w_sigs (do_swap_pop w v i) = w_sigs w.
Proof. unfold do_swap_pop. case_match; reflexivity. Qed.
Lemma dsp_vars w v i : w_vars (do_swap_pop w v i) = w_vars w.
Proof. unfold do_swap_pop. case_match; reflexivity. Qed.
Lemma dsp_log w v i : w_log (do_swap_pop w v i) = w_log w.
Proof. unfold do_swap_pop. case_match; reflexivity. Qed.
Lemma dsp_neid w v i : w_neid (do_swap_pop w v i) = w_neid w.
Proof. unfold do_swap_pop. case_match; reflexivity. Qed.
Lemma dsp_thr w v i : w_thr (do_swap_pop w v i) = w_thr w.
Proof. unfold do_swap_pop. case_match; reflexivity. Qed.
Lemma dsp_len_slots w v i : length (w_slots (do_swap_pop w v i)) = length (w_slots w).
Proof. unfold do_swap_pop. case_match; cbn; [apply alter_length|reflexivity]. Qed.
Lemma dsp_len_vecs w v i : length (w_vecs (do_swap_pop w v i)) = length (w_vecs w).
Proof. unfold do_swap_pop. case_match; cbn; [apply insert_length|reflexivity]. Qed.

Lemma aref_sigs w r f : w_sigs (alter_ref w r f) = w_sigs w.
Proof. destruct r; reflexivity. Qed.
Lemma aref_vecs w r f : w_vecs (alter_ref w r f) = w_vecs w.
Proof. destruct r; reflexivity. Qed.
Lemma aref_log w r f : w_log (alter_ref w r f) = w_log w.
Proof. destruct r; reflexivity. Qed.
Lemma aref_neid w r f : w_neid (alter_ref w r f) = w_neid w.
Proof. destruct r; reflexivity. Qed.
Lemma aref_thr w r f : w_thr (alter_ref w r f) = w_thr w.
Proof. destruct r; reflexivity. Qed.
Lemma aref_len_slots w r f : length (w_slots (alter_ref w r f)) = length (w_slots w).
Proof. destruct r; cbn; [apply alter_length|reflexivity]. Qed.

Lemma cc_sigs w r : w_sigs (clear_conn w r) = w_sigs w.
Proof. unfold clear_conn. repeat case_match; rewrite ?aref_sigs; cbn; rewrite ?aref_sigs; reflexivity. Qed.
Lemma cc_vecs w r : w_vecs (clear_conn w r) = w_vecs w.
Proof. unfold clear_conn. repeat case_match; rewrite ?aref_vecs; cbn; rewrite ?aref_vecs; reflexivity. Qed.
Lemma cc_neid w r : w_neid (clear_conn w r) = w_neid w.
Proof. unfold clear_conn. repeat case_match; rewrite ?aref_neid; cbn; rewrite ?aref_neid; reflexivity. Qed.
Lemma cc_thr w r : w_thr (clear_conn w r) = w_thr w.
Proof. unfold clear_conn. repeat case_match; rewrite ?aref_thr; cbn; rewrite ?aref_thr; reflexivity. Qed.
Lemma cc_slots w r : w_slots (clear_conn w r) = w_slots (alter_ref w r (im_set_conn false)).
Proof. unfold clear_conn. repeat case_match; reflexivity. Qed.
Lemma cc_vars w r : w_vars (clear_conn w r) = w_vars (alter_ref w r (im_set_conn false)).
Proof. unfold clear_conn. repeat case_match; reflexivity. Qed.

Global Hint Rewrite dsp_sigs dsp_vars dsp_log dsp_neid dsp_thr dsp_len_slots dsp_len_vecs
  aref_sigs aref_vecs aref_log aref_neid aref_thr aref_len_slots
  cc_sigs cc_vecs cc_neid cc_thr cc_slots cc_vars : wsimp.
