(** * Every act belongs to a call in progress *)
From Verif Require Import InvDeath InvFields InvObj InvCall Hist Facts.
From Verif Require Export AtomicProof.

(** What may stand above the continuation of a call of [p] that began in [w0]. *)
Definition fits (w0 : world) (p : op) (f : frame) : Prop :=
  match f with
  | FDisc l => disconnects w0 p l
  | FLock s c | FWrite s c | FBody s _ c =>
      match c with
      | KAdd i => exists src sc, p = OConnect s src sc /\ connects w0 src i
      | KRead _ => exists args, p = OEmit s args
      | KRem l => disconnects w0 p l
      | KErase _ => exists tgt, p = OErase s tgt
      | KMove => p = OMoveSignal s
      end
  | FUnlock s _ => op_sig p = Some s \/ exists l, disconnects w0 p l
  | FErase s _ _ _ _ _ | FEraseCmp s _ _ _ _ _ => exists tgt, p = OErase s tgt
  | FEmit _ _ _ _ | FSlot (RSlot _) _ _ _ _ _ => exists s args, p = OEmit s args
  | _ => True
  end.
Definition upper (f : frame) : bool := match f with FRet _ | FProg _ | FDtor _ => true | _ => false end.
Definition libf (f : frame) : Prop := client_frame f = false.
Fixpoint shape (b : list frame) : Prop :=
  match b with [] => True | f :: b' => if upper f then shape b' else Forall libf (f :: b') end.
Definition nw (f : frame) : Prop := forall k, f <> FWait k.
Lemma lib_shape b : Forall libf b -> shape b.
Proof. induction 1 as [|f b Hf Hb IH]; cbn; [auto|]. destruct (upper f); auto. Qed.
Lemma shape_nw b : shape b -> Forall nw b.
Proof.
  induction b as [|f b IH]; cbn; [constructor|]. intros H. destruct (upper f) eqn:Hu.
  - constructor; [intros k ->; discriminate|auto].
  - eapply Forall_impl; [exact H|]. intros g Hg k ->. discriminate.
Qed.
Lemma dtorish_shape D b : dtorish D -> shape b -> shape (D ++ b).
Proof. induction 1 as [|f D Hf HD IH]; cbn; [auto|]. intros Hb. destruct Hf as [[x ->]|[p ->]]; cbn; auto. Qed.
Lemma dtorish_fits w0 p D : dtorish D -> Forall (fits w0 p) D.
Proof. intros H. eapply Forall_impl; [exact H|]. intros f [[x ->]|[q ->]]; exact I. Qed.

Lemma get_conn_inv x c r : get_conn x c = Some r -> v_conns x !! c = Some r /\ cn_live r = true.
Proof. unfold get_conn. destruct (v_conns x !! c) as [r'|]; [|discriminate]. destruct (cn_live r') eqn:?; [|discriminate]. intros [= <-]. auto. Qed.
Lemma do_disconnects w t v x l after : exec_vop w t v = VDo x l after -> disconnects w (OVar v) l.
Proof.
  unfold exec_vop, disc_res. intros H. destruct v; try discriminate; repeat (dm H; try discriminate); simplify_eq; cbn;
    match goal with H : get_conn _ ?c = Some _ |- context [v_conns _ !! ?c] => apply get_conn_inv in H as [? ?]; eauto 10 end.
Qed.
Lemma after_lib w t v x l after w0 p : exec_vop w t v = VDo x l after -> Forall libf after /\ Forall (fits w0 p) after.
Proof.
  intros H. apply vop_after in H. split; (eapply Forall_impl; [exact H|]); intros [] Hx; cbn in Hx |- *; try contradiction; reflexivity || exact I.
Qed.
Lemma begins_fits w o s kk fr : begins w o s kk fr -> (forall pos, o <> ODeref pos) /\ Forall libf fr /\ Forall (fits w o) (FLock s kk :: fr).
Proof.
  intros H. destruct H; (split; [discriminate|]); (split; [repeat constructor|]); repeat constructor; cbn; eauto 10 using us_connects.
  eexists _, _. split; [reflexivity|]. cbn. auto.
Qed.

Lemma local e w t stk w' stk' : trans e w t stk w' stk' ->
  (exists o k st, stk = FRet o :: FWait k :: st /\ stk' = FProg (k o) :: st) \/
  (exists op k st Z, stk = FProg (Do op k) :: st /\ stk' = Z ++ FWait k :: st /\ (forall pos, op <> ODeref pos) /\ shape Z /\ Forall (fits w op) Z) \/
  (exists X Y r, stk = X ++ r /\ stk' = Y ++ r /\ X <> [] /\ Forall nw X /\ (forall b, shape (X ++ b) -> shape (Y ++ b)) /\
     (forall w0 p, Forall (fits w0 p) X -> Forall (fits w0 p) Y) /\ forall o k st, stk <> FRet o :: FWait k :: st).
Proof.
  destruct 1;
    try (right; left; eexists _, _, _, [_]; split; [reflexivity|]; split; [reflexivity|]; split; [try discriminate|]; split; [repeat constructor|]; repeat constructor; cbn; eauto; fail);
    try (right; left; eexists _, _, _, [_; _]; split; [reflexivity|]; split; [reflexivity|]; split; [try discriminate|]; split; [repeat constructor|]; repeat constructor; cbn; eauto; fail).
  all: try (right; right; eexists [_], [_], _; split; [reflexivity|]; split; [reflexivity|]; split; [discriminate|]; split; [repeat constructor; discriminate|];
    split; [intros b; cbn; rewrite ?Forall_cons; unfold libf at 1; cbn; try tauto; intuition auto using lib_shape|]; split; [intros w1 q; rewrite !Forall_singleton; cbn; auto|discriminate]; fail).
  all: try (right; right; eexists [_; _], [_], _; split; [reflexivity|]; split; [reflexivity|]; split; [discriminate|]; split; [repeat constructor; discriminate|];
    split; [intros b; cbn; rewrite ?Forall_cons; unfold libf at 1; cbn; try tauto; intuition auto using lib_shape|]; split; [intros w1 q; rewrite !Forall_cons; cbn; intuition auto|discriminate]; fail).
  all: try (right; right; eexists [_], [_; _], _; split; [reflexivity|]; split; [reflexivity|]; split; [discriminate|]; split; [repeat constructor; discriminate|];
    split; [intros b; cbn; rewrite ?Forall_cons; unfold libf; cbn; try tauto; intuition auto using lib_shape|]; split; [intros w1 q; rewrite !Forall_cons; cbn; intuition auto|discriminate]; fail).
  all: try (right; right; eexists [_], [_], _; split; [reflexivity|]; split; [reflexivity|]; split; [discriminate|]; split; [repeat constructor; discriminate|];
    split; [intros b; cbn; rewrite ?Forall_cons; unfold libf at 1; cbn; try tauto; intuition auto using lib_shape|]; split; [intros w1 q; rewrite !Forall_singleton; cbn; auto; match goal with k : crit |- _ => destruct k; cbn; auto; contradiction end|discriminate]; fail).
  all: try (right; right; eexists [_; _; _], [_; _], _; split; [reflexivity|]; split; [reflexivity|]; split; [discriminate|]; split; [repeat constructor; discriminate|];
    split; [intros b; cbn; rewrite ?Forall_cons; unfold libf; cbn; try tauto; intuition auto using lib_shape|]; split; [intros w1 q; rewrite !Forall_cons; cbn; intuition auto|discriminate]; fail).
  all: try (right; right; eexists [_; _], [_; _; _], _; split; [reflexivity|]; split; [reflexivity|]; split; [discriminate|]; split; [repeat constructor; discriminate|];
    split; [intros b; cbn; rewrite ?Forall_cons; unfold libf; cbn; try tauto; intuition auto using lib_shape|]; split; [intros w1 q; rewrite !Forall_cons; cbn; intuition auto|discriminate]; fail).
  all: try (right; right; eexists [_; _], [], _; split; [reflexivity|]; split; [reflexivity|]; split; [discriminate|]; split; [repeat constructor; discriminate|];
    split; [intros b; cbn; auto|]; split; [constructor|discriminate]; fail).
  all: try (left; eexists _, _, _; split; reflexivity).
  all: try (right; right; eexists [_], [_], _; split; [reflexivity|]; split; [reflexivity|]; split; [discriminate|]; split; [repeat constructor; discriminate|];
    split; [intros b; cbn; rewrite ?Forall_cons; unfold libf at 1; cbn; try tauto; intuition auto using lib_shape|];
    split; [intros w1 q; rewrite !Forall_singleton; cbn; repeat match goal with k : crit |- _ => destruct k end; cbn in *; try contradiction; naive_solver|discriminate]; fail).
  all: try (right; right; eexists [_; _], [_], _; split; [reflexivity|]; split; [reflexivity|]; split; [discriminate|]; split; [repeat constructor; discriminate|];
    split; [intros b; cbn; rewrite ?Forall_cons; unfold libf at 1; cbn; try tauto; intuition auto using lib_shape|]; split; [intros w1 q; rewrite !Forall_cons; cbn; naive_solver|discriminate]; fail).
  - right. right. exists [FProg (Ret o)], [FRet o], st. split; [reflexivity|]. split; [reflexivity|]. split; [discriminate|]. split; [repeat constructor; discriminate|].
    split; [intros b Hb; exact Hb|]. split; [intros w1 q _; repeat constructor|discriminate].
  - right. left. exists (OVar v), k, st, (FDisc l :: after). split; [reflexivity|]. split; [reflexivity|]. split; [discriminate|].
    destruct (after_lib _ _ _ _ _ _ w (OVar v) H) as [H1 H2]. split; [constructor; [reflexivity|auto]|]. constructor; [|auto]. eapply do_disconnects; eauto.
  - right. left. exists (OVar v), k, st, (FRet (OutBool false) :: after). split; [reflexivity|]. split; [reflexivity|]. split; [discriminate|].
    destruct (after_lib _ _ _ _ _ _ w (OVar v) H) as [H1 H2]. split; [apply lib_shape; constructor; [reflexivity|auto]|]. constructor; [exact I|auto].
  - right. left. exists o, k, st, [FRet oom]. split; [reflexivity|]. split; [reflexivity|]. split; [intros pos ->; contradiction|]. split; [exact I|]. repeat constructor.
  - right. left. exists o, k, st, (FLock s kk :: fr). split; [reflexivity|]. split; [reflexivity|]. destruct (begins_fits _ _ _ _ _ H) as (H1 & H2 & H3).
    split; [auto|]. split; [constructor; [reflexivity|auto]|auto].
  - right. right. eexists [_], [_; _], st. split; [reflexivity|]. split; [reflexivity|]. split; [discriminate|]. split; [repeat constructor; discriminate|].
    split; [intros b Hb; cbn in Hb |- *; apply Forall_cons in Hb as [_ Hb]; constructor; [reflexivity|auto]|].
    split; [|discriminate]. intros w1 q Hq. apply Forall_inv in Hq. destruct Hq as [a ->].
    apply Forall_cons. split; [exact I|]. apply Forall_singleton. cbn. eauto.
Qed.

(** The stack of a thread: for every call in progress, what stands above its continuation. *)
Inductive stands (e : env) (ps : list prog) (w : world) (t : tid) : list frame -> Prop :=
| St_bottom b : shape b -> Forall (fits w (OSelfGet (RUser 0))) b -> stands e ps w t b
| St_call b k st op w0 : shape b -> Forall (fits w0 op) b -> reachable e ps w0 -> (forall pos, op <> ODeref pos) ->
    in_call e t op k st w0 w -> stands e ps w t st -> stands e ps w t (b ++ FWait k :: st).
Lemma fits_bottom w w' f : fits w (OSelfGet (RUser 0)) f -> fits w' (OSelfGet (RUser 0)) f.
Proof. destruct f; cbn; auto; repeat case_match; auto; naive_solver. Qed.
Lemma nw_prefix X r b k (st : list frame) : Forall nw X -> X ++ r = b ++ FWait k :: st -> (exists b1, b = X ++ b1 /\ r = b1 ++ FWait k :: st).
Proof.
  intros HX. revert b. induction HX as [|f X Hf HX IH]; intros b H; [exists b; auto|].
  destruct b as [|g b]; cbn in H; injection H as -> H; [edestruct Hf; reflexivity|].
  destruct (IH _ H) as (b1 & -> & ->). exists b1. auto.
Qed.
Lemma stands_up e ps w t D s : dtorish D -> stands e ps w t s -> stands e ps w t (D ++ s).
Proof.
  intros HD H. destruct H as [b Hb Hf|b k st op w0 Hb Hf Hr Hn Hc Hs].
  - constructor; [apply dtorish_shape; auto|]. apply Forall_app. split; [apply dtorish_fits; auto|auto].
  - rewrite app_assoc. apply (St_call _ _ _ _ (D ++ b) k st op w0); auto; [apply dtorish_shape; auto|]. apply Forall_app. split; [apply dtorish_fits; auto|auto].
Qed.
(** Calls in progress below the top go on. *)
Lemma stands_on e ps w t t' fail w' s stk : step e w t' fail = SOk w' -> w_thr w !! t = Some stk -> length s <= length stk ->
  (t' = t -> forall o k st, stk = FRet o :: FWait k :: st -> length s <= length st) ->
  stands e ps w t s -> stands e ps w' t s.
Proof.
  intros Hs Ht Hl Hnr H. induction H as [b Hb Hf|b k st op w0 Hb Hf Hr Hn Hc H IH].
  - constructor; [auto|]. eapply Forall_impl; [exact Hf|]. intros f. apply fits_bottom.
  - rewrite app_length in *. cbn [length] in *. apply (St_call _ _ _ _ b k st op w0); auto.
    + eapply C_step; [exact Hc| |exact Hs]. intros -> o Ho. rewrite Ht in Ho. injection Ho as ->. specialize (Hnr eq_refl _ _ _ eq_refl). lia.
    + apply IH; [lia|]. intros He o k' st' Hst. specialize (Hnr He _ _ _ Hst). lia.
Qed.
Lemma stands_pop e ps w t f s : upper f = true -> stands e ps w t (f :: s) -> stands e ps w t s.
Proof.
  intros Hu H. inversion H as [b Hb Hf Heq|b k st op w0 Hb Hf Hr Hn Hc Hs Heq]; subst.
  - cbn in Hb. rewrite Hu in Hb. inversion Hf; subst. constructor; auto.
  - destruct b as [|g b]; cbn in Heq; injection Heq as Hg Heq; subst f s; [discriminate|]. cbn in Hb. rewrite Hu in Hb. inversion Hf; subst.
    apply (St_call _ _ _ _ b k st op w0); auto.
Qed.
Lemma stands_ret e ps w t o k st : stands e ps w t (FRet o :: FWait k :: st) -> stands e ps w t st.
Proof.
  intros H. apply stands_pop in H; [|reflexivity]. inversion H as [b Hb Hf Heq|b k' st' op w0 Hb Hf Hr Hn Hc Hs Heq]; subst.
  - apply shape_nw in Hb. inversion Hb; subst. edestruct H2; reflexivity.
  - destruct b as [|g b]; cbn in Heq; injection Heq as Hg Heq; [subst; auto|]. subst g. apply shape_nw in Hb. inversion Hb; subst. edestruct H2; reflexivity.
Qed.
Lemma stands_reach e ps w : reachable e ps w -> forall t stk, w_thr w !! t = Some stk -> stands e ps w t stk.
Proof.
  apply (reach_ind_step e ps (fun w => forall t stk, w_thr w !! t = Some stk -> stands e ps w t stk)).
  - intros t stk Ht. unfold init in Ht. cbn in Ht. rewrite list_lookup_fmap in Ht. destruct (ps !! t) as [p|]; [|discriminate]. injection Ht as <-.
    constructor; [exact I|repeat constructor].
  - clear w. intros w t' fail w' Hr IH Hs t stk' Ht'.
    destruct (decide (t' = t)) as [->|Hne].
    + destruct (w_thr w !! t) as [stk|] eqn:Ht.
      2:{ destruct (step_trans _ _ _ _ _ Hs) as (st & w1 & st1 & Ht1 & _). congruence. }
      specialize (IH _ _ Ht). destruct (step_inv _ _ _ _ _ _ Hs Ht) as (w1 & st1 & D & L & Htr & _ & HD & _ & _ & _ & _ & _ & _ & Hthr).
      rewrite Hthr, list_lookup_insert in Ht' by (eapply lookup_lt_Some; eauto). injection Ht' as <-. apply stands_up; [auto|].
      destruct (local _ _ _ _ _ _ Htr) as [(o & k & st & -> & ->)|[(op & k & st & Z & -> & -> & Hn & HZ & Hf)|(X & Y & r & -> & -> & HX & Hnw & Hsh & Hfi & Hno)]].
      * apply (stands_up _ _ _ _ [FProg (k o)]); [constructor; [right; eauto|constructor]|].
        eapply stands_on; [exact Hs|exact Ht|cbn; lia| |eapply stands_ret; eauto].
        intros _ o' k' st' Heq. injection Heq as _ _ <-. lia.
      * apply (St_call _ _ _ _ Z k st op w); auto; [eapply C_start; eauto|].
        eapply stands_on; [exact Hs|exact Ht|cbn; lia|discriminate|]. eapply stands_pop; [|exact IH]. reflexivity.
      * inversion IH as [b Hb Hf Heq|b k st op w0 Hb Hf Hr0 Hn Hc Hst Heq]; subst.
        -- constructor; [auto|]. apply Forall_app in Hf as [Hf1 Hf2]. apply Forall_app. split; [apply Hfi; eapply Forall_impl; [exact Hf1|]; intros f; apply fits_bottom|].
           eapply Forall_impl; [exact Hf2|]. intros f; apply fits_bottom.
        -- symmetry in Heq. destruct (nw_prefix _ _ _ _ _ Hnw Heq) as (b1 & -> & ->). rewrite app_assoc.
           apply Forall_app in Hf as [Hf1 Hf2].
           apply (St_call _ _ _ _ (Y ++ b1) k st op w0); auto; [apply Forall_app; auto| |].
           ++ eapply C_step; [exact Hc| |exact Hs]. intros _ o Ho. rewrite Ht in Ho. injection Ho as Ho. eapply Hno; eauto.
           ++ eapply stands_on; [exact Hs|exact Ht|rewrite !app_length; cbn; lia| |exact Hst]. intros _ o k' st' Ho. edestruct Hno; eauto.
    + assert (Ht : w_thr w !! t = Some stk').
      { destruct (step_trans _ _ _ _ _ Hs) as (st & w1 & st1 & Ht1 & _).
        destruct (step_inv _ _ _ _ _ _ Hs Ht1) as (w2 & st2 & D & L & Htr & _ & HD & _ & _ & _ & _ & _ & _ & Hthr).
        rewrite Hthr, list_lookup_insert_ne in Ht' by auto. exact Ht'. }
      eapply stands_on; [exact Hs|exact Ht|lia|intros He; contradiction|auto].
Qed.

(** ** The frames that act *)
Lemma get_blk_inv x c r : get_blk x c = Some r -> v_blks x !! c = Some r /\ bk_live r = true.
Proof. unfold get_blk. destruct (v_blks x !! c) as [r'|]; [|discriminate]. destruct (bk_live r') eqn:?; [|discriminate]. intros [= <-]. auto. Qed.
Lemma wlock_inv w m l : wlock w m = Some l -> m = Some l.
Proof. unfold wlock. repeat case_match; naive_solver. Qed.
Lemma blk_part w t v x o l b : exec_vop w t v = VOk x o (EfBlk l b) -> sets_block w v (Some l) b.
Proof.
  unfold exec_vop, disc_res, blk_eff. intros H. destruct v; try discriminate; repeat (dm H; try discriminate); simplify_eq; cbn;
    repeat match goal with
    | H : get_conn _ _ = Some _ |- _ => apply get_conn_inv in H as [? ?]
    | H : get_blk _ _ = Some _ |- _ => apply get_blk_inv in H as [? ?]
    | H : wlock _ _ = Some _ |- _ => apply wlock_inv in H
    end; eauto 10.
Qed.
Lemma log_part w t v x o ev a : exec_vop w t v = VOk x o (EfLog ev) -> act_of ev = Some a -> by_nobody a = false -> part_of w (OVar v) a.
Proof.
  unfold exec_vop, disc_res, blk_eff. intros H Ha Hb. destruct v; try discriminate; repeat (dm H; try discriminate); simplify_eq; cbn in Ha; simplify_eq; try discriminate; cbn;
    unfold looks_at, asks;
    repeat match goal with
    | H : get_conn _ _ = Some _ |- _ => apply get_conn_inv in H as [? ?]
    end; eauto 12.
Qed.
Lemma act_frame e w t stk w' stk' new ev a : trans e w t stk w' stk' -> w_log w' = new ++ w_log w -> ev ∈ new ->
  act_of ev = Some a -> by_nobody a = false ->
  (exists v k st, stk = FProg (Do (OVar v) k) :: st /\ part_of w (OVar v) a) \/
  (exists l b st, stk = FDisc l :: st /\ a = ADisconnect l b) \/
  (exists s v i n st l, stk = FBody s v (KAdd i) :: st /\ a = AConnect l (im_set_idx n i)) \/
  (exists l g args pin eid start st, stk = FSlot (RSlot l) g args pin eid start :: st /\ a = ADisconnect l true).
Proof.
  intros Htr Hnew Hin Ha Hb.
  destruct (trans_log _ _ _ _ _ _ Htr) as [He|[(ev1 & He)|(l0 & args & pin & eid & start & st0 & i0 & Hs & Hg & Hc & He)]].
  - rewrite He in Hnew. apply (app_inv_tail _ [] new) in Hnew. subst. inversion Hin.
  - rewrite He in Hnew. apply (app_inv_tail _ [ev1] new) in Hnew. subst. apply elem_of_list_singleton in Hin. subst ev1.
    destruct Htr; wcbn_in He; autorewrite with wsimp in He; try (exfalso; symmetry in He; exact (cons_ne _ _ He)); simplify_eq; cbn in Ha; simplify_eq; try discriminate.
    + left. eexists _, _, _. split; [reflexivity|]. exists v. split; [reflexivity|]. eapply blk_part; eauto.
    + left. eexists _, _, _. split; [reflexivity|]. eapply log_part; eauto.
    + left. eexists _, _, _. split; [reflexivity|]. eapply log_part; eauto.
    + left. eexists _, _, _. split; [reflexivity|]. left. eapply do_disconnects; eauto.
    + right. left. eauto.
    + right. left. eauto.
    + right. right. left. eexists _, _, _, _, _, _. eauto.
  - rewrite He in Hnew. apply (app_inv_tail _ [_; _] new) in Hnew. subst new stk. right. right. right.
    apply elem_of_cons in Hin as [->|Hin]; [discriminate|]. apply elem_of_list_singleton in Hin. subst ev. injection Ha as <-. eexists _, _, _, _, _, _, _. eauto.
Qed.

Lemma not_dead ev a : act_of ev = Some a -> by_nobody a = false -> is_death ev = false.
Proof. destruct ev; cbn; try discriminate; auto; intros [= <-]; discriminate. Qed.
Lemma acts_belong e ps w t fail w' new ev a : reachable e ps w -> step e w t fail = SOk w' -> since w w' new -> ev ∈ new ->
  act_of ev = Some a -> by_nobody a = false ->
  exists op k st w0 evs, reachable e ps w0 /\ call_log e t op k st w0 w' evs /\ ev ∈ evs /\ part_of w0 op a.
Proof.
  intros Hr Hs Hnew Hin Ha Hb. destruct (step_trans _ _ _ _ _ Hs) as (stk & w1' & st1' & Ht & _).
  destruct (step_inv _ _ _ _ _ _ Hs Ht) as (w1 & st1 & D & L & Htr & _ & HD & HL & _ & _ & _ & _ & Hlog & Hthr).
  assert (Hde : ev ∈ deeds new) by (apply elem_of_list_filter; split; [eapply not_dead; eauto|auto]).
  destruct (trans_log_app _ _ _ _ _ _ Htr) as [n1 Hn1].
  assert (Hin1 : ev ∈ n1).
  { unfold since in Hnew. rewrite Hnew, Hn1, app_assoc in Hlog. apply app_inv_tail in Hlog. subst new. apply elem_of_app in Hin as [Hin|Hin]; [|auto].
    unfold deadish in HL. rewrite Forall_forall in HL. destruct (HL _ Hin) as [[l ->]|[o ->]]; injection Ha as <-; discriminate. }
  assert (Hcall : forall f st0, stk = f :: st0 -> upper f = false -> (forall w0 p, fits w0 p f -> part_of w0 p a) -> ~ fits w (OSelfGet (RUser 0)) f ->
    exists op k st w0 evs, reachable e ps w0 /\ call_log e t op k st w0 w' evs /\ ev ∈ evs /\ part_of w0 op a).
  { intros f st0 -> Hu Hf Hno. pose proof (stands_reach _ _ _ Hr _ _ Ht) as Hst. inversion Hst as [b Hsh Hfi Heq|b k st op w0 Hsh Hfi Hr0 Hn Hc Hst' Heq].
    { subst b. inversion Hfi; subst. contradiction. }
    assert (Hb0 : exists b0, b = f :: b0).
    { destruct b as [|g b0]; cbn in Heq; injection Heq as Hg Heq; [|subst; eauto]. subst f. exfalso. apply Hno. exact I. }
    destruct Hb0 as [b0 ->]. cbn in Hsh. rewrite Hu in Hsh. inversion Hfi; subst.
    destruct (call_log_ex _ _ _ _ _ _ _ _ Hr0 Hn Hc) as [evs Hcl].
    exists op, k, st, w0, (deeds new ++ evs). split; [auto|]. split; [|split; [apply elem_of_app; auto|auto]].
    eapply L_own; [exact Hcl|exact Ht| |intros o Ho; unfold returned in Ho; rewrite Ht in Ho; injection Ho as ->; discriminate|exact Hs|exact Hnew].
    exists (f :: b0). split; [congruence|]. intros g Hg. rewrite Forall_forall in Hsh. apply Hsh. auto. }
  destruct (act_frame _ _ _ _ _ _ _ _ _ Htr Hn1 Hin1 Ha Hb) as [(v & k & st & -> & Hp)|[(l & b & st & -> & ->)|[(s & v & i & n & st & l & -> & ->)|(l & g & args & pin & eid & start & st & -> & ->)]]].
  - exists (OVar v), k, st, w, (deeds new). split; [auto|]. split; [eapply L_start; eauto|auto].
  - eapply Hcall; [reflexivity|reflexivity|intros w0 p Hf; left; exact Hf|intros []].
  - eapply Hcall; [reflexivity|reflexivity| |intros (? & ? & ? & _); discriminate].
    intros w0 p (src & sc & -> & Hc). exists s, src, sc. split; [auto|]. apply connects_idx. auto.
  - eapply Hcall; [reflexivity|reflexivity| |intros (? & ? & ?); discriminate]. intros w0 p Hf. right. split; [auto|]. exact Hf.
Qed.

Lemma one_call k st k' st' stk : own_step k st stk -> own_step k' st' stk -> k = k' /\ st = st'.
Proof.
  intros (c & -> & Hc) (c' & He & Hc'). revert c' He Hc'. induction c as [|f c IH]; intros c' He Hc'.
  - destruct c' as [|g c']; cbn in He; [injection He as -> ->; auto|]. injection He as He _. exfalso. subst g.
    assert (Hx := Hc' (FWait k) (elem_of_list_here _ _)). discriminate.
  - destruct c' as [|g c']; cbn in He.
    + injection He as He _. subst f. assert (Hx := Hc (FWait k') (elem_of_list_here _ _)). discriminate.
    + injection He as -> He. apply (IH (fun f Hf => Hc f (elem_of_list_further _ _ _ Hf)) c' He). intros x Hx. apply Hc'. apply elem_of_list_further. exact Hx.
Qed.
