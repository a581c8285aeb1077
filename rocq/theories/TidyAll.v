(** * Tidy clients never meet undefined behaviour: every step *)
From Verif Require Import Reach InvSlot InvDeath InvRem InvUse InvFault InvSig InvOp.
From Verif Require Export TidyTrans.

Section tidy.
Context (e : env) (G : list thing) (caps : callable -> list thing) (ps : list prog).
Notation tidy := (tidy e G caps).
Notation owners := (thing -> option (tid * nat)).
Notation stk := (stk e G caps).
Notation fine := (fine e G caps).
Notation caps_ok := (caps_ok caps).
Notation world_ok := (world_ok G caps).
Notation J := (J e G caps ps).
Hypothesis Henv : tidy_env e G caps.

Definition stepped (O : owners) (w : world) (t : tid) (st : list frame) (w1 : world) (st1 : list frame) : Prop :=
  exists O' h, agree O O' w /\ kept O w w1 t h /\ fine O' w1 t st1 /\ world_ok O' w1 /\
    (forall s, signal_lives w s -> signal_lives w1 s \/ exists k r, st1 = FRet OutUnit :: FWait k :: r /\ O' (TOwn s) = Some (t, length r)) /\
    (forall r, w_slots w1 !! length (w_slots w) = Some r -> signal_lives w1 (sl_sig r)).

Section one.
Context (O : owners) (w w1 : world) (t : tid) (st st1 : list frame).
Hypothesis HJ : J O w.
Hypothesis Ht : w_thr w !! t = Some st.
Hypothesis Htr : trans e w t st w1 st1.
Hypothesis Hsl : same_slots w w1.

Lemma o_caps c : Forall (fun th => linear th = false) (caps c).
Proof. apply Henv. Qed.
Lemma o_there : sigs_there w.
Proof. eapply sigs_there_reach, (j_reach _ _ _ _ _ _ HJ). Qed.
Lemma o_vecs r : (forall f, f ∈ r -> f ∈ st) -> vecs_same w w1 r.
Proof. intros Hr s eid v a Hin. eapply emit_vec; [apply (j_reach _ _ _ _ _ _ HJ)|exact Ht|exact Htr|exact Ht|]. apply Hr. exact Hin. Qed.
Lemma o_fine : fine O w t st.
Proof. eapply j_thr; eauto. Qed.
Lemma o_world : world_ok O w.
Proof. apply (j_world _ _ _ _ _ _ HJ). Qed.

(** Steps that destroy nothing. *)
Section plain.
Context (O' : owners).
Hypothesis HA : agree O O' w.
Hypothesis Hsp : spares st.
Lemma p_kept h : kept O w w1 t h.
Proof. intros th Hl _. eapply trans_lives; eauto. Qed.
Lemma p_mono (r : list frame) : (forall f, f ∈ r -> f ∈ st) -> (forall b, stk O w t r b -> stk O' w1 t r b) /\ (fine O w t r -> fine O' w1 t r).
Proof.
  intros Hr. pose proof (mono e G caps O O' w w1 t t (length r) HA (p_kept _) Hsl o_there (fun k => trans_there _ _ _ _ _ _ k Htr)) as [H1 H2].
  split; [intros b Hb; apply H1; auto using o_vecs|intros Hb; apply H2; auto using o_vecs].
Qed.
Lemma p_usable p s : usable O w t p s -> usable O' w1 t p s.
Proof. eapply (usable_mono O O' w w1 t t p); [exact HA|apply p_kept|]. auto. Qed.
Lemma p_pinned p l : pinned O w t p l -> pinned O' w1 t p l.
Proof. eapply pinned_mono; eauto using o_there. Qed.
Lemma p_wf p own : wf O w t p own -> wf O' w1 t p own.
Proof. eapply (wf_mono O O' w w1 t t (S p)); [exact HA|apply p_kept|]. auto. Qed.
Lemma p_args args : args_ok O w args -> args_ok O' w1 args.
Proof. eapply (args_mono O O' w w1 t 0); [exact HA|apply p_kept]. Qed.
Lemma p_caps c : caps_ok O w c -> caps_ok O' w1 c.
Proof. eapply (caps_mono caps O O' w w1 t 0); [exact HA|apply p_kept]. Qed.
Lemma p_ref r p : ref_fine O w t r p -> ref_fine O' w1 t r p.
Proof. eapply (ref_mono O O' w w1 t t p); [exact HA|apply p_kept|]. auto. Qed.
Lemma p_accepts a o : accepts e O w t a o -> accepts e O' w1 t a o.
Proof.
  destruct a as [mk po h|h| | | | |]; cbn; auto.
  - intros [H1 H2]. split; [apply p_wf; exact H1|exact H2].
  - intros H l E. eapply slot_of_mono; eauto using o_there.
  - intros H r args E. eapply p_args; eauto.
Qed.
Lemma p_crit k b s p : usable O w t p s -> crit_ok caps O w t k b s -> crit_ok caps O' w1 t k b s.
Proof. eapply (crit_mono caps O O' w w1 t t p); [exact HA|apply p_kept|]. auto. Qed.
Lemma p_seated a r b : (forall f, f ∈ r -> f ∈ st) -> seated w a r b -> seated w1 a r b.
Proof. intros Hr. apply seated_mono. apply o_vecs. exact Hr. Qed.
(** What remains to be shown. *)
Lemma p_stepped : fine O' w1 t st1 ->
  (forall l r, length (w_slots w) <= l -> w_slots w1 !! l = Some r -> caps_ok O w (im_c (sl_impl r)) /\ signal_lives w1 (sl_sig r)) ->
  (forall u r i, v_us (w_vars w1) !! u = Some r -> us_impl r = Some i -> caps_ok O w (im_c i)) ->
  (forall c r l, v_conns (w_vars w1) !! c = Some r -> cn_slot r = Some l -> slot_of O' w1 (O' (TConn c)) l) ->
  (forall b r l, v_blks (w_vars w1) !! b = Some r -> bk_slot r = Some l -> slot_of O' w1 (O' (TBlk b)) l) ->
  stepped O w t st w1 st1.
Proof.
  intros Hf Hn Hu Hc Hb. exists O', 0. split; [exact HA|]. split; [apply p_kept|]. split; [exact Hf|]. split; [|split].
  - eapply (world_mono G caps O O' w w1 t 0 HA (p_kept 0) Hsl); eauto using o_world. intros l r Hl Hr. eapply Hn; eauto.
  - intros s Hs. left. exact (trans_lives _ _ _ _ _ _ (TOwn s) Htr Hsp Hs).
  - intros r Hr. eapply Hn; [|exact Hr]. lia.
Qed.
Lemma p_conn c r l : v_conns (w_vars w) !! c = Some r -> cn_slot r = Some l -> slot_of O' w1 (O' (TConn c)) l.
Proof.
  intros Hc Hl. rewrite (HA (TConn c)) by (exact (lookup_lt_Some _ _ _ Hc)).
  eapply slot_of_mono; [exact HA|exact Hsl|exact o_there|]. eapply (j_conns _ _ _ _ o_world); eauto.
Qed.
Lemma p_blk c r l : v_blks (w_vars w) !! c = Some r -> bk_slot r = Some l -> slot_of O' w1 (O' (TBlk c)) l.
Proof.
  intros Hc Hl. rewrite (HA (TBlk c)) by (exact (lookup_lt_Some _ _ _ Hc)).
  eapply slot_of_mono; [exact HA|exact Hsl|exact o_there|]. eapply (j_blks _ _ _ _ o_world); eauto.
Qed.
Lemma p_same : fine O' w1 t st1 -> length (w_slots w1) = length (w_slots w) -> w_vars w1 = w_vars w -> stepped O w t st w1 st1.
Proof.
  intros Hf Hlen Hv. apply p_stepped; [exact Hf| | | |].
  - intros l r Hl Hr. apply lookup_lt_Some in Hr. lia.
  - rewrite Hv. exact (j_us _ _ _ _ o_world).
  - rewrite Hv. exact p_conn.
  - rewrite Hv. exact p_blk.
Qed.
End plain.
Lemma agree_refl : agree O O w.
Proof. intros k _. reflexivity. Qed.
End one.

Ltac facts HJ Ht Htr Hsl Hsp O w HA :=
  pose proof (fun r H => proj1 (p_mono O w _ _ _ _ HJ Ht Htr Hsl _ HA Hsp r H)) as MS;
  pose proof (fun r H => proj2 (p_mono O w _ _ _ _ HJ Ht Htr Hsl _ HA Hsp r H)) as MF;
  pose proof (p_usable O w _ _ _ _ Htr _ HA Hsp) as MU;
  match type of Ht with _ !! ?t0 = _ => pose proof (p_pinned O w _ t0 HJ Hsl _ HA) as MP end;
  pose proof (p_wf O w _ _ _ _ Htr _ HA Hsp) as MW;
  pose proof (p_args O w _ _ _ _ Htr _ HA Hsp) as MA;
  pose proof (p_caps O w _ _ _ _ Htr _ HA Hsp) as MC;
  pose proof (p_ref O w _ _ _ _ Htr _ HA Hsp) as MR;
  pose proof (p_accepts O w _ _ _ _ HJ Htr Hsl _ HA Hsp) as MO;
  pose proof (p_crit O w _ _ _ _ Htr _ HA Hsp) as MK;
  pose proof (fun a r b H => p_seated O w _ _ _ _ HJ Ht Htr a r b H) as MT.
Ltac sub := let f := fresh in let H := fresh in intros f H; repeat (first [exact H | apply elem_of_list_further]).
Ltac same HJ Htr Hsl Hsp O w HA :=
  apply (p_same O w _ _ _ _ HJ Htr Hsl _ HA Hsp);
  [|wcbn; autorewrite with wsimp; rewrite ?alter_length; try reflexivity|wcbn; autorewrite with wsimp; try reflexivity].
Ltac noth := let th := fresh in let H := fresh in intros th H; inversion H.
Ltac nop := let o := fresh in intros o; apply nothing_possible; destruct o as [|[]| | | | | | |]; reflexivity.
(** The code that runs and what it calls. *)
Tactic Notation "op" ident(Hf) ident(b) ident(a) ident(own) ident(Hst) ident(Hse) ident(Hwf) ident(keep) ident(Hok) ident(Hk) := let Hti := fresh in
  inversion Hf as [|? ? b a own Hst Hse Hwf Hti| | | | | | |]; subst; inversion Hti as [|keep ? ? Hok Hk]; subst; clear Hti.

Lemma open_new_nil (O : owners) (w1 : world) t k st a b own keep o : (forall r, possible keep own o r -> tidy a (gained keep own o r ++ left own o) (k r)) -> left own o = own ->
  stk O w1 t st b -> seated w1 a st b -> wf O w1 t (length st) own -> stk O w1 t (FWait k :: st) (ANew (gained keep own o) (possible keep own o) (length st)).
Proof. intros H4 E H1 H2 H3. rewrite E in H4. econstructor; eauto. Qed.

Lemma shared_or_own (O : owners) (w : world) t h own s p : world_ok O w -> wf O w t h own -> knows G own (TSig s) -> h < p ->
  usable O w t p s /\ (O (TOwn s) = None \/ O (TOwn s) = Some (t, h)).
Proof.
  intros Hwo Hwf Hk Hp. destruct (knows_lives _ _ _ _ _ _ _ _ Hwo Hwf Hk) as [Hl Ho]. split; [|exact Ho]. split; [exact Hl|].
  destruct Ho as [Ho|Ho]; [left; exact Ho|right; eauto].
Qed.
Lemma args_lent (O : owners) (w : world) t h own args : world_ok O w -> wf O w t h own -> Forall (lends G own) (locs args) -> args_ok O w args.
Proof.
  intros Hwo Hwf Hf th Hth. rewrite Forall_forall in Hf. eapply lends_ok; eauto.
  unfold locs in Hth. apply elem_of_list_omap in Hth as ([z|x] & _ & E); [discriminate|]. injection E as <-. reflexivity.
Qed.
Lemma caps_lent (O : owners) (w : world) t h own c : world_ok O w -> wf O w t h own -> Forall (lends G own) (caps c) -> caps_ok O w c.
Proof.
  intros Hwo Hwf Hf th Hth. rewrite Forall_forall in Hf. eapply lends_ok; eauto. pose proof (o_caps c) as H. rewrite Forall_forall in H. auto.
Qed.


Lemma v_stepped (O : owners) w w1 t st own v keep x a k b st1 : J O w -> w_thr w !! t = Some (FProg (Do (OVar v) k) :: st) ->
  trans e w t (FProg (Do (OVar v) k) :: st) w1 st1 -> same_slots w w1 ->
  stk O w t st b -> seated w a st b -> wf O w t (length st) own -> vop_ok G caps own v ->
  (forall r, possible keep own (OVar v) r -> tidy a (gained keep own (OVar v) r ++ left own (OVar v)) (k r)) ->
  vars_after (exec_vop w t v) = Some x -> w_vars w1 = x -> w_sigs w1 = w_sigs w -> length (w_slots w1) = length (w_slots w) ->
  fine (give O w (Some (t, length st))) w1 t st1 -> stepped O w t (FProg (Do (OVar v) k) :: st) w1 st1.
Proof.
  intros HJ Ht Htr Hsl Hst Hse Hwf Hok Hk Hx Hv1 Hs1 Hln Hf.
  assert (Hvec : vecs_same w w1 st) by (eapply o_vecs; eauto; sub). pose proof (o_there O w HJ) as HT. pose proof (o_world O w HJ) as Hwo. pose proof o_caps as Hcaps.
  exists (give O w (Some (t, length st))), (length st). split; [apply give_agree|]. split; [eapply vc_kept; eauto|]. split; [exact Hf|]. split; [eapply vc_world; eauto|]. split.
  - intros s Hs. left. unfold signal_lives. rewrite Hs1. exact Hs.
  - intros r Hr. apply lookup_lt_Some in Hr. lia.
Qed.
Lemma ref_stepped (O : owners) w w1 t st st1 r f : J O w -> trans e w t st w1 st1 -> same_slots w w1 -> spares st ->
  (forall i, im_c (f i) = im_c i) -> w_vars w1 = w_vars (alter_ref w r f) -> length (w_slots w1) = length (w_slots w) -> fine O w1 t st1 -> stepped O w t st w1 st1.
Proof.
  intros HJ Htr Hsl Hsp Hfc Hv Hlen Hf. apply (p_stepped O w _ _ _ _ HJ Htr Hsl O (agree_refl O w) Hsp); [exact Hf| | | |].
  - intros l r0 Hl Hr. apply lookup_lt_Some in Hr. lia.
  - rewrite Hv. destruct r as [l|u]; [exact (j_us _ _ _ _ (o_world O w HJ))|]. cbn. intros u0 r0 i. rewrite alter_lookup. case_decide as E.
    + subst u0. destruct (v_us (w_vars w) !! u) as [x|] eqn:Eu; [|discriminate]. intros [= <-] Hi. cbn in Hi. destruct (us_impl x) as [i0|] eqn:Ei; [|discriminate]. injection Hi as <-. rewrite Hfc.
      exact (j_us _ _ _ _ (o_world O w HJ) u x i0 Eu Ei).
    + exact (j_us _ _ _ _ (o_world O w HJ) u0 r0 i).
  - replace (v_conns (w_vars w1)) with (v_conns (w_vars w)) by (rewrite Hv; destruct r; reflexivity). exact (p_conn O w w1 HJ Hsl O (agree_refl O w)).
  - replace (v_blks (w_vars w1)) with (v_blks (w_vars w)) by (rewrite Hv; destruct r; reflexivity). exact (p_blk O w w1 HJ Hsl O (agree_refl O w)).
Qed.
Lemma caps_ref O w r i : J O w -> get_ref w r = Some i -> caps_ok O w (im_c i).
Proof.
  intros HJ Hr. pose proof (o_world O w HJ) as Hwo. destruct r as [l|u]; cbn in Hr.
  - destruct (w_slots w !! l) as [r|] eqn:El; [|discriminate]. injection Hr as <-. exact (j_slots _ _ _ _ Hwo l r El).
  - unfold get_us in Hr. destruct (v_us (w_vars w) !! u) as [x|] eqn:Eu; [|discriminate]. destruct (us_live x); [|discriminate]. exact (j_us _ _ _ _ Hwo u x i Eu Hr).
Qed.
Lemma trans_stepped O w w1 t st st1 : J O w -> w_thr w !! t = Some st -> trans e w t st w1 st1 -> same_slots w w1 -> stepped O w t st w1 st1.
Proof.
  intros HJ Ht Htr Hsl. pose proof (o_fine O w t st HJ Ht) as Hf. pose proof (o_world O w HJ) as Hwo. pose proof (o_there O w HJ) as HT.
  pose proof (agree_refl O w) as HA. pose proof o_caps as Hcaps.
  pose proof Htr as Htr0. destruct Htr0.
  Ltac start HJ Ht Htr Hsl O w HA := match type of Htr with trans _ _ _ ?st _ _ => assert (Hsp : spares st) by exact I; facts HJ Ht Htr Hsl Hsp O w HA; same HJ Htr Hsl Hsp O w HA end.
  - (* ret *) inversion Hf as [|p0 st0 b a own Hst Hse Hwf Hti| | | | | | |]; subst. inversion Hti; subst.
    start HJ Ht Htr Hsl O w HA. econstructor; [exact Hst|]. eapply accepts_return; eauto.
  - (* vok *) op Hf b a own Hst Hse Hwf keep Hok Hk. assert (Hvec : vecs_same w (w_set_vars w x) st) by (eapply o_vecs; eauto; sub).
    assert (Hx : vars_after (exec_vop w t v) = Some x) by (rewrite H; reflexivity).
    eapply v_stepped; eauto. eapply F_ret'; [eapply (vc_wait e G caps O w _ t st own v keep x a k b); eauto|split; [eapply (vc_gained O w _ t st own v keep x); eauto|eapply (vc_possible O w t st own v keep x); eauto]].
  - (* vblk *) op Hf b0 a own Hst Hse Hwf keep Hok Hk. assert (Hvec : vecs_same w (w_add_log (w_alter_slot (w_set_vars w x) l (im_set_blk b)) (EBlk l b)) st) by (eapply o_vecs; eauto; sub).
    assert (Hx : vars_after (exec_vop w t v) = Some x) by (rewrite H; reflexivity).
    assert (Hln : length (w_slots (w_add_log (w_alter_slot (w_set_vars w x) l (im_set_blk b)) (EBlk l b))) = length (w_slots w)) by (wcbn; rewrite alter_length; reflexivity).
    eapply v_stepped; eauto.
    eapply F_ret'; [eapply S_tmp; [eapply (vc_wait e G caps O w _ t st own v keep x a k b0); eauto|]|split; [eapply (vc_gained O w _ t st own v keep x); eauto|eapply (vc_possible O w t st own v keep x); eauto]].
    eapply vc_K_pinned; [exact Hln|]. exact (vc_eff G caps O w _ t st own v keep x Hwo HT Hwf Hok Hsl Hln _ _ H).
  - (* vlog *) op Hf b a own Hst Hse Hwf keep Hok Hk. assert (Hvec : vecs_same w (w_add_log (w_set_vars w x) ev) st) by (eapply o_vecs; eauto; sub).
    assert (Hx : vars_after (exec_vop w t v) = Some x) by (rewrite H; reflexivity).
    eapply v_stepped; eauto. eapply F_ret'; [eapply (vc_wait e G caps O w _ t st own v keep x a k b); eauto|split; [eapply (vc_gained O w _ t st own v keep x); eauto|eapply (vc_possible O w t st own v keep x); eauto]].
  - (* vheld *) op Hf b a own Hst Hse Hwf keep Hok Hk. assert (Hvec : vecs_same w (w_add_log (w_set_vars w x) ev) st) by (eapply o_vecs; eauto; sub).
    assert (Hx : vars_after (exec_vop w t v) = Some x) by (rewrite H; reflexivity).
    assert (Hln : length (w_slots (w_add_log (w_set_vars w x) ev)) = length (w_slots w)) by reflexivity.
    eapply v_stepped; eauto.
    eapply F_ret'; [eapply S_tmp; [eapply (vc_wait e G caps O w _ t st own v keep x a k b); eauto|]|split; [eapply (vc_gained O w _ t st own v keep x); eauto|eapply (vc_possible O w t st own v keep x); eauto]].
    eapply vc_K_pinned; [exact Hln|]. exact (vc_eff G caps O w _ t st own v keep x Hwo HT Hwf Hok Hsl Hln _ _ H l H0).
  - (* vdo *) op Hf b a own Hst Hse Hwf keep Hok Hk. assert (Hvec : vecs_same w (w_set_vars w x) st) by (eapply o_vecs; eauto; sub).
    assert (Hx : vars_after (exec_vop w t v) = Some x) by (rewrite H; reflexivity).
    eapply v_stepped; eauto.
    destruct (vc_after e G caps O w (w_set_vars w x) t st own v keep x a k b Hwo HT Hst Hse Hwf Hok Hk Hx eq_refl eq_refl Hsl eq_refl Hvec l after H) as [Hp (b' & Hb' & Ho')].
    eapply F_disc; eauto.
  - (* vdead *) op Hf b a own Hst Hse Hwf keep Hok Hk. assert (Hvec : vecs_same w (w_add_log (w_set_vars w x) (EDisc t l false)) st) by (eapply o_vecs; eauto; sub).
    assert (Hx : vars_after (exec_vop w t v) = Some x) by (rewrite H; reflexivity).
    eapply v_stepped; eauto.
    destruct (vc_after e G caps O w (w_add_log (w_set_vars w x) (EDisc t l false)) t st own v keep x a k b Hwo HT Hst Hse Hwf Hok Hk Hx eq_refl eq_refl Hsl eq_refl Hvec l after H) as [Hp (b' & Hb' & Ho')].
    eapply F_ret'; [exact Hb'|]. apply open_accepts. exact Ho'.
  - (* oom *) assert (Hsp : spares (FProg (Do o k) :: st)) by (destruct o; try contradiction; exact I).
    facts HJ Ht Htr Hsl Hsp O w HA. op Hf b a own Hst Hse Hwf keep Hok Hk. same HJ Htr Hsl Hsp O w HA.
    econstructor.
    + eapply open_new_nil; [exact Hk| |apply MS; [sub|exact Hst]|apply MT; [sub|exact Hse]|apply MW; exact Hwf]. destruct o; try contradiction; reflexivity.
    + split; [|exact I]. cbn. intros th Hth. destruct o; try contradiction; inversion Hth.
  - (* new *) op Hf b a own Hst Hse Hwf keep Hok Hk. pose proof (give_agree O w (if keep then Some (t, length st) else None)) as HG.
    start HJ Ht Htr Hsl O w HG. econstructor; [eapply open_new_nil; [exact Hk|reflexivity|apply MS; [sub|exact Hst]|apply MT; [sub|exact Hse]|apply MW; exact Hwf]|].
    assert (Hg : give O w (if keep then Some (t, length st) else None) (TOwn (length (w_sigs w))) = if keep then Some (t, length st) else None) by (rewrite give_new; [reflexivity|cbn; lia]).
    assert (Hlv : signal_lives (w_add_log (w_set_sigs (w_set_vecs w (w_vecs w ++ [[]])) (w_sigs w ++ [SigRec true None (Some (length (w_vecs w))) false c])) (ENewSig (length (w_sigs w)) c)) (length (w_sigs w))).
    { eexists. wcbn. split; [apply list_lookup_middle; reflexivity|reflexivity]. }
    split; [cbn; destruct keep; intros th Hth; apply elem_of_list_singleton in Hth as ->; (split; [exact Hlv|exact Hg])|].
    cbn. intros th Hth _ Hin. apply elem_of_list_fmap in Hin as (th' & E & Hin). destruct (Hwf _ Hin) as [Hl' _]. apply lives_there in Hl'. rewrite <- E in Hl'. destruct keep; apply elem_of_list_singleton in Hth as ->; cbn in Hl'; lia.
  - (* destroy *) op Hf b a own Hst Hse Hwf keep Hok Hk. cbn in Hok. destruct (has_owned _ _ _ _ _ _ Hwf Hok eq_refl eq_refl) as [_ Ho].
    set (w1 := w_add_log (w_alter_sig w s (sg_set_alive false)) (EDestroySig s)) in *.
    assert (HL : forall s0, s0 <> s -> signal_lives w s0 -> signal_lives w1 s0).
    { intros s0 Hn (r0 & Hr0 & Ha). exists r0. unfold w1. wcbn. rewrite list_lookup_alter_ne by auto. auto. }
    assert (HK : kept O w w1 t (length st)).
    { intros th Hl Hn. apply lives_iff in Hl as [Hl Hs]. apply lives_iff. split; [exact Hl|]. intros s0 Hs0. apply HL; [|apply Hs; exact Hs0]. intros ->. apply Hn. destruct Hs0 as [->| ->]; exact Ho. }
    assert (HTh : forall k0, there w k0 -> there w1 k0) by (intros k0; eapply trans_there; eauto).
    assert (Hvec : vecs_same w w1 st) by (eapply o_vecs; eauto; sub).
    exists O, (length st). split; [exact HA|]. split; [exact HK|]. split; [|split; [|split]].
    + eapply F_ret'; [econstructor; [eapply (proj1 (mono e G caps O O w w1 t t (length st) HA HK Hsl HT HTh)); eauto|eapply seated_mono; eauto| |exact Hk]|].
      * cbn. intros th Hth. apply without_elem in Hth as [Hth Hne]. destruct (Hwf th Hth) as [Hl Hth']. split; [|exact Hth'].
        apply lives_iff in Hl as [Hl Hs]. apply lives_iff. split; [exact Hl|]. intros s0 Hs0. apply HL; [|apply Hs; exact Hs0]. intros ->. destruct Hs0 as [->| ->]; [|contradiction]. cbn in Hth'. congruence.
      * split; [cbn; noth|exact I].
    + eapply (world_mono G caps O O w w1 t (length st) HA HK Hsl); [exact Hwo| |exact (j_us _ _ _ _ Hwo)|exact (p_conn O w w1 HJ Hsl O HA)|exact (p_blk O w w1 HJ Hsl O HA)].
      intros l r0 Hl Hr. apply lookup_lt_Some in Hr. unfold w1 in Hr. wcbn_in Hr. lia.
    + intros s0 Hs0. destruct (decide (s0 = s)) as [->|Hn]; [|left; auto]. right. eauto.
    + intros r0 Hr. apply lookup_lt_Some in Hr. unfold w1 in Hr. wcbn_in Hr. lia.
  - (* begin *) assert (Hsp : spares (FProg (Do o k) :: st)) by (match goal with H : begins _ _ _ _ _ |- _ => destruct H; exact I end).
    facts HJ Ht Htr Hsl Hsp O w HA. op Hf b a own Hst Hse Hwf keep Hok Hk. same HJ Htr Hsl Hsp O w HA.
    assert (HW : left own o = own -> stk O w t (FWait k :: st) (ANew (gained keep own o) (possible keep own o) (length st))).
    { intros E. eapply open_new_nil; [exact Hk|exact E|apply MS; [sub|exact Hst]|apply MT; [sub|exact Hse]|apply MW; exact Hwf]. }
    match goal with H : begins _ _ _ _ _ |- _ => rename H into Hb end.
    destruct Hb; cbn in Hok; [contradiction| | | | |]; cbn [app]; specialize (HW eq_refl).
    + destruct Hok as [Hs Hc]. destruct (shared_or_own _ _ _ _ _ _ (S (S (length st))) Hwo Hwf Hs) as [Hu Ho]; [lia|].
      eapply F_lock; [eapply S_mkconn; [exact HW| | |]|exact Hu|].
      * reflexivity.
      * intros n Hn. cbn. intros th Hth _ Hin. apply elem_of_list_singleton in Hth as ->. apply elem_of_list_fmap in Hin as (th' & E & Hin). apply Hn. cbn in E. rewrite E. apply lives_there. apply (MW _ _ Hwf). exact Hin.
      * intros o Ho'. apply nothing_possible. destruct o as [|[]| | | | | | |]; try reflexivity. exfalso. eapply Ho'. reflexivity.
      * cbn. split; [eauto|]. eapply caps_lent; eauto.
    + destruct Hok as [Hs Hc]. destruct (shared_or_own _ _ _ _ _ _ (S (S (length st))) Hwo Hwf Hs) as [Hu Ho]; [lia|].
      eapply F_lock; [eapply S_mkconn; [exact HW| | |]|exact Hu|].
      * reflexivity.
      * intros n Hn. cbn. intros th Hth _ Hin. apply elem_of_list_singleton in Hth as ->. apply elem_of_list_fmap in Hin as (th' & E & Hin). apply Hn. cbn in E. rewrite E. apply lives_there. apply (MW _ _ Hwf). exact Hin.
      * intros o Ho'. apply nothing_possible. destruct o as [|[]| | | | | | |]; try reflexivity. exfalso. eapply Ho'. reflexivity.
      * cbn. split; [eauto|]. apply (caps_ref O w (RUser u) i HJ). cbn. match goal with H : get_us _ _ = Some _ |- _ => rewrite H end. reflexivity.
    + destruct (shared_or_own _ _ _ _ _ _ (S (length st)) Hwo Hwf Hok) as [Hu Ho]; [lia|].
      eapply F_lock; [exact HW|exact Hu|]. cbn. nop.
    + destruct Hok as [Hs _]. destruct (shared_or_own _ _ _ _ _ _ (S (length st)) Hwo Hwf Hs) as [Hu Ho]; [lia|].
      eapply F_lock; [exact HW|exact Hu|]. cbn. nop.
    + destruct Hok as [Hs Ha]. destruct (shared_or_own _ _ _ _ _ _ (S (length st)) Hwo Hwf Hs) as [Hu Ho]; [lia|].
      eapply F_lock; [exact HW|exact Hu|]. cbn. split; [|eapply args_lent; eauto]. nop.
  - (* emit blocked *) op Hf b a own Hst Hse Hwf keep Hok Hk. start HJ Ht Htr Hsl O w HA.
    econstructor; [eapply open_new_nil; [exact Hk|reflexivity|apply MS; [sub|exact Hst]|apply MT; [sub|exact Hse]|apply MW; exact Hwf]|]. split; [cbn; noth|exact I].
  - (* slotcall *) op Hf b a own Hst Hse Hwf keep Hok Hk. start HJ Ht Htr Hsl O w HA.
    destruct Hok as [Hu Ha]. destruct (knows_lives _ _ _ _ _ _ _ _ Hwo Hwf Hu) as [Hl Ho]. eapply F_slot.
    + eapply S_callret; [eapply open_new_nil; [exact Hk|reflexivity|apply MS; [sub|exact Hst]|apply MT; [sub|exact Hse]|apply MW; exact Hwf]|].
      nop.
    + split; [exact Hl|]. destruct Ho as [Ho|Ho]; [left; exact Ho|]. right. exists (length st). split; [cbn; lia|exact Ho].
    + eapply args_lent; eauto.
  - (* sloteq *) op Hf b0 a0 own Hst Hse Hwf keep Hok Hk. start HJ Ht Htr Hsl O w HA.
    eapply (F_prog _ _ _ _ _ _ _ _ _ Equality []); [eapply open_new_nil; [exact Hk|reflexivity|apply MS; [sub|exact Hst]|apply MT; [sub|exact Hse]|apply MW; exact Hwf]| | |apply tidy_eq; exact Henv].
    + right. nop.
    + noth.
  - (* selfget *) op Hf b a own Hst Hse Hwf keep Hok Hk. start HJ Ht Htr Hsl O w HA.
    econstructor; [eapply open_new_nil; [exact Hk|reflexivity|apply MS; [sub|exact Hst]|apply MT; [sub|exact Hse]|apply MW; exact Hwf]|]. split; [cbn; noth|exact I].
  - (* selfset *) op Hf b a own Hst Hse Hwf keep Hok Hk. assert (Hsp : spares (FProg (Do (OSelfSet r z) k) :: st)) by exact I. facts HJ Ht Htr Hsl Hsp O w HA.
    eapply (ref_stepped O w _ t _ _ r (im_set_st z)); eauto; [destruct r; cbn; rewrite ?alter_length; reflexivity|].
    econstructor; [eapply open_new_nil; [exact Hk|reflexivity|apply MS; [sub|exact Hst]|apply MT; [sub|exact Hse]|apply MW; exact Hwf]|]. split; [cbn; noth|exact I].
  - (* deref *) op Hf b a own Hst Hse Hwf keep Hok Hk. start HJ Ht Htr Hsl O w HA.
    destruct Hok as (n & -> & Hn). inversion Hst as [| | | | | | | | | | |s0 eid0 v0 args0 st0 b0 Hst0 Hb0 Hu Ha| |]; subst. eapply F_slot.
    + destruct Hse as [_ (s1 & eid1 & v1 & args1 & st1 & [= <- <- <- <- <-] & Hnn)]. eapply (S_deref _ _ _ _ _ _ _ _ _ _ _ _ _ _ n own); [exact Hst|exact Hnn|exact Hwf|].
      intros r. assert (Hg : gained keep own (ODeref pos) r = []) by (destruct r as [|[]| | | | | | |]; reflexivity). specialize (Hk r (proj2 (nothing_possible _ _ _ _ Hg))). rewrite Hg in Hk. exact Hk.
    + exact I.
    + exact Ha.
  - (* skip *) inversion Hf as [| | | | | | | |? ? ? ? ? ? ? Hst Hr Ha]; subst. start HJ Ht Htr Hsl O w HA.
    econstructor; [apply MS; [sub|exact Hst]|]. cbn. intros r0 args0 [= <- <-]. apply MA. exact Ha.
  - (* dead *) inversion Hf as [| | | | | | | |? ? ? ? ? ? ? Hst Hr Ha]; subst. assert (Hsp : spares (FSlot r SDead args pin eid start :: st)) by exact I. facts HJ Ht Htr Hsl Hsp O w HA.
    eapply (ref_stepped O w _ t _ _ r (im_set_conn false)); eauto.
    + unfold clear_conn. destruct r; [|reflexivity]. destruct (get_ref w (RSlot l)) as [i0|]; [|reflexivity]. destruct (im_conn i0); reflexivity.
    + unfold clear_conn. destruct r; [|reflexivity]. destruct (get_ref w (RSlot l)) as [i0|]; [|wcbn; apply alter_length]. destruct (im_conn i0); wcbn; apply alter_length.
    + econstructor; [apply MS; [sub|exact Hst]|]. cbn. intros r0 args0 [= <- <-]. apply MA. exact Ha.
  - (* adv *) inversion Hf as [| | | | | | | |? ? ? ? ? ? ? Hst Hr Ha]; subst. start HJ Ht Htr Hsl O w HA. econstructor; eauto.
  - (* call *) inversion Hf as [| | | | | | | |? ? ? ? ? ? ? Hst Hr Ha]; subst. start HJ Ht Htr Hsl O w HA.
    assert (Ha1 : args_ok O (w_add_log w (ECall t r eid (im_c i) args start)) args) by (apply MA; exact Ha).
    eapply (F_prog _ _ _ _ _ _ _ _ _ (Body r) (caps (im_c i) ++ locs args)).
    + eapply S_slot; [apply MS; [sub|exact Hst]|apply MR; exact Hr|]. unfold args_ok. rewrite locs_consume. exact Ha1.
    + cbn. split; [reflexivity|]. eauto 10.
    + intros th Hth. apply elem_of_app in Hth as [Hth|Hth].
      * destruct (MC _ (caps_ref O w r i HJ ltac:(assumption)) th Hth) as [H1 H2]. pose proof (o_caps (im_c i)) as H3. rewrite Forall_forall in H3. rewrite (H3 th Hth). auto.
      * destruct (Ha1 th Hth) as [H1 H2]. unfold locs in Hth. apply elem_of_list_omap in Hth as ([z|x] & _ & E); [discriminate|]. injection E as <-. auto.
    + destruct Henv as (_ & Hb & _). apply Hb.
  - (* disc *) inversion Hf as [| |? ? b Hst Hop Hp| | | | | |]; subst. start HJ Ht Htr Hsl O w HA.
    assert (Hal : slot_alive w l = true) by (apply slot_alive_iff; right; do 3 eexists; split; [exact Ht|]; split; [apply elem_of_list_here|]; cbn; rewrite bool_decide_true by reflexivity; reflexivity).
    destruct Hp as (r0 & Hr0 & Hbe). simplify_eq. pose proof (j_alive _ _ _ _ _ _ HJ l r Hal ltac:(assumption)) as Hlv.
    eapply F_lock; [eapply S_remret; [apply MS; [sub|exact Hst]|exact Hop|apply MP; exists r; auto]| |exact I].
    apply MU. split; [exact Hlv|]. destruct Hbe as [Hbe|(h & Hh & Hbe)]; [left; exact Hbe|right; exists h; cbn; auto].
  - (* disc false *) inversion Hf as [| |? ? b Hst Hop Hp| | | | | |]; subst. start HJ Ht Htr Hsl O w HA.
    econstructor; [apply MS; [sub|exact Hst]|apply open_accepts; exact Hop].
  - (* lock *) inversion Hf as [| | |? ? ? b Hst Hu Hc| | | | |]; subst. start HJ Ht Htr Hsl O w HA.
    econstructor; [apply MS; [sub|exact Hst]|apply MU; exact Hu|eapply MK; eauto].
  - (* move *) inversion Hf as [| | | |? ? ? b Hst Hu Hc| | | |]; subst. contradiction.
  - (* read *) inversion Hf as [| | | |? ? ? b Hst Hu Hc| | | |]; subst. destruct Hc as [Hop Ha]. start HJ Ht Htr Hsl O w HA.
    eapply (F_prog _ _ _ _ _ _ _ _ _ (Combiner (length (vec_of w v))) []); [eapply S_emit; [apply MS; [sub|exact Hst]|exact Hop|apply MU; exact Hu|apply MA; exact Ha]| | |apply tidy_combiner; exact Henv].
    + cbn. split; [exact I|]. do 5 eexists. split; reflexivity.
    + noth.
  - (* write oom *) inversion Hf as [| | | |? ? ? b Hst Hu Hc| | | |]; subst. start HJ Ht Htr Hsl O w HA.
    econstructor; [exact Hst|exact Hu|]. destruct k; cbn in Hc; try contradiction.
    + destruct Hc as [(h & -> & _) _]. cbn. discriminate.
    + apply open_accepts. exact Hc.
    + apply open_accepts. exact Hc.
  - (* detach *) inversion Hf as [| | | |? ? ? b Hst Hu Hc| | | |]; subst. start HJ Ht Htr Hsl O w HA.
    econstructor; [apply MS; [sub|exact Hst]|apply MU; exact Hu|eapply MK; eauto].
  - (* nodetach *) inversion Hf as [| | | |? ? ? b Hst Hu Hc| | | |]; subst. start HJ Ht Htr Hsl O w HA.
    econstructor; eauto.
  - (* add oom *) inversion Hf as [| | | | |? ? ? ? b Hst Hu Hc| | |]; subst. start HJ Ht Htr Hsl O w HA.
    econstructor; [exact Hst|exact Hu|]. destruct Hc as [(h & -> & _) _]. cbn. discriminate.
  - (* add *) inversion Hf as [| | | | |? ? ? ? b Hst Hu Hc| | |]; subst. assert (Hsp : spares (FBody s v (KAdd i) :: st)) by exact I. facts HJ Ht Htr Hsl Hsp O w HA.
    destruct Hc as [(h & -> & Ho) Hc]. apply (p_stepped O w _ _ _ _ HJ Htr Hsl O HA Hsp).
    + econstructor; [apply MS; [sub|exact Hst]|apply MU; exact Hu|]. cbn. intros l [= <-]. eexists. split; [wcbn; apply list_lookup_middle; reflexivity|exact Ho].
    + wcbn. intros l r Hl Hr. rewrite lookup_app_r in Hr by exact Hl. apply list_lookup_singleton_Some in Hr as [_ <-]. split; [exact Hc|]. apply MU in Hu as [Hu _]. exact Hu.
    + exact (j_us _ _ _ _ Hwo).
    + apply (p_conn O w _ HJ Hsl O HA).
    + apply (p_blk O w _ HJ Hsl O HA).
  - (* rem *) inversion Hf as [| | | | |? ? ? ? b Hst Hu Hc| | |]; subst. start HJ Ht Htr Hsl O w HA.
    econstructor; [apply MS; [sub|exact Hst]|apply MU; exact Hu|]. apply open_accepts. exact Hc.
  - (* remmiss *) inversion Hf as [| | | | |? ? ? ? b Hst Hu Hc| | |]; subst. start HJ Ht Htr Hsl O w HA.
    econstructor; [apply MS; [sub|exact Hst]|apply MU; exact Hu|]. apply open_accepts. exact Hc.
  - (* erase *) inversion Hf as [| | | | |? ? ? ? b Hst Hu Hc| | |]; subst. start HJ Ht Htr Hsl O w HA. econstructor; eauto.
  - (* unlock *) inversion Hf as [| | | | | |? ? ? b Hst Hu Hc| |]; subst. start HJ Ht Htr Hsl O w HA.
    econstructor; [apply MS; [sub|exact Hst]|apply MO; exact Hc].
  - (* erase end *) inversion Hf as [| | | | | | |? ? ? ? ? ? ? b Hst Hop Hu|]; subst. start HJ Ht Htr Hsl O w HA.
    econstructor; [apply MS; [sub|exact Hst]|apply MU; exact Hu|]. apply open_accepts. exact Hop.
  - (* erase cmp *) inversion Hf as [| | | | | | |? ? ? ? ? ? ? b Hst Hop Hu|]; subst. start HJ Ht Htr Hsl O w HA.
    eapply (F_prog _ _ _ _ _ _ _ _ _ Equality []); [eapply S_erasecmp; eauto|left; reflexivity|noth|apply tidy_eq; exact Henv].
  - (* wait *) inversion Hf as [? ? ? Hst Hacc| | | | | | | |]; subst. inversion Hst as [|? ? a b1 own mk po Hst0 Hse Hwf Hk| | | | | | | | | | | |]; subst.
    start HJ Ht Htr Hsl O w HA. destruct Hacc as [Hacc Hpo]. eapply F_prog; [exact Hst0|exact Hse| |apply Hk; exact Hpo]. intros th Hth. apply elem_of_app in Hth as [Hth|Hth]; [apply Hacc; exact Hth|apply Hwf; exact Hth].
  - (* deref ret *) inversion Hf as [? ? ? Hst Hacc| | | | | | | |]; subst. inversion Hst as [| |? ? ? ? ? ? ? ? n own Hst0 Hn Hwf Hk| | | | | | | | | | |]; subst.
    inversion Hst0 as [| | | | | | | | | | |? ? ? ? ? b Hst1 Hop Hu Ha| |]; subst. start HJ Ht Htr Hsl O w HA.
    econstructor; [eapply S_emit; [apply MS; [sub|exact Hst1]|exact Hop|apply MU; exact Hu|apply MA; eapply Hacc; reflexivity]| |apply (MW (S (length st)) own); exact Hwf|apply Hk].
    cbn. split; [exact I|]. do 5 eexists. split; reflexivity.
  - (* dtor *) inversion Hf as [? ? ? Hst Hacc| | | | | | | |]; subst. inversion Hst; subst. start HJ Ht Htr Hsl O w HA. assumption.
  - (* mkconn *) inversion Hf as [? ? ? Hst Hacc| | | | | | | |]; subst. inversion Hst as [| | | |? ? mk po h Hst0 Hm Hpo Hm'| | | | | | | | |]; subst.
    pose proof (give_agree O w (Some (t, h))) as HG. assert (Hsp : spares (FRet (OutId l) :: FMkConn sc :: st)) by exact I. facts HJ Ht Htr Hsl Hsp O w HG.
    assert (Hg : give O w (Some (t, h)) (TConn (length (v_conns (w_vars w)))) = Some (t, h)) by (rewrite give_new; [reflexivity|cbn; lia]).
    apply (p_stepped O w _ _ _ _ HJ Htr Hsl _ HG Hsp).
    + econstructor; [apply MS; [sub|exact Hst0]|]. split; [|apply Hpo; cbn; lia]. rewrite Hm. intros th Hth. apply elem_of_list_singleton in Hth as ->. split; [|exact Hg].
      eexists. wcbn. split; [apply list_lookup_middle; reflexivity|reflexivity].
    + wcbn. intros l0 r0 Hl Hr. apply lookup_lt_Some in Hr. lia.
    + exact (j_us _ _ _ _ Hwo).
    + wcbn. intros c r0 l0 Hc Hl. apply lookup_app_Some in Hc as [Hc|[Hge Hc]]; [exact (p_conn O w _ HJ Hsl _ HG c r0 l0 Hc Hl)|].
      apply list_lookup_singleton_Some in Hc as [Hz <-]. cbn in Hl. injection Hl as <-. replace c with (length (v_conns (w_vars w))) by lia. rewrite Hg.
      eapply slot_of_mono; [exact HG|exact Hsl|exact HT|]. apply Hacc. reflexivity.
    + exact (p_blk O w _ HJ Hsl _ HG).
  - (* mkconn no *) inversion Hf as [? ? ? Hst Hacc| | | | | | | |]; subst. inversion Hst as [| | | |? ? mk po h Hst0 Hm Hpo Hm'| | | | | | | | |]; subst.
    start HJ Ht Htr Hsl O w HA. econstructor; [exact Hst0|]. cbn. destruct (Hm' o) as [-> Hpo']; [assumption|]. split; [noth|exact Hpo'].
  - (* assign *) inversion Hf as [? ? ? Hst Hacc| | | | | | | |]; subst. inversion Hst as [| | | | |? ? ? ? mk po h Hst0 Hm Hth Ho Hlm| | | | | | | |]; subst.
    assert (Hsp : spares (FRet o :: FAssign d m l :: st)) by exact I. facts HJ Ht Htr Hsl Hsp O w HA. apply (p_stepped O w _ _ _ _ HJ Htr Hsl _ HA Hsp).
    + econstructor; [apply MS; [sub|exact Hst0]|]. cbn. destruct (Hm OutUnit) as [-> Hpo']. split; [noth|exact Hpo'].
    + wcbn. intros l0 r0 Hl Hr. apply lookup_lt_Some in Hr. lia.
    + exact (j_us _ _ _ _ Hwo).
    + wcbn. intros c r0 l0 Hc Hl. cbn in Hc; rewrite alter_lookup in Hc. case_decide as E; [|exact (p_conn O w _ HJ Hsl _ HA c r0 l0 Hc Hl)].
      subst c. destruct (v_conns (w_vars w) !! d); [|discriminate]. injection Hc as <-. cbn in Hl. rewrite Ho.
      eapply slot_of_mono; [exact HA|exact Hsl|exact HT|]. apply Hlm. exact Hl.
    + exact (p_blk O w _ HJ Hsl _ HA).
  - (* assignmv self *) inversion Hf as [? ? ? Hst Hacc| | | | | | | |]; subst. inversion Hst as [| | | | | |? ? ? ? mk po h Hst0 Hm Hth Hth' Ho Ho'| | | | | | |]; subst.
    start HJ Ht Htr Hsl O w HA. econstructor; [apply MS; [sub|exact Hst0]|]. cbn. destruct (Hm OutUnit) as [-> Hpo']. split; [noth|exact Hpo'].
  - (* assignmv *) inversion Hf as [? ? ? Hst Hacc| | | | | | | |]; subst. inversion Hst as [| | | | | |? ? ? ? mk po h Hst0 Hm Hth Hth' Ho Ho'| | | | | | |]; subst.
    assert (Hsp : spares (FRet o :: FAssignMv d s l :: st)) by exact I. facts HJ Ht Htr Hsl Hsp O w HA. apply (p_stepped O w _ _ _ _ HJ Htr Hsl _ HA Hsp).
    + econstructor; [apply MS; [sub|exact Hst0]|]. cbn. destruct (Hm OutUnit) as [-> Hpo']. split; [noth|exact Hpo'].
    + wcbn. intros l0 r0 Hl Hr. apply lookup_lt_Some in Hr. lia.
    + exact (j_us _ _ _ _ Hwo).
    + wcbn. intros c r0 l0 Hc Hl. cbn in Hc; rewrite !alter_lookup in Hc. case_decide as E.
      * subst c. case_decide; [congruence|]. destruct (v_conns (w_vars w) !! d); [|discriminate]. injection Hc as <-. cbn in Hl.
        pose proof (p_conn O w _ HJ Hsl _ HA s r l0 ltac:(assumption) Hl) as Hp. rewrite Ho' in Hp. rewrite Ho. exact Hp.
      * case_decide as E2; [|exact (p_conn O w _ HJ Hsl _ HA c r0 l0 Hc Hl)]. subst c. destruct (v_conns (w_vars w) !! s); [|discriminate]. injection Hc as <-. cbn in Hl. discriminate.
    + exact (p_blk O w _ HJ Hsl _ HA).
  - (* unit *) inversion Hf as [? ? ? Hst Hacc| | | | | | | |]; subst. inversion Hst as [| | | | | | |? ? b1 Hst0 Hop| | | | | |]; subst.
    start HJ Ht Htr Hsl O w HA. econstructor; [apply MS; [sub|exact Hst0]|]. apply open_accepts. exact Hop.
  - (* remret *) inversion Hf as [? ? ? Hst Hacc| | | | | | | |]; subst. inversion Hst as [| | | | | | | |? ? b1 Hst0 Hop Hp| | | | |]; subst.
    start HJ Ht Htr Hsl O w HA. econstructor; [apply MS; [sub|exact Hst0]|]. apply open_accepts. exact Hop.
  - (* tmp *) inversion Hf as [? ? ? Hst Hacc| | | | | | | |]; subst. inversion Hst as [| | | | | | | | |? ? ? Hst0 Hp| | | |]; subst.
    start HJ Ht Htr Hsl O w HA. econstructor; eauto.
  - (* cmp true *) inversion Hf as [? ? ? Hst Hacc| | | | | | | |]; subst. inversion Hst as [| | | | | | | | | |? ? ? ? ? ? ? b1 Hst0 Hop Hu| | |]; subst.
    start HJ Ht Htr Hsl O w HA. econstructor; [apply MS; [sub|exact Hst0]|exact Hop|apply MU; exact Hu].
  - (* cmp false *) inversion Hf as [? ? ? Hst Hacc| | | | | | | |]; subst. inversion Hst as [| | | | | | | | | |? ? ? ? ? ? ? b1 Hst0 Hop Hu| | |]; subst.
    start HJ Ht Htr Hsl O w HA. econstructor; eauto.
  - (* cmp exn *) inversion Hf as [? ? ? Hst Hacc| | | | | | | |]; subst. inversion Hst as [| | | | | | | | | |? ? ? ? ? ? ? b1 Hst0 Hop Hu| | |]; subst.
    start HJ Ht Htr Hsl O w HA. econstructor; [apply MS; [sub|exact Hst0]|apply MU; exact Hu|]. apply open_accepts. exact Hop.
  - (* emitret *) inversion Hf as [? ? ? Hst Hacc| | | | | | | |]; subst. inversion Hst as [| | | | | | | | | | |? ? ? ? ? b1 Hst0 Hop Hu Ha| |]; subst.
    start HJ Ht Htr Hsl O w HA. econstructor; [apply MS; [sub|exact Hst0]|]. apply open_accepts. exact Hop.
  - (* slotret *) inversion Hf as [? ? ? Hst Hacc| | | | | | | |]; subst. inversion Hst as [| | | | | | | | | | | |? ? ? ? ? ? Hst0 Hr Ha|]; subst.
    start HJ Ht Htr Hsl O w HA. econstructor; [apply MS; [sub|exact Hst0]|]. cbn. intros r0 args0 [= <- <-]. apply MA. exact Ha.
  - (* callret *) inversion Hf as [? ? ? Hst Hacc| | | | | | | |]; subst. inversion Hst as [| | | | | | | | | | | | |? b1 Hst0 Hop]; subst.
    start HJ Ht Htr Hsl O w HA. econstructor; [exact Hst0|]. apply open_accepts. exact Hop.
Qed.
End tidy.
