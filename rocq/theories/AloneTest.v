(** * What loops of emissions do *)
From Verif Require Import Reach InvOp OpCalls TestsProof Witness.
From Verif Require Export AloneProof.

Section lone.
Context (e : env) (ps : list prog) (w0 : world) (t : tid).
Hypothesis Hcl : looking_client e.
Hypothesis H0 : still w0.

Definition good (h : option sid) (w : world) : Prop :=
  reachable e ps w /\ calm w0 w /\ forall s t', lock_of w s = Some t' <-> h = Some s /\ t' = t.
Lemma calls_app a b : slots_called (a ++ b) = slots_called b ++ slots_called a.
Proof. unfold slots_called. rewrite omap_app, rev_app_distr. reflexivity. Qed.

Definition leads (h : option sid) (st : list frame) (h' : option sid) (Q : list frame -> Prop) (xs : list lid) : Prop :=
  forall w, good h w -> w_thr w !! t = Some st -> exists n new w' st', run e w (alone t n) = inl w' /\ w_log w' = new ++ w_log w /\
    slots_called new = xs /\ Forall (fun ev => thread_of ev = Some t) new /\ good h' w' /\ w_thr w' !! t = Some st' /\ Q st'.

Lemma leads_refl h st (Q : list frame -> Prop) : Q st -> leads h st h Q [].
Proof. intros HQ w Hg Ht. exists 0, [], w, st. repeat (split; [first [reflexivity|assumption|constructor]|]). exact HQ. Qed.
Lemma leads_trans h st h1 (Q1 : list frame -> Prop) h2 (Q2 : list frame -> Prop) xs ys :
  leads h st h1 Q1 xs -> (forall st1, Q1 st1 -> leads h1 st1 h2 Q2 ys) -> leads h st h2 Q2 (xs ++ ys).
Proof.
  intros H1 H2 w Hg Ht. destruct (H1 w Hg Ht) as (n & new & w1 & st1 & Hr & Hl & Hc & Hm & Hg1 & Ht1 & HQ1).
  destruct (H2 st1 HQ1 w1 Hg1 Ht1) as (n2 & new2 & w2 & st2 & Hr2 & Hl2 & Hc2 & Hm2 & Hg2 & Ht2 & HQ2).
  exists (n + n2), (new2 ++ new), w2, st2. split; [unfold alone; rewrite repeat_app, run_app; unfold alone in *; rewrite Hr; exact Hr2|].
  split; [rewrite Hl2, Hl; apply app_assoc|]. split; [rewrite calls_app; congruence|]. split; [apply Forall_app; auto|]. auto.
Qed.
Lemma leads_step h st h1 (Q : list frame -> Prop) xs :
  (forall w, good h w -> w_thr w !! t = Some st -> exists w1 st1 n1, lstep e w t MOk st = LOk w1 st1 /\ w_log w1 = n1 ++ w_log w /\ slots_called n1 = xs /\
     (forall s t', lock_of w1 s = Some t' <-> h1 = Some s /\ t' = t) /\ Q st1) -> leads h st h1 Q xs.
Proof.
  intros H w Hg Ht. destruct (H w Hg Ht) as (w1 & st1 & n1 & El & Hl & Hc & Hk & HQ). destruct Hg as (Hre & Hca & Hlo).
  assert (Hf : Forall (ok_frame w0) st) by (destruct Hca as (_ & _ & _ & _ & Hc5); eauto).
  assert (Hso : forall s t', lock_of w s = Some t' -> t' = t) by (intros s t' E; apply Hlo in E; tauto).
  assert (Hw : forall s k r, st = FWrite s k :: r -> lock_of w s = Some t) by (intros s k r ->; eapply write_holds; eauto).
  pose proof (sim_lstep e w0 w w t Hcl H0 Hca Hca (fun s => iff_refl _) Hso MOk st st eq_refl Hf Hf Hw) as Hfo. rewrite El in Hfo.
  destruct Hfo as (w1' & st1' & n2 & n2' & _ & _ & Hf1 & _ & Hli & _ & Lg & _ & _ & Ht1 & _).
  assert (Hst : step e w t MOk = SOk (w_set_stack w1 t st1)) by (unfold step; rewrite Ht, El, (calm_reap e w0) by auto; reflexivity).
  exists 1, n1, (w_set_stack w1 t st1), st1. split; [cbn; rewrite Hst; reflexivity|]. split; [exact Hl|]. split; [exact Hc|].
  split; [rewrite Lg in Hl; apply app_inv_tail in Hl; congruence|]. split; [|split; [|exact HQ]].
  - split; [|split; [eapply calm_step; eauto|exact Hk]]. eapply (run_reachable _ _ _ [(t, MOk)]); [exact Hre|]. cbn. rewrite Hst. reflexivity.
  - cbn. destruct Hli as (_ & _ & _ & _ & ->). apply list_lookup_insert. eapply lookup_lt_Some; eauto.
Qed.
(** Without the mutex. *)
Lemma leads_plain h st (Q : list frame -> Prop) xs :
  (forall w, good h w -> exists w1 st1 n1, lstep e w t MOk st = LOk w1 st1 /\ w_log w1 = n1 ++ w_log w /\ slots_called n1 = xs /\ w_sigs w1 = w_sigs w /\ Q st1) -> leads h st h Q xs.
Proof.
  intros H. apply leads_step. intros w Hg Ht. destruct (H w Hg) as (w1 & st1 & n1 & E & Hl & Hc & Hs & HQ). exists w1, st1, n1. do 3 (split; [assumption|]). split; [|exact HQ].
  intros s t'. rewrite (lock_same w w1) by auto. apply Hg.
Qed.

Hypothesis Hsb : simple_bodies e.
Lemma leads_slot l i args pos k s eid v args0 st n :
  slot_alive w0 l = true -> get_ref w0 (RSlot l) = Some i -> im_conn i = true -> im_blk i = false -> expired w0 (im_c i) = false ->
  leads None (FSlot (RSlot l) SBlk args None (Some eid) n :: FDeref k pos l :: FEmit s eid v args0 :: st) None
    (fun st1 => exists x args', st1 = FProg (k (OutOpt x)) :: FEmit s eid v args' :: st) [l].
Proof.
  intros Hal Hi Hcn Hb Hx. set (tl := FDeref k pos l :: FEmit s eid v args0 :: st).
  destruct (Hsb (RSlot l) (im_c i) args) as (o & x & Hbody & Hwrap).
  assert (Hgo : forall g pin g' pin', (forall w, good None w -> lstep e w t MOk (FSlot (RSlot l) g args pin (Some eid) n :: tl) = LOk w (FSlot (RSlot l) g' args pin' (Some eid) n :: tl)) ->
    forall Q, leads None (FSlot (RSlot l) g' args pin' (Some eid) n :: tl) None Q [l] -> leads None (FSlot (RSlot l) g args pin (Some eid) n :: tl) None Q [l]).
  { intros g pin g' pin' Hs Q HQ. apply (leads_trans None _ None (fun st1 => st1 = FSlot (RSlot l) g' args pin' (Some eid) n :: tl) None Q [] [l]); [|intros st1 ->; exact HQ].
    apply leads_plain. intros w Hg. exists w, (FSlot (RSlot l) g' args pin' (Some eid) n :: tl), []. auto. }
  assert (Hw : forall w, good None w -> ref_ok w (RSlot l) = true /\ get_ref w (RSlot l) = Some i /\ expired w (im_c i) = false).
  { intros w (_ & Hc & _). rewrite (calm_ref_ok w0 w), (calm_ref w0 w), (calm_expired w0 w) by auto. auto. }
  assert (Hcall : forall pin, leads None (FSlot (RSlot l) SCall args pin (Some eid) n :: tl) None (fun st1 => exists x args', st1 = FProg (k (OutOpt x)) :: FEmit s eid v args' :: st) [l]).
  { intros pin. apply (leads_trans None _ None (fun st1 => st1 = FProg (Ret o) :: FSlot (RSlot l) SRun (consume e (im_c i) args) pin (Some eid) n :: tl) None _ [l] []).
    - apply leads_plain. intros w Hg. destruct (Hw w Hg) as (Ho & Hr & _). eexists _, _, [_]. split; [cbn -[ref_ok get_ref]; unfold step_slot; rewrite Ho, Hr; reflexivity|]. rewrite Hbody. auto.
    - intros st1 ->. apply (leads_trans None _ None (fun st1 => st1 = FRet o :: FSlot (RSlot l) SRun (consume e (im_c i) args) pin (Some eid) n :: tl) None _ [] []).
      { apply leads_plain. intros w Hg. eexists _, _, []. split; [reflexivity|]. auto. }
      intros st1 ->. apply (leads_trans None _ None (fun st1 => st1 = FRet (OutCall (OutOpt x) (consume e (im_c i) args)) :: tl) None _ [] []).
      { apply leads_plain. intros w Hg. eexists _, _, [_]. split; [cbn; rewrite Hwrap; reflexivity|]. auto. }
      intros st1 ->. apply leads_plain. intros w Hg. eexists _, _, [_]. split; [reflexivity|]. cbn. eauto 6. }
  apply (Hgo _ _ SExp None). { intros w Hg. destruct (Hw w Hg) as (Ho & Hr & He). cbn -[ref_ok get_ref]. unfold step_slot. rewrite Ho, Hr, Hb. reflexivity. }
  apply (Hgo _ _ SConn None). { intros w Hg. destruct (Hw w Hg) as (Ho & Hr & He). cbn -[ref_ok get_ref]. unfold step_slot. rewrite Ho, Hr, He. reflexivity. }
  apply (Hgo _ _ SDisp None). { intros w Hg. destruct (Hw w Hg) as (Ho & Hr & He). cbn -[ref_ok get_ref]. unfold step_slot. rewrite Ho, Hr, Hcn. reflexivity. }
  destruct (c_kind (im_c i)) eqn:Ek.
  - apply (Hgo _ _ SCall None); [|apply Hcall]. intros w Hg. destruct (Hw w Hg) as (Ho & Hr & He). cbn -[ref_ok get_ref]. unfold step_slot. rewrite Ho, Hr, Ek. reflexivity.
  - apply (Hgo _ _ SCall None); [|apply Hcall]. intros w Hg. destruct (Hw w Hg) as (Ho & Hr & He). cbn -[ref_ok get_ref]. unfold step_slot. rewrite Ho, Hr, Ek. reflexivity.
  - apply (Hgo _ _ SPin (Some (c_pv (im_c i)))). { intros w Hg. destruct (Hw w Hg) as (Ho & Hr & He). unfold expired in He. rewrite Ek in He. apply negb_false_iff in He. cbn -[ref_ok get_ref]. unfold step_slot. rewrite Ho, Hr, Ek, He. reflexivity. }
    apply (Hgo _ _ SCall (Some (c_pv (im_c i)))); [|apply Hcall]. intros w Hg. destruct (Hw w Hg) as (Ho & Hr & He). cbn -[ref_ok get_ref]. unfold step_slot. rewrite Ho, Hr, Hcn. reflexivity.
Qed.

Context (s : sid) (xs : list lid) (v : vid) (rs : sigrec).
Hypothesis Hs : w_sigs w0 !! s = Some rs.
Hypothesis Ha : sg_alive rs = true.
Hypothesis Hb : sg_blocked rs = false.
Hypothesis Hcb : sg_comb rs = None.
Hypothesis Hv : sg_vec rs = Some v.
Hypothesis Hxs : w_vecs w0 !! v = Some xs.
Hypothesis Hall : Forall (fun l => exists i, get_ref w0 (RSlot l) = Some i /\ im_conn i = true /\ im_blk i = false /\ expired w0 (im_c i) = false) xs.

Lemma listed_alive l : l ∈ xs -> slot_alive w0 l = true.
Proof.
  intros Hl. rewrite still_alive by auto. apply existsb_exists. exists rs. split; [apply elem_of_list_In, elem_of_list_lookup; eauto|].
  unfold sig_keeps. rewrite Ha, Hv. cbn. apply bool_decide_eq_true. unfold vec_of. rewrite Hxs. exact Hl.
Qed.
Lemma good_vec w : good None w -> vec_of w v = xs.
Proof. intros (_ & (_ & E & _) & _). unfold vec_of. rewrite E, Hxs. reflexivity. Qed.

Lemma leads_olv rem pos acc eid args st : pos + rem = length xs ->
  leads None (FProg (olv rem pos acc) :: FEmit s eid v args :: st) None (fun st1 => exists r, st1 = FRet r :: st) (drop pos xs).
Proof.
  revert pos acc args. induction rem as [|rem IH]; intros pos acc args Hp.
  - rewrite drop_ge by lia. apply (leads_trans None _ None (fun st1 => st1 = FRet (OutOpt acc) :: FEmit s eid v args :: st) None _ [] []).
    + apply leads_plain. intros w Hg. eexists _, _, []. split; [reflexivity|]. auto.
    + intros st1 ->. apply leads_plain. intros w Hg. eexists _, _, [_]. split; [reflexivity|]. cbn. eauto.
  - destruct (lookup_lt_is_Some_2 xs pos) as [l Hl]; [lia|]. rewrite (drop_S _ _ _ Hl).
    destruct (proj1 (Forall_lookup _ _) Hall _ _ Hl) as (i & Hi & Hcn & Hbl & Hx).
    apply (leads_trans None _ None (fun st1 => exists n, st1 = FSlot (RSlot l) SBlk args None (Some eid) n ::
      FDeref (fun o => match o with OutOpt (Some z) => olv rem (S pos) (Some z) | OutOpt None => olv rem (S pos) acc | o => Ret o end) pos l :: FEmit s eid v args :: st) None _ [] (l :: drop (S pos) xs)).
    + apply leads_plain. intros w Hg. eexists _, _, []. split; [cbn; rewrite good_vec, Hl by auto; reflexivity|]. eauto 6.
    + intros st1 (n & ->). apply (leads_trans None _ None (fun st1 => exists x args', st1 = FProg (olv rem (S pos) x) :: FEmit s eid v args' :: st) None _ [l] (drop (S pos) xs)).
      * intros w Hg Ht. destruct (leads_slot l i args pos _ s eid v args st n (listed_alive l (elem_of_list_lookup_2 _ _ _ Hl)) Hi Hcn Hbl Hx w Hg Ht)
          as (n1 & new & w1 & st1 & H1 & H2 & H3 & H4 & H5 & H6 & x & args' & ->).
        exists n1, new, w1. eexists. do 5 (split; [assumption|]). split; [exact H6|]. destruct x as [z|]; eauto.
      * intros st1 (x & args' & ->). apply IH. lia.
Qed.

Lemma leads_emit args k : leads None [FProg (Do (OEmit s args) k)] None (fun st1 => exists r, st1 = [FProg (k r)]) xs.
Proof.
  assert (Hsg : forall h w, good h w -> exists r, get_sig w s = Some r /\ sg_blocked r = false /\ sg_comb r = None /\ sg_vec r = Some v).
  { intros h w (_ & (E & _) & _). pose proof (same_sig _ _ s E) as E1. rewrite Hs in E1. unfold get_sig. destruct (w_sigs w !! s) as [r|]; [|discriminate].
    exists r. destruct r, rs. cbn in *. injection E1 as -> -> -> ->. subst. auto. }
  apply (leads_trans None _ None (fun st1 => st1 = [FLock s (KRead args); FWait k]) None _ [] xs).
  { apply leads_plain. intros w Hg. destruct (Hsg _ w Hg) as (r & Hr & Hrb & _). eexists _, _, []. split; [cbn; rewrite Hr, Hrb; reflexivity|]. auto. }
  intros st1 ->. apply (leads_trans None _ (Some s) (fun st1 => st1 = [FWrite s (KRead args); FWait k]) None _ [] xs).
  { apply leads_step. intros w Hg Ht. destruct (Hsg _ w Hg) as (r & Hr & _). destruct (lock_of_sig _ _ _ Hr) as [Hlk Hlr].
    assert (Hn : sg_lock r = None). { destruct (sg_lock r) as [t'|]; [|reflexivity]. destruct Hg as (_ & _ & Hlo). apply Hlo in Hlk as [? _]. discriminate. }
    eexists _, _, []. split; [cbn; rewrite Hr, Hn; reflexivity|]. do 2 (split; [reflexivity|]). split; [|reflexivity].
    intros s' t'. rewrite lock_alter, Hlr. destruct Hg as (_ & _ & Hlo). case_decide; [subst; cbn; split; [intros [= ->]; auto|intros [_ ->]; auto]|].
    rewrite Hlo. split; [intros [? _]; discriminate|intros [[= ->] _]; congruence]. }
  intros st1 ->. apply (leads_trans (Some s) _ None (fun st1 => exists eid, st1 = FProg (olv (length xs) 0 None) :: FEmit s eid v args :: [FWait k]) None _ [] xs).
  { apply leads_step. intros w Hg Ht. destruct (Hsg _ w Hg) as (r & Hr & _ & Hrc & Hrv). destruct (lock_of_sig _ _ _ Hr) as [Hlk Hlr].
    assert (Hve : vec_of w v = xs) by (destruct Hg as (_ & (_ & E & _) & _); unfold vec_of; rewrite E, Hxs; reflexivity).
    eexists _, _, [_]. split; [cbn; unfold step_write; rewrite Hlr, Hrv, Hve, Hrc; reflexivity|]. do 2 (split; [reflexivity|]). split; [|cbn; eauto].
    intros s' t'. destruct Hg as (_ & _ & Hlo).
    match goal with |- lock_of (w_add_log (w_set_neid ?w1 _) _) _ = _ <-> _ => change (lock_of w1 s' = Some t' <-> None = Some s' /\ t' = t) end.
    rewrite lock_alter, Hlr. case_decide; cbn; [split; [discriminate|intros [? _]; discriminate]|]. rewrite Hlo. split; intros [E _]; congruence. }
  intros st1 (eid & ->). match goal with |- leads ?a ?b ?c ?d _ => enough (E : leads a b c d (xs ++ [])) by (rewrite app_nil_r in E; exact E) end.
  apply (leads_trans None _ None (fun st1 => exists r, st1 = [FRet r; FWait k]) None _ xs []).
  { apply (leads_olv (length xs) 0). lia. }
  intros st1 (r & ->). apply leads_plain. intros w Hg. eexists _, _, []. split; [reflexivity|]. eauto.
Qed.

Lemma leads_many m args : leads None [FProg (emit_many m s args)] None (fun st1 => st1 = [FRet OutUnit]) (concat (repeat xs m)).
Proof.
  induction m as [|m IH]; cbn.
  - apply leads_plain. intros w Hg. eexists _, _, []. split; [reflexivity|]. auto.
  - apply (leads_trans None _ None (fun st1 => st1 = [FProg (emit_many m s args)]) None _ xs).
    + intros w Hg Ht. destruct (leads_emit args (fun _ => emit_many m s args) w Hg Ht) as (n & new & w1 & st1 & H1 & H2 & H3 & H4 & H5 & H6 & r & ->). eauto 12.
    + intros st1 ->. exact IH.
Qed.
End lone.

Lemma emit_many_looks m s args : only_looks (emit_many m s args).
Proof. induction m; cbn; constructor; auto. exact I. Qed.
Lemma loops_lookers w : loops w -> all_lookers w.
Proof. intros H t st Ht. destruct (H _ _ Ht) as [(o & ->)|(m & s & args & xs & -> & _)]; [left; eauto|right; eauto using emit_many_looks]. Qed.

Lemma many_ends e ps w0 t m s args xs : looking_client e -> simple_bodies e -> reachable e ps w0 -> all_lookers w0 -> ready w0 s xs ->
  w_thr w0 !! t = Some [FProg (emit_many m s args)] ->
  exists n new w', run e w0 (alone t n) = inl w' /\ w_log w' = new ++ w_log w0 /\ slots_called new = concat (repeat xs m) /\
    Forall (fun ev => thread_of ev = Some t) new /\ finished_with w' t OutUnit.
Proof.
  intros Hcl Hsb Hr H0 (r & v & Hs & Ha & Hb & Hcb & Hv & Hxs & Hall) Ht.
  assert (Hg : good e ps w0 t None w0).
  { destruct (all_alike_start e ps w0 Hr H0) as (Hc & _). split; [exact Hr|]. split; [exact Hc|].
    intros s' t'. split; [|intros [? _]; discriminate]. intros Hl. unfold lock_of in Hl. destruct (w_sigs w0 !! s') as [g|] eqn:Eg; [|discriminate]. cbn in Hl.
    destruct (unlocked e ps w0 s' g t' Hr H0 Eg Hl). }
  destruct (leads_many e ps w0 t Hcl H0 Hsb s xs v r Hs Ha Hb Hcb Hv Hxs Hall m args w0 Hg Ht) as (n & new & w' & st' & H1 & H2 & H3 & H4 & H5 & H6 & ->).
  exists n, new, w'. auto.
Qed.

Lemma alone_stopped e w t o n : finished_with w t o -> run e w (alone t n) = inl w.
Proof. intros H. induction n as [|n IH]; [reflexivity|]. cbn. unfold step. rewrite H. cbn. exact IH. Qed.
Lemma alone_add t a b : alone t (a + b) = alone t a ++ alone t b.
Proof. apply repeat_app. Qed.
Lemma alone_ends e w0 t n n' w o r : run e w0 (alone t n) = inl w -> finished_with w t o -> run e w0 (alone t n') = r ->
  (forall w' o', r = inl w' -> finished_with w' t o' -> w' = w) /\ forall u, r <> inr u.
Proof.
  intros H Hf H'. destruct (le_lt_dec n n') as [Hle|Hlt].
  - replace n' with (n + (n' - n)) in H' by lia. rewrite alone_add, run_app, H in H'. rewrite (alone_stopped e w t o _ Hf) in H'. subst r.
    split; [congruence|discriminate].
  - replace n with (n' + (n - n')) in H by lia. rewrite alone_add, run_app, H' in H. destruct r as [w'|u]; [|discriminate].
    split; [|discriminate]. intros w2 o' [= <-] Hf'. pose proof (alone_stopped e w' t o' (n - n') Hf') as E. rewrite E in H. congruence.
Qed.

Lemma called_unnumbered ev : called_slot (unnumbered ev) = called_slot ev.
Proof. destruct ev; reflexivity. Qed.
Lemma calls_unnumbered new : slots_called (map unnumbered new) = slots_called new.
Proof. unfold slots_called. f_equal. induction new as [|ev new IH]; [reflexivity|]. cbn. rewrite called_unnumbered, IH. reflexivity. Qed.

Lemma loop_calls e ps w0 sc w t m s args xs o : looking_client e -> simple_bodies e -> reachable e ps w0 -> all_lookers w0 -> ready w0 s xs ->
  w_thr w0 !! t = Some [FProg (emit_many m s args)] -> run e w0 sc = inl w -> finished_with w t o ->
  o = OutUnit /\ exists new, w_log w = new ++ w_log w0 /\ slots_called (mine t new) = concat (repeat xs m).
Proof.
  intros Hcl Hsb Hr H0 Hrd Ht Hrun Hfin.
  destruct (as_if_alone e ps w0 sc w t _ Hcl Hr H0 Ht Hrun) as (n & wt & evs & Hn & (new & Hl & He) & (new' & Hl' & He') & Hff).
  destruct (many_ends e ps w0 t m s args xs Hcl Hsb Hr H0 Hrd Ht) as (n2 & new2 & w2 & Hn2 & Hl2 & Hc2 & Hm2 & Hf2).
  apply Hff in Hfin as Hft. destruct (alone_ends _ _ _ _ n _ _ _ Hn2 Hf2 Hn) as [E _]. pose proof (E _ _ eq_refl Hft) as Ew. subst wt.
  split; [unfold finished_with in Hft, Hf2; rewrite Hft in Hf2; injection Hf2; auto|]. exists new. split; [exact Hl|].
  rewrite Hl2 in Hl'. apply app_inv_tail in Hl'. subst new2. rewrite <- calls_unnumbered, <- He, He', calls_unnumbered, mine_all by auto. exact Hc2.
Qed.

Lemma loops_defined e ps w0 sc u : looking_client e -> simple_bodies e -> reachable e ps w0 -> loops w0 -> run e w0 sc <> inr u.
Proof.
  intros Hcl Hsb Hr H0 Hrun. destruct (undefined_alone e ps w0 sc u Hcl Hr (loops_lookers _ H0) Hrun) as (t & n & Hn).
  destruct (w_thr w0 !! t) as [st|] eqn:Et.
  - destruct (H0 _ _ Et) as [(o & ->)|(m & s & args & xs & -> & Hrd)].
    + rewrite (alone_stopped e w0 t o n Et) in Hn. discriminate.
    + destruct (many_ends e ps w0 t m s args xs Hcl Hsb Hr (loops_lookers _ H0) Hrd Et) as (n2 & new2 & w2 & Hn2 & _ & _ & _ & Hf2).
      destruct (alone_ends _ _ _ _ n _ _ _ Hn2 Hf2 Hn) as [_ E]. apply (E u). reflexivity.
  - assert (E : run e w0 (alone t n) = inl w0); [|congruence]. clear Hn. induction n as [|n IH]; [reflexivity|]. cbn. unfold step. rewrite Et. exact IH.
Qed.

(** ** All threads together *)
Definition total (f : tid -> nat) (n : nat) : nat := sum_list_with f (seq 0 n).
Lemma total_S f n : total f (S n) = total f n + f n.
Proof. unfold total. rewrite seq_S, sum_list_with_app. cbn. lia. Qed.
Lemma total_ext f g n : (forall t, t < n -> f t = g t) -> total f n = total g n.
Proof. induction n as [|n IH]; intros H; [reflexivity|]. rewrite !total_S, H, IH by auto with lia. reflexivity. Qed.
Lemma total_upd f g n t0 k : t0 < n -> (forall t, t <> t0 -> g t = f t) -> g t0 = k + f t0 -> total g n = k + total f n.
Proof.
  intros Hlt Hne H0. induction n as [|n IH]; [lia|]. rewrite !total_S. destruct (decide (n = t0)) as [->|Hn].
  - rewrite H0. rewrite (total_ext g f t0) by (intros; apply Hne; lia). lia.
  - rewrite IH by lia. rewrite Hne by auto. lia.
Qed.
Lemma total_const c n : total (fun _ => c) n = n * c.
Proof. induction n as [|n IH]; [reflexivity|]. rewrite total_S, IH. lia. Qed.
Lemma calls_total n new : Forall (fun ev => exists t, t < n /\ thread_of ev = Some t) new ->
  length (slots_called new) = total (fun t => length (slots_called (mine t new))) n.
Proof.
  induction 1 as [|ev new (t & Ht & Hev) _ IH].
  - cbn. rewrite total_const. lia.
  - assert (E : forall l, length (slots_called (ev :: l)) = length (slots_called [ev]) + length (slots_called l)).
    { intros l. change (ev :: l) with ([ev] ++ l). rewrite calls_app, app_length. lia. }
    rewrite (total_upd (fun t => length (slots_called (mine t new))) _ n t (length (slots_called [ev]))); [|exact Ht| |].
    + rewrite E, IH. reflexivity.
    + intros t' Hn. rewrite mine_skip by congruence. reflexivity.
    + rewrite mine_cons, E by auto. reflexivity.
Qed.

Lemma invoke_threaded e ps w0 sc w n m s args xs o : looking_client e -> simple_bodies e -> reachable e ps w0 -> ready w0 s xs ->
  w_thr w0 = [FRet o] :: replicate n [FProg (emit_many m s args)] -> run e w0 sc = inl w -> (forall t, t < S n -> exists o, finished_with w t o) ->
  exists new, w_log w = new ++ w_log w0 /\ length (slots_called new) = n * m * length xs.
Proof.
  intros Hcl Hsb Hr Hrd Hthr Hrun Hfin.
  assert (Ht : forall t, t < n -> w_thr w0 !! S t = Some [FProg (emit_many m s args)]).
  { intros t Hlt. rewrite Hthr. cbn. apply (lookup_replicate_2 n). exact Hlt. }
  assert (H0 : all_lookers w0).
  { apply loops_lookers. intros t st. rewrite Hthr. destruct t as [|t]; cbn; [intros [= <-]; eauto|]. intros E. right. exists m, s, args, xs. split; [|exact Hrd].
    apply lookup_replicate in E as [-> _]. reflexivity. }
  destruct (events_of_threads e ps w0 sc w Hcl Hr H0 Hrun) as (new & Hl & Hev). exists new. split; [exact Hl|].
  rewrite Hthr in Hev. cbn in Hev. rewrite replicate_length in Hev. rewrite (calls_total _ _ Hev).
  rewrite (total_ext _ (fun t => match t with O => 0 | S _ => m * length xs end)).
  - clear. unfold total. cbn. assert (E : forall n k, sum_list_with (fun t => match t with O => 0 | S _ => m * length xs end) (seq (S k) n) = n * (m * length xs)); [|rewrite E; lia].
    intros n'. induction n' as [|n' IH]; intros k; [reflexivity|]. cbn. rewrite IH. reflexivity.
  - intros [|t] Hlt.
    + destruct (as_if_alone e ps w0 sc w 0 [FRet o] Hcl Hr H0 ltac:(rewrite Hthr; reflexivity) Hrun) as (n0 & wt & evs & Hn & (new1 & Hl1 & He) & (new2 & Hl2 & He2) & _).
      rewrite (alone_stopped e w0 0 o n0) in Hn by (unfold finished_with; rewrite Hthr; reflexivity). injection Hn as <-.
      rewrite Hl in Hl1. apply app_inv_tail in Hl1. subst new1. change (w_log w0) with ([] ++ w_log w0) in Hl2 at 1. apply app_inv_tail in Hl2. subst new2. cbn in He2. subst evs.
      destruct (mine 0 new); [reflexivity|discriminate].
    + destruct (Hfin (S t) Hlt) as [o' Ho']. destruct (loop_calls e ps w0 sc w (S t) m s args xs o' Hcl Hsb Hr H0 Hrd (Ht t ltac:(lia)) Hrun Ho') as (_ & new1 & Hl1 & Hc).
      rewrite Hl in Hl1. apply app_inv_tail in Hl1. subst new1. rewrite Hc. clear. induction m as [|m IH]; cbn; [reflexivity|]. rewrite app_length, IH. reflexivity.
Qed.

(** ** Examples *)
(** InvokeThreaded (tests/signal_tests.cpp, 243-262): [atomic_add] adds atomically to an integer
    that the library does not touch, so the integer is the number of calls. *)
Definition add_env : env :=
  Env true (fun _ => true) (fun _ a b => Ret (OutBool (Nat.eqb a b))) (fun _ _ _ => Ret OutUnit) (fun _ _ => false) (fun z => z) (fun _ => None) (fun _ _ => Ret OutUnit).
Definition add_main : prog := Do (ONewSignal None) (fun _ => Do (OConnect 0 (SrcFn (fn 1)) false) (fun _ => Ret OutUnit)).
Lemma add_looks : looking_client add_env.
Proof. split; intros; constructor. Qed.
Lemma add_simple : simple_bodies add_env.
Proof. intros r c args. exists OutUnit, None. auto. Qed.
Definition test_threads : list prog := add_main :: replicate 10 (emit_many 100 0 [ARef 0; AVal 1]).
Lemma test_spawned : exists w0, run add_env (init test_threads) (one 12) = inl w0 /\ ready w0 0 [0] /\ slots_called (w_log w0) = [] /\
  exists o, w_thr w0 = [FRet o] :: replicate 10 [FProg (emit_many 100 0 [ARef 0; AVal 1])].
Proof.
  destruct (run add_env (init test_threads) (one 12)) as [w0|u] eqn:E; [|vm_compute in E; discriminate].
  exists w0. split; [reflexivity|]. vm_compute in E. injection E as <-. split; [|split].
  - eexists _, _. repeat (split; [vm_compute; reflexivity|]). repeat constructor. eexists. repeat (split; [vm_compute; reflexivity|]). vm_compute. reflexivity.
  - vm_compute. reflexivity.
  - eexists. vm_compute. reflexivity.
Qed.
Lemma threaded_test sc :
  match run add_env (init test_threads) (one 12 ++ sc) with
  | inl w => (forall t, t < 11 -> exists o, finished_with w t o) -> length (slots_called (w_log w)) = 1000
  | inr _ => False
  end.
Proof.
  destruct test_spawned as (w0 & E & Hrd & Hno & o & Hthr). rewrite run_app, E.
  assert (Hr : reachable add_env test_threads w0) by (exists (one 12); exact E).
  destruct (run add_env w0 sc) as [w|u] eqn:Hrun.
  - intros Hfin. destruct (invoke_threaded add_env test_threads w0 sc w 10 100 0 _ [0] o add_looks add_simple Hr Hrd Hthr Hrun Hfin) as (new & Hl & Hc).
    rewrite Hl, calls_app, Hno. exact Hc.
  - assert (Hlo : loops w0); [|exact (loops_defined add_env test_threads w0 sc u add_looks add_simple Hr Hlo Hrun)]. intros t st. rewrite Hthr.
    destruct t as [|t]; [intros [= <-]; left; exists o; reflexivity|]. intros Ht. change (replicate 10 [FProg (emit_many 100 0 [ARef 0; AVal 1])] !! t = Some st) in Ht.
    apply lookup_replicate in Ht as [-> _]. right. exists 100, 0, [ARef 0; AVal 1], [0]. split; [reflexivity|exact Hrd].
Qed.

(** ThreadedCrossed (304-350) with fewer rounds: callable 1 is connected to signal 0 and emits
    signal 1 for an even argument, callable 2 is connected to signal 1 and emits signal 0. *)
Definition cross_env : env :=
  Env true (fun _ => true) (fun _ a b => Ret (OutBool (Nat.eqb a b)))
    (fun r c args => match args with
       | [AVal i] => if Z.odd i then Ret OutUnit else Do (OEmit (if Nat.eqb (c_fv c) 1 then 1 else 0) [AVal (i + 1)]) (fun _ => Ret OutUnit)
       | _ => Ret OutUnit end)
    (fun _ _ => false) (fun z => z) (fun _ => None) (fun _ _ => Ret OutUnit).
Definition cross_main : prog :=
  Do (ONewSignal None) (fun _ => Do (ONewSignal None) (fun _ => Do (OConnect 0 (SrcFn (fn 1)) false) (fun _ => Do (OConnect 1 (SrcFn (fn 2)) false) (fun _ => Ret OutUnit)))).
Definition cross_thread (s : sid) : prog :=
  Do (OEmit s [AVal 0]) (fun _ => Do (OEmit s [AVal 1]) (fun _ => Do (OEmit s [AVal 2]) (fun _ => Ret OutUnit))).
Definition cross_threads : list prog := [cross_main; cross_thread 0; cross_thread 1].
Lemma cross_looks : looking_client cross_env.
Proof.
  split; [|intros; constructor]. intros r c args. cbn. destruct args as [|[i|a] [|? ?]]; try constructor. destruct (Z.odd i); [constructor|].
  constructor; [exact I|]. intros. constructor.
Qed.
Lemma cross_lookers s : only_looks (cross_thread s).
Proof. do 3 (constructor; [exact I|intros _]). constructor. Qed.
Lemma all3 {A} (P : A -> Prop) a b c : P a -> P b -> P c -> forall t x, [a; b; c] !! t = Some x -> P x.
Proof. intros Ha Hb Hc [|[|[|t]]] x; cbn; [| | |destruct t; discriminate]; intros [= <-]; assumption. Qed.
(** The two threads alternate; both finish, and they have called what they call alone. *)
Definition cross_start : world := match run cross_env (init cross_threads) (one 24) with inl w => w | inr _ => init [] end.
Definition cross_end : world := match run cross_env cross_start (concat (repeat (sch [(1, 1); (2, 1)]) 100)) with inl w => w | inr _ => init [] end.
Lemma ex_crossed : reachable cross_env cross_threads cross_start /\ all_lookers cross_start /\
  run cross_env cross_start (concat (repeat (sch [(1, 1); (2, 1)]) 100)) = inl cross_end /\
  finished_with cross_end 1 OutUnit /\ finished_with cross_end 2 OutUnit /\
  (exists evs, done_by 1 cross_start cross_end evs /\ slots_called evs = [0; 1; 0; 0; 1]) /\
  (exists evs, done_by 2 cross_start cross_end evs /\ slots_called evs = [1; 0; 1; 1; 0]).
Proof.
  split; [exists (one 24); vm_compute; reflexivity|]. split.
  - intros t st. assert (E : exists o, w_thr cross_start = [[FRet o]; [FProg (cross_thread 0)]; [FProg (cross_thread 1)]]) by (eexists; vm_compute; reflexivity).
    destruct E as [o E]. rewrite E. revert t st. apply all3; [left; eauto|right; eauto using cross_lookers|right; eauto using cross_lookers].
  - split; [vm_compute; reflexivity|]. split; [vm_compute; reflexivity|]. split; [vm_compute; reflexivity|].
    assert (E : w_log cross_end = take (length (w_log cross_end) - length (w_log cross_start)) (w_log cross_end) ++ w_log cross_start) by (vm_compute; reflexivity).
    split; (eexists; split; [eexists; split; [exact E|reflexivity]|vm_compute; reflexivity]).
Qed.

(** With a thread that disconnects the claim would be false: thread 1 emits twice, alone it
    calls the slot twice. *)
Definition mixed_threads : list prog := [add_main; emit_many 2 0 []; Do (OVar (VDisc 0)) (fun _ => Ret OutUnit)].
Definition mixed_start : world := match run add_env (init mixed_threads) (one 12) with inl w => w | inr _ => init [] end.
Definition calls_of (t : tid) (r : world + ubkind) : option (list lid) := match r with inl w => Some (slots_called (mine t (w_log w))) | inr _ => None end.
Lemma ex_disturbed : ~ all_lookers mixed_start /\
  calls_of 1 (run add_env mixed_start (alone 1 100)) = Some [0; 0] /\
  calls_of 1 (run add_env mixed_start (sch [(1, 20); (2, 20); (1, 80)])) = Some [0].
Proof.
  split; [|split; vm_compute; reflexivity]. intros H. destruct (H 2 [FProg (Do (OVar (VDisc 0)) (fun _ => Ret OutUnit))]) as [(o & E)|(p & E & Hp)]; [vm_compute; reflexivity|discriminate|].
  injection E as <-. inversion Hp. contradiction.
Qed.
