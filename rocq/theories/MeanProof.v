(** * Emissions mean what SpecMean.v says *)
From Verif Require Import Reach InvOp OpCalls InvSig Witness.
From Verif Require Export SpecMean AloneTest AloneFair.

Scheme means_ind2 := Minimality for means Sort Prop
with slot_means_ind2 := Minimality for slot_means Sort Prop.

Lemma returned_wrap e o r : returned_as e o r <-> wrap e o = Some r.
Proof.
  split.
  - intros []; cbn; try reflexivity; rewrite H; reflexivity.
  - destruct o; cbn; try discriminate; try destruct (e_void e) eqn:E; try discriminate; intros [= <-]; constructor; exact E.
Qed.
Lemma left_consume e c a a' : left_over e c a a' <-> a' = consume e c a.
Proof.
  unfold left_over, consume. split.
  - intros [Hl H]. apply list_eq. intros i. rewrite list_lookup_imap. destruct (a !! i) as [x|] eqn:E; cbn; [rewrite (H _ _ E); destruct x; reflexivity|].
    apply lookup_ge_None in E. apply lookup_ge_None. lia.
  - intros ->. split; [apply imap_length|]. intros i x E. rewrite list_lookup_imap, E. destruct x; reflexivity.
Qed.
Lemma calls_in_app a b : calls_in (a ++ b) = calls_in b ++ calls_in a.
Proof. unfold calls_in. rewrite omap_app, rev_app_distr. reflexivity. Qed.

(** Stacks that differ in the arguments of the emission on top. *)
Definition like (st st' : list frame) : Prop :=
  match st with
  | FEmit s eid v a :: r => exists a', st' = FEmit s eid v a' :: r
  | _ => st' = st
  end.
Lemma like_refl st : like st st.
Proof. destruct st as [|[] st]; cbn; eauto. Qed.
Lemma like_trans a b c : like a b -> like b c -> like a c.
Proof.
  destruct a as [|f a]; cbn; [intros ->; auto|]. destruct f; cbn; try (intros ->; cbn; auto; fail). intros (a' & ->) (a'' & ->). eauto.
Qed.
(** The context of a program on top of [st]. *)
Definition in_context (w0 : world) (st : list frame) (cx : option (list lid)) (a : list arg) : Prop :=
  match cx with
  | Some xs => exists s eid v r, st = FEmit s eid v a :: r /\ vec_of w0 v = xs
  | None => a = [] /\ forall s eid v a' r, st <> FEmit s eid v a' :: r
  end.

Lemma handle_known e ps w c r l : reachable e ps w -> v_conns (w_vars w) !! c = Some r -> cn_live r = true -> cn_slot r = Some l -> l < length (w_slots w).
Proof.
  intros Hr Hc Hl Hs. destruct (I_hb_inv _ _ _ Hr) as [Hv _]. assert (Hg : get_conn (w_vars w) c = Some r) by (unfold get_conn; rewrite Hc, Hl; reflexivity).
  apply (vb_get_conn _ _ _ _ Hv) in Hg. rewrite Hs in Hg. apply below_one in Hg. exact Hg.
Qed.

Section mean.
Context (e : env) (ps : list prog) (w0 : world) (t : tid).
Hypothesis Hcl : looking_client e.
Hypothesis H0 : still w0.
Hypothesis Hr0 : reachable e ps w0.
Notation good := (good e ps w0 t).

(** From stack [st] thread [t] comes, in at least one step, to a stack with [Q], making the calls [tr]. *)
Definition comes (h : option sid) (st : list frame) (h' : option sid) (Q : list frame -> Prop) (tr : list call) : Prop :=
  forall w, good h w -> w_thr w !! t = Some st -> exists n new w' st', run e w (alone t (S n)) = inl w' /\ w_log w' = new ++ w_log w /\
    calls_in new = tr /\ Forall (fun ev => thread_of ev = Some t) new /\ good h' w' /\ w_thr w' !! t = Some st' /\ Q st'.
Lemma comes_trans h st h1 (Q1 : list frame -> Prop) h2 (Q2 : list frame -> Prop) xs ys :
  comes h st h1 Q1 xs -> (forall st1, Q1 st1 -> comes h1 st1 h2 Q2 ys) -> comes h st h2 Q2 (xs ++ ys).
Proof.
  intros H1 H2 w Hg Ht. destruct (H1 w Hg Ht) as (n & new & w1 & st1 & Hr & Hl & Hc & Hm & Hg1 & Ht1 & HQ1).
  destruct (H2 st1 HQ1 w1 Hg1 Ht1) as (n2 & new2 & w2 & st2 & Hr2 & Hl2 & Hc2 & Hm2 & Hg2 & Ht2 & HQ2).
  exists (n + S n2), (new2 ++ new), w2, st2. split; [change (S (n + S n2)) with (S n + S n2); rewrite alone_add, run_app, Hr; exact Hr2|].
  split; [rewrite Hl2, Hl; apply app_assoc|]. split; [rewrite calls_in_app; congruence|]. split; [apply Forall_app; auto|]. auto.
Qed.
Lemma comes_weaken h st h' (Q Q' : list frame -> Prop) tr : comes h st h' Q tr -> (forall st', Q st' -> Q' st') -> comes h st h' Q' tr.
Proof. intros H HQ w Hg Ht. destruct (H w Hg Ht) as (n & new & w' & st' & H1 & H2 & H3 & H4 & H5 & H6 & H7). exists n, new, w', st'. eauto 10. Qed.
Lemma comes_then h st h1 st1 h2 (Q : list frame -> Prop) xs ys :
  comes h st h1 (eq st1) xs -> comes h1 st1 h2 Q ys -> comes h st h2 Q (xs ++ ys).
Proof. intros H1 H2. eapply comes_trans; [exact H1|]. intros ? <-. exact H2. Qed.
Lemma comes_step h st h1 (Q : list frame -> Prop) xs :
  (forall w, good h w -> w_thr w !! t = Some st -> exists w1 st1 n1, lstep e w t MOk st = LOk w1 st1 /\ w_log w1 = n1 ++ w_log w /\ calls_in n1 = xs /\
     (forall s t', lock_of w1 s = Some t' <-> h1 = Some s /\ t' = t) /\ Q st1) -> comes h st h1 Q xs.
Proof.
  intros H w Hg Ht. destruct (H w Hg Ht) as (w1 & st1 & n1 & El & Hl & Hc & Hk & HQ). destruct Hg as (Hre & Hca & Hlo).
  assert (Hf : Forall (ok_frame w0) st) by (destruct Hca as (_ & _ & _ & _ & Hc5); eauto).
  assert (Hso : forall s t', lock_of w s = Some t' -> t' = t) by (intros s t' E; apply Hlo in E; tauto).
  assert (Hw : forall s k r, st = FWrite s k :: r -> lock_of w s = Some t) by (intros s k r ->; eapply write_holds; eauto).
  pose proof (sim_lstep e w0 w w t Hcl H0 Hca Hca (fun s => iff_refl _) Hso MOk st st eq_refl Hf Hf Hw) as Hfo. rewrite El in Hfo.
  destruct Hfo as (w1' & st1' & n2 & n2' & _ & _ & Hf1 & _ & Hli & _ & Lg & _ & _ & Ht1 & _).
  assert (Hst : step e w t MOk = SOk (w_set_stack w1 t st1)) by (unfold step; rewrite Ht, El, (calm_reap e w0) by auto; reflexivity).
  exists 0, n1, (w_set_stack w1 t st1), st1. split; [cbn; rewrite Hst; reflexivity|]. split; [exact Hl|]. split; [exact Hc|].
  split; [rewrite Lg in Hl; apply app_inv_tail in Hl; congruence|]. split; [|split; [|exact HQ]].
  - split; [|split; [eapply calm_step; eauto|exact Hk]]. eapply (run_reachable _ _ _ [(t, MOk)]); [exact Hre|]. cbn. rewrite Hst. reflexivity.
  - cbn. destruct Hli as (_ & _ & _ & _ & ->). apply list_lookup_insert. eapply lookup_lt_Some; eauto.
Qed.
(** Without the mutex. *)
Lemma comes_plain h st (Q : list frame -> Prop) xs :
  (forall w, good h w -> w_thr w !! t = Some st -> exists w1 st1 n1, lstep e w t MOk st = LOk w1 st1 /\ w_log w1 = n1 ++ w_log w /\ calls_in n1 = xs /\ w_sigs w1 = w_sigs w /\ Q st1) ->
  comes h st h Q xs.
Proof.
  intros H. apply comes_step. intros w Hg Ht. destruct (H w Hg Ht) as (w1 & st1 & n1 & E & Hl & Hc & Hs & HQ). exists w1, st1, n1. do 3 (split; [assumption|]). split; [|exact HQ].
  intros s t'. rewrite (lock_same w w1) by auto. apply Hg.
Qed.

(** ** The pieces *)
Lemma comes_ret o st : comes None (FProg (Ret o) :: st) None (eq (FRet o :: st)) [].
Proof. apply comes_plain. intros w Hg Ht. eexists _, _, []. split; [reflexivity|]. auto. Qed.
Lemma comes_wait o k st : comes None (FRet o :: FWait k :: st) None (eq (FProg (k o) :: st)) [].
Proof. apply comes_plain. intros w Hg Ht. eexists _, _, []. split; [reflexivity|]. auto. Qed.

Lemma kept_alive l : kept w0 l = slot_alive w0 l.
Proof. rewrite still_alive by exact H0. unfold kept. apply existsb_ext'. intros r. unfold sig_keeps. reflexivity. Qed.

Lemma good_sig h w s xs cb : listed w0 s xs cb -> good h w ->
  exists r v, get_sig w s = Some r /\ sg_blocked r = false /\ sg_comb r = cb /\ sg_vec r = Some v /\ vec_of w v = xs /\ vec_of w0 v = xs.
Proof.
  intros (r0 & v & Hs & Ha & Hv & Hx & Hcb) (Hre & (E & Ev & _) & _). pose proof (same_sig _ _ s E) as E1. rewrite Hs in E1. unfold get_sig.
  destruct (w_sigs w !! s) as [r|] eqn:Es; [|discriminate]. exists r, v. pose proof (never_blocked _ _ _ _ _ Hre Es) as Hb.
  destruct r, r0. cbn in *. injection E1 as -> -> -> ->. subst. unfold vec_of. rewrite Ev. auto 10.
Qed.

Lemma comes_lock s r0 args st : w_sigs w0 !! s = Some r0 -> sg_alive r0 = true ->
  comes None (FLock s (KRead args) :: st) (Some s) (eq (FWrite s (KRead args) :: st)) [].
Proof.
  intros Hs Ha. apply comes_step. intros w Hg Ht. pose proof (same_sig _ _ s (proj1 (proj1 (proj2 Hg)))) as E1. rewrite Hs in E1.
  destruct (w_sigs w !! s) as [r|] eqn:Es; [|discriminate].
  assert (Hr : get_sig w s = Some r). { unfold get_sig. rewrite Es. destruct r, r0. cbn in *. injection E1 as -> -> -> ->. rewrite Ha. reflexivity. }
  destruct (lock_of_sig _ _ _ Hr) as [Hlk Hlr].
  assert (Hn : sg_lock r = None). { destruct (sg_lock r) as [t'|]; [|reflexivity]. destruct Hg as (_ & _ & Hlo). apply Hlo in Hlk as [? _]. discriminate. }
  eexists _, _, []. split; [cbn; rewrite Hr, Hn; reflexivity|]. do 2 (split; [reflexivity|]). split; [|reflexivity].
  intros s' t'. rewrite lock_alter, Hlr. destruct Hg as (_ & _ & Hlo). case_decide; [subst; cbn; split; [intros [= ->]; auto|intros [_ ->]; auto]|].
  rewrite Hlo. split; [intros [? _]; discriminate|intros [[= ->] _]; congruence].
Qed.
Lemma comes_start s r0 args k st : w_sigs w0 !! s = Some r0 -> sg_alive r0 = true ->
  comes None (FProg (Do (OEmit s args) k) :: st) None (eq (FLock s (KRead args) :: FWait k :: st)) [].
Proof.
  intros Hs Ha. apply comes_plain. intros w Hg Ht. pose proof (same_sig _ _ s (proj1 (proj1 (proj2 Hg)))) as E1. rewrite Hs in E1.
  destruct (w_sigs w !! s) as [r|] eqn:Es; [|discriminate]. pose proof (never_blocked _ _ _ _ _ (proj1 Hg) Es) as Hb.
  assert (Hr : get_sig w s = Some r). { unfold get_sig. rewrite Es. destruct r, r0. cbn in *. injection E1 as -> -> -> ->. rewrite Ha. reflexivity. }
  eexists _, _, []. split; [cbn; rewrite Hr, Hb; reflexivity|]. auto.
Qed.
Lemma comes_read s args st xs cb : listed w0 s xs cb ->
  comes (Some s) (FWrite s (KRead args) :: st) None
    (fun st1 => exists eid v, st1 = FProg (combiner e cb (length xs)) :: FEmit s eid v args :: st /\ vec_of w0 v = xs) [].
Proof.
  intros Hli. apply comes_step. intros w Hg Ht. destruct (good_sig _ w _ _ _ Hli Hg) as (r & v & Hr & _ & Hrc & Hrv & Hve & Hve0). destruct (lock_of_sig _ _ _ Hr) as [Hlk Hlr].
  eexists _, _, [_]. split; [cbn; unfold step_write; rewrite Hlr, Hrv, Hve, Hrc; reflexivity|]. do 2 (split; [reflexivity|]). split; [|cbn; eauto].
  intros s' t'. destruct Hg as (_ & _ & Hlo).
  match goal with |- lock_of (w_add_log (w_set_neid ?w1 _) _) _ = _ <-> _ => change (lock_of w1 s' = Some t' <-> None = Some s' /\ t' = t) end.
  rewrite lock_alter, Hlr. case_decide; cbn; [split; [discriminate|intros [? _]; discriminate]|]. rewrite Hlo. split; intros [E _]; congruence.
Qed.
Lemma comes_emit s args k st xs cb : listed w0 s xs cb ->
  comes None (FProg (Do (OEmit s args) k) :: st) None
    (fun st1 => exists eid v, st1 = FProg (combiner e cb (length xs)) :: FEmit s eid v args :: FWait k :: st /\ vec_of w0 v = xs) [].
Proof.
  intros Hli. assert (Hli' := Hli). destruct Hli' as (r0 & v & Hs & Ha & _).
  apply (comes_then None _ None _ None _ [] [] (comes_start s r0 args k st Hs Ha)).
  apply (comes_then None _ _ _ None _ [] [] (comes_lock s r0 args (FWait k :: st) Hs Ha)). apply comes_read. exact Hli.
Qed.
Lemma comes_emitted r s eid v a k st : comes None (FRet r :: FEmit s eid v a :: FWait k :: st) None (eq (FProg (k r) :: st)) [].
Proof.
  apply (comes_then None _ None (FRet r :: FWait k :: st) None _ [] []); [|apply comes_wait].
  apply comes_plain. intros w Hg Ht. eexists _, _, [_]. split; [reflexivity|]. auto.
Qed.

Lemma comes_deref pos k s eid v a st l : vec_of w0 v !! pos = Some l ->
  comes None (FProg (Do (ODeref pos) k) :: FEmit s eid v a :: st) None
    (fun st1 => exists n, st1 = FSlot (RSlot l) SBlk a None (Some eid) n :: FDeref k pos l :: FEmit s eid v a :: st) [].
Proof.
  intros Hl. apply comes_plain. intros w Hg Ht. destruct Hg as (_ & (_ & Ev & _) & _). eexists _, _, []. split; [cbn; unfold vec_of in *; rewrite Ev, Hl; reflexivity|]. eauto 6.
Qed.
Lemma comes_derefd r a' k pos l s eid v a st : comes None (FRet (OutCall r a') :: FDeref k pos l :: FEmit s eid v a :: st) None (eq (FProg (k r) :: FEmit s eid v a' :: st)) [].
Proof. apply comes_plain. intros w Hg Ht. eexists _, _, [_]. split; [reflexivity|]. auto. Qed.

(** ** Calling a slot *)
Lemma takes_split l : takes_calls w0 l =
  match get_ref w0 (RSlot l) with Some i => if im_blk i || negb (im_conn i) || expired w0 (im_c i) then None else Some (im_c i) | None => None end.
Proof.
  unfold takes_calls. cbn. destruct (w_slots w0 !! l) as [r|]; [|reflexivity]. cbn. unfold expired.
  destruct (c_kind (im_c (sl_impl r))); rewrite ?still_obj by exact H0; reflexivity.
Qed.
Lemma good_slot w l : slot_alive w0 l = true -> good None w ->
  ref_ok w (RSlot l) = true /\ get_ref w (RSlot l) = get_ref w0 (RSlot l) /\ (forall c, expired w c = expired w0 c) /\ (forall o, obj_alive w o = obj_alive w0 o).
Proof.
  intros Ha (_ & Hc & _). rewrite (calm_ref_ok w0 w), (calm_ref w0 w) by auto. split; [exact Ha|]. split; [reflexivity|].
  split; [intros c; apply (calm_expired w0 w); auto|intros o; apply (calm_obj w0 w); auto].
Qed.
Section slot.
Context (l : lid) (a : list arg) (eid : option nat) (n : nat) (tl : list frame).
Hypothesis Hal : slot_alive w0 l = true.
Notation at_stage g pin := (FSlot (RSlot l) g a pin eid n :: tl).
Lemma comes_stage g pin g' pin' : (forall w, good None w -> ref_ok w (RSlot l) = true -> get_ref w (RSlot l) = get_ref w0 (RSlot l) -> (forall c, expired w c = expired w0 c) ->
    (forall o, obj_alive w o = obj_alive w0 o) -> lstep e w t MOk (at_stage g pin) = LOk w (at_stage g' pin')) ->
  comes None (at_stage g pin) None (eq (at_stage g' pin')) [].
Proof. intros H. apply comes_plain. intros w Hg Ht. destruct (good_slot w l Hal Hg) as (E1 & E2 & E3 & E4). exists w, (at_stage g' pin'), []. auto 6. Qed.
Lemma comes_out g pin : (forall w, good None w -> ref_ok w (RSlot l) = true -> get_ref w (RSlot l) = get_ref w0 (RSlot l) -> (forall c, expired w c = expired w0 c) ->
    (forall o, obj_alive w o = obj_alive w0 o) -> lstep e w t MOk (at_stage g pin) = skip w t (RSlot l) eid n a tl) ->
  comes None (at_stage g pin) None (eq (FRet (OutCall (OutOpt None) a) :: tl)) [].
Proof. intros H. apply comes_plain. intros w Hg Ht. destruct (good_slot w l Hal Hg) as (E1 & E2 & E3 & E4). eexists _, _, [_]. split; [rewrite H by auto; reflexivity|]. auto. Qed.

Ltac here := intros w Hg Ho Hr He Hob; cbn -[ref_ok get_ref]; unfold step_slot; rewrite Ho, Hr; try match goal with E : get_ref w0 _ = _ |- _ => rewrite E end.
Lemma comes_skipped : takes_calls w0 l = None -> comes None (at_stage SBlk None) None (eq (FRet (OutCall (OutOpt None) a) :: tl)) [].
Proof.
  rewrite takes_split. destruct (get_ref w0 (RSlot l)) as [i|] eqn:Ei; [|intros _; apply comes_out; here; reflexivity].
  destruct (im_blk i) eqn:Eb; [intros _; apply comes_out; here; rewrite Eb; reflexivity|].
  intros Hx. apply (comes_then None _ None (at_stage SExp None) None _ [] []); [apply comes_stage; here; rewrite Eb; reflexivity|].
  destruct (expired w0 (im_c i)) eqn:Ex; [apply comes_out; here; rewrite He, Ex; reflexivity|].
  apply (comes_then None _ None (at_stage SConn None) None _ [] []); [apply comes_stage; here; rewrite He, Ex; reflexivity|].
  destruct (im_conn i) eqn:Ec; [discriminate|]. apply comes_out; here; rewrite Ec; reflexivity.
Qed.
Lemma comes_called c : takes_calls w0 l = Some c ->
  comes None (at_stage SBlk None) None (fun st1 => exists pin, st1 = FProg (e_body e (RSlot l) c a) :: FSlot (RSlot l) SRun (consume e c a) pin eid n :: tl) [(l, a)].
Proof.
  rewrite takes_split. destruct (get_ref w0 (RSlot l)) as [i|] eqn:Ei; [|discriminate].
  destruct (im_blk i) eqn:Eb; [discriminate|]. destruct (im_conn i) eqn:Ec; [|discriminate]. destruct (expired w0 (im_c i)) eqn:Ex; [discriminate|]. intros [= <-].
  apply (comes_then None _ None (at_stage SExp None) None _ [] [_]); [apply comes_stage; here; rewrite Eb; reflexivity|].
  apply (comes_then None _ None (at_stage SConn None) None _ [] [_]); [apply comes_stage; here; rewrite He, Ex; reflexivity|].
  apply (comes_then None _ None (at_stage SDisp None) None _ [] [_]); [apply comes_stage; here; rewrite Ec; reflexivity|].
  assert (Hcall : forall pin, comes None (at_stage SCall pin) None (fun st1 => exists pin, st1 = FProg (e_body e (RSlot l) (im_c i) a) :: FSlot (RSlot l) SRun (consume e (im_c i) a) pin eid n :: tl) [(l, a)]).
  { intros pin. apply comes_plain. intros w Hg Ht. destruct (good_slot w l Hal Hg) as (Ho & Hr & _). eexists _, _, [_].
    split; [cbn -[ref_ok get_ref]; unfold step_slot; rewrite Ho, Hr, Ei; reflexivity|]. eauto 6. }
  destruct (c_kind (im_c i)) eqn:Ek.
  1,2: apply (comes_then None _ None (at_stage SCall None) None _ [] [_]); [apply comes_stage; here; rewrite Ek; reflexivity|apply Hcall].
  apply (comes_then None _ None (at_stage SPin (Some (c_pv (im_c i)))) None _ [] [_]).
  { apply comes_stage; here. unfold expired in Ex. rewrite Ek in Ex. apply negb_false_iff in Ex. rewrite Ek, Hob, Ex. reflexivity. }
  apply (comes_then None _ None (at_stage SCall (Some (c_pv (im_c i)))) None _ [] [_]); [apply comes_stage; here; rewrite Ec; reflexivity|apply Hcall].
Qed.
Lemma comes_back o r pin : wrap e o = Some r -> comes None (FRet o :: at_stage SRun pin) None (eq (FRet (OutCall r a) :: tl)) [].
Proof. intros Hw. apply comes_plain. intros w Hg Ht. eexists _, _, [_]. split; [cbn; rewrite Hw; reflexivity|]. auto. Qed.
End slot.

(** ** Queries *)
Lemma comes_ask v x k st : replies w0 v x -> comes None (FProg (Do (OVar v) k) :: st) None (eq (FProg (k x) :: st)) [].
Proof.
  intros Han. apply (comes_trans None _ None (fun st1 => st1 = FRet x :: FWait k :: st \/ exists l, st1 = FRet x :: FTmp l :: FWait k :: st) None _ [] []).
  - apply comes_plain. intros w Hg Ht. assert (Hc : calm w0 w) by apply Hg. assert (Hal : forall l, slot_alive w l = kept w0 l) by (intros l; rewrite kept_alive; apply calm_alive; auto).
    assert (Hob : forall o, obj_alive w o = default false (v_objs (w_vars w0) !! o)) by (intros o; rewrite (calm_obj w0 w), still_obj by auto; reflexivity).
    destruct Hc as (_ & _ & Hsl & Hva & _). cbn -[get_conn].
    assert (Hgc : forall c r, v_conns (w_vars w0) !! c = Some r -> cn_live r = true -> get_conn (w_vars w) c = Some r) by (intros c r Hr Hlv; unfold get_conn; rewrite Hva, Hr, Hlv; reflexivity).
    destruct Han as [c r v Hr Hlv Hs Hv|c r l Hr Hlv Hs|c r l i Hr Hlv Hs Hi|c r l i Hr Hlv Hs Hi|z a Hz].
    + exists (w_set_vars w (w_vars w)), (FRet (OutBool false) :: FWait k :: st), [].
      destruct Hv as [-> |[-> | ->]]; unfold exec_vop; cbn -[get_conn]; rewrite (Hgc _ _ Hr Hlv), Hs; auto 10.
    + eexists (w_add_log (w_set_vars w (w_vars w)) _), _, [_]. unfold exec_vop. cbn -[get_conn]. rewrite (Hgc _ _ Hr Hlv), Hs. split; [reflexivity|]. split; [reflexivity|]. split; [reflexivity|]. split; [reflexivity|]. rewrite Hal. cbn. auto.
    + eexists (w_add_log (w_set_vars w (w_vars w)) _), _, [_]. unfold exec_vop. cbn -[get_conn]. rewrite (Hgc _ _ Hr Hlv), Hs. split; [reflexivity|]. split; [reflexivity|]. split; [reflexivity|]. split; [reflexivity|].
      unfold slot_connected, impl_connected, expired. rewrite Hal, Hsl. destruct (w_slots w0 !! l) as [rr|]; [|discriminate]. cbn in Hi. injection Hi as <-.
      match goal with |- FRet (OutBool ?b) :: _ = FRet (OutBool ?b') :: _ \/ _ => assert (E : b = b'); [|rewrite E] end.
      { destruct (kept w0 l); [|reflexivity]. cbn. destruct (c_kind (im_c (sl_impl rr))); cbn; [rewrite andb_true_r; reflexivity|rewrite andb_true_r; reflexivity|]. rewrite Hob, negb_involutive. apply andb_comm. }
      unfold held. rewrite Hal. destruct (kept w0 l); cbn; eauto.
    + eexists (w_add_log (w_set_vars w (w_vars w)) _), _, [_]. unfold exec_vop. cbn -[get_conn]. rewrite (Hgc _ _ Hr Hlv), Hs. split; [reflexivity|]. split; [reflexivity|]. split; [reflexivity|]. split; [reflexivity|].
      unfold slot_blocked. rewrite Hal, Hsl. destruct (w_slots w0 !! l) as [rr|]; [|discriminate]. cbn in Hi. injection Hi as <-. unfold held. rewrite Hal. destruct (kept w0 l); cbn; eauto.
    + exists (w_set_vars w (w_vars w)), (FRet (OutZ a) :: FWait k :: st), []. unfold exec_vop. cbn. rewrite Hva. rewrite Hz. auto 10.
  - intros st1 [-> |[l ->]]; [apply comes_wait|]. apply (comes_then None _ None (FRet x :: FWait k :: st) None _ [] []); [|apply comes_wait].
    apply comes_plain. intros w Hg Ht. eexists _, _, []. split; [reflexivity|]. auto.
Qed.
(** ** Programs do what they mean *)
Definition returns_to (st : list frame) (r : out) (st1 : list frame) : Prop := exists st', like st st' /\ st1 = FRet r :: st'.
Lemma listed_alive s eid v a st w pos l st1 : good None w -> w_thr w !! t = Some st1 -> FEmit s eid v a :: st `suffix_of` st1 -> vec_of w0 v !! pos = Some l -> slot_alive w0 l = true.
Proof.
  intros (_ & (_ & _ & _ & _ & Hc) & _) Hst [pre ->] Hl. apply Hc in Hst. apply Forall_app in Hst as [_ Hst]. apply Forall_inv in Hst.
  destruct Hst as (s' & r & Hs & Ha & Hv). rewrite still_alive by exact H0. apply existsb_exists. exists r. split; [apply elem_of_list_In, elem_of_list_lookup; eauto|].
  unfold sig_keeps. rewrite Ha, Hv. cbn. apply bool_decide_eq_true. eapply elem_of_list_lookup_2; eauto.
Qed.
Lemma comes_if h st h' Q tr (P : Prop) : (forall w, good h w -> w_thr w !! t = Some st -> P) -> (P -> comes h st h' Q tr) -> comes h st h' Q tr.
Proof. intros H1 H2 w Hg Ht. exact (H2 (H1 w Hg Ht) w Hg Ht). Qed.

Lemma means_sound cx a p o tr : means e w0 cx a p o tr -> forall st, in_context w0 st cx a -> comes None (FProg p :: st) None (returns_to st o) tr.
Proof.
  apply (means_ind2 e w0 (fun cx a p o tr => forall st, in_context w0 st cx a -> comes None (FProg p :: st) None (returns_to st o) tr)
    (fun l a r a' tr => forall eid n tl, slot_alive w0 l = true -> comes None (FSlot (RSlot l) SBlk a None eid n :: tl) None (eq (FRet (OutCall r a') :: tl)) tr)).
  - intros cx0 a0 o0 st _. eapply comes_weaken; [apply comes_ret|]. intros ? <-. exists st. split; [apply like_refl|reflexivity].
  - intros cx0 a0 s args k xs cb r tr1 o0 tr2 Hli _ IH1 _ IH2 st Hcx.
    apply (comes_trans None _ None _ None _ [] _ (comes_emit s args k st xs cb Hli)). intros st1 (eid & v & -> & Hv).
    eapply comes_trans; [apply (IH1 (FEmit s eid v args :: FWait k :: st)); exists s, eid, v, (FWait k :: st); auto|]. intros st1 (st' & (a' & ->) & ->).
    apply (comes_then None _ None _ None _ [] _ (comes_emitted r s eid v a' k st)). apply IH2. exact Hcx.
  - intros xs a0 pos k l r a' tr1 o0 tr2 Hl _ IH1 _ IH2 st (s & eid & v & st0 & -> & Hv). subst xs.
    apply (comes_if _ _ _ _ _ (slot_alive w0 l = true)). { intros w Hg Ht. eapply (listed_alive s eid v a0 st0); eauto. exists [FProg (Do (ODeref pos) k)]. reflexivity. }
    intros Hal. apply (comes_trans None _ None _ None _ [] _ (comes_deref pos k s eid v a0 st0 l Hl)). intros st1 (n & ->).
    eapply comes_then; [apply IH1; exact Hal|]. apply (comes_then None _ None _ None _ [] _ (comes_derefd r a' k pos l s eid v a0 st0)).
    eapply comes_weaken; [apply IH2; exists s, eid, v, st0; auto|]. intros st1 (st' & Hlk & ->). exists st'. split; [|reflexivity]. destruct Hlk as (a2 & ->). cbn. eauto.
  - intros cx0 a0 v k x o0 tr0 Hre _ IH st Hcx. apply (comes_then None _ None _ None _ [] _ (comes_ask v x k st Hre)). apply IH. exact Hcx.
  - intros l a0 Ht eid n tl Hal. apply comes_skipped; auto.
  - intros l a0 c o0 r a' tr0 Ht _ IH Hr Hlo eid n tl Hal. apply left_consume in Hlo as ->. apply returned_wrap in Hr.
    apply (comes_trans None _ None _ None _ [(l, a0)] _ (comes_called l a0 eid n tl Hal c Ht)). intros st1 (pin & ->).
    match goal with |- comes _ _ _ _ ?x => rewrite <- (app_nil_r x) end.
    eapply comes_trans; [apply IH; split; [reflexivity|discriminate]|]. intros st1 (st' & -> & ->). apply comes_back. exact Hr.
Qed.

(** ** And whatever returns has a meaning *)
Definition ends (w : world) (n : nat) : Prop := exists wf o, run e w (alone t n) = inl wf /\ finished_with wf t o.
Lemma ends_later w n h st h' Q tr : ends w n -> good h w -> w_thr w !! t = Some st -> (forall o, st <> [FRet o]) -> comes h st h' Q tr ->
  exists w' st' m, m < n /\ ends w' m /\ good h' w' /\ w_thr w' !! t = Some st' /\ Q st'.
Proof.
  intros (wf & o & Hn & Hf) Hg Ht Hne Hc. destruct (Hc w Hg Ht) as (k & new & w' & st' & Hk & _ & _ & _ & Hg' & Ht' & HQ).
  assert (Hpos : n <> 0). { intros ->. cbn in Hn. injection Hn as <-. unfold finished_with in Hf. rewrite Ht in Hf. injection Hf as ->. eapply Hne. reflexivity. }
  exists w', st', (n - S k). split; [lia|]. split; [|auto]. exists wf, o. split; [|exact Hf].
  destruct (le_lt_dec (S k) n) as [Hle|Hlt].
  - replace n with (S k + (n - S k)) in Hn by lia. rewrite alone_add, run_app, Hk in Hn. exact Hn.
  - replace (S k) with (n + (S k - n)) in Hk by lia. rewrite alone_add, run_app, Hn, (alone_stopped e wf t o _ Hf) in Hk. injection Hk as <-.
    replace (n - S k) with 0 by lia. reflexivity.
Qed.
Lemma ends_step w n st : ends w n -> w_thr w !! t = Some st -> (forall o, st <> [FRet o]) -> forall u, lstep e w t MOk st <> LUB u.
Proof.
  intros (wf & o & Hn & Hf) Ht Hne u Hu. destruct n as [|n].
  - cbn in Hn. injection Hn as <-. unfold finished_with in Hf. rewrite Ht in Hf. injection Hf as ->. eapply Hne. reflexivity.
  - cbn in Hn. unfold step in Hn. rewrite Ht, Hu in Hn. discriminate.
Qed.
Lemma good_looks w p st : good None w -> w_thr w !! t = Some (FProg p :: st) -> only_looks p.
Proof. intros (_ & (_ & _ & _ & _ & Hc) & _) Ht. apply Hc in Ht. apply Forall_inv in Ht. exact Ht. Qed.
Lemma has_meaning n : forall w p st cx a, ends w n -> good None w -> w_thr w !! t = Some (FProg p :: st) -> in_context w0 st cx a ->
  exists o tr, means e w0 cx a p o tr.
Proof.
  induction n as [n IH] using lt_wf_ind. intros w p st cx a He Hg Ht Hcx. pose proof (good_looks _ _ _ Hg Ht) as Hp.
  destruct p as [o|o k]; [eexists _, _; constructor|]. inversion Hp as [|? ? Hlo Hk]; subst.
  pose proof (ends_step w n _ He Ht ltac:(discriminate)) as Hub. cbn -[exec_vop] in Hub. assert (Hg' := Hg). destruct Hg' as (Hre & Hc & Hlk).
  destruct o; try contradiction; cbn [start_op] in Hub.
  - (* queries *)
    assert (Hx : exists x, replies w0 v x). 2:{ destruct Hx as [x Hx]. destruct (ends_later w n None _ None _ [] He Hg Ht ltac:(discriminate) (comes_ask v x k st Hx)) as (w' & st' & m & Hm & He' & Hg' & Ht' & <-).
      destruct (IH m Hm w' _ _ cx a He' Hg' Ht' Hcx) as (o & tr & Hmean). exists o, tr. econstructor; eauto. }
    destruct Hc as (_ & _ & Hsl & Hva & _). 
    assert (Hlive : forall c, (forall u, match get_conn (w_vars w) c with Some _ => LDone | None => LUB UClient end <> LUB u) -> exists r, v_conns (w_vars w0) !! c = Some r /\ cn_live r = true /\
        forall l, cn_slot r = Some l -> exists i, sl_impl <$> w_slots w0 !! l = Some i).
    { intros c Hno. unfold get_conn in Hno. rewrite Hva in Hno. destruct (v_conns (w_vars w0) !! c) as [r|] eqn:Er; [|exfalso; eapply Hno; reflexivity].
      destruct (cn_live r) eqn:El; [|exfalso; eapply Hno; reflexivity]. exists r. split; [reflexivity|]. split; [exact El|]. intros l Hl.
      assert (Hlt : l < length (w_slots w0)) by (eapply (handle_known e ps); eauto). destruct (lookup_lt_is_Some_2 _ _ Hlt) as [sr ->]. eexists. reflexivity. }
    destruct v; try contradiction.
    + destruct (Hlive c) as (r & Hr & Hl & Hs). { intros u Hu. destruct (get_conn (w_vars w) c) eqn:E; [discriminate|]. eapply Hub; cbn [start_op]; unfold exec_vop; cbv zeta; rewrite E; reflexivity. }
      destruct (cn_slot r) as [l|] eqn:El; eexists; [eapply an_valid|eapply an_none]; eauto.
    + destruct (Hlive c) as (r & Hr & Hl & Hs). { intros u Hu. destruct (get_conn (w_vars w) c) eqn:E; [discriminate|]. eapply Hub; cbn [start_op]; unfold exec_vop; cbv zeta; rewrite E; reflexivity. }
      destruct (cn_slot r) as [l|] eqn:El; [destruct (Hs l eq_refl) as [i Hi]|]; eexists; [eapply an_connected|eapply an_none]; eauto.
    + destruct (Hlive c) as (r & Hr & Hl & Hs). { intros u Hu. destruct (get_conn (w_vars w) c) eqn:E; [discriminate|]. eapply Hub; cbn [start_op]; unfold exec_vop; cbv zeta; rewrite E; reflexivity. }
      destruct (cn_slot r) as [l|] eqn:El; [destruct (Hs l eq_refl) as [i Hi]|]; eexists; [eapply an_blocked|eapply an_none]; eauto.
    + cbn [start_op] in Hub. unfold exec_vop in Hub. cbv zeta in Hub. rewrite Hva in Hub. destruct (v_store (w_vars w0) !! a0) as [z|] eqn:Ez; [|exfalso; eapply Hub; reflexivity]. eexists. constructor. exact Ez.
  - (* emissions *)
    destruct (get_sig w s) as [r|] eqn:Es; [|exfalso; eapply Hub; reflexivity].
    assert (Hs0 : exists r0, w_sigs w0 !! s = Some r0 /\ sg_alive r0 = true).
    { unfold get_sig in Es. destruct (w_sigs w !! s) as [r'|] eqn:Es'; [|discriminate]. destruct (sg_alive r') eqn:Ea; [|discriminate].
      destruct (same_sig_some _ _ _ _ (proj1 Hc) Es') as (r0 & Hr0' & Ha0 & _). exists r0. split; [auto|congruence]. }
    destruct Hs0 as (r0 & Hs0 & Ha0).
    destruct (ends_later w n None _ None _ [] He Hg Ht ltac:(discriminate) (comes_start s r0 args k st Hs0 Ha0)) as (w1 & st1 & m1 & Hm1 & He1 & Hg1 & Ht1 & <-).
    destruct (ends_later w1 m1 None _ _ _ [] He1 Hg1 Ht1 ltac:(discriminate) (comes_lock s r0 args (FWait k :: st) Hs0 Ha0)) as (w2 & st2 & m2 & Hm2 & He2 & Hg2 & Ht2 & <-).
    pose proof (ends_step w2 m2 _ He2 Ht2 ltac:(discriminate)) as Hub2. cbn in Hub2. unfold step_write in Hub2.
    pose proof (same_sig _ _ s (proj1 (proj1 (proj2 Hg2)))) as E2. rewrite Hs0 in E2. destruct (w_sigs w2 !! s) as [r2|]; [|discriminate].
    destruct (sg_vec r2) as [v|] eqn:Ev2; [|exfalso; eapply Hub2; reflexivity].
    assert (Hli : listed w0 s (vec_of w0 v) (sg_comb r0)). { exists r0, v. split; [auto|]. split; [auto|]. split; [|auto]. destruct r2, r0. cbn in *. injection E2 as -> -> -> ->. exact Ev2. }
    destruct (ends_later w2 m2 _ _ None _ [] He2 Hg2 Ht2 ltac:(discriminate) (comes_read s args (FWait k :: st) _ _ Hli)) as (w3 & st3 & m3 & Hm3 & He3 & Hg3 & Ht3 & eid & v' & -> & Hv').
    destruct (IH m3 ltac:(lia) w3 _ _ (Some (vec_of w0 v)) args He3 Hg3 Ht3) as (r3 & tr3 & Hmean3); [exists s, eid, v', (FWait k :: st); auto|].
    destruct (ends_later w3 m3 None _ None _ tr3 He3 Hg3 Ht3 ltac:(discriminate) (means_sound _ _ _ _ _ Hmean3 _ ltac:(exists s, eid, v', (FWait k :: st); auto)))
      as (w4 & st4 & m4 & Hm4 & He4 & Hg4 & Ht4 & st' & (a' & ->) & ->).
    destruct (ends_later w4 m4 None _ None _ [] He4 Hg4 Ht4 ltac:(discriminate) (comes_emitted r3 s eid v' a' k st)) as (w5 & st5 & m5 & Hm5 & He5 & Hg5 & Ht5 & <-).
    destruct (IH m5 ltac:(lia) w5 _ _ cx a He5 Hg5 Ht5 Hcx) as (o & tr & Hmean). exists o, (tr3 ++ tr). econstructor; eauto.
  - (* dereferencing *)
    destruct cx as [xs|].
    2:{ destruct Hcx as [_ Hne]. exfalso. destruct st as [|f st]; [eapply Hub; reflexivity|]. destruct f; try (eapply Hub; reflexivity). eapply Hne. reflexivity. }
    destruct Hcx as (s & eid & v & st0 & -> & Hv). assert (Hvw : vec_of w v = xs) by (destruct Hc as (_ & Ev & _); unfold vec_of in *; rewrite Ev; exact Hv). rewrite Hvw in Hub.
    destruct (xs !! pos) as [l|] eqn:El; [|exfalso; eapply Hub; reflexivity]. clear Hub.
    assert (Hal : slot_alive w0 l = true). { eapply (listed_alive s eid v a st0 w pos); eauto; [|rewrite Hv; exact El]. exists [FProg (Do (ODeref pos) k)]. reflexivity. }
    assert (El' : vec_of w0 v !! pos = Some l) by (rewrite Hv; exact El).
    destruct (ends_later w n None _ None _ [] He Hg Ht ltac:(discriminate) (comes_deref pos k s eid v a st0 l El')) as (w1 & st1 & m1 & Hm1 & He1 & Hg1 & Ht1 & n1 & ->).
    assert (Hsm : exists r a' tr, slot_means e w0 l a r a' tr /\ exists w2 m2, m2 < n /\ ends w2 m2 /\ good None w2 /\ w_thr w2 !! t = Some (FRet (OutCall r a') :: FDeref k pos l :: FEmit s eid v a :: st0)).
    { destruct (takes_calls w0 l) as [c|] eqn:Etk.
      - destruct (ends_later w1 m1 None _ None _ _ He1 Hg1 Ht1 ltac:(discriminate) (comes_called l a (Some eid) n1 _ Hal c Etk)) as (w2 & st2 & m2 & Hm2 & He2 & Hg2 & Ht2 & pin & ->).
        destruct (IH m2 ltac:(lia) w2 _ _ None [] He2 Hg2 Ht2) as (o & tr & Hmean); [split; [reflexivity|discriminate]|].
        destruct (ends_later w2 m2 None _ None _ _ He2 Hg2 Ht2 ltac:(discriminate) (means_sound _ _ _ _ _ Hmean _ (conj eq_refl (fun s0 e0 v0 a0 r0 (E0 : FSlot (RSlot l) SRun (consume e c a) pin (Some eid) n1 :: _ = FEmit s0 e0 v0 a0 :: r0) => ltac:(discriminate E0)))))
          as (w3 & st3 & m3 & Hm3 & He3 & Hg3 & Ht3 & st' & -> & ->).
        pose proof (ends_step w3 m3 _ He3 Ht3 ltac:(discriminate)) as Hub3. cbn in Hub3. destruct (wrap e o) as [r|] eqn:Ew; [|exfalso; eapply Hub3; reflexivity].
        destruct (ends_later w3 m3 None _ None _ _ He3 Hg3 Ht3 ltac:(discriminate) (comes_back l (consume e c a) (Some eid) n1 _ o r pin Ew)) as (w4 & st4 & m4 & Hm4 & He4 & Hg4 & Ht4 & <-).
        exists r, (consume e c a), ((l, a) :: tr). split; [econstructor; eauto; [apply returned_wrap; exact Ew|apply left_consume; reflexivity]|]. exists w4, m4. split; [lia|auto].
      - destruct (ends_later w1 m1 None _ None _ _ He1 Hg1 Ht1 ltac:(discriminate) (comes_skipped l a (Some eid) n1 _ Hal Etk)) as (w2 & st2 & m2 & Hm2 & He2 & Hg2 & Ht2 & <-).
        exists (OutOpt None), a, []. split; [constructor; exact Etk|]. exists w2, m2. split; [lia|auto]. }
    destruct Hsm as (r & a' & tr & Hsm & w2 & m2 & Hm2 & He2 & Hg2 & Ht2).
    destruct (ends_later w2 m2 None _ None _ [] He2 Hg2 Ht2 ltac:(discriminate) (comes_derefd r a' k pos l s eid v a st0)) as (w3 & st3 & m3 & Hm3 & He3 & Hg3 & Ht3 & <-).
    destruct (IH m3 ltac:(lia) w3 _ _ (Some xs) a' He3 Hg3 Ht3) as (o & tr' & Hmean); [exists s, eid, v, st0; auto|]. exists o, (tr ++ tr'). econstructor; eauto.
Qed.
End mean.

(** ** All threads *)
Lemma good_start e ps w0 t : reachable e ps w0 -> all_lookers w0 -> good e ps w0 t None w0.
Proof.
  intros Hr H0. destruct (all_alike_start e ps w0 Hr H0) as (Hc & _). split; [exact Hr|]. split; [exact Hc|].
  intros s' t'. split; [|intros [? _]; discriminate]. intros Hl. unfold lock_of in Hl. destruct (w_sigs w0 !! s') as [g|] eqn:Eg; [|discriminate]. cbn in Hl.
  destruct (unlocked e ps w0 s' g t' Hr H0 Eg Hl).
Qed.
Lemma means_alone e ps w0 t p o tr : looking_client e -> reachable e ps w0 -> all_lookers w0 -> w_thr w0 !! t = Some [FProg p] -> means e w0 None [] p o tr ->
  exists n new w', run e w0 (alone t n) = inl w' /\ w_log w' = new ++ w_log w0 /\ calls_in new = tr /\
    Forall (fun ev => thread_of ev = Some t) new /\ finished_with w' t o.
Proof.
  intros Hcl Hr H0 Ht Hm.
  destruct (means_sound e ps w0 t Hcl H0 None [] p o tr Hm [] ltac:(split; [reflexivity|discriminate]) w0 (good_start _ _ _ _ Hr H0) Ht)
    as (n & new & w' & st' & H1 & H2 & H3 & H4 & _ & H5 & st2 & -> & ->). exists (S n), new, w'. auto 6.
Qed.

Lemma call_unnumbered ev : call_of (unnumbered ev) = call_of ev.
Proof. destruct ev; reflexivity. Qed.
Lemma calls_in_unnumbered new : calls_in (map unnumbered new) = calls_in new.
Proof. unfold calls_in. f_equal. induction new as [|ev new IH]; [reflexivity|]. cbn. rewrite call_unnumbered, IH. reflexivity. Qed.

(** Whatever the schedule: the result of a thread and the calls it made are a meaning of its
    program. *)
Lemma finished_means e ps w0 sc w t p o : looking_client e -> reachable e ps w0 -> all_lookers w0 -> w_thr w0 !! t = Some [FProg p] ->
  run e w0 sc = inl w -> finished_with w t o -> exists new, w_log w = new ++ w_log w0 /\ means e w0 None [] p o (calls_in (mine t new)).
Proof.
  intros Hcl Hr H0 Ht Hrun Hfin.
  destruct (as_if_alone e ps w0 sc w t _ Hcl Hr H0 Ht Hrun) as (n & wt & evs & Hn & (new & Hl & He) & (new' & Hl' & He') & Hff).
  apply Hff in Hfin as Hft.
  destruct (has_meaning e ps w0 t Hcl H0 Hr n w0 p [] None []) as (o1 & tr & Hm); [exists wt, o; auto|apply good_start; auto|exact Ht|split; [reflexivity|discriminate]|].
  destruct (means_alone e ps w0 t p o1 tr Hcl Hr H0 Ht Hm) as (n2 & new2 & w2 & Hn2 & Hl2 & Hc2 & Hm2 & Hf2).
  destruct (alone_ends _ _ _ _ n _ _ _ Hn2 Hf2 Hn) as [E _]. pose proof (E _ _ eq_refl Hft) as Ew. subst wt.
  assert (Eo : o1 = o) by (unfold finished_with in Hft, Hf2; rewrite Hft in Hf2; injection Hf2; auto). subst o1.
  exists new. split; [exact Hl|]. rewrite Hl2 in Hl'. apply app_inv_tail in Hl'. subst new2.
  rewrite <- calls_in_unnumbered, <- He, He', calls_in_unnumbered, mine_all, Hc2 by auto. exact Hm.
Qed.

Lemma meaningful_lookers e w : meaningful e w -> all_lookers w.
Proof. intros H t st Ht. destruct (H _ _ Ht) as [(o & ->)|(p & o & tr & -> & Hp & _)]; [left|right]; eauto. Qed.
Lemma meaningful_defined e ps w0 sc u : looking_client e -> reachable e ps w0 -> meaningful e w0 -> run e w0 sc <> inr u.
Proof.
  intros Hcl Hr Hm Hrun. pose proof (meaningful_lookers _ _ Hm) as H0. destruct (undefined_alone e ps w0 sc u Hcl Hr H0 Hrun) as (t & n & Hn).
  destruct (w_thr w0 !! t) as [st|] eqn:Et.
  - destruct (Hm _ _ Et) as [(o & ->)|(p & o & tr & -> & Hp & Hme)].
    + rewrite (alone_stopped e w0 t o n Et) in Hn. discriminate.
    + destruct (means_alone e ps w0 t p o tr Hcl Hr H0 Et Hme) as (n2 & new2 & w2 & Hn2 & _ & _ & _ & Hf2).
      destruct (alone_ends _ _ _ _ n _ _ _ Hn2 Hf2 Hn) as [_ E]. apply (E u). reflexivity.
  - assert (E : run e w0 (alone t n) = inl w0); [|congruence]. clear Hn. induction n as [|n IH]; [reflexivity|]. cbn. unfold step. rewrite Et. exact IH.
Qed.
Lemma meaningful_finishes e ps w0 : looking_client e -> reachable e ps w0 -> meaningful e w0 ->
  exists k, forall sc, rounds (length (w_thr w0)) k sc ->
    exists w, run e w0 sc = inl w /\ forall t, t < length (w_thr w0) -> exists o, finished_with w t o.
Proof.
  intros Hcl Hr Hm. pose proof (meaningful_lookers _ _ Hm) as H0. apply (everything_finishes e ps w0 Hcl Hr H0). intros t st Et.
  destruct (Hm _ _ Et) as [(o & ->)|(p & o & tr & -> & Hp & Hme)]; [exists 0, w0, o; auto|].
  destruct (means_alone e ps w0 t p o tr Hcl Hr H0 Et Hme) as (n2 & new2 & w2 & Hn2 & _ & _ & _ & Hf2). eauto.
Qed.

(** ** Meanings are unique *)
Lemma listed_inj w s xs cb xs' cb' : listed w s xs cb -> listed w s xs' cb' -> xs = xs' /\ cb = cb'.
Proof. intros (r & v & H1 & _ & H2 & H3 & H4) (r' & v' & H1' & _ & H2' & H3' & H4'). rewrite H1 in H1'. injection H1' as <-. rewrite H2 in H2'. injection H2' as <-. split; congruence. Qed.
Lemma replies_inj w v x y : replies w v x -> replies w v y -> x = y.
Proof.
  intros Hx Hy. destruct Hx; inversion Hy; subst;
    repeat match goal with H : _ \/ _ |- _ => destruct H end; try discriminate; simplify_eq; try congruence; reflexivity.
Qed.
Lemma returned_inj e o r r' : returned_as e o r -> returned_as e o r' -> r = r'.
Proof. rewrite !returned_wrap. congruence. Qed.
Lemma left_inj e c a b b' : left_over e c a b -> left_over e c a b' -> b = b'.
Proof. rewrite !left_consume. congruence. Qed.
Lemma means_unique e w cx a p o tr : means e w cx a p o tr -> forall o' tr', means e w cx a p o' tr' -> o' = o /\ tr' = tr.
Proof.
  apply (means_ind2 e w (fun cx a p o tr => forall o' tr', means e w cx a p o' tr' -> o' = o /\ tr' = tr)
    (fun l a r a' tr => forall r2 a2 tr2, slot_means e w l a r2 a2 tr2 -> r2 = r /\ a2 = a' /\ tr2 = tr)).
  - intros cx0 a0 o0 o' tr' H. inversion H; auto.
  - intros cx0 a0 s args k xs cb r tr1 o0 tr2 Hli _ IH1 _ IH2 o' tr' H. inversion H as [|? ? ? ? ? xs' cb' r' tr1' ? tr2' Hli' Hm1 Hm2| |]; subst.
    destruct (listed_inj _ _ _ _ _ _ Hli Hli') as [-> ->]. destruct (IH1 _ _ Hm1) as [-> ->]. destruct (IH2 _ _ Hm2) as [-> ->]. auto.
  - intros xs a0 pos k l r a' tr1 o0 tr2 Hl _ IH1 _ IH2 o' tr' H. inversion H as [| |? ? ? ? l' r' a2 tr1' ? tr2' Hl' Hm1 Hm2|]; subst.
    rewrite Hl in Hl'. injection Hl' as <-. destruct (IH1 _ _ _ Hm1) as (-> & -> & ->). destruct (IH2 _ _ Hm2) as [-> ->]. auto.
  - intros cx0 a0 v k x o0 tr0 Hre _ IH o' tr' H. inversion H as [| | |? ? ? ? x' ? ? Hre' Hm]; subst. rewrite (replies_inj _ _ _ _ Hre' Hre) in Hm. apply IH. exact Hm.
  - intros l a0 Ht r2 a2 tr2 H. inversion H; subst; [auto|congruence].
  - intros l a0 c o0 r a' tr0 Ht _ IH Hr Hlo r2 a2 tr2 H. inversion H as [|? ? c' o' ? ? tr' Ht' Hm Hr' Hlo']; subst; [congruence|].
    rewrite Ht in Ht'. injection Ht' as <-. destruct (IH _ _ Hm) as [-> ->]. rewrite (returned_inj _ _ _ _ Hr Hr'), (left_inj _ _ _ _ _ Hlo Hlo'). auto.
Qed.

(** ** The default combiner *)
Lemma slot_result e w l a r a' tr : slot_means e w l a r a' tr -> (exists z, r = OutOpt z) \/ exists x, r = OutExn x.
Proof. intros H. inversion H as [|? ? ? ? ? ? ? _ _ Hr _]; subst; [eauto|]. destruct Hr; eauto. Qed.
Definition or_else (z acc : option Z) : option Z := match z with Some y => Some y | None => acc end.
Lemma olv_means e w xs rem pos acc a o tr : pos + rem = length xs ->
  means e w (Some xs) a (olv rem pos acc) o tr <->
  (exists vs a', each_called e w (drop pos xs) a vs a' tr /\ o = OutOpt (or_else (last_engaged vs) acc)) \/
  (exists pre l post vs a1 a2 tr1 tr2 x, drop pos xs = pre ++ l :: post /\ each_called e w pre a vs a1 tr1 /\ slot_means e w l a1 (OutExn x) a2 tr2 /\
     tr = tr1 ++ tr2 /\ o = OutExn x).
Proof.
  revert pos acc a o tr. induction rem as [|rem IH]; intros pos acc a o tr Hp.
  - rewrite drop_ge by lia. cbn. split.
    + intros H. inversion H; subst. left. exists [], a. split; [constructor|reflexivity].
    + intros [(vs & a' & H & ->)|(pre & l & post & ? & ? & ? & ? & ? & ? & E & _)]; [inversion H; subst; constructor|destruct pre; discriminate].
  - destruct (lookup_lt_is_Some_2 xs pos) as [l Hl]; [lia|]. rewrite (drop_S _ _ _ Hl). cbn. split.
    + intros H. inversion H as [| |? ? ? ? l' r a1 tr1 ? tr2 Hl' Hs Hm|]; subst. rewrite Hl in Hl'. injection Hl' as <-.
      destruct (slot_result _ _ _ _ _ _ _ Hs) as [[z ->]|[x ->]].
      * assert (Hm' : means e w (Some xs) a1 (olv rem (S pos) (or_else z acc)) o tr2) by (destruct z; exact Hm).
        apply IH in Hm' as [(vs & a' & Hec & ->)|(pre & l2 & post & vs & b1 & b2 & t1 & t2 & x & E & Hec & Hsx & -> & ->)]; [| |lia].
        -- left. exists (z :: vs), a'. split; [econstructor; eauto|]. cbn. destruct (last_engaged vs), z; reflexivity.
        -- right. exists (l :: pre), l2, post, (z :: vs), b1, b2, (tr1 ++ t1), t2, x. split; [rewrite E; reflexivity|]. split; [econstructor; eauto|]. split; [exact Hsx|]. split; [apply app_assoc|reflexivity].
      * inversion Hm; subst. right. exists [], l, (drop (S pos) xs), [], a, a1, [], tr1, x. split; [reflexivity|]. split; [constructor|]. rewrite app_nil_r. auto.
    + intros [(vs & a' & Hec & ->)|(pre & l2 & post & vs & b1 & b2 & t1 & t2 & x & E & Hec & Hsx & -> & ->)].
      * inversion Hec as [|? ? ? z a1 tr1 vs' ? tr2 Hs Hec']; subst. econstructor; [exact Hl|exact Hs|].
        assert (Hm' : means e w (Some xs) a1 (olv rem (S pos) (or_else z acc)) (OutOpt (or_else (last_engaged (z :: vs')) acc)) tr2).
        { apply IH; [lia|]. left. exists vs', a'. split; [exact Hec'|]. cbn. destruct (last_engaged vs'), z; reflexivity. }
        destruct z; exact Hm'.
      * destruct pre as [|l3 pre]; cbn in E; injection E as <- E.
        -- inversion Hec; subst. cbn. rewrite <- (app_nil_r t2). econstructor; [exact Hl|exact Hsx|]. constructor.
        -- inversion Hec as [|? ? ? z a1 tr1 vs' ? tr2 Hs Hec']; subst. rewrite <- app_assoc. econstructor; [exact Hl|exact Hs|].
           assert (Hm' : means e w (Some xs) a1 (olv rem (S pos) (or_else z acc)) (OutExn x) (tr2 ++ t2)).
           { apply IH; [lia|]. right. exists pre, l2, post, vs', b1, b2, tr2, t2, x. auto. }
           destruct z; exact Hm'.
Qed.
Lemma default_combiner e w xs a o tr : means e w (Some xs) a (combiner e None (length xs)) o tr <-> last_value_of e w xs a o tr.
Proof.
  cbn. rewrite (olv_means e w xs (length xs) 0 None a o tr) by reflexivity. rewrite drop_0. unfold last_value_of.
  assert (E : forall vs, or_else (last_engaged vs) None = last_engaged vs) by (intros vs; destruct (last_engaged vs); reflexivity). setoid_rewrite E. reflexivity.
Qed.
