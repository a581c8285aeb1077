(** * Connecting and emitting in a loop: the number of calls *)
From Verif Require Import Reach InvUse InvFault InvFields InvRem InvSig InvEmit InvCount Emission LogLemmas InvList OpDeath Witness TidyCase TidySafe AloneProof AloneTest TidyExamples EndExamples QuietExamples.
From Verif Require Export SpecCount CountInv.

(** ** Counting by emission *)
Definition emit_id (t : tid) (ev : event) : option nat := match ev with EEmit t' eid _ _ _ => if decide (t' = t) then Some eid else None | _ => None end.
Definition call_id (t : tid) (ev : event) : option nat := match ev with ECall t' (RSlot _) (Some eid) _ _ _ => if decide (t' = t) then Some eid else None | _ => None end.
Definition called_by (eid : nat) (ev : event) : bool := match ev with ECall _ _ (Some i) _ _ _ => bool_decide (i = eid) | _ => false end.

Lemma counted_below (K : nat) (E C : list nat) : (forall c, c ∈ C -> c ∈ E) -> (forall x, x ∈ E -> length (filter (fun c => c = x) C) <= K) -> length C <= length E * K.
Proof.
  revert C. induction E as [|x E IH]; intros C Hsub Hk.
  - destruct C as [|c C]; [cbn; lia|]. specialize (Hsub c ltac:(left)). inversion Hsub.
  - assert (Hlen : length C = length (filter (fun c => c = x) C) + length (filter (fun c => c <> x) C)).
    { clear. induction C as [|c C IHC]; [reflexivity|]. rewrite !filter_cons. destruct (decide (c = x)) as [-> |Hn]; [rewrite decide_False by auto|rewrite decide_True by auto]; cbn; lia. }
    rewrite Hlen. specialize (IH (filter (fun c => c <> x) C)). cbn.
    assert (length (filter (fun c => c <> x) C) <= length E * K).
    { apply IH.
      - intros c Hc. apply elem_of_list_filter in Hc as [Hn Hc]. apply Hsub in Hc. apply elem_of_cons in Hc as [-> |Hc]; [contradiction|exact Hc].
      - intros y Hy. transitivity (length (filter (fun c => c = y) C)); [|apply Hk; right; exact Hy]. clear.
        induction C as [|c C IHC]; [reflexivity|]. rewrite filter_cons. destruct (decide (c <> x)); rewrite ?filter_cons; destruct (decide (c = y)); cbn; lia. }
    specialize (Hk x ltac:(left)). lia.
Qed.
Lemma emits_len t new : length (omap (emit_id t) new) = ecount (is_emit t) new.
Proof.
  induction new as [|ev new IH]; [reflexivity|]. rewrite ecount_cons, <- IH. destruct ev; try reflexivity. cbn. case_decide; [rewrite bool_decide_eq_true_2 by auto|rewrite bool_decide_eq_false_2 by auto]; reflexivity.
Qed.
Lemma calls_len t new : (forall r o c args start, ECall t r o c args start ∈ new -> exists l eid, r = RSlot l /\ o = Some eid) ->
  length (slots_called (mine t new)) = length (omap (call_id t) new).
Proof.
  unfold slots_called. rewrite rev_length. unfold mine. induction new as [|ev new IH]; intros H; [reflexivity|].
  assert (IH' := IH ltac:(intros; eapply H; right; eauto)). rewrite filter_cons. case_decide as Hd.
  - destruct ev; cbn in Hd |- *; try exact IH'. injection Hd as ->. destruct (H _ _ _ _ _ ltac:(left)) as (l & i & -> & ->). cbn. rewrite decide_True by auto. cbn. f_equal. exact IH'.
  - destruct ev; cbn in Hd |- *; try exact IH'. destruct r; [|exact IH']. destruct eid; [|exact IH']. rewrite decide_False by congruence. exact IH'.
Qed.
Lemma visit_calls t eid xs evs n z : visits t eid xs evs n z -> ecount (called_by eid) evs <= n /\ n <= length xs.
Proof.
  induction 1 as [|evs n z l start Hv IH Hl|evs n z l c args start y Hv IH Hl]; [cbn; lia| |]; apply lookup_lt_Some in Hl; rewrite !ecount_cons; cbn [called_by]; try (rewrite bool_decide_eq_true_2 by reflexivity); lia.
Qed.
Lemma emission_calls e ps w t eid s a xs : reachable e ps w -> began (w_log w) t eid s a xs None -> ecount (called_by eid) (w_log w) <= length xs.
Proof.
  intros Hr Hb. pose proof (default_combiner _ _ _ _ _ _ _ _ Hr Hb) as HD. rewrite (ecount_did _ eid).
  2: { intros []; cbn; try discriminate. destruct eid0; auto. }
  destruct HD; match goal with H : visits _ _ _ _ _ _ |- _ => apply visit_calls in H end; try (match goal with H : _ !! _ = Some _ |- _ => apply lookup_lt_Some in H end); rewrite ?ecount_cons; cbn [called_by]; try (rewrite bool_decide_eq_true_2 by reflexivity); lia.
Qed.
Lemma filter_omap t eid new : length (filter (fun c => c = eid) (omap (call_id t) new)) <= ecount (called_by eid) new.
Proof.
  induction new as [|ev new IH]; [cbn; lia|]. rewrite ecount_cons. destruct ev; cbn [omap list_omap call_id called_by]; try exact IH. destruct r as [l|u]; [|lia]. destruct eid0 as [i|]; [|lia].
  case_decide; [|lia]. rewrite filter_cons. destruct (decide (i = eid)) as [-> |Hn]; [rewrite bool_decide_eq_true_2 by auto; cbn; lia|rewrite bool_decide_eq_false_2 by auto; lia].
Qed.

Lemma emits_nodup ps w new old t : reachable add_env ps w -> w_log w = new ++ old -> NoDup (omap (emit_id t) new).
Proof.
  intros Hr. revert old. induction new as [|ev new IH] using rev_ind; intros old Hl; [constructor|]. rewrite omap_app. rewrite <- app_assoc in Hl.
  apply NoDup_app. split; [exact (IH _ Hl)|]. split.
  - intros i Hi Hin. cbn in Hin. destruct (emit_id t ev) as [j|] eqn:Ej; [|inversion Hin]. apply elem_of_list_singleton in Hin as ->.
    destruct ev; try discriminate. cbn in Ej. case_decide; [|discriminate]. injection Ej as ->.
    apply elem_of_list_omap in Hi as (ev & Hi & Hev). destruct ev; try discriminate. cbn in Hev. case_decide; [|discriminate]. injection Hev as ->.
    apply elem_of_list_split in Hi as (p & q & ->). rewrite <- app_assoc in Hl. cbn in Hl. pose proof (emit_fresh _ _ _ Hr _ _ _ Hl) as HF. cbn in HF.
    specialize (HF _ ltac:(apply elem_of_app; right; left)). cbn in HF. rewrite bool_decide_eq_true_2 in HF by reflexivity. discriminate.
  - cbn. destruct (emit_id t ev); repeat constructor. apply not_elem_of_nil.
Qed.

(** ** The threads at work *)
Lemma workers (thr : list (list frame)) : exists W, length W = length (filter (fun st => stopped st = false) thr) /\
  (forall t st, thr !! t = Some st -> t ∉ W -> exists o, st = [FRet o]) /\
  (forall t, t ∈ W -> exists st, thr !! t = Some st /\ stopped st = false).
Proof.
  induction thr as [|st thr (W & Hl & HW & HV)]; [exists []; split; [reflexivity|]; split; [intros t st H; destruct t; discriminate|intros t H; inversion H]|].
  assert (HS : forall t, S t ∉ S <$> W -> t ∉ W) by (intros t H Hx; apply H, elem_of_list_fmap; eauto).
  rewrite filter_cons. destruct (stopped st) eqn:E.
  - rewrite decide_False by discriminate. exists (S <$> W). rewrite fmap_length. split; [exact Hl|]. split; [|intros t Ht; apply elem_of_list_fmap in Ht as (t' & -> & Ht); exact (HV t' Ht)]. intros [|t] st' Ht Hn; cbn in Ht; [|eauto].
    injection Ht as <-. destruct st as [|[] [|? ?]]; try discriminate. eauto.
  - rewrite decide_True by reflexivity. exists (0 :: (S <$> W)). cbn. rewrite fmap_length. split; [lia|]. split; [|intros t Ht; apply elem_of_cons in Ht as [-> |Ht]; [exists st; auto|apply elem_of_list_fmap in Ht as (t' & -> & Ht); exact (HV t' Ht)]].
    intros [|t] st' Ht Hn; cbn in Ht; [destruct Hn; left|].
    apply (HW t st' Ht). apply HS. intros Hx. apply Hn. right. exact Hx.
Qed.
Lemma choices (thr : list (list frame)) : (forall t st, thr !! t = Some st -> (exists o, st = [FRet o]) \/ exists n m, st = [FProg (connect_invoke n m)]) ->
  exists f : tid -> nat * nat, forall t st, thr !! t = Some st -> (exists o, st = [FRet o]) \/ st = [FProg (connect_invoke (fst (f t)) (snd (f t)))].
Proof.
  induction thr as [|st thr IH]; intros H; [exists (fun _ => (0, 0)); intros [] ?; discriminate|].
  destruct IH as [f Hf]; [intros t; exact (H (S t))|]. destruct (H 0 st eq_refl) as [Ho|(n & m & Ho)].
  - exists (fun t => match t with 0 => (0, 0) | S t => f t end). intros [|t] st' Ht; [injection Ht as <-; auto|exact (Hf t st' Ht)].
  - exists (fun t => match t with 0 => (n, m) | S t => f t end). intros [|t] st' Ht; [injection Ht as <-; auto|exact (Hf t st' Ht)].
Qed.

Lemma calls_cons ev l : length (slots_called (ev :: l)) = length (slots_called [ev]) + length (slots_called l).
Proof. change (ev :: l) with ([ev] ++ l). rewrite calls_app, app_length. lia. Qed.
Lemma called_by_thread ev : called_slot ev = None \/ exists t l o c args start, ev = ECall t (RSlot l) o c args start.
Proof. destruct ev; cbn; auto. destruct r; cbn; auto. right. eauto 10. Qed.
Lemma no_call ev : called_slot ev = None -> slots_called [ev] = [].
Proof. intros H. unfold slots_called. cbn. rewrite H. reflexivity. Qed.
Lemma mine_none t l : (forall r o c args start, ECall t r o c args start ∉ l) -> slots_called (mine t l) = [].
Proof.
  induction l as [|ev l IH]; intros H; [reflexivity|]. assert (IH' : slots_called (mine t l) = []) by (apply IH; intros r o c a s Hin; eapply H; right; exact Hin).
  unfold mine in *. rewrite filter_cons. case_decide as Hd; [|exact IH']. change (ev :: ?x) with ([ev] ++ x). rewrite calls_app, IH'. cbn [app].
  destruct (called_by_thread ev) as [Hc|(t' & l' & o & c & args & start & ->)]; [apply no_call; exact Hc|]. exfalso. cbn in Hd. injection Hd as ->. eapply H. left.
Qed.
Lemma calls_total' n l : (forall t r o c args start, ECall t r o c args start ∈ l -> t < n) ->
  length (slots_called l) = AloneTest.total (fun t => length (slots_called (mine t l))) n.
Proof.
  induction l as [|ev l IH]; intros H; [cbn; rewrite total_const; lia|]. specialize (IH ltac:(intros; eapply H; right; eauto)).
  destruct (called_by_thread ev) as [Hc|(t & l' & o & c & args & start & ->)].
  - rewrite calls_cons, (no_call _ Hc), IH. change (length []) with 0. rewrite Nat.add_0_l. apply total_ext. intros t' _. unfold mine. rewrite filter_cons. case_decide; [|reflexivity]. rewrite (calls_cons ev), (no_call _ Hc). reflexivity.
  - rewrite (total_upd (fun t => length (slots_called (mine t l))) _ n t 1); [rewrite calls_cons, IH; reflexivity|eapply H; left| |].
    + intros t' Hn. unfold mine. rewrite filter_cons, decide_False by (cbn; congruence). reflexivity.
    + unfold mine. rewrite filter_cons, decide_True by reflexivity. rewrite calls_cons. reflexivity.
Qed.

Section main.
Context (ps : list prog) (w0 : world).
Hypothesis Hps : Forall functions ps.
Hypothesis H0 : reachable add_env ps w0.
Hypothesis Hne0 : forall t s l, EErased t s l ∉ w_log w0.
Hypothesis Hnm0 : forall s1 s2, EMoveSig s1 s2 ∉ w_log w0.
Hypothesis Hs0 : signal_lives w0 0.
Hypothesis Hc0 : spec_comb (w_log w0) 0 = Some None.
Hypothesis Hl0 : slots_of w0 0 = [].
Hypothesis Hthr : forall t st, w_thr w0 !! t = Some st -> (exists o, st = [FRet o]) \/ exists n m, st = [FProg (connect_invoke n m)].

(** The numbers of thread [t] can be chosen. *)
Lemma inv_run t n m sc w : w_thr w0 !! t = Some [FProg (connect_invoke n m)] -> run add_env w0 sc = inl w ->
  exists W M N new g k, length W = working w0 /\ (forall t, t ∈ W -> exists st, w_thr w0 !! t = Some st /\ stopped st = false) /\ N t = n * m /\ inv ps w0 W M N w new g k /\ ((forall t m, (t, m) ∈ sc -> m = MOk) -> forall t, k t <> None).
Proof.
  intros Ht. destruct (workers (w_thr w0)) as (W & HWl & HW & HV). destruct (choices (w_thr w0) Hthr) as [f Hf].
  set (f' := set f t (n, m)).
  assert (Hf' : forall t st, w_thr w0 !! t = Some st -> (exists o, st = [FRet o]) \/ st = [FProg (connect_invoke (fst (f' t)) (snd (f' t)))]).
  { intros t' st Ht'. unfold f'. destruct (decide (t' = t)) as [-> |Hn]; [rewrite set_eq; right; rewrite Ht in Ht'; injection Ht' as <-; reflexivity|rewrite set_ne by exact Hn; auto]. }
  clear Hf.
  set (M := fun t => snd (f' t)). set (N := fun t' => match w_thr w0 !! t' with Some st => if stopped st then 0 else fst (f' t') * snd (f' t') | None => 0 end).
  assert (HNt : N t = n * m).
  { unfold N. rewrite Ht. cbn. unfold f'. rewrite set_eq. reflexivity. }
  assert (HI0 : inv ps w0 W M N w0 [] (fun _ => PIdle) (fun t => Some (N t))).
  { constructor; try (intros; match goal with H : _ ∈ [] |- _ => inversion H end); auto.
    - intros t' st Ht'. unfold N. rewrite Ht'. destruct (Hf' _ _ Ht') as [(o & ->)| ->]; cbn; [apply Ph_end; auto|apply Ph_next].
    - intros; exact I.
    - intros t' st Hn Ht'. exact (HW t' st Ht' Hn).
    - intros; discriminate.
    - intros l Hf Hh. exfalso. destruct (connected_listed _ _ _ _ H0 Hne0 Hf) as (s1 & Hs1 & s' & Hl' & [-> |[s2 Hm]]); [|destruct (Hnm0 _ _ Hm)].
      rewrite Hh in Hs1. injection Hs1 as <-. rewrite Hl0 in Hl'. inversion Hl'.
    - intros t' d [= <-]. reflexivity. }
  assert (Hgo : forall (A : Prop) sc w1 new g k, (A -> forall t m, (t, m) ∈ sc -> m = MOk) -> inv ps w0 W M N w1 new g k -> (A -> forall t, k t <> None) -> run add_env w1 sc = inl w ->
    exists new g k, inv ps w0 W M N w new g k /\ (A -> forall t, k t <> None)).
  { clear sc. intros A sc. induction sc as [|[t' f0] sc IH]; intros w1 new g k HA HI Hk Hrun; cbn in Hrun.
    - injection Hrun as ->. eauto.
    - assert (Hsub : A -> forall t m, (t, m) ∈ sc -> m = MOk) by (intros a t1 m1 H1; eapply HA; [exact a|right; exact H1]).
      destruct (step add_env w1 t' f0) as [w2| | |u] eqn:E; [|eauto|eauto|discriminate].
      destruct (inv_step ps w0 W M N Hps H0 Hne0 Hnm0 Hs0 Hc0 _ _ _ _ _ _ _ HI E) as (evs & g' & k' & HI' & Hk'). apply (IH w2 (evs ++ new) g' k' Hsub HI'); [|exact Hrun].
      intros a t1. apply Hk'; [apply (HA a t' f0); left|]. apply Hk. exact a. }
  intros Hrun. destruct (Hgo (forall t m, (t, m) ∈ sc -> m = MOk) sc w0 [] _ _ (fun H => H) HI0) as (new & g & k & HI & Hk); [intros _ t'; discriminate|exact Hrun|].
  exists W, M, N, new, g, k. split; [exact HWl|]. split; [exact HV|]. split; [exact HNt|]. split; [exact HI|exact Hk].
Qed.

Context (sc : sched) (w : world) (new : list event).
Hypothesis Hrun : run add_env w0 sc = inl w.
Hypothesis Hlog : w_log w = new ++ w_log w0.

Lemma idle_end mm o p d : phase mm [FRet o] p d -> p = PIdle /\ (d = Some 0 \/ d = None /\ o = oom).
Proof.
  inversion 1 as [| | | | | | | | | |fs eid v a j c r l Hin Hq| | | | |]; subst; auto. exfalso. apply (f_equal length) in Hq. rewrite app_length in Hq. cbn in Hq. lia.
Qed.

Theorem thread_calls t n m o : w_thr w0 !! t = Some [FProg (connect_invoke n m)] -> finished_with w t o -> o <> oom \/ (forall t m, (t, m) ∈ sc -> m = MOk) ->
  n * m <= length (slots_called (mine t new)) <= n * m * working w0.
Proof.
  intros Ht Hf Ho. destruct (inv_run t n m sc w Ht Hrun) as (W & M & N & new' & g & k & HWl & _ & HN & HI & Hk).
  assert (new' = new) as -> by (pose proof (i_log _ _ _ _ _ _ _ _ _ HI) as H; rewrite Hlog in H; apply app_inv_tail in H; auto).
  pose proof (i_reach _ _ _ _ _ _ _ _ _ HI) as Hr.
  destruct (idle_end _ _ _ _ (i_ph _ _ _ _ _ _ _ _ _ HI _ _ Hf)) as [Hg Hd].
  assert (Hd' : k t = Some 0) by (destruct Hd as [Hd|[Hd ->]]; [exact Hd|destruct Ho as [Ho|Ho]; [destruct (Ho eq_refl)|destruct (Hk Ho t Hd)]]). clear Hd.
  pose proof (i_cnt _ _ _ _ _ _ _ _ _ HI _ _ Hd') as Hcnt. rewrite HN, Nat.add_0_r in Hcnt.
  rewrite (calls_len t new). 2: { intros r oo c args start Hin. destruct (i_call _ _ _ _ _ _ _ _ _ HI _ _ _ _ _ _ Hin) as (l & eid & _ & _ & -> & -> & _). eauto. }
  rewrite <- Hcnt, <- emits_len, <- HWl. split.
  - apply submseteq_length, NoDup_submseteq.
    + apply (emits_nodup ps w new (w_log w0)); auto.
    + intros eid Hin. apply elem_of_list_omap in Hin as (ev & Hin & Hev). destruct ev; try discriminate. cbn in Hev. case_decide; [|discriminate]. subst. injection Hev as ->.
      destruct (i_done _ _ _ _ _ _ _ _ _ HI _ _ _ _ _ Hin) as [(l & c & Hp)|(l & c & aa & start & Hin')]; [congruence|].
      apply elem_of_list_omap. exists (ECall t (RSlot l) (Some eid) c aa start). split; [exact Hin'|]. cbn. rewrite decide_True by auto. reflexivity.
  - apply counted_below.
    + intros eid Hin. apply elem_of_list_omap in Hin as (ev & Hin & Hev). destruct ev; try discriminate. cbn in Hev. destruct r; [|discriminate]. destruct eid0; [|discriminate]. case_decide; [|discriminate]. subst. injection Hev as ->.
      destruct (i_call _ _ _ _ _ _ _ _ _ HI _ _ _ _ _ _ Hin) as (l' & eid' & a & xs & _ & [= <-] & He).
      apply elem_of_list_omap. eexists. split; [exact He|]. cbn. rewrite decide_True by auto. reflexivity.
    + intros eid Hin. apply elem_of_list_omap in Hin as (ev & Hin & Hev). destruct ev; try discriminate. cbn in Hev. case_decide; [|discriminate]. subst. injection Hev as ->.
      pose proof (i_emit _ _ _ _ _ _ _ _ _ HI _ _ _ _ _ Hin) as (-> & Hxs & _).
      etransitivity; [apply filter_omap|].
      transitivity (length xs); [|exact Hxs]. etransitivity; [|eapply (emission_calls add_env ps w t); [exact Hr|eapply (began_new ps w0); eauto using i_calm]].
      rewrite Hlog, ecount_app. lia.
Qed.

(** All the threads. *)
Theorem all_calls n m N o : 0 < N -> w_thr w0 = [FRet o] :: replicate N [FProg (connect_invoke n m)] ->
  (forall t, S t <= N -> exists o, finished_with w (S t) o /\ (o <> oom \/ forall t m, (t, m) ∈ sc -> m = MOk)) ->
  N * (n * m) <= length (slots_called new) <= N * (n * m * N).
Proof.
  intros HN Hw0 Hfin. destruct N as [|N]; [lia|].
  destruct (inv_run 1 n m sc w ltac:(rewrite Hw0; reflexivity) Hrun) as (W & M & NN & new' & g & k & _ & HV & _ & HI & _).
  assert (new' = new) as -> by (pose proof (i_log _ _ _ _ _ _ _ _ _ HI) as H; rewrite Hlog in H; apply app_inv_tail in H; auto).
  assert (Hin : forall t r oo c args start, ECall t r oo c args start ∈ new -> 0 < t /\ t < S (S N)).
    { intros t r oo c args start Hin. destruct (i_call _ _ _ _ _ _ _ _ _ HI _ _ _ _ _ _ Hin) as (l & eid & a & xs & _ & _ & He).
      destruct (i_emit _ _ _ _ _ _ _ _ _ HI _ _ _ _ _ He) as (_ & _ & HtW). destruct (HV _ HtW) as (st & Hst & Hs). rewrite Hw0 in Hst. pose proof (lookup_lt_Some _ _ _ Hst) as Hlt. cbn in Hlt. rewrite replicate_length in Hlt.
      split; [|lia]. destruct t; [|lia]. injection Hst as <-. discriminate. }
    rewrite (calls_total' (S (S N)) new) by (intros; eapply Hin; eauto).
    assert (Hwk : working w0 = S N).
    { unfold working. rewrite Hw0. rewrite filter_cons, decide_False by discriminate. clear. generalize (S N). intros K. induction K as [|K IH]; [reflexivity|]. cbn [replicate]. rewrite filter_cons, decide_True by reflexivity. cbn [length]. rewrite IH. reflexivity. }
    assert (Hz : length (slots_called (mine 0 new)) = 0).
    { rewrite mine_none; [reflexivity|]. intros r oo c args start H. apply Hin in H. lia. }
    assert (Hb : forall t, S t <= S N -> n * m <= length (slots_called (mine (S t) new)) <= n * m * S N).
    { intros t Hlt. destruct (Hfin t Hlt) as (o' & Hf & Ho). rewrite <- Hwk. eapply thread_calls; [|exact Hf|exact Ho]. rewrite Hw0. change (replicate (S N) [FProg (connect_invoke n m)] !! t = Some [FProg (connect_invoke n m)]). apply lookup_replicate_2. lia. }
    assert (HT : forall K, K <= S N -> K * (n * m) <= AloneTest.total (fun t => length (slots_called (mine t new))) (S K) <= K * (n * m * S N)).
    { induction K as [|K IH]; intros HK; [unfold AloneTest.total; cbn [seq sum_list_with foldr]; unfold AloneTest.total; cbn; rewrite Hz; lia|].
      rewrite total_S. specialize (IH ltac:(lia)). specialize (Hb K ltac:(lia)). lia. }
    apply HT. lia.
Qed.
End main.
