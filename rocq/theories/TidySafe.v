(** * Tidy clients never meet undefined behaviour *)
From Verif Require Import Reach InvSlot InvDeath InvRem InvUse InvFault InvSig InvOp.
From Verif Require Export TidyInv.

Section tidy.
Context (e : env) (G : list thing) (caps : callable -> list thing) (ps : list prog).
Notation tidy := (tidy e G caps).
Notation owners := (thing -> option (tid * nat)).
Notation stk := (stk e G caps).
Notation fine := (fine e G caps).
Notation caps_ok := (caps_ok caps).
Notation world_ok := (world_ok G caps).
Notation J := (J e G caps ps).
Hypothesis Henv : tidy_env e G caps.

Lemma ok_lives (O : owners) w t h own v : world_ok O w -> wf O w t h own -> vop_ok G caps own v ->
  (forall c, c ∈ vop_conns v -> conn_lives w c) /\ (forall c, c ∈ vop_blks v -> blk_lives w c) /\ (forall c, c ∈ vop_slots v -> slot_lives w c).
Proof.
  intros Hw Hf Hok.
  assert (HK : forall th, knows G own th -> lives w th) by (intros th H; eapply knows_lives; eauto).
  assert (HH : forall th, has own th -> lives w th) by (intros th H; apply HK; eapply has_knows; eauto).
  destruct v; cbn in *; (split; [|split]); intros c0 Hc0; repeat (apply elem_of_cons in Hc0 as [->|Hc0]); try (inversion Hc0; fail); try match type of Hok with _ /\ _ => destruct Hok end;
    first [refine (HK (TConn _) _); assumption|refine (HH (TConn _) _); assumption|refine (HH (TBlk _) _); assumption|refine (HK (TSlot _) _); assumption
          |refine (HH (TSlot _) _); assumption|refine (proj1 (HK (TFull _) _)); assumption].
Qed.

Lemma no_fault O w t fail st u : J O w -> w_thr w !! t = Some st -> fault e w fail st u -> u = UTerminate /\ fail <> MOk.
Proof.
  intros HJ Ht Hfa. pose proof (j_thr _ _ _ _ _ _ HJ _ _ Ht) as Hf. pose proof (j_world _ _ _ _ _ _ HJ) as Hwo. pose proof (j_reach _ _ _ _ _ _ HJ) as Hr.
  destruct Hfa as [o k st u Hm|o r args pin eid start st Hn|o s v tgt i n xs st Hn|x st|u g args pin eid start st Hn|c k st E|s l st E|s k st E].
  - exfalso. inversion Hf as [|? ? b a own Hst Hse Hwf Hti| | | | | | |]; subst. inversion Hti as [|keep ? ? Hok Hk]; subst.
    assert (HK : forall th, knows G own th -> lives w th) by (intros th H; eapply knows_lives; eauto).
    assert (HH : forall th, has own th -> lives w th) by (intros th H; apply HK; eapply has_knows; eauto).
    destruct Hm as [v c Hc Hn|v c Hc Hn|o u Hu Hn|x Hn|x Hn|x z Hn|u Hn|s u sc Hn|o s Hs Hn|s t' Ho|s1 s2|pos s eid v args st' E Hn|pos Hn|l o Ho Hn|u o Ho Hn|u Hn].
    + apply Hn. eapply (ok_lives O w t (length st) own v); eauto.
    + apply Hn. eapply (ok_lives O w t (length st) own v); eauto.
    + apply Hn. destruct o as [v| | | | |s [c|u'] sc|s [c|u']| |u' args|u1 u2| | |]; cbn in Hu, Hok; try (inversion Hu; fail); repeat (apply elem_of_cons in Hu as [->|Hu]); try (inversion Hu; fail).
      * eapply (ok_lives O w t (length st) own v); eauto.
      * exact (proj1 (HK (TFull _) (proj2 Hok))).
      * exact (HK (TSlot _) (proj2 Hok)).
      * exact (proj1 (HK (TFull _) (proj1 Hok))).
      * exact (HK (TSlot _) (proj1 Hok)).
      * exact (HK (TSlot _) (proj2 Hok)).
    + apply Hn. exact (HH (TObj x) Hok).
    + destruct (HK (TLoc x) Hok) as [z Hz]. congruence.
    + destruct (HK (TLoc x) Hok) as [z' Hz]. congruence.
    + exact (proj2 (HK (TFull u) Hok) Hn).
    + exact (proj2 (HK (TFull u) (proj2 Hok)) Hn).
    + apply Hn. destruct o as [v| | | | |s0 [c|u'] sc|s0 [c|u']| | | | | |]; cbn in Hs, Hok; simplify_eq; try contradiction.
      * exact (HH (TOwn s) Hok).
      * exact (HK (TSig s) (proj1 Hok)).
      * exact (HK (TSig s) (proj1 Hok)).
      * exact (HK (TSig s) Hok).
      * exact (HK (TSig s) (proj1 Hok)).
      * exact (HK (TSig s) (proj1 Hok)).
    + destruct (has_owned _ _ _ _ _ _ Hwf Hok eq_refl eq_refl) as [_ How].
      destruct Ho as (r & Hs & Hlk). destruct (owner_exists _ _ _ Hr _ _ _ Hs Hlk) as [st' Ht'].
      destruct (proj1 (lock_iff e ps w t' st' s Hr Ht')) as (f & Hin & Hsec); [eauto|]. apply elem_of_list_split in Hin as (x1 & x2 & ->).
      destruct (proj2 (fine_frames e G caps O w t') _ (j_thr _ _ _ _ _ _ HJ _ _ Ht') x1 f x2 eq_refl) as (_ & _ & Hu). destruct (Hu s Hsec) as [_ Hb].
      destruct Hb as [Hb|(h & Hh & Hb)]; [congruence|]. rewrite How in Hb. injection Hb as <- <-. rewrite Ht in Ht'. injection Ht' as E.
      destruct x1 as [|f1 x1]; cbn in E; injection E as E1 E2; [subst f; destruct Hsec|]. subst st. rewrite app_length in Hh. cbn in Hh. lia.
    + exact Hok.
    + destruct Hok as (n & -> & Hp). destruct Hse as [_ (s' & eid' & v' & args' & st'' & E2 & Hnn)]. subst st. injection E2 as <- <- <- <- <-. lia.
    + destruct Hok as (n & -> & Hp). destruct Hse as [_ (s' & eid' & v' & args' & st'' & E2 & _)]. eapply Hn; eauto.
    + assert (a = Body (RSlot l)) as -> by (destruct Ho as [->|[z ->]]; exact Hok). destruct Hse as [_ (args & pin & eid & start & st' & ->)].
      rewrite (slot_frame_alive e ps w t _ l SRun args pin eid start Hr Ht) in Hn; [discriminate|]. apply elem_of_list_further, elem_of_list_here.
    + assert (a = Body (RUser u)) as -> by (destruct Ho as [->|[z ->]]; exact Hok). destruct Hse as [-> (args & pin & eid & start & st' & ->)].
      inversion Hst as [| | | | | | | | | | | |? ? ? ? ? ? Hst0 Hrf Ha|]; subst. apply Hn. exact (proj1 (proj1 Hrf)).
    + cbn in Hok. subst a. destruct Hse as [-> (args & pin & eid & start & st' & ->)].
      inversion Hst as [| | | | | | | | | | | |? ? ? ? ? ? Hst0 Hrf Ha|]; subst. exact (proj2 (proj1 Hrf) Hn).
  - exfalso. inversion Hf as [? ? b Hst Hacc| | | | | | | |]; subst. inversion Hst; subst. apply Hn. exact Hacc.
  - exfalso. inversion Hf as [? ? b Hst Hacc| | | | | | | |]; subst. inversion Hst; subst. apply Hn. exact Hacc.
  - exfalso. inversion Hf as [? ? b Hst Hacc| | | | | | | |]; subst. inversion Hst; subst. eapply Hacc. reflexivity.
  - exfalso. inversion Hf as [| | | | | | | |? ? ? ? ? ? ? Hst Hrf Ha]; subst. apply Hn. exact (proj1 (proj1 Hrf)).
  - subst fail. split; [reflexivity|discriminate].
  - auto.
  - subst fail. split; [reflexivity|discriminate].
Qed.
Lemma no_sig_fault O w t st u : J O w -> w_thr w !! t = Some st -> sig_fault w t st u -> u = ULockSelf.
Proof.
  intros HJ Ht Hs. pose proof (j_thr _ _ _ _ _ _ HJ _ _ Ht) as Hf. destruct Hs as [s k st Hd|s k st s1 s2 Hm _|s k st Ho]; [| |reflexivity]; exfalso.
  - inversion Hf as [| | |? ? ? b Hst Hu Hc| | | | |]; subst. destruct Hu as [(r & Hr & Ha) _]. destruct (I_sig_inv _ _ _ (j_reach _ _ _ _ _ _ HJ)) as [HI _]. destruct (HI s r Hr) as (_ & Hal & _). apply Hal in Hd. congruence.
  - exact (j_moved _ _ _ _ _ _ HJ _ _ Hm).
Qed.

Lemma tidy_step_ub O w t fail u : J O w -> step e w t fail = SUB u -> (u = UTerminate /\ fail <> MOk) \/ u = ULockSelf.
Proof.
  intros HJ Hs. destruct (w_thr w !! t) as [st|] eqn:Ht; [|unfold step in Hs; rewrite Ht in Hs; discriminate].
  destruct (ub_blame _ _ _ _ _ _ _ (j_reach _ _ _ _ _ _ HJ) Ht Hs) as [H|H]; [left; eapply no_fault; eauto|right; eapply no_sig_fault; eauto].
Qed.
Lemma J_run sc : forall O w, J O w ->
  match run e w sc with
  | inl w' => exists O', J O' w'
  | inr u => (u = UTerminate /\ exists t m, (t, m) ∈ sc /\ m <> MOk) \/ u = ULockSelf
  end.
Proof.
  induction sc as [|[t f] sc IH]; intros O w HJ; cbn; [eauto|].
  destruct (step e w t f) as [w'| | |u] eqn:Hs.
  - destruct (J_step e G caps ps Henv O w t f w' HJ Hs) as [O' HJ']. specialize (IH O' w' HJ'). destruct (run e w' sc); [exact IH|].
    destruct IH as [[-> (t' & m & Hin & Hm)]|IH]; [left|right; exact IH]. split; [reflexivity|]. exists t', m. split; [apply elem_of_list_further; exact Hin|exact Hm].
  - specialize (IH O w HJ). destruct (run e w sc); [exact IH|].
    destruct IH as [[-> (t' & m & Hin & Hm)]|IH]; [left|right; exact IH]. split; [reflexivity|]. exists t', m. split; [apply elem_of_list_further; exact Hin|exact Hm].
  - specialize (IH O w HJ). destruct (run e w sc); [exact IH|].
    destruct IH as [[-> (t' & m & Hin & Hm)]|IH]; [left|right; exact IH]. split; [reflexivity|]. exists t', m. split; [apply elem_of_list_further; exact Hin|exact Hm].
  - destruct (tidy_step_ub O w t f u HJ Hs) as [[-> Hm]|H]; [left|right; exact H]. split; [reflexivity|]. exists t, f. split; [apply elem_of_list_here|exact Hm].
Qed.

(** ** The beginning *)
Definition owner_of (own : tid -> list thing) (n : nat) (k : thing) : option (tid * nat) :=
  (fun t => (t, 0)) <$> head (filter (fun t => existsb (fun th => linear th && bool_decide (key th = k)) (own t)) (seq 0 n)).
Lemma owner_some own n k t h : owner_of own n k = Some (t, h) -> t < n /\ h = 0 /\ exists th, th ∈ own t /\ linear th = true /\ key th = k.
Proof.
  unfold owner_of. destruct (filter _ (seq 0 n)) as [|t' ts] eqn:E; [discriminate|]. cbn. intros [= -> <-].
  assert (Hin : t ∈ filter (fun t => existsb (fun th => linear th && bool_decide (key th = k)) (own t)) (seq 0 n)) by (rewrite E; apply elem_of_list_here).
  apply elem_of_list_filter in Hin as [Hb Hin]. apply elem_of_seq in Hin. split; [lia|]. split; [reflexivity|].
  apply Is_true_true, existsb_exists in Hb as (th & Hth & Hb). apply andb_true_iff in Hb as [H1 H2]. apply bool_decide_eq_true in H2. exists th. rewrite elem_of_list_In. auto.
Qed.
Lemma owner_none own n k : owner_of own n k = None -> forall t th, t < n -> th ∈ own t -> linear th = true -> key th <> k.
Proof.
  unfold owner_of. destruct (filter _ (seq 0 n)) as [|t' ts] eqn:E; [|discriminate]. intros _ t th Ht Hth Hl Hk.
  assert (Hin : t ∈ filter (fun t => existsb (fun th => linear th && bool_decide (key th = k)) (own t)) (seq 0 n)).
  { apply elem_of_list_filter. split; [|apply elem_of_seq; lia]. apply Is_true_true, existsb_exists. exists th. split; [apply elem_of_list_In; exact Hth|].
    rewrite Hl. cbn. apply bool_decide_eq_true. exact Hk. }
  rewrite E in Hin. inversion Hin.
Qed.
Lemma J_start own w0 : settled e G caps ps own w0 -> J (owner_of own (length (w_thr w0))) w0.
Proof.
  intros [Hr Hm Ht HG Ho Hap Hal Hsl Hv]. set (n := length (w_thr w0)). set (O := owner_of own n).
  assert (HO : forall k, (exists s, k = TOwn s) \/ (exists a, k = TLoc a) -> O k = None).
  { intros k Hk. destruct (O k) as [[t h]|] eqn:E; [|reflexivity]. exfalso. apply owner_some in E as (_ & _ & th & Hth & Hli & Hke).
    destruct (Ho _ _ Hth) as [_ Hn]. destruct Hk as [[s ->]|[a ->]]; destruct th; cbn in *; try discriminate. eapply Hn. reflexivity. }
  assert (Hns : forall th, linear th = false -> O (key th) = None) by (intros [] Hli; try discriminate; apply HO; eauto).
  assert (Hcap : forall c, (forall th, th ∈ caps c -> lives w0 th) -> caps_ok O w0 c).
  { intros c Hc th Hth. split; [auto|]. apply Hns. destruct Henv as [Hl _]. specialize (Hl c). rewrite Forall_forall in Hl. auto. }
  pose proof (I_hb_inv _ _ _ Hr) as [[Hb1 Hb2] _].
  assert (Hs0 : forall x l, l < length (w_slots w0) -> slot_of O w0 x l).
  { intros x l Hl. apply lookup_lt_is_Some in Hl as [r Hlr]. exists r. split; [exact Hlr|]. left. apply HO. eauto. }
  constructor; auto.
  - constructor.
    + intros th Hth. destruct (HG th Hth) as [Hl Hn]. split; [exact Hl|]. destruct (O (key th)) as [[t h]|] eqn:E; [|reflexivity].
      exfalso. apply owner_some in E as (_ & _ & th' & Hth' & Hli & Hke). exact (Hal _ _ _ Hth' Hth Hli Hke).
    + intros l r Hl. apply Hcap. intros th Hth. eauto.
    + intros u r i Hu Hi. apply Hcap. intros th Hth. eauto.
    + intros c r l Hc Hl. apply Hs0. rewrite Forall_lookup in Hb1. specialize (Hb1 _ _ Hc). rewrite Hl in Hb1. inversion Hb1; assumption.
    + intros c r l Hc Hl. apply Hs0. rewrite Forall_lookup in Hb2. specialize (Hb2 _ _ Hc). rewrite Hl in Hb2. inversion Hb2; assumption.
  - intros l r Ha Hl. apply slot_alive_iff in Ha as [(s & rs & v & Hs & Ha & Hvv & Hin)|(t & st & f & Hst & Hf & Hk)].
    + assert (sl_sig r = s) as ->; [|exists rs; auto]. eapply (list_home e ps w0 Hr Hm); [|exact Hl]. unfold cur. rewrite Hs, Hvv. exact Hin.
    + exfalso. destruct (Ht _ _ Hst) as [(o & ->)|(p & -> & _)]; apply elem_of_list_singleton in Hf as ->; discriminate.
  - intros t st Hst. destruct (Ht _ _ Hst) as [(o & ->)|(p & -> & Hp)].
    + econstructor; [constructor|exact I].
    + eapply (F_prog _ _ _ _ _ _ _ _ _ Main (own t)); [constructor|exact I| |exact Hp]. intros th Hth. destruct (Ho _ _ Hth) as [Hl _]. split; [exact Hl|].
      destruct (linear th) eqn:El; [|apply Hns; exact El]. assert (Htn : t < n) by (eapply lookup_lt_Some; eauto).
      destruct (O (key th)) as [[t' h]|] eqn:E.
      * apply owner_some in E as (_ & -> & th' & Hth' & Hli & Hke). rewrite (Hap t' t th' th Hth' Hth Hli Hke). reflexivity.
      * exfalso. eapply owner_none; eauto.
Qed.

Theorem tidy_safe own w0 sc u : settled e G caps ps own w0 -> run e w0 sc = inr u ->
  (u = UTerminate /\ exists t m, (t, m) ∈ sc /\ m <> MOk) \/ u = ULockSelf.
Proof. intros H0 Hr. pose proof (J_run sc _ _ (J_start _ _ H0)) as H. rewrite Hr in H. exact H. Qed.

Theorem tidy_safe_lockless own w0 sc u : lockless_env e -> settled e G caps ps own w0 -> run e w0 sc = inr u -> u = UTerminate /\ exists t m, (t, m) ∈ sc /\ m <> MOk.
Proof.
  intros He H0 Hr. revert Hr. generalize (J_start _ _ H0). generalize (owner_of own (length (w_thr w0))). intros O HJ. clear H0. revert O w0 HJ.
  induction sc as [|[t f] sc IH]; intros O w HJ Hrun; [discriminate|]. cbn in Hrun.
  assert (Hcons : forall w', run e w' sc = inr u -> (exists O', J O' w') -> u = UTerminate /\ exists t0 m, (t0, m) ∈ (t, f) :: sc /\ m <> MOk).
  { intros w' Hr' [O' HJ']. destruct (IH _ _ HJ' Hr') as [-> (t' & m & Hin & Hm)]. split; [reflexivity|]. exists t', m. split; [apply elem_of_list_further; exact Hin|exact Hm]. }
  destruct (step e w t f) as [w'| | |u'] eqn:Hs; try (eapply Hcons; eauto; fail).
  - eapply Hcons; [exact Hrun|]. eapply J_step; eauto.
  - injection Hrun as ->. destruct (tidy_step_ub O w t f u HJ Hs) as [[-> Hm]|H].
    + split; [reflexivity|]. exists t, f. split; [apply elem_of_list_here|exact Hm].
    + subst u. exfalso. eapply no_self_lock; [exact He|apply (j_reach _ _ _ _ _ _ HJ)|exact Hs].
Qed.
Theorem tidy_goes_on own w0 sc w : lockless_env e -> settled e G caps ps own w0 -> run e w0 sc = inl w ->
  (forall t st, w_thr w !! t = Some st -> finished w t) \/ exists t w', step e w t MOk = SOk w'.
Proof.
  intros He H0 Hr. pose proof (J_run sc _ _ (J_start _ _ H0)) as H. rewrite Hr in H. destruct H as [O HJ].
  pose proof (j_reach _ _ _ _ _ _ HJ) as Hre. destruct (no_stuck e ps w He Hre) as [Hf|[t Hm]]; [left; exact Hf|right]. exists t. destruct (Hm MOk) as [H1 H2].
  destruct (step e w t MOk) as [w'| | |u] eqn:Hs; try contradiction; [eauto|]. exfalso.
  destruct (tidy_step_ub O w t MOk u HJ Hs) as [[_ Hn]| ->]; [contradiction|]. eapply no_self_lock; eauto.
Qed.
Theorem tidy_with_memory own w0 sc : lockless_env e -> settled e G caps ps own w0 -> (forall t m, (t, m) ∈ sc -> m = MOk) ->
  exists w, run e w0 sc = inl w /\ ((forall t st, w_thr w !! t = Some st -> finished w t) \/ exists t w', step e w t MOk = SOk w').
Proof.
  intros He H0 Hsc. destruct (run e w0 sc) as [w|u] eqn:E.
  - exists w. split; [reflexivity|]. eapply tidy_goes_on; eauto.
  - exfalso. destruct (tidy_safe_lockless _ _ _ _ He H0 E) as [_ (t & m & Hin & Hn)]. apply Hn. eauto.
Qed.
(** Nothing shared to begin with. *)
Lemma settled_init : G = [] -> Forall (tidy Main []) ps -> settled e G caps ps (fun _ => []) (init ps).
Proof.
  clear Henv. intros -> Hp. constructor; try (intros; match goal with H : _ ∈ [] |- _ => inversion H end).
  - exists []. reflexivity.
  - intros s1 s2 H. inversion H.
  - intros t st Ht. cbn in Ht. rewrite list_lookup_fmap in Ht. destruct (ps !! t) as [p|] eqn:E; [|discriminate]. injection Ht as <-. right. exists p. split; [reflexivity|].
    rewrite Forall_lookup in Hp. eauto.
  - intros l r th Hl. discriminate.
  - intros u r i th Hu. discriminate.
Qed.
End tidy.
