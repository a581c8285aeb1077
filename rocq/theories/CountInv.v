(** * Connecting and emitting in a loop: what holds all the time *)
From Verif Require Import Reach InvUse InvFault InvFields InvRem InvSig InvEmit InvCount Emission LogLemmas InvList OpDeath Witness TidyCase TidySafe AloneProof AloneTest TidyExamples QuietExamples.
From Verif Require Export CountProof.

Definition is_emit (t : tid) (ev : event) : bool := match ev with EEmit t' _ _ _ _ => bool_decide (t' = t) | _ => false end.

Definition is_remret (l : lid) (f : frame) : bool := match f with FRemRet l' => bool_decide (l' = l) | _ => false end.
Lemma remret_in l st : existsb (is_remret l) st = true <-> FRemRet l ∈ st.
Proof.
  rewrite existsb_exists. split.
  - intros (f & Hf & H). apply elem_of_list_In in Hf. destruct f; try discriminate. cbn in H. apply bool_decide_eq_true in H as ->. exact Hf.
  - intros H. exists (FRemRet l). split; [apply elem_of_list_In; exact H|cbn; apply bool_decide_eq_true; reflexivity].
Qed.

Section count.
Context (ps : list prog) (w0 : world) (W : list tid) (M N : tid -> nat).
Hypothesis Hps : Forall functions ps.
Hypothesis H0 : reachable add_env ps w0.
Hypothesis Hne0 : forall t s l, EErased t s l ∉ w_log w0.
Hypothesis Hnm0 : forall s1 s2, EMoveSig s1 s2 ∉ w_log w0.
Hypothesis Hs0 : signal_lives w0 0.
Hypothesis Hc0 : spec_comb (w_log w0) 0 = Some None.

Definition pos_ok (w : world) (new : list event) (t : tid) (p : pos_t) : Prop :=
  match p with
  | PIdle => True
  | PHas l c => good_slot (w_log w) l /\ forall c', c = Some c' -> v_conns (w_vars w) !! c' = Some (ConnV true true (Some l))
  | PIn eid l c => good_slot (w_log w) l /\ v_conns (w_vars w) !! c = Some (ConnV true true (Some l)) /\
      exists a xs, EEmit t eid 0 a xs ∈ new /\ l ∈ xs
  | PDisc l => good_slot (w_log w) l
  | PRem l => EFlag l ∈ w_log w
  end.
Record inv (w : world) (new : list event) (g : tid -> pos_t) (k : tid -> option nat) : Prop := {
  i_reach : reachable add_env ps w;
  i_log : w_log w = new ++ w_log w0;
  i_calm : Forall calm_ev new;
  i_ph : forall t st, w_thr w !! t = Some st -> phase (M t) st (g t) (k t);
  i_ok : forall t, pos_ok w new t (g t);
  i_idle : forall t, t ∉ W -> g t = PIdle;
  i_rest : forall t st, t ∉ W -> w_thr w !! t = Some st -> exists o, st = [FRet o];
  i_uniq : forall t t' l, slot_of (g t) = Some l -> slot_of (g t') = Some l -> t = t';
  i_held : forall l, spec_flag (w_log w) l = true -> spec_home (w_log w) l = Some 0 -> exists t, slot_of (g t) = Some l;
  i_cnt : forall t d, k t = Some d -> ecount (is_emit t) new + d = N t;
  i_emit : forall t eid s a xs, EEmit t eid s a xs ∈ new -> s = 0 /\ length xs <= length W /\ t ∈ W;
  i_done : forall t eid s a xs, EEmit t eid s a xs ∈ new -> (exists l c, g t = PIn eid l c) \/ exists l c args start, ECall t (RSlot l) (Some eid) c args start ∈ new;
  i_call : forall t r o c args start, ECall t r o c args start ∈ new -> exists l eid a xs, r = RSlot l /\ o = Some eid /\ EEmit t eid 0 a xs ∈ new }.

(** ** What follows *)
Section facts.
Context (w : world) (new : list event) (g : tid -> pos_t) (k : tid -> option nat).
Hypothesis HI : inv w new g k.
Let Hr := i_reach _ _ _ _ HI.
Lemma f_erased t s l : EErased t s l ∉ w_log w.
Proof.
  rewrite (i_log _ _ _ _ HI). intros H. apply elem_of_app in H as [H|H]; [|exact (Hne0 _ _ _ H)].
  pose proof (i_calm _ _ _ _ HI) as HC. rewrite Forall_forall in HC. exact (HC _ H).
Qed.
Lemma f_moved s1 s2 : EMoveSig s1 s2 ∉ w_log w.
Proof.
  rewrite (i_log _ _ _ _ HI). intros H. apply elem_of_app in H as [H|H]; [|exact (Hnm0 _ _ H)].
  pose proof (i_calm _ _ _ _ HI) as HC. rewrite Forall_forall in HC. exact (HC _ H).
Qed.
Lemma f_destroyed : EDestroySig 0 ∉ w_log w.
Proof.
  rewrite (i_log _ _ _ _ HI). intros H. apply elem_of_app in H as [H|H].
  - pose proof (i_calm _ _ _ _ HI) as HC. rewrite Forall_forall in HC. exact (HC _ H).
  - destruct Hs0 as (r & Hs & Ha). destruct (I_sig_inv _ _ _ H0) as (HS & _). destruct (HS _ _ Hs) as (_ & Hd & _). apply Hd in H. congruence.
Qed.
Lemma f_comb : spec_comb (w_log w) 0 = Some None.
Proof.
  rewrite (i_log _ _ _ _ HI). pose proof (i_calm _ _ _ _ HI) as HC. clear - HC Hc0. induction HC as [|ev new Hev _ IH]; cbn; [exact Hc0|].
  destruct ev; auto; contradiction.
Qed.
Lemma f_wf : wf_log (w_log w).
Proof. eapply wf_log_reach; eauto. Qed.
Lemma f_home s l : l ∈ slots_of w s -> spec_flag (w_log w) l = true -> spec_home (w_log w) l = Some s.
Proof.
  intros Hl Hf. destruct (connected_listed _ _ _ _ Hr f_erased Hf) as (s1 & Hs1 & s' & Hl' & [-> |[s2 Hm]]); [|destruct (f_moved _ _ Hm)].
  change slots_of with cur in Hl, Hl'. destruct (I_list_inv _ _ _ Hr) as (_ & _ & Hd & _). rewrite <- (Hd _ _ _ Hl' Hl). exact Hs1.
Qed.
Lemma f_listed l : good_slot (w_log w) l -> l ∈ slots_of w 0.
Proof.
  intros Hg. destruct (good_facts _ _ f_wf Hg) as (Hf & Hh & _).
  destruct (connected_listed _ _ _ _ Hr f_erased Hf) as (s1 & Hs1 & s' & Hl' & [-> |[s2 Hm]]); [|destruct (f_moved _ _ Hm)].
  rewrite Hh in Hs1. injection Hs1 as <-. exact Hl'.
Qed.
Lemma f_alive l : good_slot (w_log w) l -> slot_alive w l = true.
Proof.
  intros Hg. apply slot_alive_iff. left. pose proof (f_listed _ Hg) as Hl. unfold slots_of in Hl.
  destruct (w_sigs w !! 0) as [r|] eqn:Hs; [|inversion Hl]. destruct (sg_vec r) as [v|] eqn:Hv; [|inversion Hl].
  exists 0, r, v. split; [exact Hs|]. split; [|auto]. destruct (I_sig_inv _ _ _ Hr) as (HS & _). destruct (HS _ _ Hs) as (_ & Hd & _).
  destruct (sg_alive r); [reflexivity|]. destruct f_destroyed. apply Hd. reflexivity.
Qed.
Lemma f_old t l : slot_of (g t) = Some l -> l < length (w_slots w).
Proof.
  intros Hs. assert (Hev : exists ev, ev ∈ w_log w /\ l ∈ ev_slots ev).
  { pose proof (i_ok _ _ _ _ HI t) as Hp. destruct (g t) as [|l0 c|eid l0 c|l0|l0]; cbn in Hs, Hp; [discriminate| | | |]; injection Hs as ->.
    - destruct Hp as ((_ & _ & t0 & i & Hc & _) & _). eexists. split; [exact Hc|left].
    - destruct Hp as ((_ & _ & t0 & i & Hc & _) & _). eexists. split; [exact Hc|left].
    - destruct Hp as (_ & _ & t0 & i & Hc & _). eexists. split; [exact Hc|left].
    - eexists. split; [exact Hp|left]. }
  destruct Hev as (ev & Hin & Hl). destruct (le_lt_dec (length (w_slots w)) l) as [Hle|Hlt]; [|exact Hlt]. destruct (fresh_log _ _ _ _ _ Hr Hle Hin Hl).
Qed.
(** The list is not longer than the number of working threads. *)
Lemma f_owner l : l ∈ slots_of w 0 -> exists t, slot_of (g t) = Some l.
Proof.
  intros Hl. destruct (existsb (existsb (is_remret l)) (w_thr w)) eqn:Hin.
  - apply existsb_exists in Hin as (st & Hst & Hin). apply elem_of_list_In, elem_of_list_lookup in Hst as [t Ht]. exists t. apply remret_in in Hin.
    pose proof (i_ph _ _ _ _ HI _ _ Ht) as Hph. destruct Hph; try (exfalso; repeat (apply elem_of_cons in Hin as [Hin|Hin]; [try discriminate Hin; destruct_or?; destruct_and?; naive_solver|]); inversion Hin; fail).
    + exfalso. apply elem_of_app in Hin as [Hin|Hin]; [destruct H|]; repeat (apply elem_of_cons in Hin as [Hin|Hin]; [discriminate Hin|]); inversion Hin.
    + apply elem_of_cons in Hin as [Hin|Hin]; [exfalso; destruct_or?; subst; try discriminate; destruct_and?; naive_solver|].
      apply elem_of_cons in Hin as [Hin|Hin]; [injection Hin as ->; reflexivity|]. exfalso. repeat (apply elem_of_cons in Hin as [Hin|Hin]; [discriminate Hin|]); inversion Hin.
  - assert (Hni : none_inside w l).
    { intros t st Ht Hx. apply not_true_iff_false in Hin. apply Hin. apply existsb_exists. exists st. split; [apply elem_of_list_In; eapply elem_of_list_lookup_2; eauto|apply remret_in; exact Hx]. }
    destruct (fun_never _ _ add_functions Hps _ l Hr) as [Hn1 Hn2].
    destruct (listed_connected _ _ _ _ _ Hr Hni Hl) as [H|[H|H]]; [|contradiction|contradiction].
    apply (i_held _ _ _ _ HI _ H). apply f_home; auto.
Qed.
Lemma f_bound : length (slots_of w 0) <= length W.
Proof.
  destruct (list_spec _ _ _ 0 Hr) as [L1 L2]. change (cur w 0) with (slots_of w 0) in L1. rewrite <- L1 in L2.
  assert (HT : exists ts, length ts = length (slots_of w 0) /\ NoDup ts /\ ts ⊆ W).
  { assert (HF : forall xs, NoDup xs -> xs ⊆ slots_of w 0 -> exists ts, length ts = length xs /\ NoDup ts /\ forall t, t ∈ ts -> exists l, l ∈ xs /\ slot_of (g t) = Some l).
    { induction 1 as [|x xs Hx Hnd IH]; intros Hsub; [exists []; split; [reflexivity|]; split; [constructor|intros t Ht; inversion Ht]|].
      destruct IH as (ts & Hl & Hn & Ho); [intros y Hy; apply Hsub; right; exact Hy|].
      destruct (f_owner x) as [t Ht]; [apply Hsub; left|]. exists (t :: ts). split; [cbn; lia|]. split.
      - constructor; [|exact Hn]. intros Hin. destruct (Ho _ Hin) as (l & Hl' & Hs). assert (l = x) by congruence. subst. contradiction.
      - intros t' Hin. apply elem_of_cons in Hin as [-> |Hin]; [exists x; split; [left|exact Ht]|]. destruct (Ho _ Hin) as (l & Hl' & Hs). exists l. split; [right; exact Hl'|exact Hs]. }
    destruct (HF (slots_of w 0) L2 ltac:(set_solver)) as (ts & Hl & Hn & Ho). exists ts. split; [exact Hl|]. split; [exact Hn|].
    intros t Ht. destruct (Ho _ Ht) as (l & _ & Hs). destruct (decide (t ∈ W)) as [H|H]; [exact H|]. rewrite (i_idle _ _ _ _ HI _ H) in Hs. discriminate. }
  destruct HT as (ts & <- & Hn & Hsub). apply submseteq_length, NoDup_submseteq; [exact Hn|]. intros t Ht. apply Hsub. exact Ht.
Qed.
Lemma f_fn l r : w_slots w !! l = Some r -> c_kind (im_c (sl_impl r)) <> KTracked.
Proof.
  intros Hl. destruct (I_fields_inv _ _ _ Hr _ _ Hl) as ((i & Hi & ->) & _). apply conn0_elem in Hi as (t & s & Hin).
  apply elem_of_list_split in Hin as (a & b & E). destruct (fun_conns _ _ add_functions Hps _ Hr _ _ _ E) as [_ H]. exact H.
Qed.
Lemma f_world_ok t : world_ok w (g t).
Proof.
  pose proof (i_ok _ _ _ _ HI t) as Hp. destruct (g t) as [|l [c|]|eid l c|l|l]; cbn in Hp |- *; auto.
  - destruct Hp as [Hg Hc]. split; [apply Hc; reflexivity|apply f_alive; exact Hg].
  - intros r Hl. destruct (I_fields_inv _ _ _ Hr _ _ Hl) as (_ & Hf & _ & _ & Hh). destruct (good_facts _ _ f_wf Hp) as (H1 & H2 & _). split; congruence.
Qed.
End facts.

(** ** A step *)
Definition set {A} (g : tid -> A) (t : tid) (x : A) : tid -> A := fun t' => if decide (t' = t) then x else g t'.
Lemma set_eq {A} (g : tid -> A) t x : set g t x t = x.
Proof. unfold set. rewrite decide_True by auto. reflexivity. Qed.
Lemma set_ne {A} (g : tid -> A) t x t' : t' <> t -> set g t x t' = g t'.
Proof. intros H. unfold set. rewrite decide_False by auto. reflexivity. Qed.

Lemma move_calm f w t p d evs cs p' d' : move f w t p d evs cs p' d' -> Forall calm_ev evs.
Proof.
  assert (Hd : forall ev, dull ev -> calm_ev ev) by (intros []; cbn; auto).
  destruct 1; repeat constructor; auto. eapply Forall_impl; eauto.
Qed.
(** The slots of other threads are left alone. *)
Lemma move_good f w new g k t d evs cs p' d' l : inv w new g k -> move f w t (g t) d evs cs p' d' -> good_slot (w_log w) l -> slot_of (g t) <> Some l \/ (forall l, g t <> PDisc l) ->
  good_slot (evs ++ w_log w) l.
Proof.
  intros HI Hm Hg Hl. apply good_app; [|exact Hg]. intros ev Hev. pose proof (move_calm _ _ _ _ _ _ _ _ _ Hm) as HC. rewrite Forall_forall in HC. pose proof (HC _ Hev) as Hc.
  split; [|intros b ->; exact Hc]. intros ->. inversion Hm; subst; try (apply elem_of_list_singleton in Hev; simplify_eq; try contradiction); try (inversion Hev; fail).
  - match goal with H : Forall dull _ |- _ => rewrite Forall_forall in H; exact (H _ Hev) end.
  - match goal with H : PDisc _ = g t |- _ => rewrite <- H in Hl; destruct Hl as [Hl|Hl]; [apply Hl; reflexivity|exact (Hl _ eq_refl)] end.
Qed.
Lemma dead_dull L : deadish L -> Forall dull L.
Proof. intros H. eapply Forall_impl; [exact H|]. intros ev [[l ->]|[o ->]]; exact I. Qed.
Lemma dull_good L log l : Forall dull L -> good_slot log l -> good_slot (L ++ log) l.
Proof. intros HL. apply good_app. intros ev Hev. rewrite Forall_forall in HL. specialize (HL _ Hev). split; [intros ->; exact HL|intros b ->; exact HL]. Qed.
Lemma dull_flag L log l : Forall dull L -> spec_flag (L ++ log) l = spec_flag log l /\ spec_home (L ++ log) l = spec_home log l.
Proof. induction 1 as [|ev L Hev _ IH]; cbn; [auto|]. destruct ev; auto; contradiction. Qed.
Lemma dull_calm L : Forall dull L -> Forall calm_ev L.
Proof. intros H. eapply Forall_impl; [exact H|]. intros []; cbn; auto. Qed.
Lemma dull_emits L t : Forall dull L -> ecount (is_emit t) L = 0.
Proof. intros HL. apply ecount_zero. intros ev Hev. rewrite Forall_forall in HL. specialize (HL _ Hev). destruct ev; auto; contradiction. Qed.
Lemma dull_not L ev : Forall dull L -> ev ∈ L -> ~ dull ev -> False.
Proof. rewrite Forall_forall. auto. Qed.

Lemma comb_calm b : Forall calm_ev b -> spec_comb (b ++ w_log w0) 0 = Some None.
Proof. induction 1 as [|ev new Hev _ IH]; cbn; [exact Hc0|]. destruct ev; auto; contradiction. Qed.
Lemma began_new w new t eid a xs : reachable add_env ps w -> w_log w = new ++ w_log w0 -> Forall calm_ev new -> EEmit t eid 0 a xs ∈ new -> began (w_log w) t eid 0 a xs None.
Proof.
  intros Hr Hl Hc Hin. apply elem_of_list_split in Hin as (p & q & ->). exists p, (q ++ w_log w0). split; [rewrite Hl, <- app_assoc; reflexivity|].
  apply comb_calm. apply Forall_app in Hc as [_ Hc]. apply Forall_cons in Hc as [_ Hc]. exact Hc.
Qed.
Lemma call_new w new t eid a xs t' l c args start : reachable add_env ps w -> w_log w = new ++ w_log w0 -> EEmit t eid 0 a xs ∈ new ->
  ECall t' (RSlot l) (Some eid) c args start ∈ w_log w -> ECall t' (RSlot l) (Some eid) c args start ∈ new.
Proof.
  intros Hr Hl Hin Hc. pose proof Hl as Hl'. rewrite Hl' in Hc. apply elem_of_app in Hc as [Hc|Hc]; [exact Hc|]. exfalso. apply elem_of_list_split in Hin as (p & q & ->).
  rewrite <- app_assoc in Hl. cbn in Hl. pose proof (emit_fresh _ _ _ Hr _ _ _ Hl) as HF. cbn in HF.
  specialize (HF _ ltac:(apply elem_of_app; right; exact Hc)). cbn in HF. rewrite bool_decide_eq_true_2 in HF by reflexivity. discriminate.
Qed.

Lemma inv_step w new g k t f w' : inv w new g k -> step add_env w t f = SOk w' -> exists evs g' k', inv w' (evs ++ new) g' k' /\ (f = MOk -> forall t, k t <> None -> k' t <> None).
Proof.
  intros HI Hst. pose proof (i_reach _ _ _ _ HI) as Hr. pose proof (reachable_step _ _ _ _ _ _ Hr Hst) as Hr'.
  destruct (step_trans _ _ _ _ _ Hst) as (st & w1 & st1 & Ht & Htr & Hw' & Hls).
  assert (HtW : t ∈ W).
  { destruct (decide (t ∈ W)) as [H|H]; [exact H|]. destruct (i_rest _ _ _ _ HI _ _ H Ht) as [o ->]. inversion Htr. }
  destruct (phase_step w t w1 (fun r => never_blocked _ _ _ _ r Hr)) with (6 := Htr) (5 := Hls) (3 := i_ph _ _ _ _ HI _ _ Ht) as (p' & d' & evs & Hph & Hlog & Hm).
  { intros r Hs. pose proof (I_comb_inv _ _ _ Hr _ _ Hs) as Hc. rewrite (f_comb _ _ _ _ HI) in Hc. congruence. }
  { exact (f_fn _ _ _ _ HI). }
  { exact (f_world_ok _ _ _ _ HI t). }
  destruct (reap_spec add_env w w1 t st1) as (D & L & _ & HL & Hre & HD & _). apply dead_dull in HL.
  assert (D = []) as ->. { rewrite HD. clear. induction (dead w (mid w1 t st1)) as [|x xs IH]; [reflexivity|]. cbn [flat_map]. rewrite IH, app_nil_r. unfold dtor_frames. destruct x as [l|o]; [|reflexivity]. cbn. destruct (w_slots _ !! l); reflexivity. }
  rewrite <- Hw' in Hre. clear HD Hw'.
  assert (Hlog' : w_log w' = L ++ evs ++ w_log w) by (rewrite Hre; wcbn; rewrite Hlog; reflexivity).
  assert (Hthr' : w_thr w' = <[t := st1]> (w_thr w)) by (rewrite Hre; wcbn; rewrite (trans_thr _ _ _ _ _ _ Htr); reflexivity).
  assert (Hcon' : v_conns (w_vars w') = v_conns (w_vars w1)) by (rewrite Hre; reflexivity).
  clear Hre Hlog. pose proof (move_calm _ _ _ _ _ _ _ _ _ Hm) as Hcalm.
  assert (Hnew' : w_log w' = (L ++ evs ++ new) ++ w_log w0) by (rewrite Hlog', (i_log _ _ _ _ HI), <- !app_assoc; reflexivity).
  assert (Hcalm' : Forall calm_ev (L ++ evs ++ new)) by (apply Forall_app; split; [apply dull_calm; exact HL|]; apply Forall_app; split; [exact Hcalm|exact (i_calm _ _ _ _ HI)]).
  assert (Hmono : forall ev, ev ∈ new -> ev ∈ L ++ evs ++ new) by (intros ev Hev; rewrite !elem_of_app; auto).
  assert (Hfresh : forall l, slot_of p' = Some l -> slot_of (g t) = None -> l = length (w_slots w)).
  { intros l Q1 Q2. inversion Hm; subst; cbn in *; try congruence; match goal with H : _ = g t |- _ => rewrite <- H in Q2 end; cbn in *; congruence. }
  assert (Hslot : slot_of p' = slot_of (g t) \/ slot_of (g t) = None \/ (slot_of p' = None /\ exists l, g t = PRem l)).
  { inversion Hm; subst; cbn; auto; right; right; eauto. }
  exists (L ++ evs), (set g t p'), (set k t d'). rewrite <- app_assoc. split.
  2: { intros -> t' Hk. destruct (decide (t' = t)) as [-> |Hn]; [|rewrite set_ne by exact Hn; exact Hk]. rewrite set_eq. inversion Hm; subst; congruence. }
  assert (Hkeep : forall t', t' <> t -> pos_ok w' (L ++ evs ++ new) t' (g t')).
  { intros t' Hn. pose proof (i_ok _ _ _ _ HI t') as Hp.
    assert (Hg : forall l, slot_of (g t') = Some l -> good_slot (w_log w) l -> good_slot (w_log w') l).
    { intros l Hs Hg. rewrite Hlog'. apply dull_good; [exact HL|]. eapply move_good; eauto. left. intros H. apply Hn. eapply (i_uniq _ _ _ _ HI); eauto. }
    assert (Hc : forall l c, slot_of (g t') = Some l -> v_conns (w_vars w) !! c = Some (ConnV true true (Some l)) -> v_conns (w_vars w') !! c = Some (ConnV true true (Some l))).
    { intros l c Hs Hc. rewrite Hcon'. inversion Hm; subst; auto.
      - rewrite lookup_app_l; [exact Hc|]. eapply lookup_lt_Some; eauto.
      - destruct (decide (c0 = c)) as [-> |Hcc]; [|rewrite list_lookup_alter_ne by exact Hcc; exact Hc]. exfalso. apply Hn.
        match goal with H : PHas _ (Some c) = g t |- _ => pose proof (i_ok _ _ _ _ HI t) as Hpt; rewrite <- H in Hpt; destruct Hpt as [_ Hpt]; specialize (Hpt _ eq_refl); rewrite Hpt in Hc; injection Hc as ->; eapply (i_uniq _ _ _ _ HI t' t); [exact Hs|rewrite <- H; reflexivity] end. }
    destruct (g t') as [|l c|eid l c|l|l]; cbn in Hp, Hg, Hc |- *; auto.
    - destruct Hp as [Q1 Q2]. split; [auto|]. intros c' ->. auto.
    - destruct Hp as (Q1 & Q2 & a & xs & Q3 & Q4). split; [auto|]. split; [auto|]. eauto.
    - rewrite Hlog', !elem_of_app. auto. }
  assert (Hown : pos_ok w' (L ++ evs ++ new) t p').
  { pose proof (i_ok _ _ _ _ HI t) as Hp.
    assert (Hg : forall l, (forall l, g t <> PDisc l) -> good_slot (w_log w) l -> good_slot (w_log w') l).
    { intros l Hd Hg. rewrite Hlog'. apply dull_good; [exact HL|]. eapply move_good; eauto. }
    inversion Hm; subst; try (match goal with H : _ = g t |- _ => rewrite <- H in Hp, Hg; clear H end); cbn in Hp |- *; auto.
    - (* same *) destruct (g t) as [|l c|eid l c|l|l] eqn:Egt; cbn in Hp |- *; auto.
      + destruct Hp as [Q1 Q2]. split; [apply Hg; [congruence|exact Q1]|]. intros c' ->. specialize (Q2 _ eq_refl). rewrite Hcon'. congruence.
      + destruct Hp as (Q1 & Q2 & a & xs & Q3 & Q4). split; [apply Hg; [congruence|exact Q1]|]. split; [rewrite Hcon'; congruence|]. eauto.
      + rewrite Hlog'. apply dull_good; [exact HL|]. apply dull_good; auto.
      + rewrite Hlog', !elem_of_app. auto.
    - (* add *) split; [|discriminate]. rewrite Hlog'. apply dull_good; [exact HL|]. cbn.
      assert (HF : forall ev, ev ∈ w_log w -> length (w_slots w) ∉ ev_slots ev) by (intros ev Hev; exact (fresh_log _ _ _ _ _ Hr (le_n _) Hev)).
      split; [|split].
      + intros H'. apply elem_of_cons in H' as [H'|H']; [discriminate|]. apply (HF _ H'). left.
      + intros b H'. apply elem_of_cons in H' as [H'|H']; [discriminate|]. apply (HF _ H'). left.
      + exists t, i. split; [left|auto].
    - (* conn *) destruct Hp as [Q1 _]. split; [apply Hg; [discriminate|exact Q1]|]. intros c' [= <-]. rewrite Hcon'. match goal with H : _ ++ _ = v_conns _ |- _ => rewrite <- H end. apply lookup_snoc_Some_last || (rewrite lookup_app_r by lia; rewrite Nat.sub_diag; reflexivity).
    - (* emit *) destruct Hp as [Q1 Q2]. split; [apply Hg; [discriminate|exact Q1]|]. split; [rewrite Hcon'; match goal with H : v_conns _ = v_conns _ |- _ => rewrite <- H end; auto|].
      eexists _, _. split; [apply elem_of_app; right; left|]. eapply f_listed; eauto.
    - (* call *) destruct Hp as (Q1 & Q2 & a & xs & Q3 & Q4). split; [apply Hg; [discriminate|exact Q1]|]. split; [rewrite Hcon'; congruence|]. eauto.
    - (* ret *) destruct Hp as (Q1 & Q2 & _). split; [apply Hg; [discriminate|exact Q1]|]. intros c' [= <-]. rewrite Hcon'. congruence.
    - (* disc *) destruct Hp as [Q1 _]. apply Hg; [discriminate|exact Q1].
    - (* flag *) rewrite Hlog', !elem_of_app. right. left. left. }
  constructor.
  - exact Hr'.
  - exact Hnew'.
  - exact Hcalm'.
  - intros t' st' Ht'. rewrite Hthr' in Ht'. destruct (thr_upd _ _ _ _ _ _ Ht Ht') as [[-> ->]|[Hn Hx]]; [rewrite !set_eq; exact Hph|rewrite !set_ne by auto; exact (i_ph _ _ _ _ HI _ _ Hx)].
  - intros t'. destruct (decide (t' = t)) as [-> |Hn]; [rewrite set_eq; exact Hown|rewrite set_ne by exact Hn; auto].
  - intros t' Hn. rewrite set_ne by congruence. exact (i_idle _ _ _ _ HI _ Hn).
  - intros t' st' Hn Ht'. rewrite Hthr' in Ht'. rewrite list_lookup_insert_ne in Ht' by congruence. exact (i_rest _ _ _ _ HI _ _ Hn Ht').
  - assert (Hu : forall t' l, t' <> t -> slot_of p' = Some l -> slot_of (g t') = Some l -> False).
    { intros t' l Hn Hp Hg. destruct (slot_of (g t)) as [l0|] eqn:E.
      - destruct Hslot as [H|[H|[H _]]]; [|discriminate|congruence]. apply Hn. eapply (i_uniq _ _ _ _ HI); [exact Hg|congruence].
      - pose proof (Hfresh _ Hp eq_refl) as ->. apply (f_old _ _ _ _ HI) in Hg. lia. }
    intros t1 t2 l Q1 Q2. destruct (decide (t1 = t)) as [-> |N1]; destruct (decide (t2 = t)) as [-> |N2]; [reflexivity| | |].
    + rewrite set_eq in Q1. rewrite set_ne in Q2 by exact N2. destruct (Hu _ _ N2 Q1 Q2).
    + rewrite set_eq in Q2. rewrite set_ne in Q1 by exact N1. destruct (Hu _ _ N1 Q2 Q1).
    + rewrite set_ne in Q1 by exact N1. rewrite set_ne in Q2 by exact N2. eapply (i_uniq _ _ _ _ HI); eauto.
  - intros l Hf Hh. pose proof (wf_log_reach _ _ _ Hr') as Hwf'.
    assert (Hcase : (spec_flag (w_log w) l = true /\ spec_home (w_log w) l = Some 0) \/ slot_of p' = Some l).
    { rewrite Hlog' in Hf, Hh. destruct (dull_flag L (evs ++ w_log w) l HL) as [E1 E2]. rewrite E1 in Hf. rewrite E2 in Hh. inversion Hm; subst; cbn in Hf, Hh; auto.
      - match goal with H : Forall dull evs |- _ => destruct (dull_flag evs (w_log w) l H) as [E3 E4] end. left. split; congruence.
      - case_decide; [right; cbn; congruence|auto].
      - destruct ev; auto; contradiction.
      - case_decide; [discriminate|auto].
      - destruct ev; auto; contradiction. }
    destruct Hcase as [[Q1 Q2]|H]; [|exists t; rewrite set_eq; exact H].
    destruct (i_held _ _ _ _ HI _ Q1 Q2) as [t' Ht']. destruct (decide (t' = t)) as [-> |Hn]; [|exists t'; rewrite set_ne by exact Hn; exact Ht'].
    exists t. rewrite set_eq. destruct Hslot as [H|[H|[H (l0 & Hl0)]]]; [congruence|congruence|]. exfalso. pose proof (i_ok _ _ _ _ HI t) as Hp. rewrite Hl0 in Ht', Hp. cbn in Ht', Hp. injection Ht' as ->.
    rewrite (LogLemmas.flag_cleared (w_log w) l) in Q1; [discriminate|eapply wf_log_reach; eauto|exact Hp].
  - intros t' d Hk. rewrite !ecount_app, (dull_emits L) by exact HL. cbn. destruct (decide (t' = t)) as [-> |Hn].
    + rewrite set_eq in Hk. subst d'. inversion Hm; subst; rewrite ?ecount_cons; cbn [is_emit]; try (rewrite bool_decide_eq_true_2 by reflexivity); try (apply (i_cnt _ _ _ _ HI); congruence).
      * rewrite dull_emits by assumption. apply (i_cnt _ _ _ _ HI). congruence.
      * destruct ev; cbn; try (apply (i_cnt _ _ _ _ HI); congruence); contradiction.
      * match goal with H : Some (S _) = k t |- _ => pose proof (i_cnt _ _ _ _ HI _ _ (eq_sym H)) as Hc end. change (ecount (is_emit t) []) with 0. lia.
      * destruct ev; cbn; try (apply (i_cnt _ _ _ _ HI); congruence); contradiction.
    + rewrite set_ne in Hk by exact Hn. assert (ecount (is_emit t') evs = 0) as ->; [|exact (i_cnt _ _ _ _ HI _ _ Hk)].
      apply ecount_zero. intros ev Hev. destruct ev; cbn; auto. apply bool_decide_eq_false. intros ->. apply Hn.
      inversion Hm; subst; try (match goal with H : Forall dull evs |- _ => exfalso; rewrite Forall_forall in H; exact (H _ Hev) end); try (inversion Hev; fail); apply elem_of_list_singleton in Hev; subst; try discriminate; try contradiction. congruence.
  - intros t' eid s a xs Hin. rewrite !elem_of_app in Hin. destruct Hin as [Hin|[Hin|Hin]]; [exfalso; eapply dull_not; eauto| |exact (i_emit _ _ _ _ HI _ _ _ _ _ Hin)].
    inversion Hm; subst; try (match goal with H : Forall dull evs |- _ => exfalso; rewrite Forall_forall in H; exact (H _ Hin) end); try (inversion Hin; fail); apply elem_of_list_singleton in Hin; subst; try discriminate; try contradiction.
    injection Hin as -> -> -> -> ->. split; [reflexivity|]. split; [eapply f_bound; eauto|]. destruct (decide (t ∈ W)) as [HW|HW]; [exact HW|]. pose proof (i_idle _ _ _ _ HI t HW). congruence.
  - intros t' eid s a xs Hin. rewrite !elem_of_app in Hin. destruct Hin as [Hin|[Hin|Hin]]; [exfalso; eapply dull_not; eauto| |].
    + inversion Hm; subst; try (match goal with H : Forall dull evs |- _ => exfalso; rewrite Forall_forall in H; exact (H _ Hin) end); try (inversion Hin; fail); apply elem_of_list_singleton in Hin; subst; try discriminate; try contradiction.
      injection Hin as -> -> -> -> ->. left. exists l, c. apply set_eq.
    + destruct (i_done _ _ _ _ HI _ _ _ _ _ Hin) as [(l & c & Hg)|(l & c & args & start & Hc)]; [|right; exists l, c, args, start; auto].
      destruct (decide (t' = t)) as [-> |Hn]; [|left; exists l, c; rewrite set_ne by exact Hn; exact Hg]. rewrite set_eq.
      inversion Hm; subst; try congruence; try (left; exists l, c; congruence).
      right. match goal with H : PIn ?a ?b ?c = g t |- _ => assert (E : PIn a b c = PIn eid l c) by congruence; injection E as -> -> end.
      pose proof (i_ok _ _ _ _ HI t) as Hp. rewrite Hg in Hp. destruct Hp as (Q1 & Q2 & a' & xs' & Q3 & Q4).
      assert (HB : began (w_log w') t eid 0 a' xs' None) by (eapply began_new; eauto).
      destruct (good_called ps w' t eid 0 a' xs' z l Hps Hr' HB) as (c2 & args & start & Hcall).
      * rewrite Hlog', !elem_of_app. right. left. left.
      * exact Q4.
      * rewrite Hlog'. apply dull_good; [exact HL|]. eapply move_good; eauto. right. intros l0. rewrite Hg. discriminate.
      * exists l, c2, args, start. eapply (call_new w' _ t eid a' xs'); eauto.
  - intros t' r o c args start Hin. rewrite !elem_of_app in Hin. destruct Hin as [Hin|[Hin|Hin]]; [exfalso; eapply dull_not; eauto| |].
    + inversion Hm; subst; try (match goal with H : Forall dull evs |- _ => exfalso; rewrite Forall_forall in H; exact (H _ Hin) end); try (inversion Hin; fail); apply elem_of_list_singleton in Hin; subst; try discriminate; try contradiction.
      injection Hin as -> -> -> -> -> ->. pose proof (i_ok _ _ _ _ HI t) as Hp. match goal with H : PIn _ _ _ = g t |- _ => rewrite <- H in Hp end. destruct Hp as (_ & _ & a & xs & Q3 & _). exists l', eid, a, xs. auto.
    + destruct (i_call _ _ _ _ HI _ _ _ _ _ _ Hin) as (l & eid & a & xs & -> & -> & H). exists l, eid, a, xs. auto.
Qed.
End count.
