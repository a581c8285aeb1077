(** * What emissions do, in the form the properties state it *)
From Verif Require Export InvEmit.

Lemma esteps_explains e t eid xs p a evs q b : esteps e t eid xs p a evs q b -> explains t eid xs p evs q.
Proof.
  induction 1; [constructor|eapply X_other; eauto|eapply X_skip; eauto|eapply X_call; eauto].
Qed.

Lemma eprog_progress e t eid xs p a evs : eprog e t eid xs p a evs -> progress t eid xs p evs.
Proof.
  destruct 1; match goal with H : esteps _ _ _ _ _ _ _ _ _ |- _ => apply esteps_explains in H end;
    [eapply P_between; eauto|eapply P_skip; eauto|eapply P_call; eauto|eapply P_ret; eauto|eapply P_done; eauto].
Qed.

Lemma user_combiner e ps w t eid s a xs k : reachable e ps w -> began (w_log w) t eid s a xs (Some k) ->
  progress t eid xs (e_comb e k (length xs)) (did eid (w_log w)).
Proof. intros Hr Hb. eapply eprog_progress. exact (emission _ _ _ _ _ _ _ _ _ Hr Hb). Qed.

(** ** The default combiner *)
Lemma olv_esteps e t eid xs a evs q b : esteps e t eid xs (olv (length xs) 0 None) a evs q b ->
  (exists n z, visits t eid xs evs n z /\ n <= length xs /\ q = olv (length xs - n) n z) \/
  (exists n z l c args start x evs0, visits t eid xs evs0 n z /\ xs !! n = Some l /\
     evs = EDeref t eid n l (OutExn x) :: ERet t (RSlot l) (Some eid) (OutExn x) :: ECall t (RSlot l) (Some eid) c args start :: evs0 /\
     q = Ret (OutExn x)).
Proof.
  assert (Hol : forall n m z o k, Do o k = olv n m z -> exists n', n = S n' /\ o = ODeref m).
  { intros n m z o k. destruct n; cbn; [discriminate|]. intros H. simplify_eq. eauto. }
  induction 1 as [|evs o k r b Hs IH Hn|evs pos k l start b Hs IH Hl|evs pos k l c start r b Hs IH Hl Ho].
  - left. exists 0, None. split; [constructor|]. split; [lia|]. rewrite Nat.sub_0_r. reflexivity.
  - exfalso. destruct IH as [(n & z & _ & _ & Hq)|(n & z & l & c & args & start & x & evs0 & _ & _ & _ & Hq)]; [|discriminate].
    apply Hol in Hq as (n' & _ & ->). eapply Hn. reflexivity.
  - destruct IH as [(n & z & Hv & Hle & Hq)|(n & z & l0 & c & args & start0 & x & evs0 & _ & _ & _ & Hq)]; [|discriminate].
    pose proof (Hol _ _ _ _ _ Hq) as (n' & Hn' & Hp). simplify_eq. rewrite Hn' in Hq. cbn in Hq. simplify_eq.
    left. exists (S n), z. split; [econstructor; eauto|]. split; [lia|]. f_equal. lia.
  - destruct IH as [(n & z & Hv & Hle & Hq)|(n & z & l0 & c0 & args & start0 & x & evs0 & _ & _ & _ & Hq)]; [|discriminate].
    pose proof (Hol _ _ _ _ _ Hq) as (n' & Hn' & Hp). simplify_eq. rewrite Hn' in Hq. cbn in Hq. simplify_eq.
    destruct Ho as [[y ->]|[x ->]].
    + left. exists (S n), (match y with Some _ => y | None => z end). split; [econstructor; eauto|]. split; [lia|].
      destruct y; f_equal; lia.
    + right. eexists _, _, _, _, _, _, _, _. eauto.
Qed.

Lemma default_combiner e ps w t eid s a xs : reachable e ps w -> began (w_log w) t eid s a xs None ->
  default_emission t eid xs (did eid (w_log w)).
Proof.
  intros Hr Hb. pose proof (emission _ _ _ _ _ _ _ _ _ Hr Hb) as H. cbn [combiner] in H.
  assert (Hmid : forall evs pos k b, esteps e t eid xs (olv (length xs) 0 None) a evs (Do (ODeref pos) k) b -> exists z, visits t eid xs evs pos z).
  { intros evs pos k b Hs. apply olv_esteps in Hs as [(n & z & Hv & Hle & Hq)|(n & z & l & c & args & start & x & evs0 & _ & _ & _ & Hq)]; [|discriminate].
    destruct (length xs - n); cbn in Hq; [discriminate|]. simplify_eq. eauto. }
  remember (did eid (w_log w)) as D. clear HeqD.
  destruct H as [evs q b Hs|evs pos k l start b Hs Hl|evs pos k l c start b Hs Hl|evs pos k l c start r b Hs Hl Ho|evs o b Hs].
  - apply olv_esteps in Hs as [(n & z & Hv & _)|(n & z & l & c & args & start & x & evs0 & Hv & Hl & -> & Hq)].
    + eapply D_between; eauto.
    + eapply D_leaving; eauto.
  - apply Hmid in Hs as [z Hv]. eapply D_skipped; eauto.
  - apply Hmid in Hs as [z Hv]. eapply D_called; eauto.
  - apply Hmid in Hs as [z Hv]. destruct Ho as [[y ->]|[x ->]]; [eapply D_returned; eauto|eapply D_threw; eauto].
  - apply olv_esteps in Hs as [(n & z & Hv & Hle & Hq)|(n & z & l & c & args & start & x & evs0 & Hv & Hl & -> & Hq)].
    + destruct (length xs - n) eqn:Hn; cbn in Hq; [|discriminate]. simplify_eq. replace n with (length xs) in Hv by lia.
      eapply D_done; eauto.
    + simplify_eq. eapply D_left; eauto.
Qed.

(** Answers in terms of what an emission did. *)
Lemma answers_did eid log : answers eid log = answers eid (did eid log).
Proof.
  induction log as [|ev log IH]; [reflexivity|]. unfold did. rewrite filter_cons. fold (did eid log).
  destruct ev; cbn; auto; try (repeat case_match; cbn; auto; fail).
  destruct (decide (eid0 = eid)) as [->|Hn].
  - rewrite bool_decide_true by auto. cbn. rewrite IH at 1. rewrite decide_True by auto. cbn [answers]. rewrite decide_True by auto. reflexivity.
  - rewrite bool_decide_false by auto. cbn. auto.
Qed.

Lemma visits_answers t eid xs evs n z : visits t eid xs evs n z ->
  n <= length xs /\ last_value (answers eid evs) = z /\ map fst (answers eid evs) = zip (seq 0 n) (take n xs) /\
  Forall (fun a => exists y, snd a = OutOpt y) (answers eid evs).
Proof.
  assert (Hz : forall n l, xs !! n = Some l -> zip (seq 0 (S n)) (take (S n) xs) = zip (seq 0 n) (take n xs) ++ [(n, l)]).
  { intros n0 l Hl. rewrite (take_S_r _ _ _ Hl), seq_S. cbn. rewrite zip_with_app; [reflexivity|].
    rewrite seq_length, take_length. apply lookup_lt_Some in Hl. lia. }
  induction 1 as [|evs n z l start Hv (IH1 & IH2 & IH3 & IH4) Hl|evs n z l c args start y Hv (IH1 & IH2 & IH3 & IH4) Hl].
  - split; [lia|]. split; [reflexivity|]. split; [reflexivity|]. constructor.
  - cbn [answers]. rewrite decide_True by auto. split; [apply lookup_lt_Some in Hl; lia|]. split.
    + unfold last_value in *. rewrite fold_left_app. cbn. auto.
    + rewrite map_app, IH3, (Hz _ _ Hl). split; [reflexivity|]. apply Forall_app. split; [auto|]. repeat constructor. cbn. eauto.
  - cbn [answers]. rewrite decide_True by auto. split; [apply lookup_lt_Some in Hl; lia|]. split.
    + unfold last_value in *. rewrite fold_left_app. cbn. rewrite IH2. destruct y; reflexivity.
    + rewrite map_app, IH3, (Hz _ _ Hl). split; [reflexivity|]. apply Forall_app. split; [auto|]. repeat constructor. cbn. eauto.
Qed.

Lemma swt_in eid st : 1 <= swt (emf eid) st -> exists s v a, FEmit s eid v a ∈ st.
Proof.
  induction st as [|f st IH]; [cbn; lia|]. rewrite swt_cons. intros H.
  destruct (emf eid f) eqn:Hf.
  - destruct IH as (s & v & a & Hin); [lia|]. exists s, v, a. apply elem_of_list_further. auto.
  - destruct f; cbn in Hf; try discriminate. case_decide; [|discriminate]. subst. eexists _, _, _. apply elem_of_list_here.
Qed.

(** What belongs to an emission happens after it began, in the thread that began it. *)
Lemma after_began e ps w : reachable e ps w ->
  log_all (fun ev pre => match ev with
    | EEmitRet t eid o | EDeref t eid _ _ o => exists s a xs c, began pre t eid s a xs c
    | ECall t _ (Some eid) _ _ _ | ESkip t _ (Some eid) _ | ERet t _ (Some eid) _ => exists s a xs c, began pre t eid s a xs c
    | _ => True end) (w_log w).
Proof.
  apply log_all_hist; [intros []; cbn; auto; discriminate|].
  clear w. intros w t st w' st' ev pre Hr Ht Htr Hlg.
  assert (Hin : forall eid, touched st = Some eid -> exists s a xs c, began (w_log w) t eid s a xs c).
  { intros eid Hti. apply touched_in in Hti; [|apply (I_adj_inv _ _ _ Hr _ _ Ht)]. apply swt_in in Hti as (s & v & a & Hti).
    destruct (I_emitvec_inv _ _ _ Hr _ _ _ _ _ _ Ht Hti) as (a0 & c & Hb). eauto. }
  destruct ev; auto; try (destruct eid; [|exact I]); logs_inv Htr Hlg; try (apply Hin; reflexivity).
  destruct (Hin _ eq_refl) as (s & a & xs & c & Hb). exists s, a, xs, c. apply (began_app [_]). auto.
Qed.

(** An emission returns once and does nothing after that. *)
Lemma did_app eid a b : did eid (a ++ b) = did eid a ++ did eid b.
Proof. apply filter_app. Qed.
Lemma did_cons_about eid ev log : about eid ev = true -> did eid (ev :: log) = ev :: did eid log.
Proof. intros H. unfold did. rewrite filter_cons, H. reflexivity. Qed.

Lemma esteps_thr e t eid xs p a evs q b : esteps e t eid xs p a evs q b -> forall t' o, EEmitRet t' eid o ∉ evs.
Proof.
  induction 1; intros t' o' Hin; repeat (apply elem_of_cons in Hin as [Hin|Hin]; [discriminate|]); try (eapply IHesteps; eauto; fail).
  inversion Hin.
Qed.

Lemma did_newest e ps w t eid o : reachable e ps w -> EEmitRet t eid o ∈ w_log w ->
  exists s a xs c evs b, began (w_log w) t eid s a xs c /\ did eid (w_log w) = EEmitRet t eid o :: evs /\
    esteps e t eid xs (combiner e c (length xs)) a evs (Ret o) b.
Proof.
  intros Hr Hin. apply elem_of_list_split in Hin as (post & pre & Hl).
  destruct (after_began _ _ _ Hr _ _ _ Hl) as (s & a & xs & c & Hb).
  assert (Hb' : began (w_log w) t eid s a xs c).
  { rewrite Hl. apply (began_app (post ++ [EEmitRet t eid o])) in Hb. rewrite <- app_assoc in Hb. exact Hb. }
  pose proof (emission _ _ _ _ _ _ _ _ _ Hr Hb') as H.
  assert (Hd : EEmitRet t eid o ∈ did eid (w_log w)).
  { apply about_did; [|cbn; apply bool_decide_eq_true; auto]. rewrite Hl. apply elem_of_app. right. apply elem_of_list_here. }
  exists s, a, xs, c. remember (did eid (w_log w)) as D. clear HeqD.
  destruct H; repeat (apply elem_of_cons in Hd as [Hd|Hd]; [try discriminate|]);
    try (exfalso; eapply esteps_thr; eauto; fail).
  simplify_eq. eauto 10.
Qed.

(** ** The result of an emission with the default combiner *)
Lemma default_result e ps w t eid s a xs o : reachable e ps w -> began (w_log w) t eid s a xs None ->
  EEmitRet t eid o ∈ w_log w ->
  let ans := answers eid (w_log w) in
  (o = OutOpt (last_value ans) /\ map fst ans = zip (seq 0 (length xs)) xs /\ Forall (fun a => exists y, snd a = OutOpt y) ans) \/
  (exists n l x ans0, o = OutExn x /\ ans = ans0 ++ [(n, l, OutExn x)] /\
     map fst ans = zip (seq 0 (S n)) (take (S n) xs) /\ n < length xs /\ Forall (fun a => exists y, snd a = OutOpt y) ans0).
Proof.
  intros Hr Hb Hin ans. pose proof (default_combiner _ _ _ _ _ _ _ _ Hr Hb) as HD.
  destruct (did_newest _ _ _ _ _ _ Hr Hin) as (s' & a' & xs' & c' & evs & b & Hb' & Hd & _).
  unfold ans. rewrite answers_did. rewrite Hd in HD |- *. cbn [answers].
  inversion HD; subst; try (match goal with H : visits _ _ _ _ _ _ |- _ => inversion H end; fail).
  - left. match goal with H : visits _ _ _ _ _ _ |- _ => apply visits_answers in H as (V1 & V2 & V3 & V4) end.
    rewrite take_ge in V3 by lia. subst. auto.
  - right. match goal with H : visits _ _ _ _ _ _ |- _ => apply visits_answers in H as (V1 & V2 & V3 & V4) end.
    cbn [answers]. rewrite decide_True by auto.
    exists n, l, x, (answers eid evs0). split; [reflexivity|]. split; [reflexivity|]. split.
    + rewrite map_app, V3. match goal with H : xs !! n = Some l |- _ => pose proof H as Hl; rewrite (take_S_r _ _ _ H), seq_S end. cbn.
      rewrite zip_with_app; [reflexivity|]. rewrite seq_length, take_length. lia.
    + split; [|auto]. eapply lookup_lt_Some; eauto.
Qed.

(** ** Each slot is visited once *)
Lemma ecount_did f eid log : (forall ev, f ev = true -> about eid ev = true) -> ecount f log = ecount f (did eid log).
Proof.
  intros Hf. induction log as [|ev log IH]; [reflexivity|]. destruct (about eid ev) eqn:Ha.
  - rewrite did_cons_about by auto. rewrite !ecount_cons. congruence.
  - rewrite ecount_cons. unfold did. rewrite filter_cons, Ha. cbn. fold (did eid log).
    destruct (f ev) eqn:He; [apply Hf in He; congruence|]. auto.
Qed.

Lemma visit_about eid l ev : is_visit eid l ev = true -> about eid ev = true.
Proof. destruct ev; cbn; try discriminate; destruct r, eid0; try discriminate; rewrite !bool_decide_eq_true; tauto. Qed.

Lemma visits_count t eid xs evs n z l : visits t eid xs evs n z ->
  ecount (is_visit eid l) evs = length (filter (fun x => x = l) (take n xs)).
Proof.
  assert (Hb : forall b, bool_decide (eid = eid /\ b = l) = bool_decide (b = l)).
  { intros b. apply bool_decide_ext. tauto. }
  induction 1 as [|evs n z x start Hv IH Hl|evs n z x c args start y Hv IH Hl]; [reflexivity| |];
    rewrite (take_S_r _ _ _ Hl), filter_app, app_length, <- IH, !ecount_cons; cbn [is_visit];
    rewrite Hb, filter_cons; case_bool_decide; [rewrite decide_True by auto|rewrite decide_False by auto|
      rewrite decide_True by auto|rewrite decide_False by auto]; cbn; lia.
Qed.

Lemma filter_one (xs : list nat) l : NoDup xs -> l ∈ xs -> length (filter (fun x => x = l) xs) = 1.
Proof.
  induction 1 as [|x xs Hx Hn IH]; intros Hin; [inversion Hin|]. rewrite filter_cons. apply elem_of_cons in Hin as [->|Hin].
  - rewrite decide_True by auto. cbn. f_equal.
    assert (filter (fun y => y = x) xs = []) as ->; [|reflexivity].
    clear - Hx. induction xs as [|y xs IH]; [reflexivity|]. rewrite filter_cons.
    apply not_elem_of_cons in Hx as [Hxy Hx]. rewrite decide_False by auto. auto.
  - rewrite decide_False by (intros ->; auto). auto.
Qed.

Lemma emit_list e ps w : reachable e ps w ->
  log_all (fun ev pre => match ev with EEmit _ _ s _ xs => xs = spec_list pre s /\ NoDup xs | _ => True end) (w_log w).
Proof.
  apply log_all_hist; [intros []; cbn; auto; discriminate|].
  clear w. intros w t st w' st' ev pre Hr Ht Htr Hlg. destruct ev; auto. logs_inv Htr Hlg.
  match goal with |- context [spec_list _ ?x] => destruct (list_spec _ _ _ x Hr) as [L1 L2] end.
  unfold cur in L1. simplify_option_eq. rewrite <- L1 in L2. auto.
Qed.

Lemma visited_once e ps w t eid s a xs z l : reachable e ps w -> began (w_log w) t eid s a xs None ->
  EEmitRet t eid (OutOpt z) ∈ w_log w -> ecount (is_visit eid l) (w_log w) = if decide (l ∈ xs) then 1 else 0.
Proof.
  intros Hr Hb Hin. pose proof (default_combiner _ _ _ _ _ _ _ _ Hr Hb) as HD.
  destruct (did_newest _ _ _ _ _ _ Hr Hin) as (s' & a' & xs' & c' & evs & b & Hb' & Hd & _).
  rewrite (ecount_did _ eid) by apply visit_about. rewrite Hd in HD |- *.
  inversion HD; subst; try (match goal with H : visits _ _ _ _ _ _ |- _ => inversion H end; fail).
  rewrite ecount_cons. cbn [is_visit Nat.add].
  match goal with H : visits _ _ _ _ _ _ |- _ => apply (visits_count _ _ _ _ _ _ l) in H; rewrite H end.
  rewrite take_ge by lia. destruct Hb as (post & pre & Hl & _). destruct (emit_list _ _ _ Hr _ _ _ Hl) as [_ Hn].
  case_decide; [apply filter_one; auto|].
  assert (filter (fun y => y = l) xs = []) as ->; [|reflexivity].
  clear - H. induction xs as [|y xs IH]; [reflexivity|]. rewrite filter_cons.
  apply not_elem_of_cons in H as [Hxy H]. rewrite decide_False by auto. auto.
Qed.

(** ** A visit: when it started, and which slot it is about *)
Lemma visit_facts e ps w : reachable e ps w ->
  log_all (fun ev pre => match ev with
    | ECall t (RSlot l) (Some eid) _ _ start | ESkip t (RSlot l) (Some eid) start =>
        start <= length pre /\ exists s a xs c pos, began (older start pre) t eid s a xs c /\ xs !! pos = Some l /\
          did eid pre = did eid (older start pre)
    | EDeref t eid pos l r => exists s a xs c, began pre t eid s a xs c /\ xs !! pos = Some l
    | _ => True end) (w_log w).
Proof.
  apply log_all_hist; [intros []; cbn; auto; discriminate|].
  clear w. intros w t st w' st' ev pre Hr Ht Htr Hlg.
  pose proof (I_em_inv _ _ _ Hr _ _ Ht) as Hem. destruct (I_adj_inv _ _ _ Hr _ _ Ht) as [HA Hact].
  assert (Hpre : forall r g args pin eid start st0, g <> SRun -> st = FSlot r g args pin (Some eid) start :: st0 ->
    start <= length (w_log w) /\ exists s a xs c pos l, r = RSlot l /\ began (older start (w_log w)) t eid s a xs c /\ xs !! pos = Some l /\
      did eid (w_log w) = did eid (older start (w_log w))).
  { intros r g args pin eid start st0 Hg ->. destruct HA as [HA _]. destruct (slot_below _ g args pin _ start _ HA) as
      [(l & k & pos & s & i & v & b & rest & -> & Hi & ->)|(u & rest & _ & ? & _)]; [|discriminate]. simplify_eq.
    destruct Hem as [Hem _]. rewrite em_pre_iff in Hem by auto.
    destruct Hem as (_ & Hst & Hd & (t0 & s0 & a0 & xs0 & Hin) & (s1 & a1 & xs1 & c1 & Hb & _ & Hl)). split; [auto|].
    exists s1, a1, xs1, c1, pos, l. split; [auto|]. split; [|auto].
    destruct (older_suffix start (w_log w)) as [new Hnew]. destruct Hb as (post & pre0 & Hlog & Hc).
    apply elem_of_list_split in Hin as (p1 & p2 & Ho). rewrite Ho in Hnew.
    pose proof (emit_fresh _ _ _ Hr _ _ _ Hlog) as F1. cbn in F1.
    assert (F2 : forall ev', ev' ∈ p2 -> ev_eid i ev' = false).
    { rewrite app_assoc in Hnew. exact (emit_fresh _ _ _ Hr _ _ _ Hnew). }
    rewrite Hlog, app_assoc in Hnew. apply app_cons_case in Hnew as [(c2 & Hc2 & Heq)|(a2 & Hc2 & Heq)].
    - destruct c2 as [|x c2]; cbn in Heq; simplify_eq.
      + exists p1, p2. auto.
      + exfalso. specialize (F1 (EEmit t0 i s0 a0 xs0)). cbn in F1. rewrite bool_decide_true in F1 by auto.
        discriminate F1. apply elem_of_app. right. apply elem_of_list_here.
    - exfalso. subst p2.
      specialize (F2 (EEmit t i s1 a1 xs1)). cbn in F2. rewrite bool_decide_true in F2 by auto.
      discriminate F2. apply elem_of_app. right. apply elem_of_list_here. }
  destruct ev; auto; try (destruct r as [l|]; [|exact I]; destruct eid as [eid|]; [|exact I]).
  - logs_inv Htr Hlg. destruct Hem as [(evs & (s1 & a1 & xs1 & c1 & Hb & _ & Hl) & _) _]. eauto 10.
  - logs_inv Htr Hlg.
    pose proof (fun H => Hpre _ _ _ _ _ _ _ H eq_refl) as Hp; destruct (Hp ltac:(discriminate)) as (Hp1 & s1 & a1 & xs1 & c1 & pos & l1 & Hl1 & Hb).
    simplify_eq. split; [auto|]. destruct Hb as (Hb1 & Hb2 & Hb3). eexists _, _, _, _, _. eauto.
  - logs_inv Htr Hlg.
    + pose proof (fun H => Hpre _ _ _ _ _ _ _ H eq_refl) as Hp; destruct (Hp ltac:(intros ->; discriminate Hact)) as (Hp1 & s1 & a1 & xs1 & c1 & pos & l1 & Hl1 & Hb).
      simplify_eq. split; [auto|]. destruct Hb as (Hb1 & Hb2 & Hb3). eexists _, _, _, _, _. eauto.
    + pose proof (fun H => Hpre _ _ _ _ _ _ _ H eq_refl) as Hp; destruct (Hp ltac:(discriminate)) as (Hp1 & s1 & a1 & xs1 & c1 & pos & l1 & Hl1 & Hb).
      simplify_eq. split; [auto|]. destruct Hb as (Hb1 & Hb2 & Hb3). eexists _, _, _, _, _. eauto.
    + pose proof (fun H => Hpre _ _ _ _ _ _ _ H eq_refl) as Hp; destruct (Hp ltac:(discriminate)) as (Hp1 & s1 & a1 & xs1 & c1 & pos & l1 & Hl1 & Hb).
      simplify_eq. split; [cbn; lia|]. destruct Hb as (Hb1 & Hb2 & Hb3). exists s1, a1, xs1, c1, pos.
      match goal with |- context [older ?n (EFlag ?l :: ?x)] => change (EFlag l :: x) with ([EFlag l] ++ x) end.
      rewrite older_app by auto. split; [eauto|]. split; [eauto|]. exact Hb3.
Qed.

Lemma began_list e ps w t eid s a xs c : reachable e ps w -> began (w_log w) t eid s a xs c ->
  exists post pre, w_log w = post ++ EEmit t eid s a xs :: pre /\ xs = spec_list pre s.
Proof.
  intros Hr (post & pre & Hl & _). exists post, pre. split; [auto|]. apply (emit_list _ _ _ Hr _ _ _ Hl).
Qed.

(** Which slots an emission is about. *)
Lemma emission_list e ps w : reachable e ps w ->
  log_all (fun ev pre => match ev with
    | EEmit _ _ s _ xs => xs = spec_list pre s
    | ECall t (RSlot l) (Some eid) _ _ _ | ESkip t (RSlot l) (Some eid) _ =>
        exists post pre' s a xs, pre = post ++ EEmit t eid s a xs :: pre' /\ l ∈ xs
    | EDeref t eid pos l r => exists post pre' s a xs, pre = post ++ EEmit t eid s a xs :: pre' /\ xs !! pos = Some l
    | _ => True end) (w_log w).
Proof.
  intros Hr. eapply log_all_impl; [|exact (log_all_and _ _ _ (emit_list _ _ _ Hr) (visit_facts _ _ _ Hr))].
  assert (Hv : forall pre start t eid l, (start <= length pre /\ exists s a xs c pos, began (older start pre) t eid s a xs c /\ xs !! pos = Some l /\
          did eid pre = did eid (older start pre)) -> exists post pre' s a xs, pre = post ++ EEmit t eid s a xs :: pre' /\ l ∈ xs).
  { intros pre start t eid l (Hs & s & a & xs & c & pos & (p1 & p2 & Hp & _) & Hl & _).
    destruct (older_suffix start pre) as [new Hnew]. rewrite Hp in Hnew. exists (new ++ p1), p2, s, a, xs.
    rewrite <- app_assoc. split; [auto|]. eapply elem_of_list_lookup_2; eauto. }
  intros [] pre [H1 H2]; auto; try tauto.
  - destruct H2 as (s & a & xs & c & (p1 & p2 & Hp & _) & Hl). eauto 10.
  - destruct r, eid; auto. eauto.
  - destruct r, eid; auto. eauto.
Qed.

Lemma emit_split e ps w eid post t s a xs pre post' t' s' a' xs' pre' : reachable e ps w ->
  w_log w = post ++ EEmit t eid s a xs :: pre -> w_log w = post' ++ EEmit t' eid s' a' xs' :: pre' -> pre' = pre.
Proof.
  intros Hr H1 H2. pose proof (emit_fresh _ _ _ Hr _ _ _ H1) as F1. pose proof (emit_fresh _ _ _ Hr _ _ _ H2) as F2. cbn in F1, F2.
  rewrite H1 in H2.
  assert (Hself : forall (pre : list event) t s a xs, (forall ev', ev' ∈ pre -> ev_eid eid ev' = false) -> EEmit t eid s a xs ∈ pre -> False).
  { intros p t0 s0 a0 xs0 Hf Hin. specialize (Hf _ Hin). cbn in Hf. rewrite bool_decide_true in Hf by auto. discriminate. }
  apply app_cons_case in H2 as [(c2 & -> & Heq)|(a2 & -> & Heq)].
  - destruct c2 as [|x c2]; cbn in Heq; simplify_eq; [auto|].
    exfalso. eapply Hself; [exact F1|]. apply elem_of_app. right. apply elem_of_list_here.
  - subst pre'. exfalso. eapply Hself; [exact F2|]. apply elem_of_app. right. apply elem_of_list_here.
Qed.

(** Disconnected before the emission began: not called. *)
Lemma not_in_later_emission e ps w : reachable e ps w ->
  log_all (fun ev pre => match ev with
    | ECall _ (RSlot l) (Some eid) _ _ _ => forall post t s a xs pre', pre = post ++ EEmit t eid s a xs :: pre' ->
        forall t' b, EDisc t' l b ∉ pre'
    | _ => True end) (w_log w).
Proof.
  intros Hr post0 ev pre Hl. destruct ev; auto. destruct r as [l|]; auto. destruct eid as [eid|]; auto.
  intros post t0 s a xs pre' Hp t' b Hin.
  destruct (visit_facts _ _ _ Hr _ _ _ Hl) as (Hst & s1 & a1 & xs1 & c1 & pos & (p1 & p2 & Ho & Hc) & _).
  destruct (no_call_after_disc _ _ _ Hr _ _ _ Hl) as [_ Hd]. apply (Hd t' b). rewrite Ho.
  destruct (older_suffix start pre) as [new Hnew]. rewrite Ho in Hnew.
  assert (pre' = p2) as ->.
  { eapply (emit_split _ _ _ eid); [exact Hr| |].
    - rewrite Hl, Hnew, app_comm_cons, !app_assoc. reflexivity.
    - rewrite Hl, Hp, app_comm_cons, !app_assoc. reflexivity. }
  apply elem_of_app. right. apply elem_of_list_further. auto.
Qed.

(** ** Arguments *)
Lemma consume_lookup e c a i : consume e c a !! i = (fun x => if e_consumes e c i then moved_arg e 1 x else x) <$> a !! i.
Proof.
  unfold consume. rewrite list_lookup_imap. destruct (a !! i) as [[z|x]|]; cbn; [|destruct (e_consumes e c i); reflexivity|reflexivity].
  destruct (e_consumes e c i); reflexivity.
Qed.

Lemma moved_S e n a : moved_arg e 1 (moved_arg e n a) = moved_arg e (S n) a.
Proof. destruct a; reflexivity. Qed.

Lemma esteps_args e t eid xs p a evs q b i : esteps e t eid xs p a evs q b ->
  b !! i = moved_arg e (ecount (takes e eid i) evs) <$> a !! i.
Proof.
  induction 1 as [|evs o k r b Hs IH Hn|evs pos k l start b Hs IH Hl|evs pos k l c start r b Hs IH Hl Ho].
  - destruct (a !! i) as [[]|]; reflexivity.
  - auto.
  - rewrite IH. reflexivity.
  - rewrite consume_lookup, IH, !ecount_cons. cbn [takes]. rewrite bool_decide_true by auto. cbn [andb Nat.add].
    destruct (a !! i) as [x|]; cbn; [|reflexivity]. destruct (e_consumes e c i); [rewrite moved_S|]; reflexivity.
Qed.

Lemma takes_about e eid i ev : takes e eid i ev = true -> about eid ev = true.
Proof. destruct ev; cbn; try discriminate. destruct eid0; try discriminate. rewrite andb_true_iff. tauto. Qed.

Lemma call_args e ps w : reachable e ps w ->
  log_all (fun ev pre => match ev with
    | ECall t r (Some eid) c args start => forall post t s a xs pre' i, pre = post ++ EEmit t eid s a xs :: pre' ->
        args !! i = moved_arg e (ecount (takes e eid i) pre) <$> a !! i
    | _ => True end) (w_log w).
Proof.
  apply log_all_hist; [intros []; cbn; auto; discriminate|].
  clear w. intros w t st w' st' ev pre Hr Ht Htr Hlg. destruct ev; auto. destruct eid as [eid|]; auto.
  pose proof (I_em_inv _ _ _ Hr _ _ Ht) as Hem. destruct (I_adj_inv _ _ _ Hr _ _ Ht) as [HA Hact].
  logs_inv Htr Hlg. intros post t s a xs pre' j Hl.
  destruct HA as [HA _]. destruct (slot_below _ SCall args pin _ start _ HA) as
      [(l & k & pos & s1 & i1 & v & b & rest & -> & Hi & ->)|(u & rest & _ & ? & _)]; [|discriminate]. simplify_eq.
  destruct Hem as [Hem _]. rewrite em_pre_iff in Hem by discriminate.
  destruct Hem as (-> & _ & _ & _ & (s2 & a2 & xs2 & c2 & (p1 & p2 & Hl2 & _) & Hs & _)).
  pose proof (emit_split _ _ _ _ _ _ _ _ _ _ _ _ _ _ _ _ Hr Hl Hl2) as ->.
  rewrite Hl2 in Hl. apply (f_equal reverse) in Hl. rewrite !reverse_app, !reverse_cons, <- !app_assoc in Hl.
  apply app_inv_head in Hl. cbn in Hl. simplify_eq.
  rewrite (esteps_args _ _ _ _ _ _ _ _ _ j Hs). f_equal. f_equal. symmetry. apply ecount_did. apply takes_about.
Qed.

(** ** Exceptions *)
Lemma visits_no_exn t eid xs evs n z : visits t eid xs evs n z -> forall t' r i x, ERet t' r i (OutExn x) ∉ evs.
Proof.
  induction 1; intros t' r i x Hin; [inversion Hin|..];
    repeat (apply elem_of_cons in Hin as [Hin|Hin]; [discriminate|]); eapply IHvisits; eauto.
Qed.

Lemma default_throw e ps w t eid s a xs post t' r x pre : reachable e ps w -> began (w_log w) t eid s a xs None ->
  w_log w = post ++ ERet t' r (Some eid) (OutExn x) :: pre ->
  (forall o, EEmitRet t eid o ∈ w_log w -> o = OutExn x) /\
  forall ev, ev ∈ post -> about eid ev = true -> ev = EEmitRet t eid (OutExn x) \/ exists n l, ev = EDeref t eid n l (OutExn x).
Proof.
  intros Hr Hb Hl. pose proof (default_combiner _ _ _ _ _ _ _ _ Hr Hb) as HD.
  assert (Hd : did eid (w_log w) = did eid post ++ ERet t' r (Some eid) (OutExn x) :: did eid pre).
  { rewrite Hl, did_app, did_cons_about; [reflexivity|]. cbn. apply bool_decide_eq_true. auto. }
  assert (Hpost : (forall o, EEmitRet t eid o ∈ did eid (w_log w) -> o = OutExn x) /\
    forall ev, ev ∈ did eid post -> ev = EEmitRet t eid (OutExn x) \/ exists n l, ev = EDeref t eid n l (OutExn x)).
  2:{ destruct Hpost as [H1 H2]. split.
      - intros o Ho. apply H1. apply about_did; [auto|]. cbn. apply bool_decide_eq_true. auto.
      - intros ev Hev Ha. apply H2. apply about_did; auto. }
  remember (did eid (w_log w)) as D. remember (did eid post) as P. clear HeqD HeqP.
  assert (Hin : ERet t' r (Some eid) (OutExn x) ∈ D) by (rewrite Hd; apply elem_of_app; right; apply elem_of_list_here).
  assert (Hno : forall evs n z (Q : Prop), visits t eid xs evs n z -> ERet t' r (Some eid) (OutExn x) ∈ evs -> Q).
  { intros evs n z Q Hv Hi. exfalso. eapply visits_no_exn; eauto. }
  assert (Hone : forall evs n z o, visits t eid xs evs n z -> EEmitRet t eid o ∈ evs -> o = OutExn x).
  { intros evs n z o Hv. induction Hv; intros Hi; [inversion Hi|..];
      repeat (apply elem_of_cons in Hi as [Hi|Hi]; [discriminate|]); auto. }
  assert (Hmain : forall A n l c args start y evs z, visits t eid xs evs n z ->
    D = A ++ ERet t (RSlot l) (Some eid) (OutExn y) :: ECall t (RSlot l) (Some eid) c args start :: evs ->
    (A = [] \/ A = [EDeref t eid n l (OutExn y)] \/ A = [EEmitRet t eid (OutExn y); EDeref t eid n l (OutExn y)]) -> 
    (forall o, EEmitRet t eid o ∈ D -> o = OutExn x) /\
    (forall ev, ev ∈ P -> ev = EEmitRet t eid (OutExn x) \/ exists n l, ev = EDeref t eid n l (OutExn x))).
  { intros A n l c args start y evs z Hv HDA HA.
    assert (P = A /\ y = x) as [-> ->].
    { rewrite HDA in Hd. symmetry in Hd. apply app_cons_case in Hd as [(c2 & -> & Heq)|(a2 & -> & Heq)].
      - destruct c2 as [|b1 c2]; cbn in Heq; simplify_eq; [split; [symmetry; apply app_nil_r|reflexivity]|].
        exfalso. destruct HA as [HA|[HA|HA]].
        + destruct P; discriminate.
        + destruct P as [|p1 P]; cbn in HA; simplify_eq. destruct P; discriminate.
        + destruct P as [|p1 P]; cbn in HA; simplify_eq. destruct P as [|p2 P]; cbn in *; simplify_eq. destruct P; discriminate.
      - exfalso. destruct a2 as [|b1 a2]; cbn in Heq; simplify_eq.
        eapply Hno; [exact Hv|]. apply elem_of_app. right. apply elem_of_list_here. }
    split.
    - intros o Ho. rewrite HDA in Ho. apply elem_of_app in Ho as [Ho|Ho].
      + destruct HA as [->|[->| ->]]; repeat (apply elem_of_cons in Ho as [Ho|Ho]; [try discriminate; simplify_eq; auto|]); inversion Ho.
      + repeat (apply elem_of_cons in Ho as [Ho|Ho]; [discriminate|]). eauto.
    - intros ev Hev. destruct HA as [->|[->| ->]]; repeat (apply elem_of_cons in Hev as [Hev|Hev]; [subst; eauto|]); inversion Hev. }
  clear Hd. inversion HD; subst; try (repeat (apply elem_of_cons in Hin as [Hin|Hin]; [discriminate|]); eapply Hno; eauto; fail).
  - eapply (Hmain []); [eauto|reflexivity|auto].
  - eapply (Hmain [_]); [eauto|reflexivity|eauto].
  - eapply (Hmain [_; _]); [eauto|reflexivity|eauto].
Qed.

(** A skipped slot had a reason at some instant of the visit that skipped it, and the visit lies inside the emission. *)
Lemma skip_reason e ps w : reachable e ps w ->
  log_all (fun ev pre => match ev with
    | ESkip t (RSlot l) (Some eid) start =>
        (exists post pre' s a xs, older start pre = post ++ EEmit t eid s a xs :: pre' /\ l ∈ xs) /\
        did eid pre = did eid (older start pre) /\ seen start pre (fun p => refuses p l)
    | _ => True end) (w_log w).
Proof.
  intros Hr. eapply log_all_impl; [|exact (log_all_and _ _ _ (skip_facts _ _ _ Hr) (visit_facts _ _ _ Hr))].
  intros ev pre [H1 H2]. destruct ev; auto. destruct r as [l|]; auto. destruct eid as [eid|]; auto.
  destruct H1 as (_ & _ & Hs). destruct H2 as (_ & s & a & xs & c & pos & (p1 & p2 & Hp & _) & Hl & Hd).
  split; [|auto]. exists p1, p2, s, a, xs. split; [exact Hp|]. eapply elem_of_list_lookup_2; eauto.
Qed.
