(** * Programs with one thread *)
From Verif Require Export InvQuery.

Lemma keep_all_objs w t st st' :
  w_thr w !! t = Some st -> (forall f o, f ∈ st -> frame_pins_obj o f = true -> exists g, g ∈ st' /\ frame_pins_obj o g = true) ->
  dead_objs w (mid w t st') = [].
Proof.
  intros Ht H. apply elem_of_nil_inv. intros o Ho. apply dead_objs_elem in Ho as (H1 & H2 & _).
  apply not_true_iff_false in H2. apply H2. apply obj_alive_iff in H1 as [Hs|(t0 & x & f & Hx & Hf & Hk)]; apply obj_alive_iff.
  - left. exact Hs.
  - right. destruct (decide (t0 = t)) as [->|Hn].
    + simplify_eq. destruct (H _ _ Hf Hk) as (g & Hg & Hgk). exists t, st', g. wcbn.
      rewrite list_lookup_insert by (eapply lookup_lt_Some; eauto). auto.
    + exists t0, x, f. wcbn. rewrite list_lookup_insert_ne by auto. auto.
Qed.

(** The steps after which a slot call is about to test or to call. *)
Lemma slot_step e ps w t st w' st' r g args pin eid start rest :
  reachable e ps w -> w_thr w !! t = Some st -> trans e w t st w' st' ->
  st' = FSlot r g args pin eid start :: rest -> g <> SRun ->
  w_log (reap e w w' t st') = w_log w /\
  (start = length (w_log w) \/ exists g0 pin0 rest0, st = FSlot r g0 args pin0 eid start :: rest0 /\ g0 <> SRun).
Proof.
  intros Hr Ht Htr Hst Hg.
  destruct (reap_spec e w w' t st') as (D & L & _ & _ & Hre & _ & HL). rewrite Hre. wcbn.
  assert (Hq : w' = w -> (forall f l, f ∈ st -> frame_keeps w l f = true -> f ∈ st') ->
     (forall f o, f ∈ st -> frame_pins_obj o f = true -> exists g, g ∈ st' /\ frame_pins_obj o g = true) ->
     L ++ w_log w' = w_log w).
  { intros -> H1 H2. rewrite HL, (keep_all_alive w t st st' Ht), (keep_all_objs w t st st' Ht H2); [reflexivity|].
    intros f l Hf Hk. exists f. split; [eauto|auto]. }
  destruct Htr; simplify_eq.
  - split; [|auto]. apply Hq; [auto| |].
    + intros f l Hf Hk. apply elem_of_cons in Hf as [->|Hf]; [discriminate|]. do 3 apply elem_of_list_further. exact Hf.
    + intros f o Hf Hk. exists f. apply elem_of_cons in Hf as [->|Hf]; [discriminate|]. split; [|auto]. do 3 apply elem_of_list_further. exact Hf.
  - split; [|auto]. apply Hq; [auto| |].
    + intros f l0 Hf Hk. apply elem_of_cons in Hf as [->|Hf]; [discriminate|]. do 2 apply elem_of_list_further. exact Hf.
    + intros f o Hf Hk. exists f. apply elem_of_cons in Hf as [->|Hf]; [discriminate|]. split; [|auto]. do 2 apply elem_of_list_further. exact Hf.
  - pose proof (I_call_inv _ _ _ Hr _ _ Ht) as HC.
    split; [|right; eexists _, _, _; split; [reflexivity|]; intros ->; match goal with H : advances _ _ _ _ _ _ _ |- _ => inversion H end].
    apply Hq; [auto| |].
    + intros f l0 Hf Hk. apply elem_of_cons in Hf as [->|Hf]; [discriminate|]. apply elem_of_list_further. exact Hf.
    + intros f o Hf Hk. apply elem_of_cons in Hf as [->|Hf].
      * match goal with H : advances _ _ _ _ _ _ _ |- _ => destruct H end;
          try (eexists; split; [apply elem_of_list_here|exact Hk]).
        apply Forall_cons in HC as [HC _]. cbn in HC, Hk. destruct r as [l|u].
        -- destruct HC as (_ & _ & _ & _ & _ & ->). discriminate.
        -- destruct HC as [_ ->]. discriminate.
      * exists f. split; [|auto]. apply elem_of_list_further. exact Hf.
  - exfalso. pose proof (I_top_inv _ _ _ Hr _ _ Ht) as HT. cbn in HT. tauto.
Qed.

(** In a program with one thread nothing happens between the entry of
    slot::operator() and the call. *)
Definition I_now (w : world) : Prop :=
  forall t r g args pin eid start rest,
    w_thr w !! t = Some (FSlot r g args pin eid start :: rest) -> g <> SRun -> start = length (w_log w).

Lemma thr_len e ps w : reachable e ps w -> length (w_thr w) = length ps.
Proof.
  apply (reach_ind e ps (fun w => length (w_thr w) = length ps)); [cbn; apply map_length|].
  clear w. intros w t st w' st' Hr HI Ht Htr _. destruct (reap_spec e w w' t st') as (D & L & _ & _ & -> & _).
  wcbn. rewrite insert_length, (trans_thr _ _ _ _ _ _ Htr). auto.
Qed.

Lemma I_now_inv e p w : reachable e [p] w -> I_now w.
Proof.
  apply reach_ind.
  - intros t r g args pin eid start rest Ht. cbn in Ht. destruct t; discriminate.
  - clear w. intros w t st w' st' Hr HI Ht Htr _ t' r g args pin eid start rest Hx Hg.
    pose proof (thr_len _ _ _ Hr) as Hlen. cbn in Hlen.
    pose proof (slot_step e [p] w t st w' st') as HS.
    destruct (reap_spec e w w' t st') as (D & L & HD & _ & Hre & _).
    rewrite Hre in Hx. wcbn_in Hx. rewrite (trans_thr _ _ _ _ _ _ Htr) in Hx.
    destruct (thr_upd _ _ _ _ _ _ Ht Hx) as [[-> Heq]|[Hn Hx']].
    2:{ apply lookup_lt_Some in Ht, Hx'. lia. }
    destruct D as [|f D].
    2:{ cbn in Heq. simplify_eq. apply Forall_cons in HD as [[[? ?]|[? ?]] _]; discriminate. }
    cbn in Heq. destruct (HS r g args pin eid start rest Hr Ht Htr (eq_sym Heq) Hg) as [Hl Hs].
    rewrite Hl. destruct Hs as [->|(g0 & pin0 & rest0 & -> & Hg0)]; [auto|]. eapply HI; eauto.
Qed.

Lemma seq_start e p w : reachable e [p] w ->
  log_all (fun ev pre => match ev with
    | ECall t r eid c args start => start = length pre
    | ESkip t r eid start => start = length pre \/ exists l log, r = RSlot l /\ pre = EFlag l :: log /\ start = length log
    | _ => True end) (w_log w).
Proof.
  apply log_all_hist; [intros []; cbn; auto; discriminate|].
  clear w. intros w t st w' st' ev pre Hr Ht Htr Hlg. pose proof (I_now_inv _ _ _ Hr) as HN.
  destruct ev; auto.
  - logs_inv Htr Hlg. eapply HN; eauto.
  - inversion Hlg; subst; clear Hlg.
    + match goal with H : w_log _ = _ :: w_log _ |- _ => rename H into He end.
      destruct Htr; wcbn_in He; autorewrite with wsimp in He;
      try (exfalso; symmetry in He; exact (cons_ne _ _ He)); try discriminate; simplify_eq; vlog_no.
      * left. eapply HN; [exact Ht|]. intros ->. destruct (I_adj_inv _ _ _ Hr _ _ Ht) as [_ HA]. discriminate.
      * left. eapply HN; [exact Ht|]. discriminate.
    + right. exists l, (w_log w). split; [auto|]. split; [auto|]. eapply HN; [exact Ht|]. discriminate.
Qed.


Lemma seen_here start log P : start = length log -> seen start log P -> P log.
Proof. intros -> (n & Hn & HP). assert (n = length log) as -> by lia. rewrite older_all in HP. exact HP. Qed.

Lemma seq_call e p w : reachable e [p] w ->
  log_all (fun ev pre => match ev with
    | ECall t (RSlot l) _ _ _ _ => spec_callable pre l = true
    | _ => True end) (w_log w).
Proof.
  intros Hr post ev pre Hl. pose proof (call_facts _ _ _ Hr _ _ _ Hl) as H1. pose proof (seq_start _ _ _ Hr _ _ _ Hl) as H2.
  destruct ev; auto. destruct r as [l|]; auto. destruct H1 as (Ha & _ & _ & Hb & _ & Hf & Ho).
  apply seen_here in Hb, Hf; auto. unfold spec_callable, spec_connected. rewrite Ha, Hf, Hb.
  destruct (spec_tracks pre l) as [o|]; [rewrite (Ho o eq_refl)|]; reflexivity.
Qed.

Lemma seq_skip e p w : reachable e [p] w ->
  log_all (fun ev pre => match ev with
    | ESkip t (RSlot l) _ _ => spec_callable pre l = false
    | _ => True end) (w_log w).
Proof.
  intros Hr post ev pre Hl. pose proof (skip_facts _ _ _ Hr _ _ _ Hl) as H1. pose proof (seq_start _ _ _ Hr _ _ _ Hl) as H2.
  destruct ev; auto. destruct r as [l|]; auto. destruct H1 as (Ha & _ & Hs).
  unfold spec_callable, spec_connected. destruct H2 as [H2|(l' & log & Heq & -> & H2)].
  - apply seen_here in Hs; [|auto]. destruct Hs as [->|[->|(o & -> & ->)]]; rewrite ?andb_false_r; reflexivity.
  - simplify_eq. cbn. rewrite decide_True by auto. rewrite ?andb_false_r. reflexivity.
Qed.

Lemma disc_uncallable log t l b new : wf_log (new ++ EDisc t l b :: log) -> known log l ->
  (spec_flag log l = false \/ spec_alive log l = false) -> spec_callable (new ++ EDisc t l b :: log) l = false.
Proof.
  intros Hw Hk H. replace (new ++ EDisc t l b :: log) with ((new ++ [EDisc t l b]) ++ log) in * by (rewrite <- app_assoc; reflexivity).
  unfold spec_callable, spec_connected. destruct H as [H|H].
  - rewrite flag_app by auto. rewrite ?andb_false_r. reflexivity.
  - rewrite dead_app by auto. reflexivity.
Qed.

Lemma seq_no_call_after_disc e p w : reachable e [p] w ->
  log_all (fun ev pre => match ev with
    | ECall _ (RSlot l) _ _ _ _ => forall t b, EDisc t l b ∉ pre
    | _ => True end) (w_log w).
Proof.
  intros Hr post ev pre Hl. pose proof (no_call_after_disc _ _ _ Hr _ _ _ Hl) as H1. pose proof (seq_start _ _ _ Hr _ _ _ Hl) as H2.
  destruct ev; auto. destruct r as [l|]; auto. destruct H1 as [_ H1]. intros t' b. specialize (H1 t' b).
  rewrite H2, older_all in H1. exact H1.
Qed.
