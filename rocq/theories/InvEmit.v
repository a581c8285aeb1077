(** * Emissions: what the combiner does and what the slots are given *)
From Verif Require Export Facts.

(** ** Combiners of signals *)
Lemma I_comb_inv e ps w : reachable e ps w -> forall s r, w_sigs w !! s = Some r -> spec_comb (w_log w) s = Some (sg_comb r).
Proof.
  apply (reach_ind2 e ps (fun w => forall s r, w_sigs w !! s = Some r -> spec_comb (w_log w) s = Some (sg_comb r))).
  - intros s r H. discriminate.
  - clear w. intros w t st w' st' Hr HI Ht Htr s0 r0 Hs. wcbn. wcbn_in Hs.
    destruct Htr; wcbn; wcbn_in Hs; autorewrite with wsimp in Hs |- *; cbn [spec_comb]; auto.
    all: try (rewrite alter_lookup in Hs; case_decide; [|auto; fail];
      destruct (w_sigs w !! s0) eqn:?; cbn in Hs; simplify_eq; cbn; eauto; fail).
    + apply vop_ev in H as [(?&->&?)|[(?&->&?)|[(?&->&?)|[(?&->&?)|(?&->&?)]]]]; cbn; auto.
    + apply vop_ev in H as [(?&->&?)|[(?&->&?)|[(?&->&?)|[(?&->&?)|(?&->&?)]]]]; cbn; auto.
    + apply snoc_lookup in Hs as [[Hs Hlt]|[-> ->]].
      * case_decide; [lia|auto].
      * rewrite decide_True by auto. reflexivity.
    + destruct (cc_log w r) as [->|(l0 & i0 & _ & _ & _ & ->)]; cbn; auto.
    + apply snoc_lookup in Hs as [[Hs Hlt]|[-> ->]].
      * rewrite alter_length in Hlt. case_decide; [lia|]. rewrite alter_lookup in Hs. case_decide; [|auto].
        destruct (w_sigs w !! s0) eqn:?; cbn in Hs; simplify_eq; cbn; eauto.
      * rewrite alter_length, decide_True by auto. cbn. auto.
  - clear w. intros w t st D L HI Ht HD HL s r Hs. wcbn. wcbn_in Hs. rewrite <- (HI _ _ Hs).
    induction HL as [|ev L [[x ->]|[o ->]] _ IH]; cbn; auto.
Qed.

(** ** Identities of emissions *)
Definition emf (eid : nat) (f : frame) : nat :=
  match f with FEmit _ i _ _ => if decide (i = eid) then 1 else 0 | _ => 0 end.
Definition ev_eid (eid : nat) (ev : event) : bool :=
  match ev with EEmit _ i _ _ _ => bool_decide (i = eid) | _ => about eid ev end.

Lemma emf_varish l f : varish f -> emf l f = 0.
Proof. destruct f; cbn; tauto || reflexivity. Qed.

Definition I_eid (w : world) : Prop :=
  forall eid, wt (emf eid) (w_thr w) <= 1 /\
    (w_neid w <= eid -> wt (emf eid) (w_thr w) = 0 /\ forall ev, ev ∈ w_log w -> ev_eid eid ev = false).

(** The emission that a step belongs to. *)
Definition touched (st : list frame) : option nat :=
  match st with
  | FSlot _ _ _ _ eid _ :: _ => eid
  | FRet _ :: FSlot _ _ _ _ eid _ :: _ => eid
  | FRet _ :: FDeref _ _ _ :: FEmit _ eid _ _ :: _ => Some eid
  | FRet _ :: FEmit _ eid _ _ :: _ => Some eid
  | _ => None
  end.

Lemma touched_in st eid : AT adj st -> touched st = Some eid -> 1 <= swt (emf eid) st.
Proof.
  intros HA H. assert (Hg : exists s v a, FEmit s eid v a ∈ st).
  { destruct st as [|f st]; [discriminate|]. destruct f; try discriminate; cbn in H.
    - destruct st as [|g st]; [discriminate|]. destruct g; try discriminate; cbn in H.
      + destruct st as [|h st]; [discriminate|]. destruct h; try discriminate. simplify_eq.
        eexists _, _, _. do 2 apply elem_of_list_further. apply elem_of_list_here.
      + simplify_eq. eexists _, _, _. apply elem_of_list_further. apply elem_of_list_here.
      + subst. destruct HA as [_ [HA _]]. cbn in HA. destruct r; [|contradiction].
        destruct st as [|[] st]; try contradiction. destruct st as [|[] st]; try contradiction. destruct HA as [_ ->].
        eexists _, _, _. do 3 apply elem_of_list_further. apply elem_of_list_here.
    - subst. destruct HA as [HA _]. cbn in HA. destruct r; [|contradiction].
      destruct st as [|[] st]; try contradiction. destruct st as [|[] st]; try contradiction. destruct HA as [_ ->].
      eexists _, _, _. do 2 apply elem_of_list_further. apply elem_of_list_here. }
  destruct Hg as (s & v & a & Hin). pose proof (swt_elem (emf eid) _ _ Hin) as Hle. cbn in Hle.
  rewrite decide_True in Hle by auto. lia.
Qed.

(** Events of an emission are logged by the steps that belong to it. *)
Lemma trans_did e w t st w' st' eid : trans e w t st w' st' -> touched st <> Some eid ->
  did eid (w_log w') = did eid (w_log w).
Proof.
  intros Htr Hn. unfold did.
  destruct Htr; wcbn; autorewrite with wsimp; cbn in Hn; try reflexivity;
    rewrite ?filter_cons; cbn [about]; try reflexivity;
    repeat match goal with
    | |- context [match ?x with Some _ => _ | None => _ end] => is_var x; destruct x; cbn
    | |- context [bool_decide (?a = ?b)] => rewrite (bool_decide_false (a = b)) by congruence
    end; try reflexivity.
  - apply vop_ev in H as [(?&->&?)|[(?&->&?)|[(?&->&?)|[(?&->&?)|(?&->&?)]]]]; reflexivity.
  - apply vop_ev in H as [(?&->&?)|[(?&->&?)|[(?&->&?)|[(?&->&?)|(?&->&?)]]]]; reflexivity.
  - destruct (cc_log w r) as [->|(l0 & i0 & _ & _ & _ & ->)]; reflexivity.
  - destruct (cc_log w r) as [->|(l0 & i0 & _ & _ & _ & ->)]; reflexivity.
Qed.

Lemma ev_eid_dead L eid : deadish L -> forall ev, ev ∈ L -> ev_eid eid ev = false.
Proof. intros HL ev Hin. unfold deadish in HL. rewrite Forall_forall in HL. destruct (HL _ Hin) as [[? ->]|[? ->]]; reflexivity. Qed.

Lemma ev_eid_about eid ev : ev_eid eid ev = false -> about eid ev = false.
Proof. destruct ev; cbn; auto. Qed.

Lemma elem_new {A} (x y : A) l : x ∈ y :: l -> x <> y -> x ∈ l.
Proof. intros H Hn. apply elem_of_cons in H as [?|?]; [contradiction|auto]. Qed.

Lemma did_none eid log : (forall ev, ev ∈ log -> about eid ev = false) -> did eid log = [].
Proof.
  induction log as [|ev log IH]; [reflexivity|]. intros H. unfold did. rewrite filter_cons.
  rewrite (H ev) by apply elem_of_list_here. cbn. apply IH. intros ev' Hin. apply H. apply elem_of_list_further. auto.
Qed.

Lemma about_did eid log ev : ev ∈ log -> about eid ev = true -> ev ∈ did eid log.
Proof. intros H Ha. unfold did. apply elem_of_list_filter. rewrite Ha. split; [exact I|auto]. Qed.

(** The events a step logs, as far as emissions are concerned. *)
Lemma trans_emit e w t st w' st' : trans e w t st w' st' ->
  (w_neid w' = w_neid w /\ (forall eid, swt (emf eid) st' <= swt (emf eid) st) /\
   (forall t0 eid s a xs, EEmit t0 eid s a xs ∈ w_log w' -> EEmit t0 eid s a xs ∈ w_log w)) \/
  (exists s args st0 r v, st = FWrite s (KRead args) :: st0 /\ w_sigs w !! s = Some r /\ sg_vec r = Some v /\
   w_neid w' = S (w_neid w) /\ w_log w' = EEmit t (w_neid w) s args (vec_of w v) :: w_log w /\
   w_vecs w' = w_vecs w /\
   st' = FProg (combiner e (sg_comb r) (length (vec_of w v))) :: FEmit s (w_neid w) v args :: st0).
Proof.
  intros Htr.
  destruct Htr; try (left; split; [wcbn; autorewrite with wsimp; reflexivity|]; split;
    [intros eid0; repeat first [rewrite swt_app | rewrite swt_cons]; cbn [emf]; try lia|
     intros ? ? ? ? ? Hin; wcbn_in Hin; autorewrite with wsimp in Hin; auto;
     try (apply elem_new in Hin; [auto|discriminate])]).
  - apply elem_new in Hin; [auto|]. intros <-.
    apply vop_ev in H as [(?&?&?)|[(?&?&?)|[(?&?&?)|[(?&?&?)|(?&?&?)]]]]; discriminate.
  - apply elem_new in Hin; [auto|]. intros <-.
    apply vop_ev in H as [(?&?&?)|[(?&?&?)|[(?&?&?)|[(?&?&?)|(?&?&?)]]]]; discriminate.
  - rewrite (swt_varish _ after); [lia|eapply vop_after; eauto|apply emf_varish].
  - rewrite (swt_varish _ after); [lia|eapply vop_after; eauto|apply emf_varish].
  - rewrite (swt_varish _ fr); [lia|eapply begins_fr; eauto|apply emf_varish].
  - destruct (cc_log w r) as [He|(l0 & i0 & _ & _ & _ & He)]; rewrite He in Hin; auto.
    apply elem_new in Hin; [auto|discriminate].
  - right. eexists _, _, _, _, _. repeat (split; [first [reflexivity|eassumption]|]). reflexivity.
Qed.

Lemma I_eid_inv e ps w : reachable e ps w -> I_eid w.
Proof.
  apply reach_ind2.
  - intros eid. assert (wt (emf eid) (w_thr (init ps)) = 0) as ->.
    { apply wt_zero. intros t st Ht. cbn in Ht. rewrite list_lookup_fmap in Ht. destruct (ps !! t); cbn in Ht; simplify_eq. reflexivity. }
    split; [lia|]. intros _. split; [reflexivity|]. intros ev Hev. inversion Hev.
  - clear w. intros w t st w' st' Hr HI Ht Htr eid. specialize (HI eid). wcbn.
    pose proof (wt_insert (emf eid) _ _ _ st' Ht) as Hwt. rewrite (trans_thr _ _ _ _ _ _ Htr).
    destruct (trans_emit _ _ _ _ _ _ Htr) as [(Hn & Hs & He)|(s & args & st0 & r & v & -> & Hsg & Hv & Hn & Hl & _ & ->)].
    + specialize (Hs eid). split; [lia|]. intros Hle. rewrite Hn in Hle.
      destruct HI as [_ HI]. destruct (HI Hle) as [H1 H2]. split; [lia|]. intros ev Hev.
      destruct (ev_eid eid ev) eqn:Hee; [|reflexivity]. exfalso.
      assert (Hti : touched st <> Some eid).
      { intros Hti. apply touched_in in Hti; [|apply (I_adj_inv _ _ _ Hr _ _ Ht)]. pose proof (wt_ge (emf eid) _ _ _ Ht). lia. }
      pose proof (trans_did _ _ _ _ _ _ eid Htr Hti) as Hd.
      rewrite (did_none eid (w_log w)) in Hd by (intros; apply ev_eid_about; auto).
      destruct (about eid ev) eqn:Hab.
      * apply (about_did eid) in Hev; auto. rewrite Hd in Hev. inversion Hev.
      * destruct ev; cbn in Hee, Hab; try discriminate; try congruence. apply He in Hev. apply H2 in Hev. cbn in Hev. congruence.
    + rewrite !swt_cons in Hwt. cbn [emf] in Hwt. rewrite Hn. destruct HI as [H1 H2]. case_decide.
      * subst eid. destruct (H2 (le_n _)) as [H3 H4]. split; [lia|]. intros Hle. lia.
      * split; [lia|]. intros Hle. destruct H2 as [H3 H4]; [lia|]. split; [lia|]. intros ev Hev. rewrite Hl in Hev.
        apply elem_of_cons in Hev as [->|Hev]; [|auto]. cbn. apply bool_decide_eq_false. auto.
  - clear w. intros w t st D L HI Ht HD HL eid. specialize (HI eid). wcbn.
    pose proof (wt_insert (emf eid) _ _ _ (D ++ st) Ht) as Hwt. rewrite swt_app, (swt_dtorish _ D HD) in Hwt by reflexivity.
    split; [lia|]. intros Hle. destruct HI as [_ HI]. destruct (HI Hle) as [H1 H2]. split; [lia|].
    intros ev Hev. apply elem_of_app in Hev as [Hev|Hev]; [eapply ev_eid_dead; eauto|auto].
Qed.

(** ** The list an emission walks over *)
Lemma I_emitvec_inv e ps w : reachable e ps w -> forall t st s eid v a, w_thr w !! t = Some st -> FEmit s eid v a ∈ st ->
  exists a0 c, began (w_log w) t eid s a0 (vec_of w v) c.
Proof.
  apply (reach_ind2 e ps (fun w => forall t st s eid v a, w_thr w !! t = Some st -> FEmit s eid v a ∈ st ->
    exists a0 c, began (w_log w) t eid s a0 (vec_of w v) c)).
  - intros t st s eid v a Ht Hin. cbn in Ht. rewrite list_lookup_fmap in Ht. destruct (ps !! t); cbn in Ht; simplify_eq.
    apply elem_of_list_singleton in Hin. discriminate.
  - clear w. intros w t st w' st' Hr HI Ht Htr t0 st0 s eid v a Ht0 Hin. wcbn_in Ht0. rewrite (trans_thr _ _ _ _ _ _ Htr) in Ht0.
    assert (Hold : forall t0 st0 a, w_thr w !! t0 = Some st0 -> FEmit s eid v a ∈ st0 -> exists a0 c, began (w_log w') t0 eid s a0 (vec_of w' v) c).
    { intros t1 st1 a1 Ht1 Hin1. erewrite (emit_vec e ps w t st w' st' t1 st1); eauto.
      destruct (HI _ _ _ _ _ _ Ht1 Hin1) as (a0 & c & post & pre & Hl & Hc).
      destruct (trans_log_app _ _ _ _ _ _ Htr) as [new Hnew]. exists a0, c, (new ++ post), pre.
      rewrite Hnew, Hl, app_assoc. auto. }
    change (vec_of (mid w' t st') v) with (vec_of w' v). change (w_log (mid w' t st')) with (w_log w').
    destruct (thr_upd _ _ _ _ _ _ Ht Ht0) as [[-> ->]|[Hn Hx']]; [|eauto].
    assert (Hcase : (exists a', FEmit s eid v a' ∈ st) \/ (exists a0 c, began (w_log w') t eid s a0 (vec_of w' v) c)).
    { clear HI Hold Ht0. destruct Htr;
        try (left; exists a; repeat (apply elem_of_cons in Hin as [Hin|Hin]; [discriminate|]);
             repeat (try assumption; apply elem_of_list_further); fail).
      - left. exists a. apply elem_of_cons in Hin as [Hin|Hin]; [discriminate|]. apply elem_of_app in Hin as [Hin|Hin].
        + apply vop_after in H. rewrite Forall_forall in H. apply H in Hin. contradiction.
        + apply elem_of_cons in Hin as [Hin|Hin]; [discriminate|]. apply elem_of_list_further. auto.
      - left. exists a. apply elem_of_cons in Hin as [Hin|Hin]; [discriminate|]. apply elem_of_app in Hin as [Hin|Hin].
        + apply vop_after in H. rewrite Forall_forall in H. apply H in Hin. contradiction.
        + apply elem_of_cons in Hin as [Hin|Hin]; [discriminate|]. apply elem_of_list_further. auto.
      - left. exists a. apply elem_of_cons in Hin as [Hin|Hin]; [discriminate|]. apply elem_of_app in Hin as [Hin|Hin].
        + apply begins_fr in H. rewrite Forall_forall in H. apply H in Hin. contradiction.
        + apply elem_of_cons in Hin as [Hin|Hin]; [discriminate|]. apply elem_of_list_further. auto.
      - apply elem_of_cons in Hin as [Hin|Hin]; [discriminate|]. apply elem_of_cons in Hin as [Hin|Hin].
        + simplify_eq. right. eexists args, _, [], (w_log w). split; [reflexivity|].
          eapply I_comb_inv; eauto.
        + left. exists a. apply elem_of_list_further. auto.
      - left. apply elem_of_cons in Hin as [Hin|Hin]; [discriminate|]. apply elem_of_cons in Hin as [Hin|Hin].
        + simplify_eq. eexists. do 2 apply elem_of_list_further. apply elem_of_list_here.
        + exists a. do 3 apply elem_of_list_further. auto. }
    destruct Hcase as [[a' H]|H]; [eauto|auto].
  - clear w. intros w t st D L HI Ht HD HL t0 st0 s eid v a Ht0 Hin. wcbn_in Ht0.
    assert (Hold : forall t0 st0 a, w_thr w !! t0 = Some st0 -> FEmit s eid v a ∈ st0 ->
      exists a0 c, began (L ++ w_log w) t0 eid s a0 (vec_of w v) c).
    { intros t1 st1 a1 Ht1 Hin1. destruct (HI _ _ _ _ _ _ Ht1 Hin1) as (a0 & c & post & pre & Hl & Hc).
      exists a0, c, (L ++ post), pre. rewrite Hl, app_assoc. auto. }
    destruct (thr_upd _ _ _ _ _ _ Ht Ht0) as [[-> ->]|[Hn Hx']]; [|eapply Hold; eauto].
    apply elem_of_app in Hin as [Hin|Hin]; [|eapply Hold; eauto].
    unfold dtorish in HD. rewrite Forall_forall in HD. destruct (HD _ Hin) as [[? ?]|[? ?]]; discriminate.
Qed.

(** An emission begins once. *)
Lemma emit_fresh e ps w : reachable e ps w ->
  log_all (fun ev pre => match ev with EEmit _ eid _ _ _ => forall ev', ev' ∈ pre -> ev_eid eid ev' = false | _ => True end) (w_log w).
Proof.
  apply log_all_hist; [intros []; cbn; auto; discriminate|].
  clear w. intros w t st w' st' ev pre Hr Ht Htr Hlg. destruct ev; auto. logs_inv Htr Hlg.
  intros ev' Hev. apply (I_eid_inv _ _ _ Hr (w_neid w)); auto.
Qed.

Lemma began_unique e ps w t eid s a xs c t' s' a' xs' c' : reachable e ps w ->
  began (w_log w) t eid s a xs c -> began (w_log w) t' eid s' a' xs' c' -> t' = t /\ s' = s /\ a' = a /\ xs' = xs /\ c' = c.
Proof.
  intros Hr (p1 & q1 & H1 & C1) (p2 & q2 & H2 & C2). pose proof H1 as H1'. rewrite H2 in H1'.
  pose proof (emit_fresh _ _ _ Hr _ _ _ H1) as F1. pose proof (emit_fresh _ _ _ Hr _ _ _ H2) as F2. cbn in F1, F2.
  assert (Hself : forall (pre : list event) t s a xs, (forall ev', ev' ∈ pre -> ev_eid eid ev' = false) -> EEmit t eid s a xs ∈ pre -> False).
  { intros pre t0 s0 a0 xs0 Hf Hin. specialize (Hf _ Hin). cbn in Hf. rewrite bool_decide_true in Hf by auto. discriminate. }
  destruct (app_cons_case _ _ _ _ _ H1') as [(c2 & -> & Heq)|(a2 & -> & Heq)].
  - destruct c2 as [|x c2]; cbn in Heq; simplify_eq; [auto|].
    exfalso. eapply Hself; [exact F2|]. apply elem_of_app. right. apply elem_of_list_here.
  - subst q1. exfalso. eapply Hself; [exact F1|]. apply elem_of_app. right. apply elem_of_list_here.
Qed.

(** ** Running a combiner *)
Inductive esteps (e : env) (t : tid) (eid : nat) (xs : list lid) (p : prog) (a : list arg) : list event -> prog -> list arg -> Prop :=
| ES_start : esteps e t eid xs p a [] p a
| ES_other evs o k r b : esteps e t eid xs p a evs (Do o k) b -> (forall pos, o <> ODeref pos) ->
    esteps e t eid xs p a evs (k r) b
| ES_skip evs pos k l start b : esteps e t eid xs p a evs (Do (ODeref pos) k) b -> xs !! pos = Some l ->
    esteps e t eid xs p a (EDeref t eid pos l (OutOpt None) :: ESkip t (RSlot l) (Some eid) start :: evs) (k (OutOpt None)) b
| ES_call evs pos k l c start r b : esteps e t eid xs p a evs (Do (ODeref pos) k) b -> xs !! pos = Some l ->
    slot_out r ->
    esteps e t eid xs p a (EDeref t eid pos l r :: ERet t (RSlot l) (Some eid) r ::
                           ECall t (RSlot l) (Some eid) c b start :: evs) (k r) (consume e c b).

Definition stp (e : env) (t : tid) (log : list event) (eid : nat) (evs : list event) (p : prog) (args : list arg) (F : list lid -> Prop) : Prop :=
  exists s a0 xs c, began log t eid s a0 xs c /\ esteps e t eid xs (combiner e c (length xs)) a0 evs p args /\ F xs.

Definition em_ok (e : env) (t : tid) (log : list event) (f : frame) (r : list frame) : Prop :=
  match r with
  | FEmit _ eid _ args :: _ =>
      match f with
      | FProg p => stp e t log eid (did eid log) p args (fun _ => True)
      | FRet o => stp e t log eid (did eid log) (Ret o) args (fun _ => True)
      | FWait k => forall x, stp e t log eid (did eid log) (k x) args (fun _ => True)
      | _ => True
      end
  | FDeref k pos l :: FEmit _ eid _ args :: _ =>
      match f with
      | FSlot _ SRun args' _ _ start =>
          exists evs c, did eid log = ECall t (RSlot l) (Some eid) c args start :: evs /\ args' = consume e c args /\
            stp e t log eid evs (Do (ODeref pos) k) args (fun xs => xs !! pos = Some l)
      | FSlot _ _ args' _ _ start =>
          args' = args /\ start <= length log /\ did eid log = did eid (older start log) /\
          (exists t0 s a0 xs, EEmit t0 eid s a0 xs ∈ older start log) /\
          stp e t log eid (did eid log) (Do (ODeref pos) k) args (fun xs => xs !! pos = Some l)
      | FRet (OutCall res args') =>
          exists evs, stp e t log eid evs (Do (ODeref pos) k) args (fun xs => xs !! pos = Some l) /\
            ((exists start, did eid log = ESkip t (RSlot l) (Some eid) start :: evs /\ res = OutOpt None /\ args' = args) \/
             (exists c start, did eid log = ERet t (RSlot l) (Some eid) res :: ECall t (RSlot l) (Some eid) c args start :: evs /\
                args' = consume e c args /\ slot_out res))
      | _ => True
      end
  | _ => True
  end.

Lemma began_app new log t eid s a xs c : began log t eid s a xs c -> began (new ++ log) t eid s a xs c.
Proof. intros (p & q & -> & H). exists (new ++ p), q. rewrite app_assoc. auto. Qed.

Lemma stp_app e t new log eid evs p args F : stp e t log eid evs p args F -> stp e t (new ++ log) eid evs p args F.
Proof. intros (s & a0 & xs & c & Hb & H). exists s, a0, xs, c. split; [apply began_app; auto|auto]. Qed.

Lemma stp_other e t log eid evs o k args F : stp e t log eid evs (Do o k) args F -> (forall pos, o <> ODeref pos) ->
  forall x, stp e t log eid evs (k x) args F.
Proof. intros (s & a0 & xs & c & Hb & H & HF) Hn x. exists s, a0, xs, c. split; [auto|]. split; [|auto]. eapply ES_other; eauto. Qed.

Lemma em_ok_ext e t new log f r :
  (forall s eid v a, FEmit s eid v a ∈ r -> did eid (new ++ log) = did eid log) ->
  em_ok e t log f r -> em_ok e t (new ++ log) f r.
Proof.
  intros Hd H. unfold em_ok in *. destruct r as [|g r]; [exact I|]. destruct g; auto.
  - destruct r as [|g r]; auto. destruct g; auto.
    assert (Hd' : did eid (new ++ log) = did eid log).
    { eapply Hd. apply elem_of_list_further, elem_of_list_here. }
    rewrite Hd'. destruct f; auto.
    + destruct o; auto. destruct H as (evs & Hs & H). exists evs. split; [apply stp_app; auto|auto].
    + assert (Hpre : args0 = args /\ start <= length log /\ did eid log = did eid (older start log) /\ 
        (exists t0 s a0 xs, EEmit t0 eid s a0 xs ∈ older start log) /\
        stp e t log eid (did eid log) (Do (ODeref pos) k) args (fun xs => xs !! pos = Some l) ->
        args0 = args /\ start <= length (new ++ log) /\ did eid log = did eid (older start (new ++ log)) /\
        (exists t0 s a0 xs, EEmit t0 eid s a0 xs ∈ older start (new ++ log)) /\
        stp e t (new ++ log) eid (did eid log) (Do (ODeref pos) k) args (fun xs => xs !! pos = Some l)).
      { intros (H1 & H2 & H3 & H4 & H5). split; [auto|]. split; [rewrite app_length; lia|].
        rewrite older_app by auto. split; [auto|]. split; [auto|]. apply stp_app. auto. }
      destruct g; auto. destruct H as (evs & c & H1 & H2 & H3). exists evs, c. split; [auto|]. split; [auto|]. apply stp_app. auto.
  - assert (Hd' : did eid (new ++ log) = did eid log).
    { eapply Hd. apply elem_of_list_here. }
    rewrite Hd'. destruct f; auto using stp_app. 
Qed.

Definition I_em e (w : world) : Prop := forall t st, w_thr w !! t = Some st -> AT (em_ok e t (w_log w)) st.

Lemma em_do e t log o k st : em_ok e t log (FProg (Do o k)) st -> (forall pos, o <> ODeref pos) -> em_ok e t log (FWait k) st.
Proof.
  unfold em_ok. destruct st as [|[] st]; auto.
  intros H Hn. eapply stp_other; eauto.
Qed.

Lemma did_dead L log eid : deadish L -> did eid (L ++ log) = did eid log.
Proof. intros HL. induction HL as [|ev L [[x ->]|[o ->]] _ IH]; cbn; auto. Qed.

Lemma emit_swt s eid v a st : FEmit s eid v a ∈ st -> 1 <= swt (emf eid) st.
Proof. intros H. apply (swt_elem (emf eid)) in H. cbn in H. rewrite decide_True in H by auto. lia. Qed.

Definition plain (f : frame) : bool := match f with FProg _ | FRet _ | FWait _ | FSlot _ _ _ _ _ _ => false | _ => true end.
Lemma em_plain e t log f r : plain f = true -> em_ok e t log f r.
Proof.
  intros H. unfold em_ok. destruct r as [|g r]; [exact I|]. destruct g; auto; [destruct r as [|g r]; auto; destruct g; auto|];
    destruct f; auto; discriminate.
Qed.
Lemma em_waits e t log f r : waits r = true -> em_ok e t log f r.
Proof. destruct r as [|[] r]; try discriminate. intros _. exact I. Qed.

Lemma slot_below r g a pin eid start st : adj (FSlot r g a pin eid start) st ->
  (exists l k pos s i v b rest, r = RSlot l /\ eid = Some i /\ st = FDeref k pos l :: FEmit s i v b :: rest) \/
  (exists u rest, r = RUser u /\ eid = None /\ st = FCallRet :: rest).
Proof.
  cbn. destruct r, eid; try contradiction.
  - destruct st as [|[] st]; try contradiction. destruct st as [|[] st]; try contradiction.
    intros [-> ->]. left. eauto 12.
  - destruct st as [|[] st]; try contradiction. right. eauto.
Qed.

Lemma em_pre_iff e t log r g args' pin i start k pos l s eid v args rest : g <> SRun ->
  em_ok e t log (FSlot r g args' pin i start) (FDeref k pos l :: FEmit s eid v args :: rest) <->
  (args' = args /\ start <= length log /\ did eid log = did eid (older start log) /\
   (exists t0 s a0 xs, EEmit t0 eid s a0 xs ∈ older start log) /\
   stp e t log eid (did eid log) (Do (ODeref pos) k) args (fun xs => xs !! pos = Some l)).
Proof. intros Hn. destruct g; try congruence; reflexivity. Qed.

Lemma trans_active e w t st w' st' : AT adj st -> trans e w t st w' st' -> is_active st'.
Proof.
  intros HA Htr. destruct Htr; cbn [AT adj] in HA; destruct_and?; cbn; auto.
  match goal with H : advances _ _ _ _ _ _ _ |- _ => destruct H; reflexivity end.
Qed.

Lemma I_em_step e ps w t st w' st' : reachable e ps w -> I_em e w -> w_thr w !! t = Some st -> trans e w t st w' st' ->
  I_em e (mid w' t st').
Proof.
  - intros Hr HI Ht Htr t' x Hx. wcbn_in Hx. rewrite (trans_thr _ _ _ _ _ _ Htr) in Hx.
    change (w_log (mid w' t st')) with (w_log w').
    destruct (I_adj_inv _ _ _ Hr _ _ Ht) as [HA Hact].
    destruct (trans_log_app _ _ _ _ _ _ Htr) as [new Hnew].
    assert (Hdid : forall eid, touched st <> Some eid -> did eid (w_log w') = did eid (w_log w)).
    { intros eid. apply (trans_did _ _ _ _ _ _ eid Htr). }
    assert (Hone : forall eid, wt (emf eid) (w_thr w) <= 1) by (intros eid; apply (I_eid_inv _ _ _ Hr eid)).
    assert (Hkeep : forall t0 a tail, w_thr w !! t0 = Some (a ++ tail) ->
      (forall eid, touched st = Some eid -> swt (emf eid) tail = 0) -> AT (em_ok e t0 (w_log w')) tail).
    { intros t0 a tail Ht0 Hz. specialize (HI _ _ Ht0). apply AT_app in HI. eapply AT_in_impl; [|exact HI].
      intros f r b Heq. rewrite Hnew. apply em_ok_ext. intros s eid v aa Hin. rewrite <- Hnew. apply Hdid. intros Hti.
      specialize (Hz _ Hti). apply emit_swt in Hin. subst tail. rewrite swt_app, swt_cons in Hz. lia. }
    destruct (thr_upd _ _ _ _ _ _ Ht Hx) as [[-> ->]|[Hn Hx']].
    2:{ eapply (Hkeep _ []); [exact Hx'|]. intros eid Hti. apply touched_in in Hti; [|auto].
        pose proof (wt_ge2 (emf eid) _ _ _ _ _ Hn Hx' Ht). specialize (Hone eid). lia. }
    clear Hx. 
    assert (Hself : touched st = None -> AT (em_ok e t (w_log w')) st).
    { intros Hti. eapply (Hkeep t []); [exact Ht|]. intros eid. congruence. }
    assert (Hbelow : forall a s eid v b rest, st = a ++ FEmit s eid v b :: rest -> (forall i, touched st = Some i -> i = eid) -> AT (em_ok e t (w_log w')) rest).
    { intros a s eid v b rest -> Hti. eapply (Hkeep t (a ++ [_])); [rewrite <- app_assoc; exact Ht|].
      intros i Hi. apply Hti in Hi. subst i. pose proof (wt_ge (emf eid) _ _ _ Ht) as Hge. rewrite swt_app, swt_cons in Hge.
      cbn [emf] in Hge. rewrite decide_True in Hge by auto. specialize (Hone eid). lia. }
    clear Hkeep. 
    assert (Hem : AT (em_ok e t (w_log w)) st) by auto.
    destruct Htr; try (specialize (Hself eq_refl); cbn [AT] in Hself |- *; destruct Hself as [Hs1 Hs2]).
    all: wcbn; wcbn_in Hnew; autorewrite with wsimp in *; cbn [AT adj] in HA.
    all: try (destruct_and?; repeat (match goal with |- _ /\ _ => split end);
              auto using em_plain, em_waits; try exact I;
              try (eapply em_do; [eassumption|discriminate]); fail).
    + (* ret *) split; [|auto]. destruct HA as [HA _]. destruct st as [|[] st]; try discriminate HA; auto.
    + (* vdo *) destruct (vop_after' _ _ _ _ _ _ H) as [->|[(d & m & ->)|[(d & s & ->)| ->]]]; cbn [app AT];
        repeat (match goal with |- _ /\ _ => split end); auto using em_plain; try exact I; try (eapply em_do; eauto; discriminate).
    + (* vdead *) destruct (vop_after' _ _ _ _ _ _ H) as [->|[(d & m & ->)|[(d & s & ->)| ->]]]; cbn [app AT];
        repeat (match goal with |- _ /\ _ => split end); auto using em_plain; try exact I; try exact I; try (eapply em_do; eauto; discriminate).
    + (* oom *) split; [exact I|]. split; [|auto]. eapply em_do; eauto. intros pos ->. contradiction.
    + (* begin *) destruct H; cbn [app AT]; repeat (match goal with |- _ /\ _ => split end); auto using em_plain; try exact I; try (eapply em_do; eauto; discriminate).
    + (* selfset *) wcbn_in Hs1. wcbn_in Hs2. autorewrite with wsimp in Hs1, Hs2. split; [exact I|]. split; [|auto]. eapply em_do; [eassumption|discriminate].
    + (* deref *) split; [|split; [exact I|exact Hs2]]. cbn [em_ok] in Hs1 |- *. split; [auto|]. split; [auto|]. rewrite older_all. split; [auto|].
      destruct Hs1 as (s0 & a0 & xs & c & Hb & He & _).
      destruct (I_emitvec_inv _ _ _ Hr _ _ _ _ _ _ Ht (elem_of_list_further _ _ _ (elem_of_list_here _ _))) as (a1 & c1 & Hb1).
      split; [destruct Hb as (post & pre & -> & _); exists t, s0, a0, xs; apply elem_of_app; right; apply elem_of_list_here|].
      exists s0, a0, xs, c. split; [auto|]. split; [auto|].
      destruct (began_unique _ _ _ _ _ _ _ _ _ _ _ _ _ _ Hr Hb Hb1) as (_ & _ & _ & <- & _). auto.
    + (* skip *) destruct HA as [HA _]. destruct (slot_below _ SBlk args pin _ start _ HA) as [(l & k & pos & s & i & v & b & rest & -> & -> & ->)|(u & rest & -> & -> & ->)].
      * cbn [AT] in Hem. destruct Hem as (Hf & _). split; [|split; [exact I|split; [apply em_plain; reflexivity|]]].
        -- rewrite em_pre_iff in Hf by (intros ->; discriminate Hact). destruct Hf as (-> & _ & _ & _ & Hs).
           cbn [em_ok]. exists (did i (w_log w)). split; [apply (stp_app _ _ [_]); exact Hs|]. left. exists start.
           split; [|auto]. unfold did at 1. rewrite filter_cons. cbn [about]. rewrite bool_decide_true by auto. reflexivity.
        -- eapply (Hbelow [_; _]); [reflexivity|]. cbn. congruence.
      * specialize (Hself eq_refl). cbn [AT] in Hself |- *. destruct Hself as (_ & Hs). split; [exact I|exact Hs].
    + (* dead *) destruct HA as [HA _]. destruct (slot_below _ SBlk args pin _ start _ HA) as [(l & k & pos & s & i0 & v & b & rest & -> & -> & ->)|(u & rest & -> & -> & ->)].
      * cbn [AT] in Hem. destruct Hem as (Hf & _). split; [|split; [exact I|split; [apply em_plain; reflexivity|]]].
        -- rewrite em_pre_iff in Hf by discriminate. destruct Hf as (-> & _ & _ & _ & Hs).
           cbn [em_ok]. exists (did i0 (w_log w)). split.
           ++ destruct (cc_log w (RSlot l)) as [->|(l0 & i1 & _ & _ & _ & ->)]; [apply (stp_app _ _ [_]); exact Hs|apply (stp_app _ _ [_; _]); exact Hs].
           ++ left. exists start.
              split; [|auto]. unfold did at 1. rewrite filter_cons. cbn [about]. rewrite bool_decide_true by auto. cbn. f_equal.
              destruct (cc_log w (RSlot l)) as [->|(l0 & i1 & _ & _ & _ & ->)]; reflexivity.
        -- eapply (Hbelow [_; _]); [reflexivity|]. cbn. congruence.
      * specialize (Hself eq_refl). cbn [AT] in Hself |- *. destruct Hself as (_ & Hs). split; [exact I|exact Hs].
    + (* adv *) cbn [AT] in Hem |- *. destruct Hem as [Hf Hs]. split; [|exact Hs]. destruct HA as [HA _].
      destruct (slot_below _ SBlk args pin _ start _ HA) as [(l & k & pos & s & i0 & v & b & rest & -> & -> & ->)|(u & rest & -> & -> & ->)]; [|exact I].
      rewrite em_pre_iff in Hf by (intros ->; inversion H1). rewrite em_pre_iff by (intros ->; inversion H1). exact Hf.
    + (* call *) destruct HA as [HA _]. destruct (slot_below _ SBlk args pin _ start _ HA) as [(l & k & pos & s & i0 & v & b & rest & -> & -> & ->)|(u & rest & -> & -> & ->)].
      * cbn [AT] in Hem. destruct Hem as (Hf & _). split; [exact I|]. split; [|split; [exact I|split; [apply em_plain; reflexivity|]]].
        -- rewrite em_pre_iff in Hf by discriminate. destruct Hf as (-> & _ & _ & _ & Hs).
           cbn [em_ok]. exists (did i0 (w_log w)), (im_c i). split; [|split; [auto|apply (stp_app _ _ [_]); exact Hs]].
           unfold did at 1. rewrite filter_cons. cbn [about]. rewrite bool_decide_true by auto. reflexivity.
        -- eapply (Hbelow [_; _]); [reflexivity|]. cbn. congruence.
      * specialize (Hself eq_refl). cbn [AT] in Hself |- *. destruct Hself as (_ & Hs). split; [exact I|]. split; [exact I|exact Hs].
    + (* disc false *) split; [|exact Hs2]. destruct HA as [HA _]. destruct st as [|[] st]; try contradiction; exact I.
    + (* read *) split; [|split; [|exact Hs2]].
      * cbn [em_ok]. exists s, args, (vec_of w v), (sg_comb r). split; [|split; [|exact I]].
        -- exists [], (w_log w). split; [reflexivity|]. eapply I_comb_inv; eauto.
        -- rewrite did_none; [constructor|]. intros ev Hev. apply elem_of_cons in Hev as [->|Hev]; [reflexivity|].
           apply ev_eid_about. apply (I_eid_inv _ _ _ Hr (w_neid w)); auto.
      * destruct HA as [HA _]. apply em_waits. exact HA.
    + (* rem *) wcbn_in Hs2. autorewrite with wsimp in Hs2. split; [|exact Hs2]. apply em_plain. reflexivity.
    + (* unlock *) split; [|exact Hs2]. destruct HA as [HA _]. destruct st as [|[] st]; try contradiction; exact I.
    + (* wait *) destruct Hs2 as [Hw Hs2]. split; [|exact Hs2]. destruct HA as [_ [HA _]].
      destruct st as [|[] st]; try discriminate HA; try exact I. apply Hw.
    + (* deref ret *) cbn [AT] in Hem |- *. destruct Hem as (Hf & _ & _ & _). split; [|split; [apply em_plain; reflexivity|]].
      * destruct Hf as (evs & (s0 & a0 & xs & c & Hb & Hs & Hl) & Hd). cbn [em_ok].
        exists s0, a0, xs, c. split; [apply (began_app [_]); auto|]. split; [|exact I].
        unfold did. rewrite filter_cons. cbn [about]. rewrite bool_decide_true by auto. cbn. fold (did eid (w_log w)).
        destruct Hd as [(start & -> & -> & ->)|(c1 & start & -> & -> & Hso)]; [eapply ES_skip; eauto|eapply ES_call; eauto].
      * eapply (Hbelow [_; _]); [reflexivity|]. cbn. congruence.
    + (* remret *) destruct Hs2 as [_ Hs2]. split; [|exact Hs2]. destruct HA as [_ [HA _]]. destruct st as [|[] st]; try contradiction; exact I.
    + (* erased *) wcbn_in Hs2. autorewrite with wsimp in Hs2. destruct Hs2 as [_ Hs2]. split; [|exact Hs2]. apply em_plain. reflexivity.
    + (* emitret *) cbn [AT]. destruct HA as [_ [HA _]]. split; [apply em_waits; exact HA|].
      eapply (Hbelow [_]); [reflexivity|]. cbn. congruence.
    + (* slotret *) destruct HA as [_ [HA _]]. destruct (slot_below _ SBlk args pin _ start _ HA) as [(l & k & pos & s & i0 & v & b & rest & -> & -> & ->)|(u & rest & -> & -> & ->)].
      * cbn [AT] in Hem. destruct Hem as (_ & Hf & _). split; [|split; [exact I|split; [apply em_plain; reflexivity|]]].
        -- destruct Hf as (evs & c & Hd & -> & Hs). cbn [em_ok]. exists evs. split; [apply (stp_app _ _ [_]); exact Hs|].
           right. exists c, start. split; [|split; [auto|eapply wrap_out; eauto]].
           unfold did. rewrite filter_cons. cbn [about]. rewrite bool_decide_true by auto. cbn. fold (did i0 (w_log w)).
           rewrite Hd. reflexivity.
        -- eapply (Hbelow [_; _; _]); [reflexivity|]. cbn. congruence.
      * specialize (Hself eq_refl). cbn [AT] in Hself |- *. destruct Hself as (_ & _ & Hs). split; [exact I|exact Hs].
Qed.

Lemma em_active e t log p st : is_active st -> em_ok e t log (FProg p) st.
Proof. destruct st as [|f st]; [contradiction|]. destruct f; cbn; try discriminate; intros; exact I. Qed.

Lemma AT_em_dtorish e t log D st : dtorish D -> is_active st -> AT (em_ok e t log) st -> AT (em_ok e t log) (D ++ st).
Proof.
  intros HD Ha HA. induction HD as [|f D Hf HD IH]; cbn; [auto|]. split; [|auto].
  destruct Hf as [[? ->]|[p ->]]; [apply em_plain; reflexivity|]. destruct HD as [|g D [[? ->]|[q ->]] HD]; cbn; try exact I.
  apply em_active. auto.
Qed.

Lemma I_em_inv e ps w : reachable e ps w -> I_em e w.
Proof.
  apply reach_ind.
  - intros t st Ht. cbn in Ht. rewrite list_lookup_fmap in Ht. destruct (ps !! t); cbn in Ht; simplify_eq. cbn. auto.
  - clear w. intros w t st w' st' Hr HI Ht Htr _. pose proof (I_em_step _ _ _ _ _ _ _ Hr HI Ht Htr) as Hm.
    destruct (reap_spec e w w' t st') as (D & L & HD & HL & -> & HDeq & _).
    pose proof (trans_thr _ _ _ _ _ _ Htr) as Hthr.
    intros t' x Hx. wcbn_in Hx. wcbn.
    assert (Hext : forall t0 s0, AT (em_ok e t0 (w_log w')) s0 -> AT (em_ok e t0 (L ++ w_log w')) s0).
    { intros t0 s0. apply AT_impl. intros f r. apply em_ok_ext. intros. apply did_dead. auto. }
    rewrite Hthr in Hx. assert (Hlt : t < length (w_thr w)) by (eapply lookup_lt_Some; eauto).
    destruct (thr_upd _ _ _ _ _ _ Ht Hx) as [[-> ->]|[Hn Hx']].
    + apply Hext. apply AT_em_dtorish; auto.
      * destruct (I_adj_inv _ _ _ Hr _ _ Ht) as [HA _]. eapply trans_active; eauto.
      * apply (Hm t st'). wcbn. rewrite Hthr. apply list_lookup_insert. auto.
    + apply Hext. apply (Hm t' x). wcbn. rewrite Hthr, list_lookup_insert_ne by auto. auto.
Qed.

(** ** Every emission is running its combiner or has returned what the combiner returned *)
Inductive eprog (e : env) (t : tid) (eid : nat) (xs : list lid) (p : prog) (a : list arg) : list event -> Prop :=
| EP_between evs q b : esteps e t eid xs p a evs q b -> eprog e t eid xs p a evs
| EP_skip evs pos k l start b : esteps e t eid xs p a evs (Do (ODeref pos) k) b -> xs !! pos = Some l ->
    eprog e t eid xs p a (ESkip t (RSlot l) (Some eid) start :: evs)
| EP_call evs pos k l c start b : esteps e t eid xs p a evs (Do (ODeref pos) k) b -> xs !! pos = Some l ->
    eprog e t eid xs p a (ECall t (RSlot l) (Some eid) c b start :: evs)
| EP_ret evs pos k l c start r b : esteps e t eid xs p a evs (Do (ODeref pos) k) b -> xs !! pos = Some l -> slot_out r ->
    eprog e t eid xs p a (ERet t (RSlot l) (Some eid) r :: ECall t (RSlot l) (Some eid) c b start :: evs)
| EP_done evs o b : esteps e t eid xs p a evs (Ret o) b -> eprog e t eid xs p a (EEmitRet t eid o :: evs).

Definition erunning (w : world) (t : tid) (eid : nat) : Prop :=
  exists st s v args, w_thr w !! t = Some st /\ FEmit s eid v args ∈ st.
Definition efinished e (w : world) (t : tid) (eid : nat) (a : list arg) (xs : list lid) (c : option nat) : Prop :=
  wt (emf eid) (w_thr w) = 0 /\
  exists o evs b, did eid (w_log w) = EEmitRet t eid o :: evs /\
    esteps e t eid xs (combiner e c (length xs)) a evs (Ret o) b.

Lemma began_elem log t eid s a xs c : began log t eid s a xs c -> EEmit t eid s a xs ∈ log.
Proof. intros (post & pre & -> & _). apply elem_of_app. right. apply elem_of_list_here. Qed.

Lemma trans_began e w t st w' st' t0 eid s a xs c : trans e w t st w' st' -> began (w_log w') t0 eid s a xs c ->
  began (w_log w) t0 eid s a xs c \/ w_log w' = EEmit t0 eid s a xs :: w_log w.
Proof.
  intros Htr (post & pre & Hl & Hc).
  destruct (trans_log _ _ _ _ _ _ Htr) as [He|[(ev1 & He)|(l & args & pin & i0 & start & st0 & i & _ & _ & _ & He)]]; rewrite He in Hl.
  - left. exists post, pre. auto.
  - destruct post as [|ev post]; cbn in Hl; simplify_eq; [right; auto|]. left. exists post, pre. auto.
  - destruct post as [|ev post]; cbn in Hl; [discriminate|]. injection Hl as _ Hl.
    destruct post as [|ev1 post]; cbn in Hl; [discriminate|]. injection Hl as _ Hl.
    left. exists post, pre. auto.
Qed.

(** What becomes of the emissions a stack runs. *)
Lemma trans_emf e w t st w' st' s eid v args : trans e w t st w' st' -> FEmit s eid v args ∈ st ->
  (exists args', FEmit s eid v args' ∈ st') \/ (exists o st0, st = FRet o :: FEmit s eid v args :: st0).
Proof.
  intros Htr Hin.
  assert (Hk : forall a b args0, FEmit s eid v args0 ∈ b -> exists args', FEmit s eid v args' ∈ a ++ b).
  { intros a b args0 H. exists args0. apply elem_of_app. auto. }
  destruct Htr; repeat (apply elem_of_cons in Hin as [Hin|Hin]; [discriminate|]);
    try (left; exists args; repeat (try assumption; apply elem_of_list_further); fail).
  - left. rewrite app_comm_cons. eapply Hk. apply elem_of_list_further. eauto.
  - left. rewrite app_comm_cons. eapply Hk. apply elem_of_list_further. eauto.
  - left. rewrite app_comm_cons. eapply Hk. apply elem_of_list_further. eauto.
  - left. apply elem_of_cons in Hin as [Hin|Hin]; simplify_eq; eexists; apply elem_of_list_further; [apply elem_of_list_here|apply elem_of_list_further; eauto].
  - apply elem_of_cons in Hin as [Hin|Hin]; simplify_eq; [right; eauto|left; eexists; apply elem_of_list_further; eauto].
Qed.
Lemma I_estate_inv e ps w : reachable e ps w -> forall t eid s a xs c, began (w_log w) t eid s a xs c ->
  erunning w t eid \/ efinished e w t eid a xs c.
Proof.
  apply (reach_ind2 e ps (fun w => forall t eid s a xs c, began (w_log w) t eid s a xs c ->
    erunning w t eid \/ efinished e w t eid a xs c)).
  - intros t eid s a xs c Hb. apply began_elem in Hb. inversion Hb.
  - clear w. intros w t st w' st' Hr HI Ht Htr t0 eid s a xs c Hb.
    change (w_log (mid w' t st')) with (w_log w') in Hb.
    assert (Hlt : t < length (w_thr w)) by (eapply lookup_lt_Some; eauto).
    pose proof (trans_thr _ _ _ _ _ _ Htr) as Hthr.
    destruct (I_adj_inv _ _ _ Hr _ _ Ht) as [HA _].
    destruct (trans_began _ _ _ _ _ _ _ _ _ _ _ _ Htr Hb) as [Hb0|Hnew].
    + destruct (HI _ _ _ _ _ _ Hb0) as [(st1 & s1 & v1 & args1 & Ht1 & Hin)|(Hz & o & evs & b & Hd & Hs)].
      * assert (Hmid : forall st2 s2 v2 a2, <[t := st']> (w_thr w) !! t0 = Some st2 -> FEmit s2 eid v2 a2 ∈ st2 -> erunning (mid w' t st') t0 eid).
        { intros st2 s2 v2 a2 H2 Hin2. exists st2, s2, v2, a2. wcbn. rewrite Hthr. auto. }
        destruct (decide (t0 = t)) as [->|Hn].
        2:{ left. eapply Hmid; eauto. rewrite list_lookup_insert_ne by auto. exact Ht1. }
        rewrite Ht in Ht1. simplify_eq.
        destruct (trans_emf _ _ _ _ _ _ _ _ _ _ Htr Hin) as [[a' Hin']|(o & st0 & ->)].
        { left. eapply Hmid; eauto. apply list_lookup_insert. auto. }
        right. pose proof (I_em_inv _ _ _ Hr _ _ Ht) as [Hem _]. cbn in Hem. destruct Hem as (s2 & a2 & xs2 & c2 & Hb2 & Hs & _).
        destruct (began_unique _ _ _ _ _ _ _ _ _ _ _ _ _ _ Hr Hb0 Hb2) as (_ & -> & -> & -> & ->).
        inversion Htr; subst. split.
        -- wcbn. pose proof (wt_insert (emf eid) _ _ _ (FRet o :: st0) Ht) as Hwt. rewrite !swt_cons in Hwt. cbn [emf] in Hwt.
           rewrite decide_True in Hwt by auto. destruct (I_eid_inv _ _ _ Hr eid) as [H1 _]. lia.
        -- exists o, (did eid (w_log w)), args1. split; [|auto]. wcbn. unfold did at 1. rewrite filter_cons. cbn [about].
           rewrite bool_decide_true by auto. reflexivity.
      * right. pose proof (wt_insert (emf eid) _ _ _ st' Ht) as Hwt.
        pose proof (wt_ge (emf eid) _ _ _ Ht) as Hge.
        assert (Hs' : swt (emf eid) st' <= swt (emf eid) st).
        { destruct (trans_emit _ _ _ _ _ _ Htr) as [(_ & Hle & _)|(s1 & args & st0 & r & v & -> & _ & _ & _ & _ & _ & ->)]; [apply Hle|].
          rewrite !swt_cons. cbn [emf]. case_decide; [|lia]. subst eid. exfalso.
          destruct (I_eid_inv _ _ _ Hr (w_neid w)) as [_ H]. destruct (H (le_n _)) as [_ H2].
          apply began_elem in Hb0. apply H2 in Hb0. cbn in Hb0. rewrite bool_decide_true in Hb0 by auto. discriminate. }
        split; [wcbn; rewrite Hthr; lia|]. exists o, evs, b. split; [|auto]. wcbn. rewrite (trans_did _ _ _ _ _ _ eid Htr); [auto|].
        intros Hti. apply touched_in in Hti; [|auto]. lia.
    + left. destruct Htr; wcbn_in Hnew; autorewrite with wsimp in Hnew; try (exfalso; symmetry in Hnew; exact (cons_ne _ _ Hnew)); try discriminate; simplify_eq.
      * exfalso. apply vop_ev in H as [(?&?&?)|[(?&?&?)|[(?&?&?)|[(?&?&?)|(?&?&?)]]]]; discriminate.
      * eexists _, _, _, _. split; [wcbn; apply list_lookup_insert; auto|]. apply elem_of_list_further. apply elem_of_list_here.
  - clear w. intros w t st D L HI Ht HD HL t0 eid s a xs c Hb. wcbn_in Hb.
    assert (Hb0 : began (w_log w) t0 eid s a xs c).
    { destruct Hb as (post & pre & Hl & Hc). apply app_cons_case in Hl as [(c2 & -> & Hl)|(a2 & HL' & ->)]; [exists c2, pre; auto|].
      exfalso. subst L. apply Forall_app in HL as [_ HL]. apply Forall_cons in HL as [[[? ?]|[? ?]] _]; discriminate. }
    assert (Hlt : t < length (w_thr w)) by (eapply lookup_lt_Some; eauto).
    destruct (HI _ _ _ _ _ _ Hb0) as [(st1 & s1 & v1 & args1 & Ht1 & Hin)|(Hz & o & evs & b & Hd & Hs)].
    + left. destruct (decide (t0 = t)) as [->|Hn].
      * rewrite Ht in Ht1. simplify_eq. eexists _, _, _, _. split; [wcbn; apply list_lookup_insert; auto|]. apply elem_of_app. right. eauto.
      * eexists _, _, _, _. split; [wcbn; rewrite list_lookup_insert_ne by auto; eauto|eauto].
    + right. split.
      * wcbn. pose proof (wt_insert (emf eid) _ _ _ (D ++ st) Ht) as Hwt. rewrite swt_app, (swt_dtorish _ D HD) in Hwt by reflexivity. lia.
      * exists o, evs, b. wcbn. rewrite did_dead by auto. auto.
Qed.

Lemma emission e ps w t eid s a xs c : reachable e ps w -> began (w_log w) t eid s a xs c ->
  eprog e t eid xs (combiner e c (length xs)) a (did eid (w_log w)).
Proof.
  intros Hr Hb. destruct (I_estate_inv _ _ _ Hr _ _ _ _ _ _ Hb) as [(st & s1 & v & args & Ht & Hin)|(_ & o & evs & b & -> & Hs)].
  2:{ eapply EP_done. eauto. }
  destruct (I_adj_inv _ _ _ Hr _ _ Ht) as [HA Hact]. pose proof (I_em_inv _ _ _ Hr _ _ Ht) as Hem.
  apply elem_of_list_split in Hin as (u & r & ->).
  assert (Huniq : forall evs p args F, stp e t (w_log w) eid evs p args F -> esteps e t eid xs (combiner e c (length xs)) a evs p args /\ F xs).
  { intros evs p args0 F (s2 & a2 & xs2 & c2 & Hb2 & Hs & HF).
    destruct (began_unique _ _ _ _ _ _ _ _ _ _ _ _ _ _ Hr Hb Hb2) as (_ & -> & -> & -> & ->). auto. }
  destruct u as [|f u _] using rev_ind; [discriminate Hact|]. rewrite <- app_assoc in HA, Hem, Hact, Ht. cbn [app] in *.
  pose proof (AT_app _ _ _ Hem) as [Hf _]. pose proof (AT_app _ _ _ HA) as [Ha _].
  destruct f; cbn in Ha; try discriminate; try contradiction; try (destruct k; cbn in Ha; try discriminate; contradiction).
  - apply Huniq in Hf as [Hf _]. eapply EP_between; eauto.
  - apply Huniq in Hf as [Hf _]. eapply EP_between; eauto.
  - specialize (Hf OutUnit). apply Huniq in Hf as [Hf _]. eapply EP_between; eauto.
  - destruct u as [|f u _] using rev_ind; [discriminate Hact|]. rewrite <- app_assoc in HA, Hem, Hact, Ht. cbn [app] in *.
    clear Hf. pose proof (AT_app _ _ _ Hem) as [Hf _]. pose proof (AT_app _ _ _ HA) as [Hb0 _].
    destruct f; cbn in Hb0; try discriminate; try contradiction; try (destruct k0; cbn in Hb0; try discriminate; contradiction).
    + destruct Hb0 as [Hb0|[Hb0|(r0 & a0 & -> & Hso)]]; try discriminate; try contradiction. cbn in Hf.
      destruct Hf as (evs & Hs & Hd). apply Huniq in Hs as [Hs Hl].
      destruct Hd as [(start & -> & -> & ->)|(c1 & start & -> & -> & _)]; [eapply EP_skip; eauto|eapply EP_ret; eauto].
    + match type of Hb0 with match ?x with _ => _ end => destruct x; [|repeat case_match; contradiction] end.
      destruct eid0; [|contradiction]. destruct Hb0 as [-> ->].
      assert (g = SRun \/ g <> SRun) as [->|Hg] by (destruct g; auto; right; discriminate).
      * cbn in Hf. destruct Hf as (evs & c1 & -> & -> & Hs). apply Huniq in Hs as [Hs Hl]. eapply EP_call; eauto.
      * rewrite em_pre_iff in Hf by auto. destruct Hf as (-> & _ & _ & _ & Hs). apply Huniq in Hs as [Hs Hl]. eapply EP_between; eauto.
  - repeat case_match; contradiction.
Qed.
