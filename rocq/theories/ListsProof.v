(** * The operations on signals act as those of sequential lists *)
From Verif Require Export SpecLists AtomicCalls InvErase.

Definition ef (f : frame) : list (sid * list lid) :=
  match f with FErase s _ _ _ _ xs0 | FEraseCmp s _ _ _ _ xs0 => [(s, xs0)] | _ => [] end.
Definition es (st : list frame) : list (sid * list lid) := flat_map ef st.
Lemma es_app a b : es (a ++ b) = es a ++ es b.
Proof. apply flat_map_app. Qed.
Lemma es_dtorish D : dtorish D -> es D = [].
Proof. induction 1 as [|f D [[x ->]|[p ->]] _ IH]; cbn; auto. Qed.
Lemma lhistory_cons ev log : lhistory (ev :: log) = match lact_of ev with Some a => a :: lhistory log | None => lhistory log end.
Proof. reflexivity. Qed.
Lemma lhistory_app a b : lhistory (a ++ b) = lhistory a ++ lhistory b.
Proof. apply omap_app. Qed.
Notation lcur log := (lafter (lhistory log)).
Lemma dead_quiet L log : deadish L -> lhistory (L ++ log) = lhistory log /\ forall s, spec_list (L ++ log) s = spec_list log s.
Proof. induction 1 as [|ev L [[x ->]|[x ->]] _ [IH1 IH2]]; auto. Qed.

Definition loud (st : list frame) : Prop :=
  match st with
  | FWrite _ KMove :: _ | FWrite _ (KRead _) :: _ | FBody _ _ _ :: _ | FErase _ _ _ _ _ _ :: _ | FRet _ :: FEraseCmp _ _ _ _ _ _ :: _ => True
  | _ => False
  end.
Lemma list_cases e w t st w' st' : trans e w t st w' st' ->
  (es st' = es st /\ lhistory (w_log w') = lhistory (w_log w) /\ forall s, spec_list (w_log w') s = spec_list (w_log w) s) \/ loud st.
Proof.
  intros Htr. destruct Htr; try (right; exact I); left; wcbn; autorewrite with wsimp; rewrite ?lhistory_cons; cbn [lact_of];
    try (split; [reflexivity|split; [reflexivity|intros; reflexivity]]; fail).
  all: try (match goal with H : exec_vop _ _ _ = VOk _ _ (EfLog _) |- _ => destruct (vop_ev _ _ _ _ _ _ H) as [(? & -> & _)|[(? & -> & _)|[(? & -> & _)|[(? & -> & _)|(? & -> & _)]]]] end;
    (split; [reflexivity|split; [reflexivity|intros; reflexivity]]); fail).
  - destruct (vop_after' _ _ _ _ _ _ H) as [->|[(d & m & ->)|[(d & s & ->)| ->]]]; split; auto.
  - destruct (vop_after' _ _ _ _ _ _ H) as [->|[(d & m & ->)|[(d & s & ->)| ->]]]; split; auto.
  - match goal with H : begins _ _ _ _ _ |- _ => destruct H end; split; auto.
  - unfold clear_conn. split; [reflexivity|]. destruct r; wcbn; autorewrite with wsimp; [|split; auto]; repeat case_match; wcbn; autorewrite with wsimp; split; auto.
Qed.

Record lists_ok (w : world) : Prop := {
  lo_erase : forall t st s xs0, w_thr w !! t = Some st -> (s, xs0) ∈ es st -> lcur (w_log w) s = xs0;
  lo_rest : forall s, (forall t st xs0, w_thr w !! t = Some st -> (s, xs0) ∉ es st) -> lcur (w_log w) s = spec_list (w_log w) s;
  lo_seq : lsequential (lhistory (w_log w)) }.

Lemma es_holds s xs0 st : (s, xs0) ∈ es st -> 1 <= swt (holds s) st.
Proof.
  induction st as [|f st IH]; [inversion 1|]. change (es (f :: st)) with (ef f ++ es st). rewrite swt_cons, elem_of_app. intros [H|H].
  - destruct f; cbn in H; try (inversion H; fail); apply elem_of_list_singleton in H; injection H as <- _; cbn [holds]; rewrite decide_True by auto; lia.
  - specialize (IH H). lia.
Qed.
Lemma es_sig e ps w t st s xs0 : reachable e ps w -> w_thr w !! t = Some st -> (s, xs0) ∈ es st -> exists r, w_sigs w !! s = Some r /\ sg_lock r = Some t.
Proof.
  intros Hr Ht H. apply es_holds in H. pose proof (I_lock_inv _ _ _ Hr _ _ s Ht) as HL. unfold lockw in HL.
  destruct (w_sigs w !! s) as [r|]; [|lia]. case_decide; [eauto|lia].
Qed.
(** A thread that has the mutex of [s] and whose erasing frames are not of [s]: nobody erases. *)
Lemma none_erases e ps w t f st s : reachable e ps w -> w_thr w !! t = Some (f :: st) -> holds s f = 1 -> ef f = [] ->
  forall t0 st0 xs0, w_thr w !! t0 = Some st0 -> (s, xs0) ∉ es st0.
Proof.
  intros Hr Ht Hf Hn t0 st0 xs0 Ht0 Hin. pose proof (I_lock_inv _ _ _ Hr _ _ s Ht) as HL. rewrite swt_cons in HL. unfold lockw in HL.
  destruct (es_sig _ _ _ _ _ _ _ Hr Ht0 Hin) as (r & Hs & Hl). rewrite Hs, Hl in HL.
  case_decide as Hd; [|lia]. injection Hd as ->. rewrite Ht in Ht0. injection Ht0 as <-. cbn in Hin. rewrite Hn in Hin. apply es_holds in Hin. lia.
Qed.
Fixpoint ecnt (s : sid) (L : list (sid * list lid)) : nat := match L with [] => 0 | (s', _) :: L => (if decide (s' = s) then 1 else 0) + ecnt s L end.
Lemma ecnt_app s a b : ecnt s (a ++ b) = ecnt s a + ecnt s b.
Proof. induction a as [|[x y] a IH]; cbn; [reflexivity|]. rewrite IH. lia. Qed.
Lemma elem_count s xs L : (s, xs) ∈ L -> 1 <= ecnt s L.
Proof.
  induction L as [|[x y] L IH]; intros H; [inversion H|]. cbn. apply elem_of_cons in H as [H|H]; [|specialize (IH H); lia].
  injection H as <- _. rewrite decide_True by auto. lia.
Qed.
Lemma es_count s st : ecnt s (es st) <= swt (holds s) st.
Proof.
  induction st as [|f st IH]; [reflexivity|]. change (es (f :: st)) with (ef f ++ es st). rewrite ecnt_app, swt_cons.
  enough (ecnt s (ef f) <= holds s f) by lia. destruct f; cbn; try lia; repeat case_decide; lia.
Qed.
Lemma one_erases e ps w t st0 s xs0 st : reachable e ps w -> w_thr w !! t = Some st0 -> es st0 = (s, xs0) :: es st ->
  (forall xs, (s, xs) ∉ es st) /\ forall t' st' xs, w_thr w !! t' = Some st' -> (s, xs) ∈ es st' -> t' = t.
Proof.
  intros Hr Ht He. assert (Hin : (s, xs0) ∈ es st0) by (rewrite He; apply elem_of_list_here).
  destruct (es_sig _ _ _ _ _ _ _ Hr Ht Hin) as (r & Hs & Hl). split.
  - intros xs Hx. pose proof (I_lock_inv _ _ _ Hr _ _ s Ht) as HL. unfold lockw in HL. rewrite Hs, Hl, decide_True in HL by auto.
    pose proof (es_count s st0) as H0. rewrite He in H0. cbn in H0. rewrite decide_True in H0 by auto.
    pose proof (elem_count _ _ _ Hx). lia.
  - intros t' st' xs Ht' Hx. destruct (es_sig _ _ _ _ _ _ _ Hr Ht' Hx) as (r' & Hs' & Hl'). congruence.
Qed.

Lemma lists_ok_inv e ps w : reachable e ps w -> lists_ok w.
Proof.
  apply reach_ind.
  - split; [|reflexivity|exact I]. intros t st s xs0 Ht Hin. cbn in Ht. rewrite list_lookup_fmap in Ht. destruct (ps !! t); cbn in Ht; simplify_eq. inversion Hin.
  - clear w. intros w t st w' st' Hr HI Ht Htr Hr'.
    destruct (reap_spec e w w' t st') as (D & L & HD & HL & Hre & HDeq & _). rewrite Hre in *. clear Hre HDeq.
    pose proof (trans_thr _ _ _ _ _ _ Htr) as Hthr. assert (Hlt : t < length (w_thr w)) by (eapply lookup_lt_Some; eauto).
    destruct (dead_quiet L (w_log w') HL) as [Hq1 Hq2].
    pose proof (fun s => list_spec _ _ _ s Hr) as Hls. pose proof (fun s => proj2 (list_spec _ _ _ s Hr')) as Hnd'. wcbn_in Hnd'.
    assert (Hnd : forall s, NoDup (spec_list (w_log w') s)) by (intros s; rewrite <- Hq2; apply Hnd'). clear Hnd'.
    assert (Hlist : forall s v, own w s v -> spec_list (w_log w) s = vec_of w v) by (intros s v Ho; rewrite <- (proj1 (Hls s)); apply cur_own; auto).
    assert (Hes : es (D ++ st') = es st') by (rewrite es_app, (es_dtorish D HD); reflexivity).
    assert (Hold : forall t0 st0, t0 <> t -> w_thr w !! t0 = Some st0 -> w_thr (w_add_events (w_set_stack w' t (D ++ st')) L) !! t0 = Some st0).
    { intros t0 st0 Hne H0. wcbn. rewrite Hthr, list_lookup_insert_ne by auto. exact H0. }
    assert (Hnew : w_thr (w_add_events (w_set_stack w' t (D ++ st')) L) !! t = Some (D ++ st')).
    { wcbn. rewrite Hthr. apply list_lookup_insert. auto. }
    assert (Hthr' : forall t0 x, w_thr (w_add_events (w_set_stack w' t (D ++ st')) L) !! t0 = Some x -> (t0 = t /\ x = D ++ st') \/ (t0 <> t /\ w_thr w !! t0 = Some x)).
    { intros t0 x Hx. wcbn_in Hx. rewrite Hthr in Hx. destruct (thr_upd _ _ _ _ _ _ Ht Hx) as [[-> ->]|[Hn Hx']]; auto. }
    assert (Hlog : w_log (w_add_events (w_set_stack w' t (D ++ st')) L) = L ++ w_log w') by reflexivity.
    generalize dependent (w_add_events (w_set_stack w' t (D ++ st')) L). intros w2 Hr2 Hold Hnew Hthr' Hlog.
    (* the erasing frames are the same *)
    assert (Hsame : es st' = es st -> (forall s, (lcur (w_log w') s = lcur (w_log w) s /\ spec_list (w_log w') s = spec_list (w_log w) s) \/
        ((forall t0 st0 xs0, w_thr w !! t0 = Some st0 -> (s, xs0) ∉ es st0) /\ lcur (w_log w') s = spec_list (w_log w') s) \/
        (lcur (w_log w') s = lcur (w_log w) s /\ exists xs0, (s, xs0) ∈ es st')) ->
        lsequential (lhistory (w_log w')) -> lists_ok w2).
    { intros He Hs Hsq. split.
      - intros t0 x s xs0 Hx Hin. rewrite Hlog, Hq1. assert (Ho : exists st0, w_thr w !! t0 = Some st0 /\ (s, xs0) ∈ es st0).
        { destruct (Hthr' _ _ Hx) as [[-> ->]|[Hne Hx']]; [|eauto]. exists st. split; [auto|]. rewrite <- He, <- Hes. exact Hin. }
        destruct Ho as (st0 & H0 & Hin0). destruct (Hs s) as [[-> _]|[[Hno _]|[-> _]]]; [eapply (lo_erase _ HI); eauto|destruct (Hno _ _ _ H0 Hin0)|eapply (lo_erase _ HI); eauto].
      - intros s Hno. rewrite Hlog, Hq1, Hq2. destruct (Hs s) as [[-> ->]|[[_ ->]|[_ (xs0 & Hxs)]]]; [|reflexivity|destruct (Hno _ _ xs0 Hnew); rewrite Hes; exact Hxs]. apply (lo_rest _ HI).
        intros t0 st0 xs0 H0 Hin. destruct (decide (t0 = t)) as [->|Hne].
        + rewrite Ht in H0. injection H0 as <-. apply (Hno _ _ xs0 Hnew). rewrite Hes, He. exact Hin.
        + apply (Hno _ _ xs0 (Hold _ _ Hne H0)). exact Hin.
      - rewrite Hlog, Hq1. exact Hsq. }
    destruct (list_cases _ _ _ _ _ _ Htr) as [(He & Hh & Hsl)|Hloud].
    { apply Hsame; [exact He|intros s; left; rewrite Hh, Hsl; auto|rewrite Hh; apply (lo_seq _ HI)]. }
    pose proof (I_crit_inv _ _ _ Hr _ _ Ht) as HF. pose proof (lo_seq _ HI) as Hsq. pose proof (lo_rest _ HI) as Hrest.
    (* the end of disconnect(f) *)
    assert (Hend : forall s xs0 ys f o, es st = (s, xs0) :: es st' -> lhistory (w_log w') = LErase s f xs0 ys o :: lhistory (w_log w) ->
        (forall s', spec_list (w_log w') s' = spec_list (w_log w) s') -> ys = spec_list (w_log w) s ->
        (exists zs, xs0 ≡ₚ ys ++ zs /\ (o = OutNat (length zs) \/ exists x, o = OutExn x)) -> lists_ok w2).
    { intros s xs0 ys f o He Hh Hsl Hys Hz. destruct (one_erases _ _ _ _ _ _ _ _ Hr Ht He) as [Hno Hone].
      assert (Hcur : forall s', lcur (w_log w') s' = if decide (s' = s) then ys else lcur (w_log w) s') by (intros s'; rewrite Hh; reflexivity).
      assert (Hin : (s, xs0) ∈ es st) by (rewrite He; apply elem_of_list_here).
      split.
      - intros t0 x s' xs Hx Hi. rewrite Hlog, Hq1, Hcur. assert (Hi' : exists st0, w_thr w !! t0 = Some st0 /\ (s', xs) ∈ es st0 /\ s' <> s).
        { destruct (Hthr' _ _ Hx) as [[-> ->]|[Hne Hx']].
          - exists st. rewrite Hes in Hi. split; [auto|]. split; [rewrite He; apply elem_of_list_further; auto|]. intros ->. exact (Hno _ Hi).
          - exists x. split; [auto|]. split; [auto|]. intros ->. apply Hne. eapply Hone; eauto. }
        destruct Hi' as (st0 & H0 & Hi0 & Hne). rewrite decide_False by auto. eapply (lo_erase _ HI); eauto.
      - intros s' Hn. rewrite Hlog, Hq1, Hq2, Hcur, Hsl. case_decide as Hd; [subst; reflexivity|]. apply Hrest.
        intros t0 st0 xs H0 Hi. destruct (decide (t0 = t)) as [->|Hne].
        + rewrite Ht in H0. injection H0 as <-. rewrite He in Hi. apply elem_of_cons in Hi as [Hi|Hi]; [congruence|].
          apply (Hn _ _ xs Hnew). rewrite Hes. exact Hi.
        + apply (Hn _ _ xs (Hold _ _ Hne H0)). exact Hi.
      - rewrite Hlog, Hq1, Hh. split; [|exact Hsq]. split; [|exact Hz]. symmetry. eapply (lo_erase _ HI); eauto. }
    pose proof (I_er_inv _ _ _ Hr _ _ Ht) as Her.
    assert (Hfr : forall s f st0, st = f :: st0 -> holds s f = 1 -> ef f = [] -> forall t0 st0 xs0, w_thr w !! t0 = Some st0 -> (s, xs0) ∉ es st0).
    { intros s f st0 -> Hf1 Hf2. eapply none_erases; eauto. }
    destruct Htr; try contradiction; wcbn_in Hnd; autorewrite with wsimp in Hnd; wcbn_in Hsame; autorewrite with wsimp in Hsame; wcbn_in Hend; autorewrite with wsimp in Hend;
      rewrite ?lhistory_cons in Hsame; rewrite ?lhistory_cons in Hend; cbn [lact_of] in Hsame, Hend.
    + (* move *) assert (Hno : forall t0 st0 xs0, w_thr w !! t0 = Some st0 -> (s, xs0) ∉ es st0) by (eapply Hfr; [reflexivity|cbn; rewrite decide_True by auto; reflexivity|reflexivity]).
      assert (Hno2 : forall t0 st0 xs0, w_thr w !! t0 = Some st0 -> (length (w_sigs w), xs0) ∉ es st0).
      { intros t0 st0 xs0 H0 Hi. destruct (es_sig _ _ _ _ _ _ _ Hr H0 Hi) as (r0 & Hs0 & _). apply lookup_lt_Some in Hs0. lia. }
      assert (Hemp : spec_list (w_log w) (length (w_sigs w)) = []).
      { rewrite <- (proj1 (Hls _)). unfold cur. rewrite lookup_ge_None_2 by lia. reflexivity. }
      assert (Hlt' : s < length (w_sigs w)) by (eapply lookup_lt_Some; eauto).
      apply Hsame; [reflexivity| |].
      * intros s'. cbn [lafter lnext spec_list]. unfold put. repeat case_decide; subst; try lia.
        -- right. left. split; [auto|]. apply Hrest. auto.
        -- right. left. auto.
        -- left. auto.
      * cbn [lsequential lright]. split; [|exact Hsq]. split; [lia|]. rewrite Hrest by auto. exact Hemp.
    + (* read *) assert (Hno : forall t0 st0 xs0, w_thr w !! t0 = Some st0 -> (s, xs0) ∉ es st0) by (eapply Hfr; [reflexivity|cbn; rewrite decide_True by auto; reflexivity|reflexivity]).
      apply Hsame; [reflexivity|intros s'; left; auto|]. cbn [lsequential lright]. split; [|exact Hsq].
      rewrite Hrest by auto. rewrite <- (proj1 (Hls s)). unfold cur. rewrite H, H0. reflexivity.
    + destruct k; contradiction.
    + destruct k; contradiction.
    + destruct k; contradiction.
    + (* add, out of memory *) apply Hsame; [reflexivity|intros s'; left; auto|exact Hsq].
    + (* add *) assert (Hno : forall t0 st0 xs0, w_thr w !! t0 = Some st0 -> (s, xs0) ∉ es st0) by (eapply Hfr; [reflexivity|cbn; rewrite decide_True by auto; reflexivity|reflexivity]).
      apply Hsame; [reflexivity| |].
      * intros s'. cbn [lafter lnext spec_list]. unfold put. case_decide; subst; [|rewrite decide_False by congruence; left; auto].
        right. left. rewrite decide_True by auto. rewrite Hrest by auto. auto.
      * cbn [lsequential lright]. split; [|exact Hsq]. rewrite Hrest by auto. specialize (Hnd s). cbn [spec_list] in Hnd. rewrite decide_True in Hnd by auto.
        apply NoDup_app in Hnd as (_ & Hd & _). intros Hi. apply (Hd _ Hi). apply elem_of_list_here.
    + (* rem *) assert (Hno : forall t0 st0 xs0, w_thr w !! t0 = Some st0 -> (s, xs0) ∉ es st0) by (eapply Hfr; [reflexivity|cbn; rewrite decide_True by auto; reflexivity|reflexivity]).
      apply Forall_cons in HF as [[Ho _] _]. apply Hsame; [reflexivity| |].
      * intros s'. cbn [lafter lnext spec_list]. unfold put. case_decide; subst; [|rewrite decide_False by congruence; left; auto].
        right. left. rewrite decide_True by auto. rewrite Hrest by auto. auto.
      * cbn [lsequential lright]. split; [|exact Hsq]. rewrite Hrest by auto. rewrite (Hlist _ _ Ho). eapply elem_of_list_lookup_2; eauto.
    + (* miss *) apply Hsame; [reflexivity|intros s'; left; auto|]. split; [exact I|exact Hsq].
    + (* disconnect(f) begins *) assert (Hno : forall t0 st0 xs0, w_thr w !! t0 = Some st0 -> (s, xs0) ∉ es st0) by (eapply Hfr; [reflexivity|cbn; rewrite decide_True by auto; reflexivity|reflexivity]).
      apply Forall_cons in HF as [[Ho _] _]. split.
      * intros t0 x s' xs Hx Hi. rewrite Hlog, Hq1. destruct (Hthr' _ _ Hx) as [[-> ->]|[Hne Hx']]; [|eapply (lo_erase _ HI); eauto].
        rewrite Hes in Hi. cbn in Hi. apply elem_of_cons in Hi as [Hi|Hi]; [|eapply (lo_erase _ HI); [exact Ht|]; exact Hi].
        injection Hi as -> ->. rewrite Hrest by auto. apply Hlist. exact Ho.
      * intros s' Hn. rewrite Hlog, Hq1, Hq2. apply Hrest. intros t0 st0 xs H0 Hi. destruct (decide (t0 = t)) as [->|Hne].
        -- rewrite Ht in H0. injection H0 as <-. apply (Hn _ _ xs Hnew). rewrite Hes. cbn. apply elem_of_list_further. exact Hi.
        -- apply (Hn _ _ xs (Hold _ _ Hne H0)). exact Hi.
      * rewrite Hlog, Hq1. exact Hsq.
    + (* disconnect(f) ends *) apply Forall_cons in HF as [[Ho _] _]. destruct Her as [[(zs & (du & be & _ & _ & _ & _ & _ & Hp) & Hn & _) _] _].
      eapply Hend; [reflexivity|reflexivity|intros; reflexivity|symmetry; apply Hlist; exact Ho|].
      exists zs. rewrite (Hlist _ _ Ho) in Hp. split; [exact Hp|]. left. rewrite Hn. reflexivity.
    + (* compare *) apply Hsame; [reflexivity|intros s'; left; auto|exact Hsq].
    + (* equal *) apply Hsame; [reflexivity| |exact Hsq].
      intros s'. cbn [spec_list]. case_decide; [|left; auto]. subst s'. right. right. split; [reflexivity|]. eexists. apply elem_of_list_here.
    + (* not equal *) apply Hsame; [reflexivity|intros s'; left; auto|exact Hsq].
    + (* operator== throws *) apply Forall_cons in HF as [_ HF]. apply Forall_cons in HF as [[Ho _] _]. destruct Her as [_ [[(zs & (du & be & _ & _ & _ & _ & _ & Hp) & Hn & _) _] _]].
      eapply Hend; [reflexivity|reflexivity|intros; reflexivity|symmetry; apply Hlist; exact Ho|].
      exists zs. rewrite (Hlist _ _ Ho) in Hp. split; [exact Hp|]. right. eauto.
Qed.
Lemma lists_sequential e ps w : reachable e ps w -> lsequential (lhistory (w_log w)).
Proof. intros Hr. apply (lo_seq _ (lists_ok_inv _ _ _ Hr)). Qed.
Lemma lists_in_memory e ps w s r : reachable e ps w -> w_sigs w !! s = Some r -> sg_lock r = None -> lafter (lhistory (w_log w)) s = slots_of w s.
Proof.
  intros Hr Hs Hl. rewrite (lo_rest _ (lists_ok_inv _ _ _ Hr)).
  - symmetry. apply (list_spec _ _ _ s Hr).
  - intros t st xs0 Ht Hi. destruct (es_sig _ _ _ _ _ _ _ Hr Ht Hi) as (r' & Hs' & Hl'). congruence.
Qed.
